(* Proofs about programs with shock capturing and boundary conditions. *)
From Verif Require Import Base BaseProofs Expr ExprProofs FDModel FDProofs WorkModel WorkProofs ShiftSpec ShiftProofs DiscModel DiscSpec DiscProofs DiscRun DiscMain
  LLFModel LLFProofs LLFProps KernelModel HybModel HybSpec HybProofs HybMore ProgModel ProgSpec ProgProofs CapModel CapSpec CapProofs.
From Verif Require AdvModel AdvSpec AdvProofs AdvProps AlgModel AlgSpec OrdModel OrdSpec OrdProps BCModel BCSpec RKModel RKSpec RKProofs WenoModel BCMirror BndExist BC2Spec.
From Verif Require Import BndModel BndSpec DiscProps ProgProps OneModel SideModel SideSpec SideRun SideMain SideRefuse FaceModel FaceSpec FaceKern FaceTime FaceProofs ShkModel ShkSpec.
From Coq Require Import QArith ZArith Reals Lia Lra Permutation List.
Local Close Scope Q_scope.
Local Open Scope list_scope.

(* ---- values of terms ---- *)
Section values.
Variables (J : interp R) (k : nat) (dirof : string -> nat) (h : nat -> R) (sizes : list Z) (sd : sides) (M wd : string -> list Z -> R).
Notation HV1 := (hybrid_value1 J k dirof h sizes sd M wd).
Lemma hybrid_app1 : forall hd args x, hd <> HCD -> is_wd (EApp hd args) = false -> HV1 (EApp hd args) x = iapp J hd (map (fun a => HV1 a x) args).
Proof.
  intros hd args x H W. destruct hd; try reflexivity; [congruence|].
  destruct args as [|a [|c [|b l]]]; try reflexivity; destruct c; try reflexivity; destruct k0; try reflexivity.
  cbn [is_wd] in W. cbn [hybrid_value1]. rewrite W. reflexivity.
Qed.
Lemma hybrid_zsem1 : forall e x,
  (forall v, inside v e -> (forall args, v <> EApp HCD args) /\ forall f args, v = EApp (HFun f) args -> exists g m, v = WD g m) ->
  HV1 e x = zsem J M wd e x.
Proof.
  induction e as [q|kd m|b ix|hd args IH] using expr_ind'; intros x H; auto.
  destruct (H _ (in_self _)) as (H1 & H2). cbn [zsem]. destruct (is_wd (EApp hd args)) eqn:W.
  - apply is_wd_iff in W. destruct W as (f & m & W). rewrite W. reflexivity.
  - rewrite hybrid_app1 by (auto; intros ->; eapply H1; reflexivity).
    assert (A : map (fun a => HV1 a x) args = map (fun a => zsem J M wd a x) args).
    { apply map_ext_in. intros a Ha. rewrite Forall_forall in IH. apply IH; auto. intros v Hv. apply H. econstructor; eauto. }
    rewrite A. destruct hd; auto; [exfalso; eapply H1; reflexivity|].
    destruct (H2 _ _ eq_refl) as (f' & m & E). exfalso. assert (X : is_wd (EApp (HFun f) args) = true) by (apply is_wd_iff; eauto). congruence.
Qed.
Lemma hybrid_sem1 : forall e x, no_function e -> HV1 e x = sem1 J k dirof h sizes sd M e x.
Proof.
  induction e as [q|kd m|b ix|hd args IH] using expr_ind'; intros x NF; auto. rewrite Forall_forall in IH.
  assert (A : forall y, map (fun a => HV1 a y) args = map (fun a => sem1 J k dirof h sizes sd M a y) args).
  { intros y. apply map_ext_in. intros a Ha. apply IH; auto. eapply no_function_args; eauto. }
  destruct hd; cbn [hybrid_value1 sem1]; rewrite ?A; auto.
  - destruct args as [|a cs]; auto. apply difference_ext. intros i. apply IH; [left; auto|]. eapply no_function_args; [exact NF | left; auto].
  - exfalso. eapply NF. constructor.
Qed.
Lemma sem1_zero : forall t x, real_arithmetic J -> made_of derivative t -> (forall v, inside v t -> ~ derivative v) -> sem1 J k dirof h sizes sd M t x = 0%R.
Proof.
  intros t x (_ & Ja & Jm) H. induction H as [v D|a args Ha H IH|args H IH]; intros N.
  - exfalso. apply (N v); auto. constructor.
  - cbn [sem1]. rewrite Jm. apply prod_zero. apply in_map_iff. exists a. split; auto. apply IH. intros v Hv. apply N. econstructor; eauto.
  - cbn [sem1]. rewrite Ja. apply sum_zero. intros b Hb. apply in_map_iff in Hb. destruct Hb as (a & <- & Ha). apply IH; auto.
    intros v Hv. apply N. econstructor; eauto.
Qed.
End values.

Section prog.
Variables (J : interp R) (k : nat) (sh : shock) (central : bool) (dirof : string -> nat) (inv : nat -> nat -> expr)
  (dord : expr -> list dset) (sord : list (expr * string) -> list (expr * string)) (worder : list expr -> list expr)
  (num : string -> OrdModel.key) (kord : list string -> list string) (h : nat -> R) (gamma : R) (av : averaging) (sizes : list Z)
  (coordinate : nat -> string) (fluxes : nat -> list expr)
  (sys crs : list (string * expr)) (known : list string) (vcds : list expr) (ts : timescheme).
Variables (fs : list BCSpec.field) (g : gas) (types : list (bcond * bcond)).
Notation ndim := (List.length sizes).
Notation eqs := (disc_eqs sys).
Notation sch := (recon sh).
Notation r := (reach sh).
Notation register := (register_of ts).
Notation sd := (schemes_of types).
Notation w := (halo_layers sh k central).
Hypothesis HF : BC2Spec.functions J.
Hypothesis Hinv : forall M x d m, value J M x (inv d m) = (/ h d ^ m)%R.
Hypothesis Hdord : forall e, enumerates (dord e) e.
Hypothesis Hperm : forall l, Permutation l (sord l).
Hypothesis Hinner : forall l l', Permutation l l' -> inner_first l' -> inner_first (sord l).
Hypothesis Hw : forall l, Permutation l (worder l).
Hypothesis Hnum : forall a b, num a = num b -> a = b.
Hypothesis Hkord : forall l, Permutation l (kord l).
Hypothesis Hdim : ndim <> 0%nat.
Hypothesis Hsup : usable_scheme sh.
Hypothesis PP : shock_problem ndim r k dirof register coordinate fluxes sys crs known.
Hypothesis HV : lists_derivatives eqs viscous_term vcds.
Hypothesis Hcen : central = false -> vcds = [].
Hypothesis FB : face_boundaries w sizes fs g types.
Hypothesis Hfs : forall v, In v (BCSpec.field_names fs) <-> In v (map fst sys).
Lemma HJr : real_arithmetic J.
Proof. destruct (BC2Spec.f_reals _ HF). repeat split; auto. Qed.
Notation HJ := HJr.
Notation HS := (wf_hweaken _ _ _ reserved _ _ _ (fun b H => or_introl H) (cp_form _ _ _ _ _ _ _ _ _ _ PP)).
Notation SS := (hs_shock _ _ _ _ _ _ HS).
Notation E := (cr_directions dirof vcds).
Notation fv := HybProofs.fv.
Notation near := (CapProofs.near k sh central sizes).
Notation box := (CapProofs.box k sh dirof worder sizes sys vcds).
Notation REQ := (all_required central sizes dirof worder kord (map fst sys) vcds eqs).
Notation SEM := (sem1 J k dirof h sizes sd).
Notation HVAL := (hybrid_value1 J k dirof h sizes sd).
Lemma HC0 : lists_derivatives eqs (fun t => ~ viscous_term t) [].
Proof. exact (HC k sh dirof sizes coordinate fluxes sys crs known register PP). Qed.
Lemma layers_near : forall x, near x <-> BndSpec.near (w false) sizes x.
Proof.
  assert (E0 : layers k sh central = Z.of_nat (w false)).
  { unfold layers, halo_layers. replace (width sh) with r by (destruct sh; reflexivity). destruct central; lia. }
  intros x. unfold CapProofs.near, BndSpec.near. rewrite E0. tauto.
Qed.
Lemma split_value1 : forall rr rhs M wd x, In (rr, rhs) eqs -> (zsem J M wd rhs x + SEM M (fv rhs) x = HVAL M wd rhs x)%R.
Proof.
  intros rr rhs M wd x Hin. pose proof HJ as HJ0.
  assert (TV : forall t, In t (terms rhs) -> has_re t = true -> zsem J M wd t x = 0%R /\ SEM M t x = HVAL M wd t x).
  { intros t Ht HR. apply has_re_spec in HR. destruct (hs_viscous _ _ _ _ _ _ HS rr rhs t Hin Ht HR) as (Md & NF & _). split; [apply zsem_zero; auto|].
    symmetry. apply hybrid_sem1. auto. }
  assert (TI : forall t, In t (terms rhs) -> has_re t = false -> zsem J M wd t x = HVAL M wd t x).
  { intros t Ht HR. symmetry. apply hybrid_zsem1. apply (hs_inviscid _ _ _ _ _ _ HS rr rhs t); auto. rewrite <- has_re_spec. congruence. }
  destruct (hs_form _ _ _ _ _ _ HS rr rhs Hin) as (args & [-> | ->]); unfold HybProofs.fv.
  - cbn [terms] in TV, TI. rewrite sem1_add by auto. rewrite hybrid_app1; [|discriminate|reflexivity]. cbn [zsem is_wd]. destruct HJ0 as (_ & Ja & _). rewrite !Ja.
    rewrite <- (sum_filter (fun a => HVAL M wd a x) has_re args), <- (sum_filter (fun a => zsem J M wd a x) has_re args).
    rewrite (sum_zero (map (fun a => zsem J M wd a x) (filter has_re args))).
    + rewrite (map_ext_in (fun a => SEM M a x) (fun a => HVAL M wd a x)).
      * rewrite (map_ext_in (fun a => zsem J M wd a x) (fun a => HVAL M wd a x)); [ring|].
        intros a Ha. apply filter_In in Ha. apply TI; [tauto|]. destruct (has_re a); cbn in Ha; destruct Ha; auto.
      * intros a Ha. apply filter_In in Ha. apply TV; tauto.
    + intros a Ha. apply in_map_iff in Ha. destruct Ha as (t & <- & Ht). apply filter_In in Ht. apply TV; tauto.
  - cbn [terms] in TV, TI. destruct (has_re (EApp HMul args)) eqn:HR.
    + destruct (TV _ (or_introl eq_refl) HR) as (-> & ->). ring.
    + rewrite (TI _ (or_introl eq_refl) HR), sem1_num0 by auto. ring.
Qed.
Lemma visc_orig : forall v, In v vcds -> orig ndim dirof v /\ shallow vcds v.
Proof. exact (visc_ok ndim dirof sizes eq_refl coordinate fluxes eqs SS HS vcds HV). Qed.
Lemma visc_orig1 : forall v, (forall u, In u vcds -> ~ high dirof sd u) -> In v vcds -> orig1 ndim dirof sd v /\ shallow vcds v.
Proof.
  intros v Hl Hv. destruct (visc_orig v Hv) as [A B]. split; auto. split; auto. intros a n m Ev Hs.
  destruct m as [|m]; [lia|]. destruct (Nat.le_gt_cases (S m) 2) as [L | L]; auto. exfalso. apply (Hl v Hv). exists a, n, m. split; [exact Ev|]. split; [exact Hs | lia].
Qed.
Lemma central_run1 : forall k2, (if central then sbli_rhs_discretisation1 k ndim dirof inv dord sord sizes sd [] vcds eqs else Ok []) = Ok k2 -> forall M,
  (forall b x, ~ reserved b -> ~ In b (map fst eqs) -> exec1 J k sizes k2 M b x = M b x) /\
  (forall rr rhs x, In (rr, rhs) eqs -> in_range k sizes [] x = true -> exec1 J k sizes k2 M rr x = (M rr x + SEM M (fv rhs) x)%R).
Proof.
  intros k2 E2.
  assert (Q : viscous_kernels1 k ndim dirof inv dord sord sizes sd vcds (map (fun re => (fst re, fst (classify (snd re)))) eqs) = Ok k2).
  { destruct central eqn:Ec.
    - unfold sbli_rhs_discretisation1 in E2. cbn [convective_kernels1 group_by_direction fold_left bind app] in E2.
      destruct (viscous_kernels1 _ _ _ _ _ _ _ _ _ _) as [kv|]; [|discriminate]. cbn [bind] in E2. exact E2.
    - rewrite (Hcen eq_refl). exact E2. }
  set (V := map (fun re : string * expr => (fst re, fst (classify (snd re)))) eqs) in *.
  assert (FV : map fst V = map fst eqs) by (unfold V; rewrite map_map; reflexivity).
  assert (Cl : forall rr rhs, In (rr, rhs) eqs -> fst (classify rhs) = fv rhs) by (intros rr rhs Hin; apply (fv_classify ndim dirof coordinate fluxes eqs HS rr); auto).
  assert (InV : forall rr rhs, In (rr, rhs) eqs -> In (rr, fv rhs) V).
  { intros rr rhs Hin. rewrite <- (Cl rr rhs Hin). unfold V. apply in_map_iff. exists (rr, rhs). auto. }
  destruct (list_eq_dec expr_eq_dec vcds []) as [Ev | Nv].
  - rewrite Ev in Q. cbn [viscous_kernels1] in Q. injection Q as <-. intros M. split; auto. intros rr rhs x Hin Hx. unfold exec1. cbn [fold_left].
    assert (Z : SEM M (fv rhs) x = 0%R); [|rewrite Z; ring].
    assert (T0 : forall t, In t (terms rhs) -> has_re t = true -> SEM M t x = 0%R).
    { intros t Ht HR. apply has_re_spec in HR. apply sem1_zero; [apply HJ | apply (hs_viscous _ _ _ _ _ _ HS rr rhs t); auto|].
      intros v Hv Hd. assert (X : In v vcds) by (apply (proj2 HV v); split; auto; exists rr, rhs, t; auto). rewrite Ev in X. destruct X. }
    destruct (hs_form _ _ _ _ _ _ HS rr rhs Hin) as (args & [-> | ->]); unfold HybProofs.fv.
    + rewrite sem1_add by apply HJ. apply sum_zero. intros a Ha. apply in_map_iff in Ha. destruct Ha as (t & <- & Ht). apply filter_In in Ht. apply T0; tauto.
    + destruct (has_re (EApp HMul args)) eqn:HR; [apply T0; cbn; auto | apply sem1_num0; apply HJ].
  - assert (Hl : forall u, In u vcds -> ~ high dirof sd u).
    { intros u Hu C. destruct (viscous_decided k ndim dirof inv dord sord sizes sd Hdord eq_refl vcds V visc_orig) as [_ D]. rewrite D in Q by eauto. discriminate. }
    assert (V1 : forall v, In v vcds -> orig1 ndim dirof sd v /\ shallow vcds v) by (intros v; apply visc_orig1; auto).
    destruct (viscous_ok1 J k ndim dirof inv dord sord h sizes sd HJ Hinv Hdord eq_refl (fb_room _ _ _ _ _ FB) vcds (proj1 HV) V1 V) as (kv & Ekv & Xv).
    { auto. }
    { unfold eqs_ok. rewrite FV. split; [apply (ss_distinct _ _ _ _ _ _ SS)|].
      intros rr e Hin. unfold V in Hin. apply in_map_iff in Hin. destruct Hin as ([r0 rhs] & Eq & Hin). cbn [fst snd] in Eq. injection Eq as -> <-.
      rewrite (Cl rr rhs Hin).
      assert (X : forall b ix, In (b, ix) (dsets (fv rhs)) -> ~ reserved b /\ ~ In b (map fst eqs)).
      { intros b ix Hb. apply (fv_dsets ndim dirof coordinate fluxes eqs HS rr) in Hb; auto. apply (ss_arrays _ _ _ _ _ _ SS rr rhs b ix) in Hb; auto. tauto. }
      split; [apply notwork_reserved; eapply ss_residual; [exact SS | exact Hin]|].
      split. { intros b ix Hb. apply notwork_reserved. apply (X b ix Hb). }
      split. { intros v Hv. apply (fv_cds ndim dirof coordinate fluxes eqs HS rr) in Hv; auto. destruct Hv as (t & Ht & HR & Hv). apply in_cds in Hv. apply has_re_spec in HR.
               apply (proj2 HV). split; [tauto|]. exists rr, rhs, t. tauto. }
      intros b ix Hb. apply (X b ix Hb). }
    { exact Hperm. }
    { eapply Hinner; [|apply (inner_first_sorted1 ndim dirof sizes sd eq_refl vcds (proj1 HV) V1)]. apply Permutation_map. symmetry. apply csort_perm. }
    rewrite Ekv in Q. injection Q as <-. intros M. destruct (Xv M) as (Fv & Xw). split.
    + intros b x Nb Nr. apply Fv; [apply notwork_reserved; auto | rewrite FV; auto].
    + intros rr rhs x Hin Hx. apply Xw; auto.
Qed.
Notation HYB := (exec_hybrid J k sizes sch gamma av (map fst sys)).
Notation NFLUX d M x := (numerical_flux J sch gamma av (map fst sys) ndim d (fluxes d) M x).
Lemma hybrid_run1 : forall k1 k2, shock_discretise ndim dirof inv worder eqs = Ok k1 ->
  (if central then sbli_rhs_discretisation1 k ndim dirof inv dord sord sizes sd [] vcds eqs else Ok []) = Ok k2 -> forall M,
  let M' := exec1 J k sizes k2 (HYB k1 M) in
  (forall b x, ~ reserved b -> ~ In b (map fst eqs) -> M' b x = M b x) /\
  (forall fl, (forall d x, (d < ndim)%nat -> NFLUX d M x = Ok (fl d x)) ->
    forall i rr rhs x, nth_error eqs i = Some (rr, rhs) -> grid_point sizes x ->
      M' rr x = (zsem J M (flux_difference dirof h fl i) rhs x + SEM M (fv rhs) x)%R).
Proof.
  intros k1 k2 E1 E2 M M'.
  assert (Hsol : forall q, In q (map fst sys) -> ~ reserved q).
  { intros q Hq (i & Ei). apply (proj1 (cp_work _ _ _ _ _ _ _ _ _ _ PP q Hq) i Ei). }
  destruct (shock_run J k ndim dirof inv worder h sizes HJ Hinv eq_refl Hw coordinate fluxes eqs SS sch gamma av (map fst sys) Hsol Hdim) as (k1' & E1' & X1).
  rewrite E1 in E1'. injection E1' as <-. destruct (X1 M) as (F1 & R1). destruct (central_run1 k2 E2 (HYB k1 M)) as (F2 & R2). split.
  - intros b x Nb Nr. unfold M'. rewrite F2, F1; auto.
  - intros fl Hf i rr rhs x Ei Hx. assert (Hin : In (rr, rhs) eqs) by (eapply nth_error_In; eauto). unfold M'.
    rewrite (R2 rr rhs) by (auto; apply grid_point_range; auto). rewrite (R1 i rr rhs) by (auto; apply grid_point_range; auto). f_equal.
    + apply zsem_ext; auto. intros f m Hi.
      assert (X : exists d, (d < ndim)%nat /\ WD f m = WDof coordinate fluxes d i) by (apply (ss_one _ _ _ _ _ _ SS i rr rhs Ei); split; eauto).
      destruct X as (d & Hd & X). unfold WDof, WD in X. injection X as _ ->.
      assert (FE : forall z, flux_at J sizes sch gamma av (map fst sys) d (fluxes d) M z = fl d z).
      { intros z. unfold flux_at. specialize (Hf d z Hd). unfold numerical_flux in Hf.
        unfold cell_at, velocities, unit_row. rewrite Hf. auto. }
      unfold wd_value, flux_difference. rewrite (ss_coordinate _ _ _ _ _ _ SS d Hd). rewrite !FE. auto.
    + apply sem1_agree. intros b ix Hb y. apply (fv_dsets ndim dirof coordinate fluxes eqs HS rr) in Hb; auto.
      apply (ss_arrays _ _ _ _ _ _ SS rr rhs b ix) in Hb; auto. apply F1; tauto.
Qed.

(* ---- relations ---- *)
Lemma value_same1 : forall F Mc,
  (forall b y, near y -> ~ private register sys b -> ~ In b (map fst eqs) -> (In b (map fst crs) -> In b REQ /\ box b y) -> Mc b y = F b y) ->
  forall i rr rhs fl fl' x, nth_error eqs i = Some (rr, rhs) -> grid_point sizes x ->
  (forall d x, (d < ndim)%nat -> NFLUX d Mc x = Ok (fl' d x)) -> (forall d x, (d < ndim)%nat -> NFLUX d F x = Ok (fl d x)) ->
  (zsem J Mc (flux_difference dirof h fl' i) rhs x + SEM Mc (fv rhs) x = HVAL F (flux_difference dirof h fl i) rhs x)%R.
Proof.
  intros F Mc HMc i rr rhs fl fl' x Hi Hx Hf' Hf. pose proof (nth_error_In _ _ Hi) as Hr. destruct (disc_in _ _ _ Hr) as (v & Hv).
  pose proof (hs_shock _ _ _ _ _ _ (cp_form _ _ _ _ _ _ _ _ _ _ PP)) as S0.
  assert (Gb : forall b, box b x) by (intros b; apply grid_box; auto).
  assert (Bn : forall b y, box b y -> near y) by (intros b y Hb; eapply box_near; eauto).
  assert (Lx : List.length x = ndim) by apply (Gb EmptyString).
  rewrite <- (split_value1 rr rhs F) by auto. f_equal.
  - apply zsem_ext.
    + intros b ix Hb. destruct (ss_arrays _ _ _ _ _ _ S0 rr rhs b ix Hr Hb) as (-> & Np & Nr). rewrite vadd_0_r by auto.
      apply HMc; auto; [apply (Bn b); auto|]. intros _. split; auto. eapply required_reads; eauto.
    + intros f m Hw'. assert (X : exists d, (d < ndim)%nat /\ WD f m = WD (nth i (fluxes d) (ENum 0)) (coordinate d)) by (apply (ss_one _ _ _ _ _ _ S0 i rr rhs Hi); split; eauto).
      destruct X as (d & Hd & X). unfold WD in X. injection X as _ ->.
      unfold flux_difference. rewrite (ss_coordinate _ _ _ _ _ _ S0 d Hd).
      assert (Q : forall s, s = 0%Z \/ s = (-1)%Z -> fl' d (move d s x) = fl d (move d s x)).
      { intros s Hs.
        pose proof (flux_same J k sh central dirof worder num kord gamma av sizes coordinate fluxes sys crs known vcds register Hw Hnum Hkord Hdim Hsup PP Hcen F Mc HMc d x s Hd Hx Hs) as Q.
        rewrite Hf', Hf in Q by auto. injection Q as Q. exact Q. }
      pose proof (Q 0%Z (or_introl eq_refl)) as Q0. rewrite BCMirror.move_0 in Q0. rewrite Q0, (Q (-1)%Z) by auto. reflexivity.
  - apply (sem1_reach J k dirof h sizes sd E Mc F (fv rhs) [] x (fb_room _ _ _ _ _ FB)).
    + intros b ix Hb. apply (fv_dsets ndim dirof coordinate fluxes eqs HS rr) in Hb; auto.
      destruct (ss_arrays _ _ _ _ _ _ S0 rr rhs b ix Hr Hb) as (Ez & Np & Nr).
      split; auto. split; [intros d []|]. intros y Hy.
      assert (By : box b y).
      { apply in_range_iff in Hy. destruct Hy as [Ly Hy]. split; auto. intros d Hd. specialize (Hy d Hd). unfold ext.
        destruct (in_dec Nat.eq_dec d (E b)) as [q | q]; [rewrite (ex_in k _ d q) in Hy | rewrite (ex_notin k _ d q) in Hy];
          match goal with |- context [in_dec Nat.eq_dec d ?l] => destruct (in_dec Nat.eq_dec d l) end; lia. }
      apply HMc; auto; [apply (Bn b); auto|]. intros _. split; auto. eapply required_reads; eauto.
    + intros u Hu Hd. destruct (fv_cds ndim dirof coordinate fluxes eqs HS rr rhs u Hr) as (t & Ht & _ & Hc); [apply in_cds; auto|].
      apply in_cds in Hc. destruct Hc as [Hc _]. assert (Hir : inside u rhs) by (eapply inside_trans; [exact Hc | apply terms_inside; auto]).
      destruct (deriv_shape k sh dirof sizes coordinate fluxes sys crs known vcds register PP HV v rhs u Hv Hir Hd) as (_ & a & n & m & Eu & Hn & Ha & Hwd). exists a, n, m. repeat split; auto.
    + apply grid_point_range. auto.
Qed.
Notation RELS := (fold_left (exec_relation J)).
Notation BK := (bounded_kernels k sh central sizes sd dirof inv dord sord worder num kord (map fst sys) crs known vcds eqs).
Notation CRK := (relation_kernels k sh central sizes dirof worder num kord (map fst sys) crs vcds eqs).
Notation START := (map num (nodup string_dec (not_relations central sizes dirof worder kord (map fst sys) crs vcds eqs ++ map fst sys ++ known))).
Definition fluxes_of (M : memory) (d : nat) (x : list Z) : list R := match NFLUX d M x with Ok y => y | Err _ => [] end.
Lemma fluxes_found : forall M d x, NFLUX d M x = Ok (fluxes_of M d x).
Proof.
  intros M d x. destruct (scheme_supported sh Hsup) as (o & So).
  assert (E0 : exists y, NFLUX d M x = Ok y) by (unfold numerical_flux; apply (flux_total _ o); auto).
  unfold fluxes_of. destruct E0 as (y & E0). rewrite E0. auto.
Qed.
Lemma spatial_ok1 : forall cs k1 k2, BK = Ok (cs, k1, k2) ->
  forall F M, bounded_fields J (w false) sizes sys crs M M F ->
  let M' := exec1 J k sizes k2 (HYB k1 (RELS cs M)) in
  (forall i rr rhs x, nth_error eqs i = Some (rr, rhs) -> grid_point sizes x -> M' rr x = HVAL F (flux_difference dirof h (fluxes_of F) i) rhs x) /\
  (forall b y, ~ In b (map fst eqs) -> ~ In b (map fst crs) -> (forall i, b <> wk_name i) -> M' b y = M b y).
Proof.
  intros cs k1 k2 Esp F M BF M'. unfold bounded_kernels in Esp.
  destruct (shock_discretise ndim dirof inv worder eqs) as [k1'|] eqn:E1; [|discriminate]. cbn [bind] in Esp.
  destruct (if central then sbli_rhs_discretisation1 k ndim dirof inv dord sord sizes sd [] vcds eqs else Ok []) as [k2'|] eqn:E2; [|discriminate]. cbn [bind] in Esp.
  destruct (OrdModel.sort_constituents rkernel OrdModel.max_passes START CRK) as [cs'|] eqn:Ecs; [|discriminate].
  cbn [bind] in Esp. injection Esp as <- <- <-.
  destruct (OrdProps.C20_kernels rkernel START CRK cs' (crk_nodup k sh central dirof worder num kord sizes sys crs vcds Hnum Hkord) Ecs) as (cl & -> & EO & Hcl).
  assert (RF : CapProofs.related J k sh central sizes crs F).
  { intros b e y He Hy. apply (bf_relation _ _ _ _ _ _ _ _ BF); auto. apply layers_near. auto. }
  assert (AM : CapProofs.agrees k sh central sizes sys crs register M F).
  { intros c y Hy Nc _ _. symmetry. destruct (in_dec string_dec c (map fst sys)) as [I | N]; [apply (bf_solution _ _ _ _ _ _ _ _ BF); auto; apply layers_near; auto|].
    apply (bf_other _ _ _ _ _ _ _ _ BF); auto. }
  destruct (cr_run J k sh central dirof worder num kord sizes coordinate fluxes sys crs known vcds register Hw Hnum Hdim PP HV Hcen F RF cl M AM EO
    (fun c H => proj1 (proj1 (Hcl c) H)) cl [] (eq_sym (app_nil_r cl))) as [CF CV].
  unfold M'. set (Mc := RELS (map OrdModel.ck_kernel cl) M) in *.
  destruct (hybrid_run1 k1' k2' E1 E2 Mc) as [X1 X2]. split.
  - intros i rr rhs x Hi Hx. rewrite (X2 (fluxes_of Mc) (fun d x _ => fluxes_found Mc d x) i rr rhs x Hi Hx).
    apply (value_same1 F Mc) with (rr := rr); auto; try (intros; apply fluxes_found).
    intros b y Hy Np Nr Hb. apply (reads_ok k sh central dirof worder sizes sys crs vcds register F M (fun b => In b REQ) Mc b y AM Hy CF); auto.
    intros b' e y' Hb' He Hy'. eapply CV; eauto.
    apply in_map_iff. exists (crk k sh central dirof worder num sizes sys vcds b' e). split; auto. apply Hcl. split.
    + apply (crk_in k sh central dirof worder num kord sizes coordinate fluxes sys crs known vcds register PP). exists b', e. split; auto.
    + apply (start_not_cr k sh central dirof worder num kord sizes coordinate fluxes sys crs known vcds register Hnum PP). eapply ProgProofs.named; eauto.
  - intros b y Nr Ncr Nw. rewrite X1; auto. intros (i & Ei). apply (Nw i Ei).
Qed.

(* ---- the relations can be solved ---- *)
Section time.
Variable rank : string -> nat.
Hypothesis Hrank : forall b e c ix, In (b, e) crs -> In (c, ix) (dsets e) -> In c (map fst crs) -> (rank c < rank b)%nat.
Notation rel_some := (CapProofs.relation_some k sh dirof sizes coordinate fluxes sys crs known register PP).
Notation rel_none := (CapProofs.relation_none k sh dirof sizes coordinate fluxes sys crs known register PP).
Notation closure := (BndExist.closure J crs).
Notation closed := (BndExist.closed J crs rank).
Lemma closure_other : forall B n b x, ~ In b (map fst crs) -> closure B n b x = B b x.
Proof. intros B n b x H. apply rel_none in H. destruct n; cbn [BndExist.closure]; rewrite H; auto. Qed.
Lemma closure_enough : forall B n m b x, (rank b < n)%nat -> (rank b < m)%nat -> closure B n b x = closure B m b x.
Proof.
  intros B. induction n as [|n IH]; intros [|m] b x Hn Hm; try lia. cbn [BndExist.closure].
  destruct (ProgModel.relation crs b) as [e|] eqn:Ee; auto. apply rel_some in Ee.
  unfold value. apply eval_ext. intros c ix Hc. destruct (in_dec string_dec c (map fst crs)) as [I | N].
  - specialize (Hrank b e c ix Ee Hc I). apply IH; lia.
  - rewrite !closure_other; auto.
Qed.
Lemma closed_relation : forall B b e x, In (b, e) crs -> closed B b x = value J (closed B) x e.
Proof.
  intros B b e x He. unfold BndExist.closed at 1. cbn [BndExist.closure]. rewrite (proj2 (rel_some b e) He).
  unfold value. apply eval_ext. intros c ix Hc. destruct (in_dec string_dec c (map fst crs)) as [I | N].
  - pose proof (Hrank b e c ix He Hc I). apply closure_enough; lia.
  - unfold BndExist.closed. rewrite !closure_other; auto.
Qed.
Lemma closed_fields : forall M, bounded_fields J (w false) sizes sys crs M M (closed M).
Proof.
  intros M. constructor.
  - intros b x Hb _. unfold BndExist.closed. apply closure_other. intros C. apply (proj1 (proj2 (cp_names _ _ _ _ _ _ _ _ _ _ PP b C)) Hb).
  - intros b e x He _. apply closed_relation. auto.
  - intros b x N1 N2. unfold BndExist.closed. apply closure_other. auto.
Qed.
Notation VAL F i rhs x := (HVAL F (flux_difference dirof h (fluxes_of F) i) rhs x).
Fixpoint slope_of (F : memory) (i : nat) (l : list (string * expr)) (v : string) (x : list Z) : R :=
  match l with
  | [] => 0%R
  | (u, rhs) :: l => if string_dec v u then VAL F i rhs x else slope_of F (Datatypes.S i) l v x
  end.
Lemma advanced_nodup : NoDup (map fst sys).
Proof. pose proof (cp_arrays _ _ _ _ _ _ _ _ _ _ PP) as H. unfold AdvSpec.distinct_arrays in H. rewrite advanced_eq in H. apply AdvProofs.NoDup_app_remove_r in H. exact H. Qed.
Lemma slope_value : forall F i v rhs x, nth_error sys i = Some (v, rhs) -> slope_of F 0 sys v x = VAL F i rhs x.
Proof.
  intros F i v rhs x Hin. pose proof advanced_nodup as ND.
  assert (G : forall l j i, NoDup (map fst l) -> nth_error l i = Some (v, rhs) -> slope_of F j l v x = VAL F (j + i) rhs x); [|apply (G sys 0%nat i); auto].
  clear i Hin ND. induction l as [|(u, e) l IH]; intros j i ND Hin; [destruct i; discriminate|]. cbn [map] in ND. inversion ND; subst. cbn [slope_of]. destruct i as [|i]; cbn [nth_error] in Hin.
  - injection Hin as -> ->. destruct (string_dec v v) as [_ | N]; [|destruct N; auto]. rewrite Nat.add_0_r. auto.
  - destruct (string_dec v u) as [-> | N].
    + exfalso. apply H1. apply nth_error_In in Hin. cbn [fst]. eapply ProgProofs.named; eauto.
    + rewrite (IH _ i) by auto. f_equal. f_equal. lia.
Qed.

(* ---- time stepping ---- *)
Variables (ord : BCModel.order_of) (points : BCModel.bkernel -> list (list Z)).
Variables (cs : list rkernel) (k1 : list hkernel) (k2 : list skernel) (bcs : list fkernel) (dt : R) (ab : list R * list R).
Hypothesis Hord : BCSpec.good_order ord.
Hypothesis Hp : all_points points.
Hypothesis Esp : BK = Ok (cs, k1, k2).
Hypothesis Ebc : apply_conditions true ord sizes (capturing_halos k sh central sizes) (BCSpec.arrays_of ndim fs) g 0 types = Ok bcs.
Hypothesis Hab : coefficients ts = Ok ab.
Notation RHS := (shock_right_hand_sides J k sh central gamma av dirof h fluxes sizes types sys crs).
Notation RUN := (run_gkernel J k sizes sch gamma av (map fst sys) dt ab points).
Notation SP := (map Constituent cs ++ map Capture k1 ++ map (fun s => Ordinary (Difference s)) k2).
Notation given := (BndSpec.given register sys crs).
Lemma run_spatial : forall st M, run_all gkernel RUN st SP M = exec1 J k sizes k2 (HYB k1 (RELS cs M)).
Proof.
  intros st M. unfold run_all. rewrite !fold_left_app.
  assert (A : forall l M, fold_left (fun M x => RUN M x st) (map Constituent l) M = RELS l M) by (induction l as [|c l IH]; intros M'; auto; cbn; apply IH).
  assert (B : forall l M, fold_left (fun M x => RUN M x st) (map Capture l) M = HYB l M) by (unfold exec_hybrid; induction l as [|c l IH]; intros M'; auto; cbn; apply IH).
  assert (C : forall l M, fold_left (fun M x => RUN M x st) (map (fun s => Ordinary (Difference s)) l) M = exec1 J k sizes l M)
    by (unfold exec1; induction l as [|c l IH]; intros M'; auto; cbn; apply IH).
  rewrite A, B, C. reflexivity.
Qed.
Lemma spatial_rhs : forall M, exists r, RHS M r /\
  let M' := exec1 J k sizes k2 (HYB k1 (RELS cs M)) in
  (forall e v x, In e (adv_eqs sys) -> AdvSpec.advances e v -> grid_point sizes x -> M' (AdvModel.eq_residual e) x = r (v, x)) /\
  (forall v x, In v (map fst sys) -> M' v x = M v x /\ M' (register v) x = M (register v) x) /\
  (forall b x, given b -> M' b x = M b x).
Proof.
  intros M. pose proof (closed_fields M) as BF. set (F := closed M) in *.
  exists (fun i => slope_of F 0 sys (fst i) (snd i)). split.
  { exists F, (fluxes_of F). split; auto. split.
    - intros d x _. replace (order_scheme sh) with sch by (destruct sh; reflexivity). apply fluxes_found.
    - intros i v rhs x Hi _. apply slope_value. auto. }
  cbn zeta. destruct (spatial_ok1 cs k1 k2 Esp F M BF) as [A B]. split; [|split].
  - intros e v x He Hv Hx. cbn [fst snd].
    assert (Q : exists i rhs, nth_error sys i = Some (v, rhs) /\ nth_error eqs i = Some (AdvModel.eq_residual e, rhs)).
    { clear - He Hv. unfold adv_eqs, AdvModel.with_residuals, disc_eqs in *. rewrite map_length in He. revert He. generalize 0%nat as s.
      induction sys as [|[u q] l IH]; intros s He; [destruct He|]. cbn in He. destruct He as [<- | He].
      - unfold AdvSpec.advances in Hv. cbn in Hv. injection Hv as ->. exists 0%nat, q. split; reflexivity.
      - destruct (IH _ He) as (i & rhs & P & Q). exists (Datatypes.S i), rhs. split; auto. }
    destruct Q as (i & rhs & Hin & Hr). rewrite (A i _ rhs x Hr Hx). symmetry. apply slope_value. auto.
  - intros v x Hv. destruct (CapProofs.sys_names k sh dirof sizes coordinate fluxes sys crs known register PP v Hv) as (N1 & N2 & N3 & N4 & N5 & N6 & _). split; apply B; auto.
  - intros b y (O1 & O2 & O3 & O4). apply B; auto. intros i ->. apply O4. left. eauto.
Qed.
Lemma program_ok : forall mon rqs niter M,
  steps J w true sizes fs g types ts sys crs dt RHS (Z.to_nat niter) ab M
    (run_gprogram J k sizes sch gamma av (map fst sys) dt ab points
       (AlgSpec.program_trace (fphase ts sys gkernel Ordinary SP (map Ordinary bcs)) (Z.of_nat (List.length (fst ab))) niter mon rqs) M).
Proof.
  intros mon rqs niter M.
  apply (FaceTime.program_ok J k w true sizes fs g types ts sys crs dt ab points RHS gkernel RUN Ordinary SP (map Ordinary bcs)); auto.
  - intros v Hv. destruct (CapProofs.sys_names k sh dirof sizes coordinate fluxes sys crs known register PP v Hv) as (_ & _ & _ & _ & _ & _ & N). auto.
  - exact (cp_arrays _ _ _ _ _ _ _ _ _ _ PP).
  - intros st M0. rewrite run_spatial. apply spatial_rhs.
  - intros st M0. pose proof (reach_pos sh Hsup) as RP.
    assert (Er : width sh = r) by (destruct sh; reflexivity).
    apply (conditions_imposed J ord k w true (capturing_halos k sh central sizes) sizes fs g types dt ab points); auto.
    + unfold capturing_halos. destruct central; apply repeat_length.
    + intros i Hi. unfold BCSpec.lower_halo, BCSpec.upper_halo, capturing_halos, halo_layers. rewrite Er.
      rewrite (nth_indep _ _ (if central then [shock_halo sh; central_halo k] else [shock_halo sh], if central then [shock_halo sh; central_halo k] else [shock_halo sh])) by (rewrite repeat_length; auto).
      rewrite nth_repeat. unfold shock_halo, central_halo.
      destruct central; cbn [nth fst snd halo_min halo_max map minl maxl]; lia.
    + unfold halo_layers. rewrite Er. lia.
Qed.
End time.
End prog.
