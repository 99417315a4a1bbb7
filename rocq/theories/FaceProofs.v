(* Proofs about programs with any of the boundary conditions. *)
From Verif Require Import Base Expr ExprProofs FDModel FDProofs WorkModel WorkProofs ShiftSpec DiscModel DiscSpec DiscProofs DiscRun DiscMain ProgModel ProgSpec ProgProofs.
From Verif Require AdvModel AdvSpec AdvProofs AdvProps AlgModel AlgSpec OrdModel OrdSpec OrdProps BCModel BCSpec RKModel RKSpec RKProofs RKProps BndExist.
From Verif Require Import BndModel BndSpec BndKern BndProofs DiscProps ProgProps OneModel SideModel SideSpec SideRun SideMain SideProps FaceModel FaceSpec FaceKern FaceTime.
From Coq Require Import QArith ZArith Reals Lia Lra Permutation List.
Local Close Scope Q_scope.
Local Open Scope list_scope.

(* ---- what a right-hand side reads ---- *)
Lemma in_range_set : forall k sizes D d v x, ~ In d D -> (d < List.length sizes)%nat -> (- Z.of_nat k <= v < nth d sizes 0 + Z.of_nat k)%Z ->
  in_range k sizes D x = true -> in_range k sizes (d :: D) (SideSpec.at_index d v x) = true.
Proof.
  intros k sizes D d v x Nd Hd Hv H. apply in_range_iff in H. apply in_range_iff. destruct H as [L H]. unfold SideSpec.at_index. rewrite move_len. split; auto.
  intros i Hi. specialize (H i Hi). destruct (Nat.eq_dec i d) as [-> | Ne].
  - rewrite move_nth_at by lia. rewrite (ex_in k (d :: D)) by (left; auto). lia.
  - rewrite move_nth_off by auto.
    assert (E : ex k (d :: D) i = ex k D i).
    { unfold ex. cbn [existsb]. replace (Nat.eqb i d) with false; auto. symmetry. apply Nat.eqb_neq. auto. }
    rewrite E. lia.
Qed.
Lemma sem1_reach : forall J k dirof h sizes sd (E : string -> list nat) M F e D x, room sd sizes ->
  (forall b ix, In (b, ix) (dsets e) -> ix = repeat 0%Z (List.length sizes) /\
     (forall d, In d D -> In d (E b)) /\ forall y, in_range k sizes (E b) y = true -> M b y = F b y) ->
  (forall u, inside u e -> derivative u -> exists a n m, u = EApp HCD (a :: repeat (ESym KCoord n) (S m)) /\
     (dirof n < List.length sizes)%nat /\ ~ In (dirof n) D /\ (forall b ix, In (b, ix) (dsets a) -> In (dirof n) (E b)) /\
     forall w a' n' m', inside w a -> w = EApp HCD (a' :: repeat (ESym KCoord n') (S m')) -> dirof n' <> dirof n) ->
  in_range k sizes D x = true -> sem1 J k dirof h sizes sd M e x = sem1 J k dirof h sizes sd F e x.
Proof.
  intros J k dirof h sizes sd E M F e D x Rm. revert D x. induction e as [q|kd n|b ix|hd args IH] using expr_ind'; intros D x Hb Hu Hx; auto.
  - cbn [sem1]. destruct (Hb b ix) as (-> & HD & HM); [left; auto|].
    assert (L : List.length x = List.length sizes) by (apply in_range_iff in Hx; tauto).
    rewrite vadd_0_r by auto. apply HM. eapply in_range_incl; [|exact Hx]. exact HD.
  - rewrite Forall_forall in IH.
    assert (A : hd <> HCD \/ args = [] -> map (fun a => sem1 J k dirof h sizes sd M a x) args = map (fun a => sem1 J k dirof h sizes sd F a x) args).
    { intros _. apply map_ext_in. intros a Ha. apply (IH a Ha D); auto.
      - intros b ix Hin. apply Hb. rewrite dsets_app. apply in_flat_map. eauto.
      - intros u Hi Hd. apply Hu; auto. eapply in_arg; eauto. }
    destruct hd; cbn [sem1]; try (rewrite A by (left; discriminate); reflexivity).
    destruct args as [|a cs]; [reflexivity|].
    destruct (Hu (EApp HCD (a :: cs)) (in_self _) ltac:(eexists _, _; reflexivity)) as (a0 & n & m & Eq & Hd & Nd & Ha & Hw).
    injection Eq as <- ->. cbn [repeat direction]. cbn [List.length]. rewrite repeat_length.
    apply (difference_in k (List.length sizes) sizes eq_refl).
    + apply in_range_iff in Hx. destruct Hx as [_ Hx]. specialize (Hx _ Hd). rewrite ex_notin in Hx by auto. lia.
    + intros Hs. apply Rm; auto.
    + intros i Hi. apply (IH a (or_introl eq_refl) (dirof n :: D)).
      * intros b ix Hin. destruct (Hb b ix) as (Ez & HD & HM); [rewrite dsets_app; apply in_flat_map; exists a; split; [left|]; auto|].
        split; auto. split; auto. intros d [<- | H]; auto. eapply Ha; eauto.
      * intros u Hui Hdu. destruct (Hu u) as (a' & n' & m' & Eu & Hd' & Nd' & Ha' & Hw'); auto.
        { eapply in_arg; [left; reflexivity | auto]. }
        exists a', n', m'. split; auto. split; auto. split; [|split; auto].
        intros [C | C]; [|contradiction]. eapply Hw; eauto.
      * apply in_range_set; auto.
Qed.
Lemma exec1_plain : forall J k sizes cs M, exec1 J k sizes (map plain_kernel cs) M = exec J k sizes cs M.
Proof. intros J k sizes. unfold exec1, exec. induction cs as [|c cs IH]; intros M; auto. cbn [map fold_left]. rewrite exec_plain. apply IH. Qed.
Lemma exec1_app : forall J k sizes a b M, exec1 J k sizes (a ++ b) M = exec1 J k sizes b (exec1 J k sizes a M).
Proof. intros. unfold exec1. apply fold_left_app. Qed.

Section prog.
Variables (J : interp R) (k : nat) (dirof : string -> nat) (inv : nat -> nat -> expr)
  (dord : expr -> list dset) (sord : list (expr * string) -> list (expr * string))
  (num : string -> OrdModel.key) (kord : list string -> list string) (h : nat -> R) (sizes : list Z)
  (sys crs : list (string * expr)) (known : list string) (ccds vcds : list expr) (ts : timescheme).
Variables (fs : list BCSpec.field) (g : gas) (types : list (bcond * bcond)).
Notation ndim := (List.length sizes).
Notation eqs := (disc_eqs sys).
Notation E := (cr_directions dirof (ccds ++ vcds)).
Notation near := (BndSpec.near k sizes).
Notation register := (register_of ts).
Notation sd := (schemes_of types).
Hypothesis HF : BC2Spec.functions J.
Hypothesis Hinv : forall M x d m, value J M x (inv d m) = (/ h d ^ m)%R.
Hypothesis Hdord : forall e, enumerates (dord e) e.
Hypothesis Hperm : forall l, Permutation l (sord l).
Hypothesis Hinner : forall l l', Permutation l l' -> inner_first l' -> inner_first (sord l).
Hypothesis Hnum : forall a b, num a = num b -> a = b.
Hypothesis Hkord : forall l, Permutation l (kord l).
Hypothesis PP : periodic_problem ndim dirof register sys crs known.
Hypothesis HC : lists_derivatives eqs (fun t => ~ viscous_term t) ccds.
Hypothesis HV : lists_derivatives eqs viscous_term vcds.
Hypothesis Nc : ccds <> [].
Hypothesis Nv : vcds = [] -> forall r rhs t, In (r, rhs) eqs -> In t (terms rhs) -> ~ viscous_term t.
Hypothesis FB : face_boundaries (fun _ => k) sizes fs g types.
Hypothesis Hfs : forall v, In v (BCSpec.field_names fs) <-> In v (map fst sys).
Notation given := (BndSpec.given register sys crs).
Notation REQ := (required kord ccds vcds eqs).
Notation CRK := (cr_kernels ndim dirof num kord crs ccds vcds eqs).
Notation START := (map num (nodup string_dec (requires kord crs ccds vcds eqs ++ map fst sys ++ known))).
Notation crk := (ProgProofs.crk dirof num sizes ccds vcds).

Lemma HJr : real_arithmetic J.
Proof. destruct (BC2Spec.f_reals _ HF). repeat split; auto. Qed.
Lemma spatial_ok1 : forall sp, all_spatial_kernels1 k ndim dirof inv dord sord num kord sizes sd crs (map fst sys ++ known) ccds vcds eqs = Ok sp ->
  forall F M, bounded_fields J k sizes sys crs M M F ->
  let M' := exec1 J k sizes sp M in
  (forall v rhs r x, In (v, rhs) sys -> In (r, rhs) eqs -> grid_point sizes x -> M' r x = sem1 J k dirof h sizes sd F rhs x) /\
  (forall b y, ~ In b (map fst eqs) -> ~ In b (map fst crs) -> (forall i, b <> wk_name i) -> M' b y = M b y).
Proof.
  intros sp Esp F M HF0 M'. unfold all_spatial_kernels1 in Esp.
  assert (WF : well_formed ndim dirof reserved eqs) by exact (wf_weaken _ _ _ reserved _ (fun b H => or_introl H) (pp_form _ _ _ _ _ _ PP)).
  destruct (sbli_rhs_discretisation1 k ndim dirof inv dord sord sizes sd ccds vcds eqs) as [ks0|] eqn:Eks0; [|discriminate].
  assert (Low : low_orders sd dirof eqs).
  { intros r rhs a n cs Hin Hi Hs. destruct (Nat.le_gt_cases (List.length cs) 1) as [|C]; auto. exfalso.
    rewrite (C79_refused k ndim dirof inv dord sord sizes sd eqs ccds vcds Hdord eq_refl WF HC HV) in Eks0; [discriminate|].
    exists r, rhs, a, n, cs. repeat split; auto. }
  destruct (residual_ok1 J k ndim dirof inv dord sord h sizes sd HJr Hinv Hdord eq_refl (fb_room _ _ _ _ _ FB) Hperm Hinner eqs WF Low ccds vcds HC HV Nc Nv) as (ks & Eks & Y).
  rewrite Eks in Eks0. injection Eks0 as <-. cbn [bind] in Esp.
  destruct (OrdModel.sort_constituents kernel OrdModel.max_passes START CRK) as [cs|] eqn:Ecs; [|discriminate].
  cbn [bind] in Esp. injection Esp as <-.
  destruct (OrdProps.C20_kernels kernel START CRK cs (crk_nodup dirof num kord sizes sys crs ccds vcds Hnum Hkord) Ecs) as (cl & -> & EO & Hcl).
  assert (SM : shows k sizes sys crs register M M M) by (split; auto).
  destruct (cr_run J k dirof num kord sizes sys crs known ccds vcds register Hnum PP HC HV M M F HF0 cl M SM EO (fun c H => proj1 (proj1 (Hcl c) H)) cl [] (eq_sym (app_nil_r cl))) as [CF CV].
  unfold M'. rewrite exec1_app, exec1_plain. set (Mc := exec J k sizes (map OrdModel.ck_kernel cl) M) in *.
  destruct (Y Mc) as [X1 X2]. split.
  - intros v rhs r x Hv Hr Hx. rewrite (X1 r rhs x Hr Hx).
    apply (sem1_reach J k dirof h sizes sd E Mc F rhs [] x (fb_room _ _ _ _ _ FB)).
    + intros b ix Hb. destruct (wf_arrays _ _ _ _ (pp_form _ _ _ _ _ _ PP) r rhs b ix Hr Hb) as (Ei & Np & Nr).
      split; auto. split; [intros d []|]. intros y Hy.
      apply (reads_ok J k dirof sizes sys crs ccds vcds register M M F HF0 M REQ Mc b y SM (range_near _ _ _ _ Hy) CF); auto.
      * intros b' e y' Hb' He Hy'. eapply CV; eauto.
        apply in_map_iff. exists (crk b' e). split; auto. apply Hcl. split.
        -- apply (crk_in dirof num kord sizes sys crs known ccds vcds register PP). exists b', e. split; auto.
        -- apply (start_not_cr dirof num kord sizes sys crs known ccds vcds register Hnum PP). eapply named; eauto.
      * intros _. split; auto. apply (required_reads dirof kord sizes sys crs known ccds vcds register Hkord PP HC Nc v rhs b ix); auto.
    + intros u Hi Hd. destruct (deriv_shape dirof sizes sys crs known ccds vcds register PP HC HV v rhs u Hv Hi Hd) as (a & n & m & Eu & Hn & Ha & Hw). exists a, n, m. repeat split; auto.
    + apply grid_point_range. auto.
  - intros b y Nr Ncr Nw. rewrite X2; auto. intros (i & Ei). apply (Nw i Ei).
Qed.

Definition slope1 (F : memory) : solution := fun i =>
  match find (fun p => String.eqb (fst i) (fst p)) sys with Some p => sem1 J k dirof h sizes sd F (snd p) (snd i) | None => 0%R end.
Lemma slope1_value : forall F v rhs x, In (v, rhs) sys -> slope1 F (v, x) = sem1 J k dirof h sizes sd F rhs x.
Proof.
  intros F v rhs x Hin. unfold slope1. cbn [fst snd]. pose proof (BndExist.sys_nodup dirof sizes register sys crs known PP) as ND.
  assert (X : find (fun p : string * expr => String.eqb v (fst p)) sys = Some (v, rhs)); [|rewrite X; auto].
  clear - ND Hin. induction sys as [|(w, e) l IH]; [destruct Hin|]. cbn [find fst]. inversion ND; subst. destruct Hin as [X | Hin].
  - injection X as -> ->. rewrite String.eqb_refl. auto.
  - destruct (String.eqb_spec v w) as [-> | N]; auto. exfalso. apply H1. eapply ProgProofs.named; eauto.
Qed.

(* ---- time stepping ---- *)
Section time.
Variable rank : string -> nat.
Hypothesis Hrank : forall b e c ix, In (b, e) crs -> In (c, ix) (dsets e) -> In c (map fst crs) -> (rank c < rank b)%nat.
Variables (ord : BCModel.order_of) (points : BCModel.bkernel -> list (list Z)).
Variables (sp : list skernel) (bcs : list fkernel) (dt : R) (ab : list R * list R).
Hypothesis Hord : BCSpec.good_order ord.
Hypothesis Hp : all_points points.
Hypothesis Esp : all_spatial_kernels1 k ndim dirof inv dord sord num kord sizes sd crs (map fst sys ++ known) ccds vcds eqs = Ok sp.
Hypothesis Ebc : apply_conditions false ord sizes (block_halos k ndim) (BCSpec.arrays_of ndim fs) g 0 types = Ok bcs.
Hypothesis Hab : coefficients ts = Ok ab.
Notation RHS := (right_hand_sides J k dirof h sizes types sys crs).
Notation RUN := (run_fkernel J k sizes dt ab points).

Lemma run_spatial : forall st M, run_all fkernel RUN st (map Difference sp) M = exec1 J k sizes sp M.
Proof. intros st. unfold exec1, run_all. generalize sp as l. induction l as [|kn l IH]; intros M; auto. cbn. apply IH. Qed.
Lemma spatial_rhs : forall M, exists r, RHS M r /\
  let M' := exec1 J k sizes sp M in
  (forall e v x, In e (adv_eqs sys) -> AdvSpec.advances e v -> grid_point sizes x -> M' (AdvModel.eq_residual e) x = r (v, x)) /\
  (forall v x, In v (map fst sys) -> M' v x = M v x /\ M' (register v) x = M (register v) x) /\
  (forall b x, given b -> M' b x = M b x).
Proof.
  intros M. set (F := BndExist.closed J crs rank (BndExist.joined sys M M)).
  assert (BF : bounded_fields J k sizes sys crs M M F) by (eapply BndExist.closed_fields; eauto).
  exists (slope1 F). split.
  { exists F. split; auto. intros v rhs x Hin _. apply slope1_value. auto. }
  cbn zeta. destruct (spatial_ok1 sp Esp F M BF) as [A B]. split; [|split].
  - intros e v x He Hv Hx.
    assert (Q : exists rhs, In (v, rhs) sys /\ In (AdvModel.eq_residual e, rhs) eqs).
    { clear - He Hv. unfold adv_eqs, AdvModel.with_residuals, disc_eqs in *. rewrite map_length in He. revert He. generalize 0%nat as s.
      induction sys as [|[w q] l IH]; intros s He; [destruct He|]. cbn in He. destruct He as [<- | He].
      - unfold AdvSpec.advances in Hv. cbn in Hv. injection Hv as ->. exists q. split; left; reflexivity.
      - destruct (IH _ He) as (rhs & P & Q). exists rhs. split; right; auto. }
    destruct Q as (rhs & Hin & Hr). rewrite (A v rhs _ x Hin Hr Hx). symmetry. apply slope1_value. auto.
  - intros v x Hv. destruct (sys_names dirof sizes sys crs known register PP v Hv) as (N1 & N2 & N3 & N4 & N5 & N6 & _). split; apply B; auto.
  - intros b y (O1 & O2 & O3 & O4). apply B; auto. intros i ->. apply O4. left. eauto.
Qed.

Lemma program_ok : forall mon rqs niter M,
  steps J (fun _ => k) false sizes fs g types ts sys crs dt RHS (Z.to_nat niter) ab M
    (run_fprogram J k sizes dt ab points (AlgSpec.program_trace (fphase ts sys fkernel (fun x => x) (map Difference sp) bcs) (Z.of_nat (List.length (fst ab))) niter mon rqs) M).
Proof.
  intros mon rqs niter M.
  apply (FaceTime.program_ok J k (fun _ => k) false sizes fs g types ts sys crs dt ab points RHS fkernel RUN (fun x => x) (map Difference sp) bcs); auto.
  - intros v Hv. destruct (sys_names dirof sizes sys crs known register PP v Hv) as (_ & _ & _ & _ & _ & _ & N). auto.
  - exact (pp_arrays _ _ _ _ _ _ PP).
  - intros st M0. rewrite run_spatial. apply spatial_rhs.
  - intros st M0. replace bcs with (map (fun x => x) bcs) by apply map_id.
    apply (conditions_imposed J ord k (fun _ => k) false (block_halos k ndim) sizes fs g types dt ab points) with (inj := fun x => x); auto.
    + apply repeat_length.
    + intros i Hi. apply block_halos_at. auto.
    + lia.
Qed.
End time.
End prog.
