(* Consequences for uniform flow and for totals over periodic blocks. *)
From Verif Require Import Base BaseProofs Expr ExprProofs FDModel FDSpec FDProofs WorkModel WorkProofs ShiftSpec ShiftProofs AdvProofs BCProofs DiscSpec DiscModel DiscProofs DiscRun DiscMain
  EulerSpec EulerModel EulerProps WenoModel LLFModel LLFProofs LLFProps ContactProofs WFSpec WFProofs HybModel HybSpec HybProofs.
From Coq Require Import QArith ZArith Reals Lia Lra List Permutation FunctionalExtensionality.
Import ListNotations.
Local Close Scope Q_scope.
Local Open Scope list_scope.

Lemma collect_ok : forall A (l : list (result A)), (forall r, In r l -> exists v, r = Ok v) -> exists vs, collect l = Ok vs.
Proof.
  induction l as [|r l IH]; intros H; [cbn; eauto|]. destruct (H r (or_introl eq_refl)) as (v & ->).
  destruct IH as (vs & E); [intros; apply H; right; auto|]. cbn. rewrite E. cbn. eauto.
Qed.
Lemma flux_total : forall sch o g av line i, supported sch o -> exists w, interface_flux sch g av line i = Ok w.
Proof.
  intros sch o g av line i S. unfold interface_flux. cbv zeta.
  match goal with |- exists w, bind (collect ?l) _ = _ => destruct (collect_ok _ l) as (vs & E) end.
  - intros r Hr. apply in_map_iff in Hr. destruct Hr as (m & <- & _). unfold combined.
    match goal with |- context[sch_rec sch SRight ?f] => destruct (rec_ok sch o SRight f S) as (a & ->) end. cbn [bind].
    match goal with |- context[sch_rec sch SLeft ?f] => destruct (rec_ok sch o SLeft f S) as (b & ->) end. cbn [bind]. eauto.
  - rewrite E. cbn [bind]. eauto.
Qed.

(* ---- sums over a block ---- *)
Lemma bt_ext_in : forall sizes f h, (forall x, grid_point (map Z.of_nat sizes) x -> f x = h x) -> block_total sizes f = block_total sizes h.
Proof.
  induction sizes as [|m sizes IH]; intros f h H; cbn [block_total]; [apply H; constructor|].
  unfold total. f_equal. apply map_ext_in. intros i Hi. apply in_seq in Hi. apply IH. intros x Hx. apply H. constructor; auto. lia.
Qed.
Lemma bt_zero : forall sizes, block_total sizes (fun _ => 0%R) = 0%R.
Proof. intros. rewrite (bt_ext sizes _ (fun _ => 0 * 0)%R) by (intros; ring). rewrite bt_scale. ring. Qed.
Lemma bt_list : forall A sizes (l : list A) (f : A -> list Z -> R),
  block_total sizes (fun x => fold_right Rplus 0%R (map (fun t => f t x) l)) = fold_right Rplus 0%R (map (fun t => block_total sizes (f t)) l).
Proof. intros A sizes l f. induction l as [|t l IH]; cbn [map fold_right]; [apply bt_zero|]. rewrite bt_plus, IH. auto. Qed.
Lemma bt_zsum : forall sizes us ys (q : list Z -> Z -> R), block_total sizes (fun x => zsum us ys (q x)) = zsum us ys (fun j => block_total sizes (fun x => q x j)).
Proof.
  intros sizes. induction us as [|u us IH]; intros [|y ys] q; cbn [zsum]; try apply bt_zero. rewrite bt_plus, bt_scale, IH. auto.
Qed.
Lemma grid_const : forall k m hh c i, (1 <= m)%nat -> grid_formula (2 * Z.of_nat k) m hh (fun _ => c) i = 0%R.
Proof.
  intros k m hh c i Hm. rewrite grid_zsum, zsum_const, moment by lia. destruct m; [lia|]. cbn. ring.
Qed.
Lemma bt_grid : forall sizes k m hh d u, (1 <= m)%nat -> (d < List.length sizes)%nat -> block_periodic sizes u ->
  block_total sizes (fun x => grid_formula (2 * Z.of_nat k) m hh (fun i => u (move d i x)) 0) = 0%R.
Proof.
  intros sizes k m hh d u Hm Hd P.
  rewrite (bt_ext sizes _ (fun x => / hh ^ m * zsum (generate_weights (2 * Z.of_nat k) m) (central_points (2 * Z.of_nat k)) (fun j => u (move d (0 + j) x)))%R)
    by (intros; rewrite grid_zsum; ring).
  rewrite bt_scale, bt_zsum. rewrite (zsum_ext _ _ _ (fun _ => block_total sizes u)) by (intros; apply bt_shift; auto).
  rewrite zsum_const, moment by lia. destruct m; [lia|]. cbn. ring.
Qed.
Lemma move_comm : forall d j e w x, move d j (move e w x) = move e w (move d j x).
Proof. induction d as [|d IH]; intros j [|e] w [|i x]; cbn [move]; auto; [f_equal; lia | f_equal; apply IH]. Qed.

Lemma value_periodic : forall J (M : memory) ndim d w x e, List.length x = ndim ->
  (forall b ix, In (b, ix) (dsets e) -> ix = repeat 0%Z ndim /\ M b (move d w x) = M b x) -> value J M (move d w x) e = value J M x e.
Proof.
  intros J M ndim d w x e L H. unfold value. apply eval_ext. intros b ix Hb. destruct (H b ix Hb) as (-> & E).
  rewrite !vadd_0_r by (rewrite ?move_length; auto). auto.
Qed.
Lemma sem_periodic : forall J k dirof h (M : memory) ndim d w e,
  (forall b ix, In (b, ix) (dsets e) -> ix = repeat 0%Z ndim /\ forall x, List.length x = ndim -> M b (move d w x) = M b x) ->
  forall x, List.length x = ndim -> sem J k dirof h M e (move d w x) = sem J k dirof h M e x.
Proof.
  intros J k dirof h M ndim d w. induction e as [q|kd m|b ix|hd args IH] using expr_ind'; intros H x L; auto.
  - cbn [sem]. destruct (H b ix (or_introl eq_refl)) as (-> & E). rewrite !vadd_0_r by (rewrite ?move_length; auto). auto.
  - rewrite Forall_forall in IH.
    assert (A : forall a y, In a args -> List.length y = ndim -> sem J k dirof h M a (move d w y) = sem J k dirof h M a y).
    { intros a y Ha Ly. apply IH; auto. intros b ix Hb. apply (H b ix). rewrite dsets_app. apply in_flat_map. eauto. }
    assert (B : map (fun a => sem J k dirof h M a (move d w x)) args = map (fun a => sem J k dirof h M a x) args) by (apply map_ext_in; auto).
    destruct hd; cbn [sem]; rewrite ?B; auto. destruct args as [|a cs]; auto. apply grid_ext. intros i. rewrite move_comm. apply A; [left; auto|]. rewrite move_length. auto.
Qed.
(* values that do not depend on the point *)
Lemma hybrid_const : forall J k dirof h (M : memory) wd e,
  (forall b ix, In (b, ix) (dsets e) -> forall y z, M b y = M b z) -> (forall f m, inside (WD f m) e -> forall y z, wd m y = wd m z) ->
  forall x y, hybrid_value J k dirof h M wd e x = hybrid_value J k dirof h M wd e y.
Proof.
  intros J k dirof h M wd. induction e as [q|kd m|b ix|hd args IH] using expr_ind'; intros HM HW x y; auto.
  - cbn [hybrid_value]. apply (HM b ix). left. auto.
  - rewrite Forall_forall in IH.
    assert (A : forall a x y, In a args -> hybrid_value J k dirof h M wd a x = hybrid_value J k dirof h M wd a y).
    { intros a x' y' Ha. apply IH; auto.
      - intros b ix Hb. apply (HM b ix). rewrite dsets_app. apply in_flat_map. eauto.
      - intros f m Hi. apply (HW f). econstructor; eauto. }
    destruct (is_wd (EApp hd args)) eqn:W.
    + apply is_wd_iff in W. destruct W as (f & m & W). rewrite W, !hybrid_wd. apply (HW f). rewrite W. constructor.
    + destruct (head_cd hd) as [-> | N].
      * cbn [hybrid_value]. destruct args as [|a cs].
        -- auto.
        -- apply grid_ext. intros i. apply A. left. auto.
      * rewrite !hybrid_app by (auto; intros ? E; injection E; intros; auto). f_equal. apply map_ext_in. intros a Ha. apply A. auto.
Qed.
Lemma prod_split : forall l1 v l2, fold_right Rmult 1%R (l1 ++ v :: l2) = (fold_right Rmult 1 (l1 ++ l2) * v)%R.
Proof. induction l1 as [|a l1 IH]; intros v l2; cbn [app fold_right]; [ring|]. rewrite IH. ring. Qed.

Section more.
Variables (J : interp R) (k ndim : nat) (dirof : string -> nat) (h : nat -> R).
Hypothesis HJ : real_arithmetic J.
Variables (coordinate : nat -> string) (fluxes : nat -> list expr) (eqs : list (string * expr)).
Hypothesis HS : hybrid_system ndim dirof reserved coordinate fluxes eqs.
Notation SS := (hs_shock _ _ _ _ _ _ HS).

Lemma term_derivative : forall r rhs t v, In (r, rhs) eqs -> In t (terms rhs) -> inside v t -> derivative v -> viscous_term t /\ proper_derivative ndim dirof v.
Proof.
  intros r rhs t v Hin Ht Hi (a & cs & Ev). destruct (has_re t) eqn:HR.
  - apply has_re_spec in HR. split; auto. apply (hs_viscous _ _ _ _ _ _ HS r rhs t Hin Ht HR); auto. exists a, cs. auto.
  - exfalso. destruct (hs_inviscid _ _ _ _ _ _ HS r rhs t Hin Ht) with (v := v) as (N & _); auto; [rewrite <- has_re_spec; congruence|]. eapply N. eauto.
Qed.
Lemma equation_wd : forall i r rhs f m, nth_error eqs i = Some (r, rhs) -> inside (WD f m) rhs -> exists d, (d < ndim)%nat /\ m = coordinate d.
Proof.
  intros i r rhs f m E Hi. assert (X : exists d, (d < ndim)%nat /\ WD f m = WD (nth i (fluxes d) (ENum 0)) (coordinate d)) by (apply (ss_one _ _ _ _ _ _ SS i r rhs E); split; eauto).
  destruct X as (d & Hd & X). unfold WD in X. injection X as _ ->. eauto.
Qed.

(* ---- totals ---- *)
Lemma conserved_total : forall sizes M (face : nat -> list Z -> list R) i r rhs,
  List.length sizes = ndim -> nth_error eqs i = Some (r, rhs) -> divergence_form rhs ->
  (forall b, ~ reserved b -> ~ In b (map fst eqs) -> block_periodic sizes (M b)) ->
  (forall d, (d < ndim)%nat -> block_periodic sizes (face d)) ->
  block_total sizes (hybrid_value J k dirof h M (flux_difference dirof h face i) rhs) = 0%R.
Proof.
  intros sizes M face i r rhs Hsz E HT PM PF. assert (Hin : In (r, rhs) eqs) by (eapply nth_error_In; eauto).
  rewrite (bt_ext sizes _ (fun x => fold_right Rplus 0%R (map (fun t => hybrid_value J k dirof h M (flux_difference dirof h face i) t x) (terms rhs)))).
  2: { intros x _. destruct (hs_form _ _ _ _ _ _ HS r rhs Hin) as (args & [-> | ->]).
       - rewrite hybrid_app; [|discriminate|reflexivity]. destruct HJ as (_ & Ja & _). apply Ja.
       - cbn [terms map fold_right]. ring. }
  rewrite bt_list. apply sum_zero. intros a Ha. apply in_map_iff in Ha. destruct Ha as (t & <- & Ht).
  destruct (HT t Ht) as (l1 & v & l2 & -> & Dv & HK).
  rewrite (bt_ext sizes _ (fun x => fold_right Rmult 1 (map (fun c => hybrid_value J k dirof h M (flux_difference dirof h face i) c []) (l1 ++ l2)) *
                                    hybrid_value J k dirof h M (flux_difference dirof h face i) v x)%R).
  2: { intros x _. rewrite hybrid_app; [|discriminate|reflexivity]. destruct HJ as (_ & _ & Jm). rewrite Jm, map_app. cbn [map]. rewrite prod_split, <- map_app. f_equal. f_equal.
       apply map_ext_in. intros c Hc. destruct (HK c Hc) as (K1 & K2). apply hybrid_const; [rewrite K1; intros b ix []|].
       intros f m Hi. exfalso. apply (K2 _ Hi). right. eauto. }
  rewrite bt_scale. assert (Z : block_total sizes (hybrid_value J k dirof h M (flux_difference dirof h face i) v) = 0%R); [|rewrite Z; ring].
  assert (Hvt : inside v (EApp HMul (l1 ++ v :: l2))) by (econstructor; [apply in_elt | constructor]).
  destruct Dv as [Dv | (f & m & ->)].
  - destruct (term_derivative r _ _ v Hin Ht Hvt Dv) as (HR & (a & m & q & Ev & Hd & _)).
    assert (NF : no_function v).
    { intros f l Hi. destruct (hs_viscous _ _ _ _ _ _ HS r _ _ Hin Ht HR) as (_ & NF & _). apply (NF f l). eapply inside_trans; eauto. }
    rewrite (bt_ext sizes _ (fun x => grid_formula (2 * Z.of_nat k) (S q) (h (dirof m)) (fun j => sem J k dirof h M a (move (dirof m) j x)) 0)).
    2: { intros x _. rewrite hybrid_sem by auto. rewrite Ev. apply sem_cd. }
    apply bt_grid; [lia | lia|]. intros d x Hd' L. apply (sem_periodic J k dirof h M ndim); [|lia].
    intros b ix Hb. assert (Hb' : In (b, ix) (dsets rhs)).
    { eapply inside_dsets; [|exact Hb]. eapply inside_trans; [|apply terms_inside; exact Ht]. eapply inside_trans; [|exact Hvt]. rewrite Ev. econstructor; [left; reflexivity | constructor]. }
    destruct (ss_arrays _ _ _ _ _ _ SS r _ b ix Hin Hb') as (Hx & N1 & N2). split; auto. intros y Ly. apply PM; auto. lia.
  - assert (Hir : inside (WD f m) rhs) by (eapply inside_trans; [exact Hvt | apply terms_inside; exact Ht]).
    destruct (equation_wd i r _ f m E Hir) as (d & Hd & ->).
    rewrite (bt_ext sizes _ (fun x => / h d * (nth i (face d x) 0 + -1 * nth i (face d (move d (-1) x)) 0))%R).
    2: { intros x _. rewrite hybrid_wd. unfold flux_difference. rewrite (ss_coordinate _ _ _ _ _ _ SS d Hd). unfold Rdiv. ring. }
    rewrite bt_scale, bt_plus, bt_scale. rewrite (bt_shift sizes d (-1) (fun x => nth i (face d x) 0)%R); [ring | lia|].
    intros e x He L. rewrite (PF d Hd e x); auto.
Qed.
Lemma face_periodic : forall sch g av solution sizes M (face : nat -> list Z -> list R) d, (d < ndim)%nat -> List.length sizes = ndim ->
  (forall q, In q (flow_arrays solution) -> block_periodic sizes (M q)) ->
  (forall b, ~ reserved b -> ~ In b (map fst eqs) -> block_periodic sizes (M b)) ->
  (forall d x, (d < ndim)%nat -> numerical_flux J sch g av solution ndim d (fluxes d) M x = Ok (face d x)) -> block_periodic sizes (face d).
Proof.
  intros sch g av solution sizes M face d Hd Hsz PQ PM HF e x He L.
  assert (E : Ok (face d (move e (Z.of_nat (nth e sizes 0%nat)) x)) = Ok (face d x)); [|congruence]. rewrite <- !HF by auto.
  unfold numerical_flux. set (w := Z.of_nat (nth e sizes 0%nat)) in *.
  assert (G : forall line line', (forall j, line j = line' j) -> interface_flux sch g av line 0 = interface_flux sch g av line' 0).
  { intros l l' G. apply functional_extensionality in G. rewrite G. auto. }
  apply G. intros j. cbv zeta. rewrite (move_comm d j e w x). set (y := move d j x). assert (Ly : List.length y = List.length sizes) by (unfold y; rewrite move_length; auto). clearbody y.
  assert (P : forall q, In q (flow_arrays solution) -> M q (move e w y) = M q y) by (intros q Hq; apply (PQ q Hq e y); auto).
  f_equal.
  - apply map_ext_in. intros q Hq. apply P. unfold flow_arrays. apply in_app_iff. auto.
  - apply map_ext_in. intros f Hf. apply (value_periodic J M ndim); [lia|]. intros b ix Hb.
    destruct (ss_fluxes _ _ _ _ _ _ SS d Hd) as (Lf & _). apply In_nth with (d := ENum 0) in Hf. destruct Hf as (i & Hi & <-).
    destruct (nth_error eqs i) as [(r & rhs)|] eqn:E; [|apply nth_error_None in E; lia].
    assert (X : inside (WD (nth i (fluxes d) (ENum 0)) (coordinate d)) rhs) by (apply (ss_one _ _ _ _ _ _ SS i r rhs E); exists d; auto).
    destruct (ss_arrays _ _ _ _ _ _ SS r rhs b ix) as (X1 & X2 & X3); [eapply nth_error_In; eauto| |].
    { eapply inside_dsets; [exact X|]. unfold WD. rewrite dsets_app. apply in_flat_map. exists (nth i (fluxes d) (ENum 0)). split; [left|]; auto. }
    split; auto. apply (PM b X2 X3 e y); auto.
  - apply P. unfold flow_arrays. apply in_app_iff. cbn. auto.
  - apply map_ext_in. intros q Hq. apply in_firstn in Hq. apply P. unfold flow_arrays. apply in_app_iff. cbn in *. tauto.
  - apply P. unfold flow_arrays. apply in_app_iff. cbn. tauto.
  - apply P. unfold flow_arrays. apply in_app_iff. cbn. tauto.
Qed.

(* ---- uniform flow ---- *)
Lemma uniform_zero : forall M (face : nat -> list Z -> list R) i r rhs,
  nth_error eqs i = Some (r, rhs) ->
  (forall b y z, ~ reserved b -> ~ In b (map fst eqs) -> M b y = M b z) -> (forall d y z, (d < ndim)%nat -> face d y = face d z) ->
  forall e, inside e rhs -> made_of any_derivative e -> forall x, hybrid_value J k dirof h M (flux_difference dirof h face i) e x = 0%R.
Proof.
  intros M face i r rhs E HM HF. assert (Hin : In (r, rhs) eqs) by (eapply nth_error_In; eauto).
  assert (HW : forall f m, inside (WD f m) rhs -> forall x, flux_difference dirof h face i m x = 0%R).
  { intros f m Hi x. destruct (equation_wd i r rhs f m E Hi) as (d & Hd & ->). unfold flux_difference. rewrite (ss_coordinate _ _ _ _ _ _ SS d Hd).
    rewrite (HF d (move d (-1) x) x Hd). unfold Rdiv. ring. }
  assert (T : forall v, derivative v -> inside v rhs -> exists t, In t (terms rhs) /\ inside v t).
  { intros v (a & cs & Ev) Hi. destruct (hs_form _ _ _ _ _ _ HS r rhs Hin) as (args & [-> | ->]); inversion Hi as [|? ? ? t Ht Hit]; subst; cbn [terms]; try discriminate; eauto.
    exists (EApp HMul args). split; [left; auto | exact Hi]. }
  intros e He Md. revert He. induction Md as [v Hv|a args Ha Md IH|args Md IH]; intros He x.
  - destruct Hv as [Dv | (f & m & ->)].
    + destruct (T v Dv He) as (t & Ht & Hit). destruct (term_derivative r rhs t v Hin Ht Hit Dv) as (_ & (a & m & q & Ev & Hd & _)). rewrite Ev. cbn [hybrid_value repeat].
      rewrite (grid_ext _ _ _ _ (fun _ => hybrid_value J k dirof h M (flux_difference dirof h face i) a x)).
      * cbn [List.length]. apply grid_const. lia.
      * intros j. apply hybrid_const.
        -- intros b ix Hb y z. destruct (ss_arrays _ _ _ _ _ _ SS r rhs b ix Hin) as (_ & N1 & N2); [|apply HM; auto].
           eapply inside_dsets; [|exact Hb]. eapply inside_trans; [|exact He]. rewrite Ev. econstructor; [left; reflexivity | constructor].
        -- intros f m' Hi y z. rewrite !(HW f m'); auto; (eapply inside_trans; [|exact He]; rewrite Ev; econstructor; [left; reflexivity | exact Hi]).
    + rewrite hybrid_wd. apply (HW f). auto.
  - rewrite hybrid_app; [|discriminate|reflexivity]. destruct HJ as (_ & _ & Jm). rewrite Jm. apply prod_zero. apply in_map_iff. exists a. split; auto.
    apply IH. eapply inside_trans; [|exact He]. econstructor; [exact Ha | constructor].
  - rewrite hybrid_app; [|discriminate|reflexivity]. destruct HJ as (_ & Ja & _). rewrite Ja. apply sum_zero. intros z Hz. apply in_map_iff in Hz. destruct Hz as (a & <- & Ha).
    apply IH; auto. eapply inside_trans; [|exact He]. econstructor; [exact Ha | constructor].
Qed.
End more.
