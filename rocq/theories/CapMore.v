(* Proofs about what the programs with shock capturing preserve. *)
From Verif Require Import Base BaseProofs Expr ExprProofs FDModel FDSpec FDProofs WorkModel WorkProofs ShiftSpec ShiftProofs DiscModel DiscSpec DiscProofs DiscRun DiscMain
  WFSpec WFProofs LLFModel LLFProofs ProgModel ProgSpec ProgProofs ProgProps HybModel HybSpec HybProofs HybMore InvSpec InvProofs CapModel CapSpec CapProofs.
From Verif Require AdvModel AdvSpec AdvProofs AlgModel RKModel RKSpec.
From Coq Require Import QArith ZArith Reals Lia Lra List Permutation FunctionalExtensionality.
Import ListNotations.
Local Close Scope Q_scope.
Local Open Scope list_scope.

(* ---- values seen through a map of the points ---- *)
Section map.
Variables (J : interp R) (k ndim : nat) (dirof : string -> nat) (h : nat -> R) (phi : list Z -> list Z).
Hypothesis Plen : forall x, List.length x = ndim -> List.length (phi x) = ndim.
Hypothesis Pmove : forall d j x, List.length x = ndim -> phi (move d j x) = move d j (phi x).
Lemma value_map : forall F1 F2 e x, List.length x = ndim ->
  (forall b ix, In (b, ix) (dsets e) -> ix = repeat 0%Z ndim /\ F2 b x = F1 b (phi x)) -> value J F2 x e = value J F1 (phi x) e.
Proof.
  intros F1 F2 e x L H. unfold value. apply eval_ext. intros b ix Hb. destruct (H b ix Hb) as (-> & E). rewrite !vadd_0_r by auto. auto.
Qed.
Lemma hybrid_map : forall F1 F2 wd1 wd2 e,
  (forall b ix, In (b, ix) (dsets e) -> ix = repeat 0%Z ndim /\ forall x, List.length x = ndim -> F2 b x = F1 b (phi x)) ->
  (forall f m, inside (WD f m) e -> forall x, List.length x = ndim -> wd2 m x = wd1 m (phi x)) ->
  forall x, List.length x = ndim -> hybrid_value J k dirof h F2 wd2 e x = hybrid_value J k dirof h F1 wd1 e (phi x).
Proof.
  intros F1 F2 wd1 wd2. induction e as [q|kd m|b ix|hd args IH] using expr_ind'; intros HM HW x L; auto.
  - cbn [hybrid_value]. destruct (HM b ix (or_introl eq_refl)) as (-> & E). rewrite !vadd_0_r by auto. auto.
  - rewrite Forall_forall in IH.
    assert (A : forall a x, In a args -> List.length x = ndim -> hybrid_value J k dirof h F2 wd2 a x = hybrid_value J k dirof h F1 wd1 a (phi x)).
    { intros a x' Ha L'. apply IH; auto.
      - intros b ix Hb. apply (HM b ix). rewrite dsets_app. apply in_flat_map. eauto.
      - intros f m Hi. apply (HW f). econstructor; eauto. }
    destruct (is_wd (EApp hd args)) eqn:W.
    + apply is_wd_iff in W. destruct W as (f & m & W). rewrite W, !hybrid_wd. apply (HW f); auto. rewrite W. constructor.
    + destruct (head_cd hd) as [-> | N].
      * cbn [hybrid_value]. destruct args as [|a cs]; auto. apply grid_ext. intros i. rewrite <- Pmove by auto. apply A; [left; auto|]. rewrite move_length. auto.
      * rewrite !hybrid_app by (auto; intros ? E; injection E; intros; auto). f_equal. apply map_ext_in. intros a Ha. apply A; auto.
Qed.
End map.
Lemma line_ext : forall sch g av line line', (forall j, line j = line' j) -> interface_flux sch g av line 0 = interface_flux sch g av line' 0.
Proof. intros sch g av l l' G. apply functional_extensionality in G. rewrite G. auto. Qed.

Section problem.
Variables (ts : timescheme) (J : interp R) (k : nat) (sh : shock) (dirof : string -> nat) (h : nat -> R) (g : R) (av : averaging) (sizes : list Z).
Variables (coordinate : nat -> string) (fluxes : nat -> list expr) (sys crs : list (string * expr)) (known : list string).
Notation ndim := (List.length sizes).
Hypothesis HJ : real_arithmetic J.
Hypothesis Hsup : usable_scheme sh.
Hypothesis PP : shock_problem ndim (reach sh) k dirof (register_of ts) coordinate fluxes sys crs known.
Variable rank : string -> nat.
Hypothesis Hrank : forall b e c ix, In (b, e) crs -> In (c, ix) (dsets e) -> In c (map fst crs) -> (rank c < rank b)%nat.
Notation FD u S F := (fields J sizes sys crs S u F).
Notation HF0 := (cp_form _ _ _ _ _ _ _ _ _ _ PP).
Notation SS0 := (hs_shock _ _ _ _ _ _ HF0).
Notation FLUX d F x := (numerical_flux J (recon sh) g av (map fst sys) ndim d (fluxes d) F x).
Definition legible (b : string) : Prop := ~ private (register_of ts) sys b /\ ~ In b (map fst (disc_eqs sys)).
Local Hint Unfold legible : core.

Lemma legible_readable : forall b, legible b -> readable ts sys crs b.
Proof.
  intros b (N1 & N2). unfold readable, given. destruct (in_dec string_dec b (map fst sys)); [auto|]. destruct (in_dec string_dec b (map fst crs)); auto 10.
Qed.
Lemma equation_reads : forall v rhs b ix, In (v, rhs) sys -> In (b, ix) (dsets rhs) -> ix = repeat 0%Z ndim /\ legible b.
Proof.
  intros v rhs b ix Hin Hb. destruct (in_disc sys v rhs Hin) as (r & Hr). destruct (ss_arrays _ _ _ _ _ _ SS0 r rhs b ix Hr Hb) as (E & N1 & N2). auto.
Qed.
Lemma relation_legible : forall b e c ix, In (b, e) crs -> In (c, ix) (dsets e) -> ix = repeat 0%Z ndim /\ legible c.
Proof. intros b e c ix Hin Hc. destruct (cp_local _ _ _ _ _ _ _ _ _ _ PP b e c ix Hin Hc) as (E & N1 & N2). auto. Qed.
Lemma flux_legible : forall d f b ix, (d < ndim)%nat -> In f (fluxes d) -> In (b, ix) (dsets f) -> ix = repeat 0%Z ndim /\ legible b.
Proof.
  intros d f b ix Hd Hf Hb. destruct (ss_fluxes _ _ _ _ _ _ SS0 d Hd) as (Lf & _). apply In_nth with (d := ENum 0) in Hf. destruct Hf as (i & Hi & <-).
  destruct (nth_error (disc_eqs sys) i) as [(r & rhs)|] eqn:E; [|apply nth_error_None in E; lia].
  assert (X : inside (WD (nth i (fluxes d) (ENum 0)) (coordinate d)) rhs) by (apply (ss_one _ _ _ _ _ _ SS0 i r rhs E); exists d; auto).
  destruct (ss_arrays _ _ _ _ _ _ SS0 r rhs b ix) as (X1 & X2 & X3); [eapply nth_error_In; eauto| |auto].
  eapply inside_dsets; [exact X|]. unfold WD. rewrite dsets_app. apply in_flat_map. exists (nth i (fluxes d) (ENum 0)). split; [left|]; auto.
Qed.
Lemma velocity_flow : forall q, In q (firstn ndim ["u0"; "u1"; "u2"]%string) -> In q (flow_names ndim).
Proof. intros q Hq. unfold flow_names. apply in_app_iff. auto. Qed.
(* properties of arrays that relations inherit *)
Lemma handed_on : forall (P : string -> Prop), (forall b, In b (map fst sys) -> P b) -> (forall b, given ts sys crs b -> P b) ->
  (forall b e, In (b, e) crs -> (forall c ix, In (c, ix) (dsets e) -> ix = repeat 0%Z ndim /\ P c) -> P b) -> forall b, readable ts sys crs b -> P b.
Proof.
  intros P Hs Hg Hr.
  assert (G : forall n b, (rank b < n)%nat -> readable ts sys crs b -> P b).
  { induction n as [|n IH]; intros b Hn R; [lia|]. destruct R as [R | [R | R]]; auto. apply in_named in R. destruct R as (e & He).
    apply (Hr b e He). intros c ix Hc. destruct (relation_legible b e c ix He Hc) as (Ex & Lc). apply legible_readable in Lc. split; auto.
    destruct Lc as [Rc | [Rc | Rc]]; auto. apply IH; [|right; left; auto]. specialize (Hrank b e c ix He Hc Rc). lia. }
  intros b. apply (G (Datatypes.S (rank b))). lia.
Qed.

(* ---- the semi-discrete system exists ---- *)
Notation VALUES S u n := (values J sizes sys crs S u n).
Lemma values_same : forall S u n m b x, (rank b < n)%nat -> (rank b < m)%nat -> VALUES S u n b x = VALUES S u m b x.
Proof.
  intros S u. induction n as [|n IH]; intros [|m] b x Hn Hm; try lia. cbn [values]. destruct (in_dec string_dec b (map fst sys)); auto.
  destruct (ProgModel.relation crs b) as [e|] eqn:E; auto. apply (relation_some k sh dirof sizes coordinate fluxes sys crs known (register_of ts) PP) in E.
  unfold value. apply eval_ext. intros c ix Hc. destruct (in_dec string_dec c (map fst crs)) as [I | N].
  - specialize (Hrank b e c ix E Hc I). apply IH; lia.
  - destruct n as [|n], m as [|m]; cbn [values]; destruct (in_dec string_dec c (map fst sys)); auto;
    (assert (X : ProgModel.relation crs c = None) by (apply (relation_none k sh dirof sizes coordinate fluxes sys crs known (register_of ts) PP); auto)); rewrite X; auto.
Qed.
Definition field (S : memory) (u : ProgSpec.solution) : memory := fun b x => VALUES S u (Datatypes.S (rank b)) b x.
Lemma fields_found : forall S u, FD u S (field S u).
Proof.
  intros S u. unfold field. constructor.
  - intros b x Hb L. cbn [values]. destruct (in_dec string_dec b (map fst sys)) as [|N]; auto. destruct (N Hb).
  - intros b e x He L. assert (Hb : In b (map fst crs)) by (eapply ProgProofs.named; eauto).
    assert (E : ProgModel.relation crs b = Some e) by (apply (relation_some k sh dirof sizes coordinate fluxes sys crs known (register_of ts) PP); auto).
    cbn [values]. destruct (in_dec string_dec b (map fst sys)) as [I|N]; [destruct (proj1 (proj2 (cp_names _ _ _ _ _ _ _ _ _ _ PP b Hb)) I)|].
    rewrite E. unfold value. apply eval_ext. intros c ix Hc. destruct (in_dec string_dec c (map fst crs)) as [Ic | Nc].
    + pose proof (Hrank b e c ix He Hc Ic). apply (values_same S u (rank b) (Datatypes.S (rank c)) c (vadd x ix)); lia.
    + assert (X : ProgModel.relation crs c = None) by (apply (relation_none k sh dirof sizes coordinate fluxes sys crs known (register_of ts) PP); auto).
      destruct (rank b); cbn [values]; destruct (in_dec string_dec c (map fst sys)); auto; rewrite X; auto.
  - intros b x N1 N2. cbn [values]. destruct (in_dec string_dec b (map fst sys)) as [I|N]; [destruct (N1 I)|].
    assert (X : ProgModel.relation crs b = None) by (apply (relation_none k sh dirof sizes coordinate fluxes sys crs known (register_of ts) PP); auto). rewrite X. auto.
Qed.
Definition face_of (F : memory) (d : nat) (x : list Z) : list R := match FLUX d F x with Ok w => w | Err _ => [] end.
Lemma face_found : forall F d x, FLUX d F x = Ok (face_of F d x).
Proof.
  intros F d x. destruct (scheme_supported sh Hsup) as (o & So).
  assert (E : exists w, FLUX d F x = Ok w) by (unfold numerical_flux; apply (flux_total _ o); auto).
  unfold face_of. destruct E as (w & E). rewrite E. auto.
Qed.
Notation RHS S u i rhs x := (hybrid_value J k dirof h (field S u) (flux_difference dirof h (face_of (field S u)) i) rhs x).
Fixpoint slope_of (S : memory) (u : ProgSpec.solution) (i : nat) (l : list (string * expr)) (v : string) (x : list Z) : R :=
  match l with
  | [] => 0%R
  | (w, rhs) :: l => if string_dec v w then RHS S u i rhs x else slope_of S u (Datatypes.S i) l v x
  end.
Definition shock_slope (S : memory) (u : ProgSpec.solution) : ProgSpec.solution := fun i => slope_of S u 0 sys (fst i) (snd i).
Lemma advanced_nodup : NoDup (map fst sys).
Proof. pose proof (cp_arrays _ _ _ _ _ _ _ _ _ _ PP) as H. unfold AdvSpec.distinct_arrays in H. rewrite advanced_eq in H. apply AdvProofs.NoDup_app_remove_r in H. exact H. Qed.
Lemma shock_slope_value : forall S u i v rhs x, nth_error sys i = Some (v, rhs) -> shock_slope S u (v, x) = RHS S u i rhs x.
Proof.
  intros S u i v rhs x Hin. unfold shock_slope. cbn [fst snd]. pose proof advanced_nodup as ND.
  assert (G : forall l j i, NoDup (map fst l) -> nth_error l i = Some (v, rhs) -> slope_of S u j l v x = RHS S u (j + i) rhs x); [|apply (G sys 0%nat i); auto].
  clear i Hin ND. induction l as [|(w, e) l IH]; intros j i ND Hin; [destruct i; discriminate|]. cbn [map] in ND. inversion ND; subst. cbn [slope_of]. destruct i as [|i]; cbn [nth_error] in Hin.
  - injection Hin as -> ->. destruct (string_dec v v) as [_ | N]; [|destruct N; auto]. rewrite Nat.add_0_r. auto.
  - destruct (string_dec v w) as [-> | N].
    + exfalso. apply H1. apply nth_error_In in Hin. cbn [fst]. eapply ProgProofs.named; eauto.
    + rewrite (IH _ i) by auto. f_equal. f_equal. lia.
Qed.
Lemma shock_slope_semi_discrete : forall S, shock_semi_discrete J k dirof h (recon sh) g av fluxes sizes sys crs S (shock_slope S).
Proof.
  intros S u. exists (field S u), (face_of (field S u)). split; [apply fields_found|]. split; [intros; apply face_found|].
  intros i v rhs x Hin _. apply shock_slope_value. auto.
Qed.

(* ---- a map of the points that carries one problem to another ---- *)
Section map.
Variable phi : list Z -> list Z.
Hypothesis Plen : forall x, List.length x = ndim -> List.length (phi x) = ndim.
Hypothesis Pmove : forall d j x, List.length x = ndim -> phi (move d j x) = move d j (phi x).
Variables F1 F2 : memory.
Hypothesis HR : forall b, readable ts sys crs b -> forall x, List.length x = ndim -> F2 b x = F1 b (phi x).
Lemma face_map : forall d x, (d < ndim)%nat -> List.length x = ndim -> face_of F2 d x = face_of F1 d (phi x).
Proof.
  intros d x Hd L. assert (E : Ok (face_of F2 d x) = Ok (face_of F1 d (phi x))); [|congruence]. rewrite <- !face_found. unfold numerical_flux. apply line_ext. intros j. cbv zeta.
  rewrite <- Pmove by auto. set (y := move d j x). assert (Ly : List.length y = ndim) by (unfold y; rewrite move_length; auto). clearbody y.
  assert (P : forall q, In q ("p"%string :: flow_names ndim) -> F2 q y = F1 q (phi y)).
  { intros q Hq. apply HR; auto. apply legible_readable. apply (cp_flow _ _ _ _ _ _ _ _ _ _ PP q Hq). }
  f_equal.
  - apply map_ext_in. intros q Hq. apply HR; auto. left. auto.
  - apply map_ext_in. intros f Hf. apply (value_map J ndim phi Plen); auto. intros b ix Hb. destruct (flux_legible d f b ix Hd Hf Hb) as (Ex & Lb).
    split; auto. apply HR; auto. apply legible_readable. auto.
  - apply P. cbn. auto.
  - apply map_ext_in. intros q Hq. apply P. right. apply velocity_flow. auto.
  - apply P. cbn. auto.
  - apply P. cbn. auto.
Qed.
Lemma rhs_map : forall i v rhs x, nth_error sys i = Some (v, rhs) -> List.length x = ndim ->
  hybrid_value J k dirof h F2 (flux_difference dirof h (face_of F2) i) rhs x = hybrid_value J k dirof h F1 (flux_difference dirof h (face_of F1) i) rhs (phi x).
Proof.
  intros i v rhs x Hi L. pose proof (nth_error_In _ _ Hi) as Hin. apply (hybrid_map J k ndim dirof h phi Plen Pmove); auto.
  - intros b ix Hb. destruct (equation_reads v rhs b ix Hin Hb) as (Ex & Lb). split; auto. apply HR. apply legible_readable. auto.
  - intros f m Hf y Ly. unfold flux_difference.
    assert (Hm : (dirof m < ndim)%nat).
    { assert (E : exists r, nth_error (disc_eqs sys) i = Some (r, rhs)).
      { unfold disc_eqs. clear - Hi. revert Hi. generalize 0%nat. revert i. generalize sys. induction sys0 as [|(w, e) l IH]; intros [|i] n Hi; try discriminate.
        - injection Hi as -> ->. cbn. eauto.
        - cbn in *. apply (IH i). auto. }
      destruct E as (r & E). assert (X : exists d, (d < ndim)%nat /\ WD f m = WD (nth i (fluxes d) (ENum 0)) (coordinate d)) by (apply (ss_one _ _ _ _ _ _ SS0 i r rhs E); split; eauto).
      destruct X as (d & Hd & X). unfold WD in X. injection X as _ ->. rewrite (ss_coordinate _ _ _ _ _ _ SS0 d Hd). auto. }
    rewrite !face_map by (rewrite ?move_length; auto). rewrite Pmove by auto. auto.
Qed.
End map.
Lemma fields_map : forall phi S1 S2 u1 u2 F1 F2, (forall x, List.length x = ndim -> List.length (phi x) = ndim) ->
  FD u1 S1 F1 -> FD u2 S2 F2 ->
  (forall v x, In v (map fst sys) -> List.length x = ndim -> u2 (v, wrap sizes x) = u1 (v, wrap sizes (phi x))) ->
  (forall b x, given ts sys crs b -> List.length x = ndim -> S2 b x = S1 b (phi x)) ->
  forall b, readable ts sys crs b -> forall x, List.length x = ndim -> F2 b x = F1 b (phi x).
Proof.
  intros phi S1 S2 u1 u2 F1 F2 Plen H1 H2 Hu HS. apply (handed_on (fun b => forall x, List.length x = ndim -> F2 b x = F1 b (phi x))).
  - intros b Hb x Lx. rewrite (f_solution _ _ _ _ _ _ _ H1), (f_solution _ _ _ _ _ _ _ H2) by auto. auto.
  - intros b (N1 & N2 & N3 & N4) x Lx. rewrite (f_other _ _ _ _ _ _ _ H1), (f_other _ _ _ _ _ _ _ H2) by auto. apply HS; auto. repeat split; auto.
  - intros b e He IH x Lx. rewrite (f_relation _ _ _ _ _ _ _ H1 b e), (f_relation _ _ _ _ _ _ _ H2 b e) by auto.
    apply (value_map J ndim phi Plen); auto. intros c ix Hc. destruct (IH c ix Hc) as (-> & E). split; auto.
Qed.

(* ---- moved problems ---- *)
Lemma shock_slope_moved : forall s S1 S2 u1 u2, List.length s = ndim -> (forall d, (d < ndim)%nat -> (0 < nth d sizes 0)%Z) ->
  (forall v x, In v (map fst sys) -> grid_point sizes x -> u2 (v, x) = u1 (v, wrap sizes (vadd x s))) ->
  (forall b x, given ts sys crs b -> List.length x = ndim -> S2 b x = S1 b (vadd x s)) ->
  forall v x, In v (map fst sys) -> List.length x = ndim -> shock_slope S2 u2 (v, x) = shock_slope S1 u1 (v, vadd x s).
Proof.
  intros s S1 S2 u1 u2 Ls Hpos Hu HS v x Hv L. apply ProgProofs.in_named in Hv. destruct Hv as (rhs & Hv). apply In_nth_error in Hv. destruct Hv as (i & Hi).
  rewrite !(shock_slope_value _ _ i v rhs) by auto. apply (rhs_map (fun x => vadd x s)) with (v := v); auto.
  - intros y Ly. rewrite vadd_len; lia.
  - intros d j y Ly. rewrite move_vadd. auto.
  - apply (fields_map (fun x => vadd x s) S1 S2 u1 u2); auto; try apply fields_found.
    + intros y Ly. rewrite vadd_len; lia.
    + intros q y Hq Ly. rewrite Hu; auto; [|apply wrap_in; auto]. rewrite wrap_vadd by auto. auto.
Qed.
Lemma fields_block_periodic : forall ns, sizes = map Z.of_nat ns -> forall S u F, FD u S F -> (forall b, given ts sys crs b -> block_periodic ns (S b)) ->
  forall b, readable ts sys crs b -> block_periodic ns (F b).
Proof.
  intros ns Hns S u F HF PS b Hb d x Hd L. assert (Ln : ndim = List.length ns) by (rewrite Hns, map_length; auto). symmetry.
  apply (fields_map (fun x => move d (Z.of_nat (nth d ns 0%nat)) x) S S u u F F); auto; try lia.
  - intros y Ly. rewrite move_length. auto.
  - intros v y Hv Ly. f_equal. f_equal. symmetry. rewrite <- (wrap_move sizes d y) by lia. f_equal. f_equal. rewrite Hns. change 0%Z with (Z.of_nat 0). rewrite map_nth. auto.
  - intros c y Hc Ly. symmetry. apply (PS c Hc); lia.
Qed.
Lemma shock_slope_periodic : forall ns, sizes = map Z.of_nat ns -> forall S u, (forall b, given ts sys crs b -> block_periodic ns (S b)) ->
  forall v, In v (map fst sys) -> forall x, List.length x = ndim -> shock_slope S u (v, wrap sizes x) = shock_slope S u (v, x).
Proof.
  intros ns Hns S u PS v Hv x L. assert (Ln : ndim = List.length ns) by (rewrite Hns, map_length; auto).
  apply ProgProofs.in_named in Hv. destruct Hv as (rhs & Hv). apply In_nth_error in Hv. destruct Hv as (i & Hi).
  rewrite !(shock_slope_value _ _ i v rhs) by auto.
  assert (W : forall f, block_periodic ns f -> forall x, List.length x = ndim -> f (wrap sizes x) = f x :> R) by (intros f Pf y Ly; rewrite Hns; apply wrap_periodic; auto; lia).
  apply (W (fun x => RHS S u i rhs x)); auto. intros d y Hd Ly. symmetry. apply (rhs_map (fun x => move d (Z.of_nat (nth d ns 0%nat)) x)) with (v := v); auto.
  - intros z Lz. rewrite move_length. auto.
  - intros e j z Lz. apply move_comm.
  - intros b Hb z Lz. symmetry. apply (fields_block_periodic ns Hns S u _ (fields_found S u) PS b Hb); lia.
  - lia.
Qed.

(* ---- conservation ---- *)
Notation HW := (wf_hweaken _ _ _ reserved _ _ _ (fun b H => or_introl H) HF0).
(* the arrays, with the registers set to 0 *)
Definition blank (c : memory) : memory := fun b => if in_dec string_dec b (map (register_of ts) (map fst sys)) then fun _ => 0%R else c b.
Lemma not_blank : forall c b, legible b -> blank c b = c b.
Proof.
  intros c b (N & _). unfold blank. destruct in_dec as [I | _]; auto. destruct N. right. apply in_map_iff in I. destruct I as (v & <- & Hv). eauto.
Qed.
Lemma disc_nth : forall i v rhs, nth_error sys i = Some (v, rhs) -> exists r, nth_error (disc_eqs sys) i = Some (r, rhs).
Proof.
  intros i v rhs Hi. unfold disc_eqs. revert Hi. generalize 0%nat. revert i. generalize sys. induction sys0 as [|(w, e) l IH]; intros [|i] n Hi; try discriminate.
  - injection Hi as -> ->. cbn. eauto.
  - cbn in *. apply (IH i). auto.
Qed.
Lemma shock_conserved : forall ns, sizes = map Z.of_nat ns -> forall S, (forall b, given ts sys crs b -> block_periodic ns (S b)) ->
  forall v rhs, In (v, rhs) sys -> divergence_form rhs -> forall u, block_total ns (fun x => shock_slope S u (v, x)) = 0%R.
Proof.
  intros ns Hns S PS v rhs Hin HD u. assert (Ln : List.length ns = ndim) by (rewrite Hns, map_length; auto).
  apply In_nth_error in Hin. destruct Hin as (i & Hi). destruct (disc_nth i v rhs Hi) as (r & Er).
  pose proof (fields_block_periodic ns Hns S u _ (fields_found S u) PS) as PF.
  rewrite (bt_ext ns _ (hybrid_value J k dirof h (blank (field S u)) (flux_difference dirof h (face_of (field S u)) i) rhs)).
  2: { intros x Lx. rewrite (shock_slope_value S u i v rhs x Hi). symmetry. apply (hybrid_map J k ndim dirof h (fun x => x)); auto; [|lia].
       intros b ix Hb. destruct (equation_reads v rhs b ix (nth_error_In _ _ Hi) Hb) as (Ex & Lb). split; auto. intros y _. rewrite not_blank; auto. }
  apply (conserved_total J k ndim dirof h HJ coordinate fluxes (disc_eqs sys) HW ns _ _ i r rhs); auto.
  - intros b N1 N2. unfold blank. destruct in_dec as [I | N]; [intros d x _ _; auto|]. apply PF. apply legible_readable. split; auto.
    intros [X | (w & Hw & X)]; [auto|]. apply N. apply in_map_iff. eauto.
  - intros d Hd e x He L. symmetry. apply (face_map (fun x => move e (Z.of_nat (nth e ns 0%nat)) x)); auto.
    + intros y Ly. rewrite move_length. auto.
    + intros d' j y Ly. apply move_comm.
    + intros b Hb y Ly. symmetry. apply PF; auto; lia.
    + lia.
Qed.

(* ---- uniform states ---- *)
Lemma fields_even : forall S u F (c : string -> R), FD u S F -> (forall d, (d < ndim)%nat -> (0 < nth d sizes 0)%Z) ->
  (forall v x, In v (map fst sys) -> grid_point sizes x -> u (v, x) = c v) -> (forall b x y, given ts sys crs b -> S b x = S b y) ->
  forall b, readable ts sys crs b -> forall x y, List.length x = ndim -> List.length y = ndim -> F b x = F b y.
Proof.
  intros S u F c HF Hpos Hu HS. apply (handed_on (fun b => forall x y, List.length x = ndim -> List.length y = ndim -> F b x = F b y)).
  - intros b Hb x y Lx Ly. rewrite !(f_solution _ _ _ _ _ _ _ HF) by auto. rewrite !Hu; auto; apply wrap_in; auto.
  - intros b (N1 & N2 & N3 & N4) x y Lx Ly. rewrite !(f_other _ _ _ _ _ _ _ HF) by auto. apply HS. repeat split; auto.
  - intros b e He IH x y Lx Ly. rewrite !(f_relation _ _ _ _ _ _ _ HF b e) by auto. unfold value. apply eval_ext. intros b' ix Hb.
    destruct (IH b' ix Hb) as (-> & E). rewrite !vadd_0_r by auto. auto.
Qed.
Lemma shock_steady : forall S u (c : string -> R), (forall d, (d < ndim)%nat -> (0 < nth d sizes 0)%Z) ->
  (forall v x, In v (map fst sys) -> grid_point sizes x -> u (v, x) = c v) -> (forall b x y, given ts sys crs b -> S b x = S b y) ->
  forall v rhs x, In (v, rhs) sys -> made_of any_derivative rhs -> List.length x = ndim -> shock_slope S u (v, x) = 0%R.
Proof.
  intros S u c Hpos Hu HS v rhs x Hin Md L. apply In_nth_error in Hin. destruct Hin as (i & Hi). destruct (disc_nth i v rhs Hi) as (r & Er).
  rewrite (shock_slope_value S u i v rhs x Hi). pose proof (fields_even S u _ c (fields_found S u) Hpos Hu HS) as U.
  set (o := repeat 0%Z ndim). assert (Lo : List.length o = ndim) by apply repeat_length.
  assert (HF : forall d y, (d < ndim)%nat -> List.length y = ndim -> face_of (field S u) d y = face_of (field S u) d o).
  { intros d y Hd Ly. assert (E : Ok (face_of (field S u) d y) = Ok (face_of (field S u) d o)); [|congruence]. rewrite <- !face_found. unfold numerical_flux. apply line_ext. intros j. cbv zeta.
    assert (P : forall q, In q ("p"%string :: flow_names ndim) -> field S u q (move d j y) = field S u q (move d j o)).
    { intros q Hq. apply U; rewrite ?move_length; auto. apply legible_readable. apply (cp_flow _ _ _ _ _ _ _ _ _ _ PP q Hq). }
    f_equal.
    - apply map_ext_in. intros q Hq. apply U; rewrite ?move_length; auto. left. auto.
    - apply map_ext_in. intros f Hf. unfold value. apply eval_ext. intros b ix Hb. destruct (flux_legible d f b ix Hd Hf Hb) as (-> & Lb).
      rewrite !vadd_0_r by (rewrite move_length; auto). apply U; rewrite ?move_length; auto. apply legible_readable. auto.
    - apply P. cbn. auto.
    - apply map_ext_in. intros q Hq. apply P. right. apply velocity_flow. auto.
    - apply P. cbn. auto.
    - apply P. cbn. auto. }
  rewrite (hybrid_map J k ndim dirof h (fun x => x) (fun _ H => H) (fun _ _ _ _ => eq_refl) (fun b _ => blank (field S u) b o) _
    (flux_difference dirof h (fun d _ => face_of (field S u) d o) i)); auto.
  - apply (uniform_zero J k ndim dirof h HJ coordinate fluxes (disc_eqs sys) HW _ _ i r rhs Er); auto. constructor.
  - intros b ix Hb. destruct (equation_reads v rhs b ix (nth_error_In _ _ Hi) Hb) as (Ex & Lb). split; auto. intros y Ly. rewrite not_blank; auto. apply U; auto. apply legible_readable. auto.
  - intros f m Hf y Ly. unfold flux_difference.
    assert (Hm : (dirof m < ndim)%nat).
    { assert (X : exists d, (d < ndim)%nat /\ WD f m = WD (nth i (fluxes d) (ENum 0)) (coordinate d)) by (apply (ss_one _ _ _ _ _ _ SS0 i r rhs Er); split; eauto).
      destruct X as (d & Hd & X). unfold WD in X. injection X as _ ->. rewrite (ss_coordinate _ _ _ _ _ _ SS0 d Hd). auto. }
    rewrite (HF _ y), (HF _ (move (dirof m) (-1) y)) by (rewrite ?move_length; auto). auto.
Qed.
End problem.
