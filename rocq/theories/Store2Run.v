(* What a kernel computes depends on the elements it accesses only (C86). *)
From Verif Require Import Base Expr ExprProofs KernelModel ShiftSpec DiscModel LLFModel LLFProofs HybModel ProgModel BndModel SideModel CapModel FaceModel ShkModel
  StoreModel StoreSpec StoreProofs StoreRun Store2Spec.
From Verif Require AlgModel BCModel BCProofs LLFProps BndSpec DiscRun.
From Coq Require Import ZArith Reals Lia.
Local Open Scope list_scope.

Section one.
Variables (J : interp R) (k : nat) (sizes : list Z) (sch : scheme) (gamma : R) (av : averaging) (solution : list string) (dt : R) (ab : list R * list R).
Variable points : BCModel.bkernel -> list (list Z).
Hypothesis Hp : BndSpec.all_points points.
Notation agree := (fun M M' : memory => forall b y, stored sizes b y = true -> M b y = M' b y).
Notation RUN := (run_gkernel J k sizes sch gamma av solution dt ab points).
Definition inside_storage (x : gkernel) : Prop := forall b y, touched k sizes sch solution x b y -> stored sizes b y = true.
Definition proper (x : gkernel) : Prop :=
  match x with
  | Capture (HRec _ _ _) => exists o, supported sch o
  | Ordinary (Other (Inner pk)) => proper_exchange pk
  | _ => True
  end.

(* ---- the kernels of the boundary conditions ---- *)
Section wall.
Variable qs : list keq.
Notation inside := (fun x => forall l r b y, In (KEq l r) qs -> expr_reads l x b y \/ expr_reads r x b y -> stored sizes b y = true).
Lemma wall_point : forall x l (s s' : memory * (string -> R)), inside x -> incl l qs -> agree (fst s) (fst s') -> (forall g, snd s g = snd s' g) ->
  agree (fst (fold_left (BCModel.exec1 J x) l s)) (fst (fold_left (BCModel.exec1 J x) l s')) /\
  (forall g, snd (fold_left (BCModel.exec1 J x) l s) g = snd (fold_left (BCModel.exec1 J x) l s') g).
Proof.
  intros x. induction l as [|q l IH]; intros s s' Hx Hl HM HL; cbn [fold_left]; auto.
  assert (Hq : In q qs) by (apply Hl; left; auto).
  assert (Hv : forall l r, q = KEq l r -> BCModel.at_point J (fst s) (snd s) x r = BCModel.at_point J (fst s') (snd s') x r).
  { intros l0 r ->. apply BCProofs.at_point_ext; auto. intros b ix Hb. apply HM. apply (Hx l0 r); auto. right. exists ix. auto. }
  apply IH; auto; [intros y Hy; apply Hl; right; auto| |].
  - intros b z Hz. destruct q as [l0 r|bs]; [|apply HM; auto]. destruct l0 as [c|kd g|b0 ix|h args]; try (apply HM; auto).
    + destruct kd; apply HM; auto.
    + cbn [BCModel.exec1 fst snd]. unfold BCModel.upd. destruct (string_dec b0 b); [|apply HM; auto]. destruct (list_eq_dec Z.eq_dec (vadd x ix) z); [exact (Hv _ r eq_refl) | apply HM; auto].
  - intros g. destruct q as [l0 r|bs]; [|apply HL]. destruct l0 as [c|kd g0|b0 ix|h args]; try apply HL.
    destruct kd; try apply HL. cbn [BCModel.exec1 fst snd]. unfold BCModel.updl. destruct (string_dec g0 g); [exact (Hv _ r eq_refl) | apply HL].
Qed.
Lemma wall_agree : forall pts, (forall x, In x pts -> inside x) -> forall M M', agree M M' -> agree (BCModel.run_kernel J qs pts M) (BCModel.run_kernel J qs pts M').
Proof.
  unfold BCModel.run_kernel. induction pts as [|x pts IH]; intros Hx M M' HM; cbn [fold_left]; auto.
  apply IH; [intros z Hz; exact (Hx z (or_intror Hz))|]. unfold BCModel.run_point. refine (proj1 (wall_point x qs _ _ _ (incl_refl _) _ _)); cbn [fst snd]; auto. exact (Hx x (or_introl eq_refl)).
Qed.
Lemma wall_frame : forall pts, (forall x, In x pts -> inside x) -> forall M b y, stored sizes b y = false -> BCModel.run_kernel J qs pts M b y = M b y.
Proof.
  unfold BCModel.run_kernel. induction pts as [|x pts IH]; intros Hx M b y Hy; cbn [fold_left]; auto.
  rewrite IH; auto; [|intros z Hz; exact (Hx z (or_intror Hz))]. pose proof (Hx x (or_introl eq_refl)) as Ix. cbv beta in Ix. clear IH Hx.
  unfold BCModel.run_point. assert (G : forall l s, incl l qs -> fst (fold_left (BCModel.exec1 J x) l s) b y = fst s b y).
  { induction l as [|q l IH]; intros s Hl; cbn [fold_left]; auto. rewrite IH by (intros z Hz; apply Hl; right; auto).
    assert (Hq : In q qs) by (apply Hl; left; auto).
    destruct q as [l0 r|bs]; auto. destruct l0 as [c|kd g|b0 ix|h args]; auto; [destruct kd; auto|].
    cbn [BCModel.exec1 fst snd]. unfold BCModel.upd. destruct (string_dec b0 b) as [-> | N]; auto. destruct (list_eq_dec Z.eq_dec (vadd x ix) y) as [<- | N]; auto.
    rewrite (Ix _ _ b (vadd x ix) Hq) in Hy; [discriminate|]. left. exists ix. split; auto. left. auto. }
  apply (G qs (M, isym J KGridVar) (incl_refl _)).
Qed.
End wall.

(* ---- the formulas of the derivatives ---- *)
Lemma form_agree : forall f x M M', (forall b y, form_reads f x b y -> M b y = M' b y) -> rvalue J M x f = rvalue J M' x f.
Proof.
  assert (E : forall e x (M M' : memory), (forall b y, expr_reads e x b y -> M b y = M' b y) ->
    eval J (fun b ix => M b (at_offset x ix)) e = eval J (fun b ix => M' b (at_offset x ix)) e).
  { intros e x M M' H. apply eval_ext. intros b ix Hb. rewrite DiscRun.at_offset_vadd. apply H. exists ix. auto. }
  intros [e | pairs last inv] x M M' H; cbn [rvalue form_reads] in *; [apply E; auto|].
  rewrite (E inv x M M') by (intros b y Hb; apply H; auto). f_equal.
  destruct (find _ pairs) as [(ts & c)|]; [|apply E; intros b y Hb; apply H; auto].
  assert (G : forall l, incl l ts -> fold_right (fun p acc => fst p * eval J (fun b ix => M b (at_offset x ix)) (snd p) + acc)%R 0%R l =
    fold_right (fun p acc => fst p * eval J (fun b ix => M' b (at_offset x ix)) (snd p) + acc)%R 0%R l).
  { induction l as [|[w t] l IH]; intros Hl; cbn [fold_right fst snd]; auto. rewrite IH by (intros z Hz; apply Hl; right; auto).
    rewrite (E t x M M'); auto. intros b y Hb. apply H. right. exists w, t. split; auto. apply Hl. left. auto. }
  apply G. apply incl_refl.
Qed.

(* ---- all kernels ---- *)
Lemma index_in : forall a l i, index_of a l = Some i -> In a l.
Proof.
  induction l as [|b l IH]; intros i H; cbn [index_of] in H; [discriminate|]. destruct (String.eqb_spec a b) as [-> | N]; [left; auto|].
  destruct (index_of a l) as [j|]; [|discriminate]. right. apply (IH j eq_refl).
Qed.
Lemma kernel_agree : forall x st M M', inside_storage x -> proper x -> agree M M' -> agree (RUN M x st) (RUN M' x st).
Proof.
  intros x st M M' HC HP HM. destruct x as [((r, e), ranges) | [d works fl | kn] | [[bk | pk] | s]]; cbn [run_gkernel exec_relation exec_hkernel run_fkernel run_xkernel].
  - intros b y Hy. destruct (String.eqb b r && within ranges y) eqn:E; auto. apply andb_true_iff in E. destruct E as [_ E].
    apply eval_ext. intros c ix Hc. apply HM. rewrite DiscRun.at_offset_vadd. apply HC. exists y. split; auto. right. exists ix. auto.
  - intros b y Hy. destruct (index_of b works) as [i|]; auto. destruct (in_range 1 sizes [d] y) eqn:Ey; auto.
    assert (F : flux_at J sizes sch gamma av solution d fl M y = flux_at J sizes sch gamma av solution d fl M' y); [|rewrite F; auto].
    destruct HP as (o & Ho). unfold flux_at. f_equal. rewrite (LLFProps.C37_local sch o gamma av _ (fun j => cell_at J sizes solution d fl M' (move d j y)) 0 Ho); [reflexivity|].
    intros p Hpp. apply in_stencil in Hpp. rewrite Z.add_0_l.
    assert (N : forall c, In c (solution ++ flux_names (List.length sizes)) -> M c (move d p y) = M' c (move d p y)).
    { intros c Hc. apply HM. apply HC. exists y. split; auto. right. exists p. split; auto. }
    assert (V : forall c, In c (flux_names (List.length sizes)) -> M c (move d p y) = M' c (move d p y)) by (intros c Hc; apply N; apply in_app_iff; auto).
    unfold cell_at. f_equal.
    + apply map_ext_in. intros c Hc. apply N. apply in_app_iff. auto.
    + apply map_ext_in. intros f Hf. unfold value. apply eval_ext. intros c ix Hc. apply HM. apply HC. exists y. split; auto. right. exists p. split; auto.
      right. exists f. split; auto. exists ix. auto.
    + apply V. cbn. auto.
    + apply map_ext_in. intros c Hc. apply V. unfold flux_names. apply in_app_iff. right. exact Hc.
    + apply V. cbn. auto.
    + apply V. cbn. auto.
  - change (exec_kernel J k sizes M kn) with (run_pkernel J k sizes dt ab M (Spatial kn) st). change (exec_kernel J k sizes M' kn) with (run_pkernel J k sizes dt ab M' (Spatial kn) st).
    apply contained_agree; auto.
  - apply wall_agree; auto. intros z Hz l r b y Hin Hr. apply HC. exists z, l, r. split; auto. apply (Hp bk). auto.
  - apply contained_agree; auto.
  - unfold exec_kernel1. assert (G : forall l, incl l (sk_eqs s) -> forall M M', agree M M' ->
      agree (fold_left (exec_eq1 J k sizes (sk_ext s)) l M) (fold_left (exec_eq1 J k sizes (sk_ext s)) l M')).
    { clear M M' HM. induction l as [|[r f] l IH]; intros Hl M M' HM; cbn [fold_left]; auto.
      apply IH; [intros q Hq; apply Hl; right; auto|]. intros b y Hy. unfold exec_eq1. cbn [fst snd].
      destruct (String.eqb b r && in_range k sizes (sk_ext s) y) eqn:E; auto. apply andb_true_iff in E. destruct E as [_ E].
      apply form_agree. intros c z Hz. apply HM. apply HC. exists r, f, y. split; [apply Hl; left; auto|]. auto. }
    apply G; auto. apply incl_refl.
Qed.
Lemma kernel_frame : forall x st M, inside_storage x -> forall b y, stored sizes b y = false -> RUN M x st b y = M b y.
Proof.
  intros x st M HC b y Hy. destruct x as [((r, e), ranges) | [d works fl | kn] | [[bk | pk] | s]]; cbn [run_gkernel exec_relation exec_hkernel run_fkernel run_xkernel].
  - destruct (String.eqb_spec b r) as [-> | N]; auto. destruct (within ranges y) eqn:E; auto. rewrite HC in Hy; [discriminate|]. exists y. auto.
  - destruct (index_of b works) as [i|] eqn:Ei; auto. destruct (in_range 1 sizes [d] y) eqn:Ey; auto. rewrite HC in Hy; [discriminate|].
    exists y. split; auto. left. split; auto. apply (index_in b works i Ei).
  - change (exec_kernel J k sizes M kn) with (run_pkernel J k sizes dt ab M (Spatial kn) st). apply (contained_frame J k sizes dt ab (Spatial kn) st M HC); auto.
  - apply wall_frame; auto. intros z Hz l r c z' Hin Hr. apply HC. exists z, l, r. split; auto. apply (Hp bk). auto.
  - apply (contained_frame J k sizes dt ab pk st M HC); auto.
  - unfold exec_kernel1. assert (G : forall l, incl l (sk_eqs s) -> forall M, fold_left (exec_eq1 J k sizes (sk_ext s)) l M b y = M b y).
    { induction l as [|[r f] l IH]; intros Hl M0; cbn [fold_left]; auto. rewrite IH by (intros q Hq; apply Hl; right; auto).
      unfold exec_eq1. cbn [fst snd]. destruct (String.eqb_spec b r) as [-> | N]; auto.
      destruct (in_range k sizes (sk_ext s) y) eqn:E; auto. exfalso. rewrite HC in Hy; [discriminate|].
      exists r, f, y. split; [apply Hl; left; auto|]. auto. }
    apply G. apply incl_refl.
Qed.
(* programs whose kernels are of type A *)
Section events.
Variables (A : Type) (kind : A -> gkernel).
Definition run_all (tr : list (AlgModel.event A)) (M : memory) : memory :=
  fold_left (fun M ev => match ev with AlgModel.EKernel x _ st => RUN M (kind x) st | _ => M end) tr M.
Lemma all_agree : forall tr, (forall x it st, In (AlgModel.EKernel x it st) tr -> inside_storage (kind x) /\ proper (kind x)) ->
  forall M M', agree M M' -> agree (run_all tr M) (run_all tr M').
Proof.
  unfold run_all. induction tr as [|ev tr IH]; intros H M M' HM; cbn [fold_left]; auto.
  apply IH; [intros x it st Hin; apply (H x it st); right; auto|].
  destruct ev as [x it st | | |]; auto. destruct (H x it st (or_introl eq_refl)). apply kernel_agree; auto.
Qed.
Lemma all_frame : forall tr, (forall x it st, In (AlgModel.EKernel x it st) tr -> inside_storage (kind x) /\ proper (kind x)) ->
  forall M b y, stored sizes b y = false -> run_all tr M b y = M b y.
Proof.
  unfold run_all. induction tr as [|ev tr IH]; intros H M b y Hy; cbn [fold_left]; auto.
  rewrite IH; auto; [|intros x it st Hin; apply (H x it st); right; auto].
  destruct ev as [x it st | | |]; auto. destruct (H x it st (or_introl eq_refl)). apply kernel_frame; auto.
Qed.
End events.
End one.
