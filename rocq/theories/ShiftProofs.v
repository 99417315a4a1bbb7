From Verif Require Import Base Expr ExprProofs FDModel FDProofs ShiftModel ShiftSpec AlgProofs.
From Coq Require Import QArith ZArith Reals Qreals Lia Lra.
Local Close Scope Q_scope.

Lemma shift_move : forall d v x, shift_ix d v x = move d v x.
Proof. induction d; intros v [|i x]; cbn; auto. f_equal. apply IHd. Qed.
Lemma move_length : forall d v x, List.length (move d v x) = List.length x.
Proof. induction d; intros v [|i x]; cbn; auto. Qed.
Lemma vadd_move : forall d v x ix, vadd (move d v x) ix = vadd x (move d v ix).
Proof.
  induction d; intros v [|i x] [|j ix]; cbn; auto.
  - f_equal. lia.
  - f_equal. apply IHd.
Qed.
Lemma move_move : forall d v w x, move d v (move d w x) = move d (w + v) x.
Proof. induction d; intros v w [|i x]; cbn; auto; f_equal; [lia | apply IHd]. Qed.
Lemma move_inj : forall d v w x, (d < List.length x)%nat -> move d v x = move d w x -> v = w.
Proof.
  induction d; intros v w [|i x] L E; cbn in *; try lia; injection E.
  - lia.
  - intros E'. apply (IHd v w x); auto. lia.
Qed.

(* the loop is a relocation by a function *)
Definition step (d : nat) (v : Z) (a x : dset) : dset := if dset_eq_dec x a then shift_dset d v a else x.
Fixpoint steps (d : nat) (v : Z) (order : list dset) (x : dset) : dset :=
  match order with [] => x | a :: order => steps d v order (step d v a x) end.

Lemma shift_loop_steps : forall d v order e, (forall x, In x order -> (d < List.length (snd x))%nat) ->
  shift_loop d v order e = Ok (map_dsets (steps d v order) e).
Proof.
  induction order as [|a order IH]; intros e H; cbn [shift_loop steps].
  - rewrite map_dsets_id. reflexivity.
  - replace (Nat.ltb d (List.length (snd a))) with true
      by (symmetry; apply Nat.ltb_lt, H; left; auto).
    rewrite replace1_map_dsets, IH by (intros; apply H; right; auto). rewrite map_dsets_map_dsets. reflexivity.
Qed.

Lemma steps_id : forall d v order x, ~ In x order -> steps d v order x = x.
Proof.
  induction order as [|a order IH]; intros x H; cbn [steps]; auto.
  unfold step. destruct (dset_eq_dec x a) as [-> | N]; [exfalso; apply H; left; auto|].
  apply IH. intro. apply H. right. auto.
Qed.
Lemma steps_app : forall d v l1 l2 x, steps d v (l1 ++ l2) x = steps d v l2 (steps d v l1 x).
Proof. induction l1; intros; cbn [steps app]; auto. Qed.
Lemma shift_shift : forall d v w x, shift_dset d v (shift_dset d w x) = shift_dset d (w + v) x.
Proof. intros. unfold shift_dset. cbn. rewrite !shift_move, move_move. reflexivity. Qed.
Lemma shift_zero : forall d x, shift_dset d 0 x = x.
Proof.
  intros d [b ix]. unfold shift_dset. cbn. f_equal. revert d. induction ix; intros [|d]; cbn; auto; f_equal; auto. lia.
Qed.
Lemma steps_multiple : forall d v order x, exists k : nat,
  steps d v order x = shift_dset d (Z.of_nat k * v) x /\ (In x order -> (1 <= k)%nat).
Proof.
  induction order as [|a order IH]; intros x; cbn [steps].
  - exists 0%nat. cbn. rewrite shift_zero. split; auto. intros [].
  - unfold step. destruct (dset_eq_dec x a) as [-> | N].
    + destruct (IH (shift_dset d v a)) as (k & E & _). exists (S k). rewrite E, shift_shift. split; [|lia].
      f_equal. lia.
    + destruct (IH x) as (k & E & H). exists k. split; auto. intros [C | C]; [congruence | auto].
Qed.


Lemma shift_dset_move : forall d v a, shift_dset d v a = (fst a, move d v (snd a)).
Proof. intros. unfold shift_dset. rewrite shift_move. reflexivity. Qed.

Lemma steps_good : forall d v order, NoDup order -> no_collision d v order ->
  forall a, In a order -> steps d v order a = shift_dset d v a.
Proof.
  intros d v order ND NC a Ha. apply in_split in Ha. destruct Ha as (l1 & l2 & ->).
  rewrite steps_app. rewrite (steps_id d v l1 a).
  - cbn [steps]. unfold step. destruct (dset_eq_dec a a); [|congruence].
    apply steps_id. rewrite shift_dset_move. eapply NC. reflexivity.
  - apply NoDup_remove_2 in ND. intro. apply ND. apply in_app_iff. auto.
Qed.
Lemma steps_bad : forall d v order, NoDup order -> (forall a, In a order -> (d < List.length (snd a))%nat) ->
  (forall a, In a order -> steps d v order a = shift_dset d v a) -> no_collision d v order.
Proof.
  intros d v order ND L H l1 a l2 E C.
  assert (Ha : In a order) by (rewrite E; apply in_app_iff; right; left; auto).
  pose proof (H a Ha) as S. rewrite E, steps_app, (steps_id d v l1 a) in S.
  - cbn [steps] in S. unfold step in S. destruct (dset_eq_dec a a); [|congruence].
    rewrite <- shift_dset_move in C.
    destruct (steps_multiple d v l2 (shift_dset d v a)) as (k & Ek & Hk). specialize (Hk C).
    rewrite Ek, shift_shift in S. unfold shift_dset in S. injection S as S. rewrite !shift_move in S.
    apply move_inj in S; [|apply L; auto].
    assert (v = 0)%Z by nia. subst v. rewrite E in ND. apply NoDup_remove_2 in ND. apply ND, in_app_iff. right.
    rewrite shift_zero in C. auto.
  - rewrite E in ND. apply NoDup_remove_2 in ND. intro. apply ND, in_app_iff. auto.
Qed.

Lemma value_shift : forall V (J : interp V) M x d v e,
  value J M x (map_dsets (shift_dset d v) e) = value J M (move d v x) e.
Proof.
  intros. unfold value. rewrite eval_map_dsets. apply eval_ext. intros b ix _. cbn.
  rewrite shift_move, vadd_move. reflexivity.
Qed.

(* the term interpretation *)
Definition terms : interp expr := {| inum := ENum; isym := ESym; iapp := EApp |}.
Lemma vadd_zero : forall n ix, List.length ix = n -> vadd (repeat 0%Z n) ix = ix.
Proof. induction n; intros [|i ix] H; cbn in *; try lia; auto. f_equal. apply IHn. lia. Qed.
Lemma value_terms : forall n e, on_grid n e -> value terms EDat (repeat 0%Z n) e = e.
Proof.
  intros n e H. unfold value. rewrite (eval_ext _ _ EDat).
  - clear. induction e as [q|k s|b ix|h args IH] using expr_ind'; cbn; auto. f_equal.
    rewrite <- (map_id args) at 2. apply map_ext_in. rewrite Forall_forall in IH. auto.
  - intros b ix Hin. rewrite (vadd_zero n ix); auto. eapply H; eauto.
Qed.
Lemma on_grid_map : forall n e f, on_grid n e -> (forall x, In x (dsets e) -> List.length (snd (f x)) = n) ->
  on_grid n (map_dsets f e).
Proof.
  intros n e f H Hf b ix Hin. rewrite dsets_map_dsets in Hin. apply in_map_iff in Hin.
  destruct Hin as (y & E & Hy). specialize (Hf y Hy). rewrite E in Hf. exact Hf.
Qed.

Lemma shift_loop_iff : forall n e d v order, on_grid n e -> (d < n)%nat -> enumerates order e ->
  exists e', shift_loop d v order e = Ok e' /\
  ((forall V (J : interp V) M x, List.length x = n -> value J M x e' = value J M (move d v x) e) <->
   no_collision d v order).
Proof.
  intros n e d v order G Hd [ND En].
  assert (L : forall a, In a order -> (d < List.length (snd a))%nat).
  { intros [b ix] Ha. cbn. apply En in Ha. rewrite (G b ix Ha). auto. }
  exists (map_dsets (steps d v order) e). split; [apply shift_loop_steps; auto|]. split.
  - intros H. apply steps_bad; auto. intros a Ha.
    specialize (H expr terms EDat (repeat 0%Z n) (repeat_length _ _)).
    rewrite <- value_shift in H. rewrite !(value_terms n) in H.
    + apply (f_equal dsets) in H. rewrite !dsets_map_dsets in H.
      assert (M : forall l, map (steps d v order) l = map (shift_dset d v) l ->
         forall y, In y l -> steps d v order y = shift_dset d v y).
      { induction l as [|z l IHl]; intros E y Hy; [destruct Hy|].
        cbn in E. injection E as E1 E2. destruct Hy as [-> | Hy]; auto. }
      apply (M (dsets e) H). apply En. auto.
    + apply on_grid_map; auto. intros [b ix] Hx. cbn. rewrite shift_move, move_length. apply (G b ix Hx).
    + apply on_grid_map; auto. intros [b ix] Hx. destruct (steps_multiple d v order (b, ix)) as (k & -> & _).
      cbn. rewrite shift_move, move_length. apply (G b ix Hx).
  - intros NC V J M x Hx. rewrite <- value_shift. f_equal. apply map_dsets_ext. intros a Ha.
    apply steps_good; auto. apply En. auto.
Qed.

Lemma one_location_no_collision : forall n e d v order, on_grid n e -> (d < n)%nat -> enumerates order e ->
  one_location e -> no_collision d v order.
Proof.
  intros n e d v order G Hd [ND En] O l1 [b ix] l2 E C. cbn in C.
  assert (I1 : In (b, ix) (dsets e)) by (apply En; rewrite E; apply in_app_iff; right; left; auto).
  assert (I2 : In (b, move d v ix) (dsets e)) by (apply En; rewrite E; apply in_app_iff; right; right; auto).
  pose proof (O _ _ _ _ I1 I2) as Eq. rewrite <- Eq in C. rewrite E in ND.
  apply NoDup_remove_2 in ND. apply ND, in_app_iff. auto.
Qed.

(* the discretised derivative *)
Lemma disc_terms_value : forall n e d orders, on_grid n e -> (d < n)%nat ->
  (forall p, enumerates (orders p) e) ->
  forall pw form, (forall p w, In (p, w) pw -> no_collision d p (orders p)) ->
  exists r, disc_terms d orders e pw form = Ok r /\
    forall J M x, real_arithmetic J -> List.length x = n ->
      value J M x r = (value J M x form +
        fold_right (fun jw acc => Q2R (snd jw) * value J M (move d (fst jw) x) e + acc) 0 pw)%R.
Proof.
  intros n e d orders G Hd En. induction pw as [|[p w] pw IH]; intros form NC; cbn [disc_terms].
  - exists form. split; auto. intros. cbn. ring.
  - destruct (shift_loop_iff n e d p (orders p) G Hd (En p)) as (e' & -> & [_ H]).
    specialize (H (NC p w (or_introl eq_refl))).
    cbn [bind]. destruct (IH (EApp HAdd [form; EApp HMul [ENum w; e']])) as (r & E & Hv).
    { intros. eapply NC. right. eauto. }
    exists r. split; [exact E|]. intros J M x HJ Hx. rewrite (Hv J M x HJ Hx).
    destruct HJ as (Jn & Ja & Jm). unfold value at 1. cbn [eval map]. rewrite Ja. cbn [fold_right].
    rewrite Jm. cbn [fold_right]. rewrite Jn. fold (value J M x form). fold (value J M x e').
    rewrite (H R J M x Hx). cbn [fst snd]. ring.
Qed.

Lemma discretise_value : forall n e d orders N m inv, on_grid n e -> (d < n)%nat -> dsets e <> [] ->
  (forall p, enumerates (orders p) e) ->
  (forall p, In p (central_points N) -> no_collision d p (orders p)) ->
  exists r, discretise_derivative N m d orders inv e = Ok r /\
    forall J M x h, real_arithmetic J -> List.length x = n -> value J M x inv = (/ h ^ m)%R ->
      value J M x r = grid_formula N m h (fun i => value J M (move d i x) e) 0.
Proof.
  intros n e d orders N m inv G Hd Hne En NC.
  destruct (disc_terms_value n e d orders G Hd En (combine (central_points N) (generate_weights N m)) (ENum 0))
    as (r & E & H).
  { intros p w Hin. apply NC. eapply in_combine_l. eauto. }
  unfold discretise_derivative. rewrite E. cbn [bind].
  exists (EApp HMul [r; inv]). split; [destruct (dsets e); congruence|].
  intros J M x h HJ Hx Hi. pose proof (H J M x HJ Hx) as Hr. destruct HJ as (Jn & Ja & Jm).
  unfold value at 1. cbn [eval map]. rewrite Jm. cbn [fold_right].
  change (eval J (fun b ix => M b (vadd x ix)) r) with (value J M x r).
  change (eval J (fun b ix => M b (vadd x ix)) inv) with (value J M x inv).
  rewrite Hr, Hi. unfold value at 1. cbn [eval]. rewrite Jn. unfold grid_formula.
  rewrite RMicromega.Q2R_0. cbn [Z.add]. ring.
Qed.
