(* The first row of the Carpenter coefficients: -11/6, 3, -3/2, 1/3, 0, 0. *)
From Verif Require Import Base Expr FDModel ShiftModel BCModel OneModel OneLin OneNorm OneProofs.
From Coq Require Import QArith Reals Qreals List ZArith Lia Lra.
Import ListNotations.
Local Close Scope Q_scope.
Local Open Scope R_scope.

(* the columns 0, 4 and 5 of the coefficients *)
Definition col0 : list qs := [(-11 # 6, 0 # 1)%Q; (-524893471 # 1451229246, -506635 # 18865980198)%Q; (1188479827 # 6757963056, -776135 # 6757963056)%Q; (-158890363 # 2252654352, 253703 # 2252654352)%Q].
Definition col4 : list qs := [(0 # 1, 0 # 1)%Q; (-663099733 # 18865980198, -1064215 # 18865980198)%Q; (2339675867 # 33789815280, -6587671 # 33789815280)%Q; (6089020261 # 11263271760, 2311447 # 11263271760)%Q].
Definition col5 : list qs := [(0 # 1, 0 # 1)%Q; (10678723 # 6288660066, 46465 # 6288660066)%Q; (-169076051 # 11263271760, 225583 # 11263271760)%Q; (-20058001 # 288801840, -86911 # 3754423920)%Q].
Definition nthq (i : nat) (l : list qs) : qs := nth i l (qc 0).
Definition rowq (l : list qs) (x : list qs) : qs :=
  qadd (qadd (qadd (qmul (nthq 0 l) (nthq 0 x)) (qmul (nthq 1 l) (nthq 1 x))) (qmul (nthq 2 l) (nthq 2 x))) (qmul (nthq 3 l) (nthq 3 x)).
Definition al4q : list (list qs) := [[q11; q12; q13; q14]; [q12; q22; q23; q24]; [q13; q23; q33; q34]; [q14; q24; q34; q44]].
Definition rhs0 : list qs := [((-1 # 2)%Q, 0%Q); lin 864 6480 305 4320; lin (-216) (-1620) (-725) 540; lin 864 6480 3335 4320].
Definition rhs4 : list qs := [qc 0; qc 0; ((-1 # 12)%Q, 0%Q); ((2 # 3)%Q, 0%Q)].
Definition rhs5 : list qs := [qc 0; qc 0; qc 0; ((-1 # 12)%Q, 0%Q)].
Definition qsame (a b : qs) : bool := (Qeq_bool (fst a) (fst b) && Qeq_bool (snd a) (snd b))%bool.
Lemma qsame_sem : forall a b, qsame a b = true -> sem a = sem b.
Proof.
  intros a b H. apply andb_true_iff in H. destruct H as [A B]. apply Qeq_bool_eq in A, B. unfold sem.
  rewrite (Qeq_eqR _ _ A), (Qeq_eqR _ _ B). reflexivity.
Qed.
Definition solves (x r : list qs) : bool := forallb (fun l => qsame (rowq (nth l al4q []) x) (nthq l r)) (seq 0 4).
Lemma solves0 : solves col0 rhs0 = true. Proof. vm_compute. reflexivity. Qed.
Lemma solves4 : solves col4 rhs4 = true. Proof. vm_compute. reflexivity. Qed.
Lemma solves5 : solves col5 rhs5 = true. Proof. vm_compute. reflexivity. Qed.

Lemma sem_rat : forall a d, sem ((a # d)%Q, 0%Q) = IZR a / IZR (Zpos d).
Proof. intros. unfold sem. cbn [fst snd]. rewrite Q2R_0'. unfold Q2R. cbn [Qnum Qden]. field. apply not_0_IZR. discriminate. Qed.
Lemma al4q_entry : forall l k, (l < 4)%nat -> (k < 4)%nat -> sem (nthq k (nth l al4q [])) = entry al4 l k.
Proof.
  intros l k Hl Hk. rewrite al4_sem. unfold entry, mat4, al4q, nthq.
  do 4 (destruct l as [|l]; [do 4 (destruct k as [|k]; [reflexivity|]); lia|]). lia.
Qed.
Lemma column : forall j x r, solves x r = true -> (j < 6)%nat ->
  (forall l, (l < 4)%nat -> entry ar4 l j = sem (nthq l r)) -> entry bc4 0 j = sem (nthq 0 x).
Proof.
  intros j x r S Hj Hr.
  pose (v := fun i => if Nat.eqb i j then 1 else 0).
  assert (Pick : forall f, sum6 (fun i => f i * v i) = f j).
  { intros f. unfold sum6, v. do 6 (destruct j as [|j]; [cbn; ring|]). lia. }
  rewrite <- (Pick (entry bc4 0)). apply (bc4_apply v (fun k => sem (nthq k x))); [|lia].
  intros l Hl. rewrite Pick, Hr by auto. unfold solves in S. rewrite forallb_forall in S.
  specialize (S l ltac:(apply in_seq; lia)). apply qsame_sem in S. rewrite <- S. unfold rowq, sum4. rewrite !sem_add, !sem_mul.
  rewrite !al4q_entry by lia. reflexivity.
Qed.
Lemma first_row : entry bc4 0 0 = -11 / 6 /\ entry bc4 0 1 = 3 /\ entry bc4 0 2 = -3 / 2 /\ entry bc4 0 3 = 1 / 3 /\ entry bc4 0 4 = 0 /\ entry bc4 0 5 = 0.
Proof.
  assert (C0 : entry bc4 0 0 = -11 / 6).
  { rewrite (column 0 col0 rhs0 solves0 ltac:(lia)); [unfold col0, nthq; cbn [nth]; apply sem_rat|].
    intros l Hl. do 4 (destruct l as [|l]; [unfold nthq, rhs0; cbn [nth]; rewrite ?sem_lin, ?sem_rat; unfold entry, ar4, ar4_of; cbn [nth]; lra|]). lia. }
  assert (C4 : entry bc4 0 4 = 0).
  { rewrite (column 4 col4 rhs4 solves4 ltac:(lia)); [unfold col4, nthq; cbn [nth]; rewrite sem_rat; lra|].
    intros l Hl. do 4 (destruct l as [|l]; [unfold nthq, rhs4; cbn [nth]; rewrite ?sem_c, ?sem_rat; unfold entry, ar4, ar4_of; cbn [nth]; lra|]). lia. }
  assert (C5 : entry bc4 0 5 = 0).
  { rewrite (column 5 col5 rhs5 solves5 ltac:(lia)); [unfold col5, nthq; cbn [nth]; rewrite sem_rat; lra|].
    intros l Hl. do 4 (destruct l as [|l]; [unfold nthq, rhs5; cbn [nth]; rewrite ?sem_c, ?sem_rat; unfold entry, ar4, ar4_of; cbn [nth]; lra|]). lia. }
  pose proof (bc4_moments 1 0 ltac:(lia) ltac:(lia)) as M1. pose proof (bc4_moments 2 0 ltac:(lia) ltac:(lia)) as M2.
  pose proof (bc4_moments 3 0 ltac:(lia) ltac:(lia)) as M3. pose proof (bc4_moments 0 0 ltac:(lia) ltac:(lia)) as M0.
  unfold sum6, dpow in M0, M1, M2, M3. cbn [INR pow] in M0, M1, M2, M3. rewrite C0, C4, C5 in *. repeat split; lra.
Qed.
