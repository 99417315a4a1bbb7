(* The Carpenter norm matrix is positive definite: exact arithmetic in Q[sqrt 295369] *)
From Verif Require Import Base Expr FDModel ShiftModel BCModel OneModel OneLin.
From Coq Require Import QArith Reals Qreals List ZArith Lia Lra.
Import ListNotations.
Local Close Scope Q_scope.
Local Open Scope R_scope.

(* ---- numbers a + b s ---- *)
Definition qs := (Q * Q)%type.
Definition s295 : R := sqrt 295369.
Definition sem (x : qs) : R := Q2R (fst x) + Q2R (snd x) * s295.
Definition N : Q := (295369 # 1)%Q.
Definition qadd (x y : qs) : qs := (Qred (fst x + fst y), Qred (snd x + snd y))%Q.
Definition qsub (x y : qs) : qs := (Qred (fst x - fst y), Qred (snd x - snd y))%Q.
Definition qmul (x y : qs) : qs :=
  (Qred (fst x * fst y + snd x * snd y * N), Qred (fst x * snd y + snd x * fst y))%Q.
Definition qnorm (x : qs) : Q := (fst x * fst x - snd x * snd x * N)%Q.
Definition qinv (x : qs) : qs := (Qred (fst x / qnorm x), Qred (- snd x / qnorm x))%Q.
Definition qpos (x : qs) : bool :=
  (if negb (Qle_bool (fst x) 0) then Qle_bool 0 (snd x) || negb (Qle_bool (qnorm x) 0)
   else negb (Qle_bool (snd x) 0) && negb (Qle_bool 0 (qnorm x)))%bool.

Lemma s295_sq : s295 * s295 = 295369.
Proof. unfold s295. apply sqrt_def. lra. Qed.
Lemma s295_pos : 0 < s295.
Proof. unfold s295. apply sqrt_lt_R0. lra. Qed.
Lemma Q2R_N : Q2R N = 295369.
Proof. unfold Q2R, N. cbn. lra. Qed.
Lemma Q2R_red : forall q, Q2R (Qred q) = Q2R q.
Proof. intros. apply Qeq_eqR. apply Qred_correct. Qed.
Lemma sem_add : forall x y, sem (qadd x y) = sem x + sem y.
Proof. intros. unfold sem, qadd. cbn [fst snd]. rewrite !Q2R_red, !Q2R_plus. ring. Qed.
Lemma sem_sub : forall x y, sem (qsub x y) = sem x - sem y.
Proof. intros. unfold sem, qsub. cbn [fst snd]. rewrite !Q2R_red, !Q2R_minus. ring. Qed.
Lemma sem_mul : forall x y, sem (qmul x y) = sem x * sem y.
Proof.
  intros. unfold sem, qmul. cbn [fst snd]. rewrite !Q2R_red, !Q2R_plus, !Q2R_mult, Q2R_N, <- s295_sq. ring.
Qed.
Lemma qnorm_R : forall x, Q2R (qnorm x) = sem x * (Q2R (fst x) - Q2R (snd x) * s295).
Proof. intros. unfold sem, qnorm. rewrite Q2R_minus, !Q2R_mult, Q2R_N, <- s295_sq. ring. Qed.
Lemma Qle_bool_false : forall a b, Qle_bool a b = false -> Q2R b < Q2R a.
Proof.
  intros a b H. apply Qlt_Rlt. apply Qnot_le_lt. intros C. apply Qle_bool_iff in C. congruence.
Qed.
Lemma Qle_bool_R : forall a b, Qle_bool a b = true -> Q2R a <= Q2R b.
Proof. intros a b H. apply Qle_Rle. apply Qle_bool_iff. auto. Qed.
Lemma Q2R_0' : Q2R 0 = 0.
Proof. unfold Q2R. cbn. lra. Qed.
Lemma qpos_sound : forall x, qpos x = true -> 0 < sem x.
Proof.
  intros [a b] H. unfold qpos in H. cbn [fst snd] in H. pose proof s295_pos as S. pose proof (qnorm_R (a, b)) as NN. cbn [fst snd] in NN.
  unfold sem in *. cbn [fst snd] in *.
  destruct (Qle_bool a 0) eqn:A; cbn [negb] in H.
  - apply andb_true_iff in H. destruct H as [B C]. apply negb_true_iff in B, C.
    apply Qle_bool_false in B, C. apply Qle_bool_R in A. rewrite Q2R_0' in *.
    destruct (Rlt_le_dec 0 (Q2R a + Q2R b * s295)); auto. exfalso.
    assert (0 < Q2R b * s295) by (apply Rmult_lt_0_compat; auto). nra.
  - apply Qle_bool_false in A. apply orb_true_iff in H. rewrite Q2R_0' in *. destruct H as [B | C].
    + apply Qle_bool_R in B. rewrite Q2R_0' in B. assert (0 <= Q2R b * s295) by (apply Rmult_le_pos; lra). lra.
    + apply negb_true_iff in C. apply Qle_bool_false in C. rewrite Q2R_0' in C.
      destruct (Rlt_le_dec 0 (Q2R a + Q2R b * s295)) as [|G]; auto. exfalso.
      assert (0 < Q2R a - Q2R b * s295) by lra. nra.
Qed.
Definition qnz (x : qs) : bool := negb (Qeq_bool (qnorm x) 0).
Lemma sem_inv : forall x, qnz x = true -> sem (qinv x) = / sem x.
Proof.
  intros x H. unfold qnz in H. apply negb_true_iff in H. apply Qeq_bool_neq in H.
  assert (HR : Q2R (qnorm x) <> 0). { intros C. apply H. apply eqR_Qeq. rewrite Q2R_0'. auto. }
  pose proof (qnorm_R x) as E.
  assert (sem x <> 0). { intros C. rewrite C in E. lra. }
  assert (E2 : sem (qinv x) = (Q2R (fst x) - Q2R (snd x) * s295) / Q2R (qnorm x)).
  { unfold sem at 1, qinv. cbn [fst snd]. unfold Qdiv. rewrite !Q2R_red, !Q2R_mult, !Q2R_opp, Q2R_inv by auto. field. auto. }
  rewrite E2, E in *. field. split; auto. intros C. rewrite C in HR. apply HR. ring.
Qed.

(* ---- symmetric 4x4 forms ---- *)
Section Form.
Variables a11 a12 a13 a14 a22 a23 a24 a33 a34 a44 : R.
Let b22 := a22 - a12 * a12 * / a11.
Let b23 := a23 - a12 * a13 * / a11.
Let b24 := a24 - a12 * a14 * / a11.
Let b33 := a33 - a13 * a13 * / a11.
Let b34 := a34 - a13 * a14 * / a11.
Let b44 := a44 - a14 * a14 * / a11.
Let c33 := b33 - b23 * b23 * / b22.
Let c34 := b34 - b23 * b24 * / b22.
Let c44 := b44 - b24 * b24 * / b22.
Let d44 := c44 - c34 * c34 * / c33.
Hypothesis Ha : 0 < a11. Hypothesis Hb : 0 < b22. Hypothesis Hc : 0 < c33. Hypothesis Hd : 0 < d44.
Definition form (x1 x2 x3 x4 : R) : R :=
  a11 * x1 * x1 + a22 * x2 * x2 + a33 * x3 * x3 + a44 * x4 * x4 +
  2 * (a12 * x1 * x2 + a13 * x1 * x3 + a14 * x1 * x4 + a23 * x2 * x3 + a24 * x2 * x4 + a34 * x3 * x4).
Lemma form_squares : forall x1 x2 x3 x4, form x1 x2 x3 x4 =
  a11 * (x1 + (a12 * x2 + a13 * x3 + a14 * x4) / a11) ^ 2 + b22 * (x2 + (b23 * x3 + b24 * x4) / b22) ^ 2 +
  c33 * (x3 + c34 * x4 / c33) ^ 2 + d44 * x4 ^ 2.
Proof.
  intros. replace (form x1 x2 x3 x4) with (a11 * (x1 + (a12 * x2 + a13 * x3 + a14 * x4) / a11) ^ 2 +
     (b22 * x2 * x2 + b33 * x3 * x3 + b44 * x4 * x4 + 2 * (b23 * x2 * x3 + b24 * x2 * x4 + b34 * x3 * x4))).
  2:{ unfold form, b22, b33, b44, b23, b24, b34. field. lra. }
  assert (E : b22 * x2 * x2 + b33 * x3 * x3 + b44 * x4 * x4 + 2 * (b23 * x2 * x3 + b24 * x2 * x4 + b34 * x3 * x4) =
    b22 * (x2 + (b23 * x3 + b24 * x4) / b22) ^ 2 + (c33 * x3 * x3 + c44 * x4 * x4 + 2 * (c34 * x3 * x4))).
  { unfold c33, c34, c44. clearbody b22 b23 b24 b33 b34 b44. field. lra. }
  rewrite E.
  assert (E2 : c33 * x3 * x3 + c44 * x4 * x4 + 2 * (c34 * x3 * x4) = c33 * (x3 + c34 * x4 / c33) ^ 2 + d44 * x4 ^ 2).
  { unfold d44. clearbody c33 c34 c44. field. lra. }
  rewrite E2. ring.
Qed.
Lemma form_nonneg : forall x1 x2 x3 x4, 0 <= form x1 x2 x3 x4.
Proof.
  intros. rewrite form_squares.
  repeat apply Rplus_le_le_0_compat; apply Rmult_le_pos; try lra; apply pow2_ge_0.
Qed.
Lemma sq0 : forall a y, 0 < a -> a * y ^ 2 = 0 -> y = 0.
Proof. intros a y H E. destruct (Req_dec y 0); auto. exfalso. assert (0 < y ^ 2) by (rewrite <- Rsqr_pow2; apply Rsqr_pos_lt; auto). nra. Qed.
Lemma form_definite : forall x1 x2 x3 x4, form x1 x2 x3 x4 = 0 -> x1 = 0 /\ x2 = 0 /\ x3 = 0 /\ x4 = 0.
Proof.
  intros x1 x2 x3 x4 E. rewrite form_squares in E.
  pose proof (Rmult_le_pos _ _ (Rlt_le _ _ Ha) (pow2_ge_0 (x1 + (a12 * x2 + a13 * x3 + a14 * x4) / a11))) as P1.
  pose proof (Rmult_le_pos _ _ (Rlt_le _ _ Hb) (pow2_ge_0 (x2 + (b23 * x3 + b24 * x4) / b22))) as P2.
  pose proof (Rmult_le_pos _ _ (Rlt_le _ _ Hc) (pow2_ge_0 (x3 + c34 * x4 / c33))) as P3.
  pose proof (Rmult_le_pos _ _ (Rlt_le _ _ Hd) (pow2_ge_0 x4)) as P4.
  assert (E4 : x4 = 0) by (apply (sq0 d44); auto; lra).
  assert (E3 : x3 + c34 * x4 / c33 = 0) by (apply (sq0 c33); auto; lra).
  assert (E2 : x2 + (b23 * x3 + b24 * x4) / b22 = 0) by (apply (sq0 b22); auto; lra).
  assert (E1 : x1 + (a12 * x2 + a13 * x3 + a14 * x4) / a11 = 0) by (apply (sq0 a11); auto; lra).
  rewrite E4 in *. assert (x3 = 0) by (rewrite <- E3; unfold Rdiv; ring). rewrite H in *.
  assert (x2 = 0) by (rewrite <- E2; unfold Rdiv; ring). rewrite H0 in *.
  assert (x1 = 0) by (rewrite <- E1; unfold Rdiv; ring). auto.
Qed.
Lemma form_det : det 4 (mat4 a11 a12 a13 a14 a12 a22 a23 a24 a13 a23 a33 a34 a14 a24 a34 a44) = a11 * b22 * c33 * d44.
Proof.
  cbn -[Rplus Rmult]; unfold altsign, entry; cbn -[Rplus Rmult]; unfold entry; cbn -[Rplus Rmult]; unfold altsign, entry, delta; cbn -[Rplus Rmult].
  transitivity (a11 * (b22 * (b33 * b44 - b34 * b34) - b23 * (b23 * b44 - b34 * b24) + b24 * (b23 * b34 - b33 * b24))).
  { unfold b22, b33, b44, b23, b24, b34. field. lra. }
  transitivity (a11 * (b22 * (c33 * c44 - c34 * c34))).
  { unfold c33, c34, c44. clearbody b22 b23 b24 b33 b34 b44. field. lra. }
  unfold d44. clearbody c33 c34 c44. field. lra.
Qed.
End Form.

(* ---- the Carpenter matrix ---- *)
Definition qR1 : qs := (1166427 # 25488, -2177 # 25488)%Q.
Definition qR2 : qs := (-35909375 # 101952, 66195 # 101952)%Q.
Lemma sqrt_split : sqrt 53 * sqrt 5573 = s295.
Proof. unfold s295. rewrite <- sqrt_mult by lra. f_equal. lra. Qed.
Lemma sem_R1 : sem qR1 = cR1.
Proof. unfold sem, qR1, cR1, Q2R. cbn [fst snd Qnum Qden]. fold s295. lra. Qed.
Lemma sem_R2 : sem qR2 = cR2.
Proof. unfold sem, qR2, cR2, Q2R. cbn [fst snd Qnum Qden]. replace (66195 * sqrt 53 * sqrt 5573) with (66195 * s295) by (rewrite <- sqrt_split; ring). lra. Qed.
Definition qc (a : Z) : qs := (inject_Z a, 0%Q).
Lemma sem_c : forall a, sem (qc a) = IZR a.
Proof. intros. unfold sem, qc. cbn [fst snd]. rewrite Q2R_0'. unfold Q2R, inject_Z. cbn. lra. Qed.
(* (a R2 + b R1 + c) / d *)
Definition lin (a b c : Z) (d : positive) : qs :=
  qmul (qadd (qmul (qc a) qR2) (qadd (qmul (qc b) qR1) (qc c))) ((1 # d)%Q, 0%Q).
Lemma sem_lin : forall a b c d, sem (lin a b c d) = (IZR a * cR2 + IZR b * cR1 + IZR c) / IZR (Zpos d).
Proof.
  intros. unfold lin. rewrite sem_mul, !sem_add, !sem_mul, !sem_c, sem_R1, sem_R2.
  unfold sem at 1. cbn [fst snd]. rewrite Q2R_0'. unfold Q2R. cbn [Qnum Qden]. field. apply not_0_IZR. discriminate.
Qed.

Definition q11 := lin (-216) (-2160) 2125 12960.
Definition q12 := lin 81 675 415 540.
Definition q13 := lin (-72) (-720) (-445) 1440.
Definition q14 := lin (-108) (-756) (-421) 1296.
Definition q22 := lin (-4104) (-32400) (-11225) 4320.
Definition q23 := lin 1836 14580 7295 2160.
Definition q24 := lin (-216) (-2160) (-655) 4320.
Definition q33 := lin (-4104) (-32400) (-12785) 4320.
Definition q34 := lin 81 675 335 540.
Definition q44 := lin (-216) (-2160) 12085 12960.
Lemma al4_sem : al4 = mat4 (sem q11) (sem q12) (sem q13) (sem q14) (sem q12) (sem q22) (sem q23) (sem q24)
  (sem q13) (sem q23) (sem q33) (sem q34) (sem q14) (sem q24) (sem q34) (sem q44).
Proof.
  unfold al4, al4_of, mat4, q11, q12, q13, q14, q22, q23, q24, q33, q34, q44. rewrite !sem_lin.
  repeat (apply f_equal2; [repeat (apply f_equal2; [lra|]); reflexivity|]). reflexivity.
Qed.
Definition schur (a b c p : qs) : qs := qsub a (qmul (qmul b c) (qinv p)).
Lemma sem_schur : forall a b c p, qnz p = true -> sem (schur a b c p) = sem a - sem b * sem c * / sem p.
Proof. intros. unfold schur. rewrite sem_sub, !sem_mul, sem_inv by auto. reflexivity. Qed.
Definition p22 := Eval vm_compute in schur q22 q12 q12 q11.
Definition p23 := Eval vm_compute in schur q23 q12 q13 q11.
Definition p24 := Eval vm_compute in schur q24 q12 q14 q11.
Definition p33 := Eval vm_compute in schur q33 q13 q13 q11.
Definition p34 := Eval vm_compute in schur q34 q13 q14 q11.
Definition p44 := Eval vm_compute in schur q44 q14 q14 q11.
Definition r33 := Eval vm_compute in schur p33 p23 p23 p22.
Definition r34 := Eval vm_compute in schur p34 p23 p24 p22.
Definition r44 := Eval vm_compute in schur p44 p24 p24 p22.
Definition t44 := Eval vm_compute in schur r44 r34 r34 r33.
Lemma pos1 : qpos q11 = true. Proof. vm_compute. reflexivity. Qed.
Lemma pos2 : qpos p22 = true. Proof. vm_compute. reflexivity. Qed.
Lemma pos3 : qpos r33 = true. Proof. vm_compute. reflexivity. Qed.
Lemma pos4 : qpos t44 = true. Proof. vm_compute. reflexivity. Qed.
Lemma nz1 : qnz q11 = true. Proof. vm_compute. reflexivity. Qed.
Lemma nz2 : qnz p22 = true. Proof. vm_compute. reflexivity. Qed.
Lemma nz3 : qnz r33 = true. Proof. vm_compute. reflexivity. Qed.
Lemma s22 : sem p22 = sem q22 - sem q12 * sem q12 * / sem q11.
Proof. rewrite <- sem_schur by exact nz1. apply (f_equal sem). vm_compute. reflexivity. Qed.
Lemma s23 : sem p23 = sem q23 - sem q12 * sem q13 * / sem q11.
Proof. rewrite <- sem_schur by exact nz1. apply (f_equal sem). vm_compute. reflexivity. Qed.
Lemma s24 : sem p24 = sem q24 - sem q12 * sem q14 * / sem q11.
Proof. rewrite <- sem_schur by exact nz1. apply (f_equal sem). vm_compute. reflexivity. Qed.
Lemma s33 : sem p33 = sem q33 - sem q13 * sem q13 * / sem q11.
Proof. rewrite <- sem_schur by exact nz1. apply (f_equal sem). vm_compute. reflexivity. Qed.
Lemma s34 : sem p34 = sem q34 - sem q13 * sem q14 * / sem q11.
Proof. rewrite <- sem_schur by exact nz1. apply (f_equal sem). vm_compute. reflexivity. Qed.
Lemma s44 : sem p44 = sem q44 - sem q14 * sem q14 * / sem q11.
Proof. rewrite <- sem_schur by exact nz1. apply (f_equal sem). vm_compute. reflexivity. Qed.
Lemma v33 : sem r33 = sem p33 - sem p23 * sem p23 * / sem p22.
Proof. rewrite <- sem_schur by exact nz2. apply (f_equal sem). vm_compute. reflexivity. Qed.
Lemma v34 : sem r34 = sem p34 - sem p23 * sem p24 * / sem p22.
Proof. rewrite <- sem_schur by exact nz2. apply (f_equal sem). vm_compute. reflexivity. Qed.
Lemma v44 : sem r44 = sem p44 - sem p24 * sem p24 * / sem p22.
Proof. rewrite <- sem_schur by exact nz2. apply (f_equal sem). vm_compute. reflexivity. Qed.
Lemma w44 : sem t44 = sem r44 - sem r34 * sem r34 * / sem r33.
Proof. rewrite <- sem_schur by exact nz3. apply (f_equal sem). vm_compute. reflexivity. Qed.

Lemma pivot_values :
  let b22 := sem q22 - sem q12 * sem q12 * / sem q11 in
  let b23 := sem q23 - sem q12 * sem q13 * / sem q11 in
  let b24 := sem q24 - sem q12 * sem q14 * / sem q11 in
  let b33 := sem q33 - sem q13 * sem q13 * / sem q11 in
  let b34 := sem q34 - sem q13 * sem q14 * / sem q11 in
  let b44 := sem q44 - sem q14 * sem q14 * / sem q11 in
  let c33 := b33 - b23 * b23 * / b22 in
  let c34 := b34 - b23 * b24 * / b22 in
  let c44 := b44 - b24 * b24 * / b22 in
  let d44 := c44 - c34 * c34 * / c33 in
  0 < sem q11 /\ 0 < b22 /\ 0 < c33 /\ 0 < d44.
Proof.
  cbv zeta. rewrite <- s22, <- s23, <- s24, <- s33, <- s34, <- s44, <- v33, <- v34, <- v44, <- w44.
  split; [|split; [|split]]; apply qpos_sound; [exact pos1 | exact pos2 | exact pos3 | exact pos4].
Qed.
