(* Proofs about the 4x4 inverse and about the Carpenter norm matrix *)
From Verif Require Import Base Expr FDModel ShiftModel BCModel OneModel.
From Coq Require Import QArith Reals Qreals List ZArith Lia Lra.
Import ListNotations.
Local Close Scope Q_scope.
Local Open Scope R_scope.

Definition mat4 (a00 a01 a02 a03 a10 a11 a12 a13 a20 a21 a22 a23 a30 a31 a32 a33 : R) : matrix :=
  [[a00; a01; a02; a03]; [a10; a11; a12; a13]; [a20; a21; a22; a23]; [a30; a31; a32; a33]].
Definition delta (i j : nat) : R := if Nat.eqb i j then 1 else 0.

Lemma quot4 : forall a b c d x y z w D e, D <> 0 -> a * x + b * y + c * z + d * w = D * e ->
  a / D * x + (b / D * y + (c / D * z + (d / D * w + 0))) = e.
Proof.
  intros a b c d x y z w D e HD E.
  replace (a / D * x + (b / D * y + (c / D * z + (d / D * w + 0)))) with ((a * x + b * y + c * z + d * w) / D) by (field; auto).
  rewrite E. field. auto.
Qed.
Lemma quot4' : forall a b c d x y z w D e, D <> 0 -> x * a + y * b + z * c + w * d = D * e ->
  x * (a / D) + (y * (b / D) + (z * (c / D) + (w * (d / D) + 0))) = e.
Proof.
  intros a b c d x y z w D e HD E.
  replace (x * (a / D) + (y * (b / D) + (z * (c / D) + (w * (d / D) + 0)))) with ((x * a + y * b + z * c + w * d) / D) by (field; auto).
  rewrite E. field. auto.
Qed.

Section Inv.
Variables a00 a01 a02 a03 a10 a11 a12 a13 a20 a21 a22 a23 a30 a31 a32 a33 : R.
Local Notation M := (mat4 a00 a01 a02 a03 a10 a11 a12 a13 a20 a21 a22 a23 a30 a31 a32 a33).
Lemma minv_left : det 4 M <> 0 -> forall i j, (i < 4)%nat -> (j < 4)%nat ->
  fold_right Rplus 0 (map (fun k => entry (minv M) i k * entry M k j) (seq 0 4)) = delta i j.
Proof.
  intros HD i j Hi Hj.
  do 4 (destruct i as [|i]; [do 4 (destruct j as [|j]; [apply quot4; [exact HD | cbn -[Rplus Rmult]; unfold altsign, entry; cbn -[Rplus Rmult]; unfold entry; cbn -[Rplus Rmult]; unfold altsign, entry, delta; cbn -[Rplus Rmult]; ring]|]); lia|]). lia.
Qed.
Lemma minv_right : det 4 M <> 0 -> forall i j, (i < 4)%nat -> (j < 4)%nat ->
  fold_right Rplus 0 (map (fun k => entry M i k * entry (minv M) k j) (seq 0 4)) = delta i j.
Proof.
  intros HD i j Hi Hj.
  do 4 (destruct i as [|i]; [do 4 (destruct j as [|j]; [apply quot4'; [exact HD | cbn -[Rplus Rmult]; unfold altsign, entry; cbn -[Rplus Rmult]; unfold entry; cbn -[Rplus Rmult]; unfold altsign, entry, delta; cbn -[Rplus Rmult]; ring]|]); lia|]). lia.
Qed.
End Inv.
