(* Specification for the shock filter: sums over the points of a block, iterated
   differences, periodic arrays. *)
From Coq Require Import Reals List ZArith.
From Verif Require Import ShiftSpec FDSpec.
Import ListNotations.
Local Open Scope R_scope.

(* the sum of f over the block 0..n1-1 x 0..n2-1 x ... *)
Fixpoint block_total (sizes : list nat) (f : list Z -> R) : R :=
  match sizes with [] => f [] | n :: sizes => total n (fun i => block_total sizes (fun x => f (i :: x))) end.
(* an array that repeats with the size of the block in every direction *)
Definition block_periodic {A} (sizes : list nat) (f : list Z -> A) : Prop :=
  forall d x, (d < List.length sizes)%nat -> List.length x = List.length sizes -> f (move d (Z.of_nat (nth d sizes 0%nat)) x) = f x.
(* the n-th forward difference of f at i *)
Fixpoint difference (n : nat) (f : Z -> R) (i : Z) : R :=
  match n with O => f i | S n => difference n f (i + 1)%Z - difference n f i end.
(* the values along the line are a + b j from lo to hi *)
Definition affine (lo hi : Z) (f : Z -> R) : Prop := exists a b, forall j, (lo <= j <= hi)%Z -> f j = a + b * IZR j.
(* weights of a convex combination of n candidates *)
Definition convex_weights (n : nat) (w : nat -> R) : Prop :=
  (forall r, (r < n)%nat -> 0 <= w r) /\ fold_right Rplus 0 (map w (seq 0 n)) = 1.
