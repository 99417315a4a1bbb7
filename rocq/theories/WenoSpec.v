(* Specification for reconstruction schemes: cell averages and exactness. *)
From Coq Require Import Reals ZArith.
From Verif Require Import FDSpec.
Local Open Scope R_scope.

(* The average over cell j, [x + (j-1/2)h, x + (j+1/2)h], of the function with
   antiderivative F (fundamental theorem of calculus) *)
Definition antiderivative_of (F p : R -> R) : Prop := forall x, derivable_pt_lim F x (p x).
Definition cell_average (F : R -> R) (x h : R) (j : Z) : R :=
  (F (x + (IZR j + 1/2) * h) - F (x + (IZR j - 1/2) * h)) / h.
(* A reconstruction gives the exact interface value p(x + h/2) for the cell averages of p *)
Definition reconstructs_exactly (rec : (Z -> R) -> R) (degree : nat) : Prop :=
  forall (p : list R) (F : R -> R) (x h : R), degree_at_most p degree -> antiderivative_of F (peval p) -> h <> 0 ->
    rec (cell_average F x h) = peval p (x + 1/2 * h).
(* the field seen in a mirror placed at the interface between cells 0 and 1 *)
Definition mirrored (f : Z -> R) : Z -> R := fun j => f (1 - j)%Z.
(* weights of a convex combination *)
Fixpoint wtotal (n : nat) (w : nat -> R) : R := match n with O => 0 | S n => wtotal n w + w n end.
