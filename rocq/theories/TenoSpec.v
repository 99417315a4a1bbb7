(* What the TENO statements mention: the number of candidate stencils, and the linear
   scheme obtained when no candidate is cut off. *)
From Verif Require Import Base FDModel WenoModel WenoSpec TenoModel.
From Coq Require Import QArith Reals Qreals List ZArith.
Import ListNotations.
Local Open Scope R_scope.

Definition teno_n (order : nat) : nat := (order - 2)%nat.
Definition teno_linear (s : side) (order : nat) (f : Z -> R) : R :=
  match teno_opt order with
  | Ok opt => wtotal (teno_n order) (fun r => Q2R (nth r opt 0%Q) * nth r (teno_candidates s order f) 0)
  | Err _ => 0
  end.
