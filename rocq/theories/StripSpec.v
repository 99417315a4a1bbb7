(* Specification vocabulary for C90. *)
From Verif Require Import Base StripModel.
Local Open Scope list_scope.

(* The array x has the given shape. *)
Fixpoint has_shape {A} (shape : list nat) (x : nd A) : Prop :=
  match shape, x with
  | [], Num _ => True
  | n :: shape, Arr l => List.length l = n /\ forall y, In y l -> has_shape shape y
  | _, _ => False
  end.

(* The element of x at an index. *)
Fixpoint elem {A} (x : nd A) (ix : list nat) : option A :=
  match ix, x with
  | [], Num a => Some a
  | i :: ix, Arr l => match nth_error l i with Some y => elem y ix | None => None end
  | _, _ => None
  end.

(* An axis of an array: lower halos, points of the grid, upper halos. *)
Record axis := { lower_halo : nat; points : nat; upper_halo : nat }.
Definition extent (a : axis) : nat := (lower_halo a + points a + upper_halo a)%nat.
(* y is x without its halos *)
Definition interior {A} (axes : list axis) (x y : nd A) : Prop :=
  has_shape (map points axes) y /\
  forall ix, Forall2 (fun i a => (i < points a)%nat) ix axes ->
    elem y ix = elem x (map (fun p => fst p + lower_halo (snd p))%nat (combine ix axes)).
(* The attribute d_m of the file: lower halos as numbers that are not positive. *)
Definition lower_halos (axes : list axis) : list Z := map (fun a => - Z.of_nat (lower_halo a))%Z axes.
Definition same_halos (a : axis) : Prop := lower_halo a = upper_halo a.
