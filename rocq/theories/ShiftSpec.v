(* Specification: values of expressions on a grid. *)
From Verif Require Import Base Expr.
From Coq Require Import QArith ZArith Reals Qreals.
Local Close Scope Q_scope.

(* component-wise sum of two positions *)
Fixpoint vadd (a b : list Z) : list Z :=
  match a, b with x :: a, y :: b => (x + y)%Z :: vadd a b | _, _ => [] end.
(* the grid point v points further in direction d *)
Fixpoint move (d : nat) (v : Z) (x : list Z) : list Z :=
  match d, x with
  | _, [] => []
  | O, i :: x => (i + v)%Z :: x
  | S d, i :: x => i :: move d v x
  end.
(* The arrays hold M name point.  Value of e at grid point x. *)
Definition value {V} (J : interp V) (M : string -> list Z -> V) (x : list Z) (e : expr) : V :=
  eval J (fun b ix => M b (vadd x ix)) e.

(* e lives on an n-dimensional grid *)
Definition on_grid (n : nat) (e : expr) : Prop := forall b ix, In (b, ix) (dsets e) -> List.length ix = n.
(* order lists the elements of the set of accesses of e *)
Definition enumerates (order : list dset) (e : expr) : Prop :=
  NoDup order /\ forall x, In x order <-> In x (dsets e).
(* all accesses of e are at the same relative location *)
Definition one_location (e : expr) : Prop :=
  forall b ix b' ix', In (b, ix) (dsets e) -> In (b', ix') (dsets e) -> ix = ix'.

(* Interpretations with real numbers, sums and products; other functions are arbitrary. *)
Definition real_arithmetic (J : interp R) : Prop :=
  (forall q, inum J q = Q2R q) /\
  (forall l, iapp J HAdd l = fold_right Rplus 0%R l) /\
  (forall l, iapp J HMul l = fold_right Rmult 1%R l).

(* no access, moved by v, coincides with an access treated later *)
Definition no_collision (d : nat) (v : Z) (order : list dset) : Prop :=
  forall l1 a l2, order = l1 ++ a :: l2 -> ~ In (fst a, move d v (snd a)) l2.
