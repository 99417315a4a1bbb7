(* Specification for user-defined equations (C74). *)
From Verif Require Import Base Expr WorkModel DiscSpec.
From Coq Require Import ZArith Reals.

(* An equation a = rhs with derivatives, for the central scheme: arrays at the grid
   point, work arrays excluded; a derivative contains at most one other, in which its
   own coordinate does not occur. *)
Record differential_equation (ndim : nat) (dirof : string -> nat) (a : string) (rhs : expr) : Prop := {
  de_some : exists v, inside v rhs /\ derivative v;
  de_target : forall i, a <> wk_name i;
  de_arrays : forall b ix, In (b, ix) (dsets rhs) -> ix = repeat 0%Z ndim /\ forall i, b <> wk_name i;
  de_derivative : forall v, inside v rhs -> derivative v -> proper_derivative ndim dirof v;
  de_nested : forall v, inside v rhs -> derivative v -> (nderivs v <= 2)%nat /\
    forall b n cs u, v = EApp HCD (b :: ESym KCoord n :: cs) -> inside u b -> derivative u -> ~ In n (syms KCoord u) }.

(* l lists a derivative after those it contains *)
Definition inner_listed_first (l : list expr) : Prop :=
  forall l1 v l2 c, l = l1 ++ v :: l2 -> inside c v -> derivative c -> c <> v -> In c l1.

Section turn.
  Variable J : interp R.
  Variable k : nat.
  Variable dirof : string -> nat.
  Variable h : nat -> R.
  Variable sizes : list Z.
  Notation mem := (string -> list Z -> R).
  (* M' is M after a = rhs has been evaluated at the grid points; work arrays are free *)
  Definition evaluated (a : string) (rhs : expr) (M M' : mem) : Prop :=
    (forall x, grid_point sizes x -> M' a x = sem J k dirof h M rhs x) /\
    (forall x, ~ grid_point sizes x -> M' a x = M a x) /\
    (forall b x, b <> a -> (forall i, b <> wk_name i) -> M' b x = M b x).
  (* one equation after the other *)
  Inductive in_turn : list (string * expr) -> mem -> mem -> Prop :=
  | turn_nil : forall M M', (forall b x, (forall i, b <> wk_name i) -> M' b x = M b x) -> in_turn [] M M'
  | turn_cons : forall a rhs eqs M M1 M2, evaluated a rhs M M1 -> in_turn eqs M1 M2 -> in_turn ((a, rhs) :: eqs) M M2.
End turn.

(* the points of the grid and of the requested halos: halos holds, for each direction,
   the halo types requested on the lower and on the upper side *)
Definition requested_point (sizes : list Z) (halos : list (list (Z * Z) * list (Z * Z))) (x : list Z) : Prop :=
  List.length x = List.length sizes /\
  forall d, (d < List.length sizes)%nat ->
    let '(lo, hi) := nth d halos ([], []) in
    ((lo = [] /\ 0 <= nth d x 0)%Z \/ exists t, In t lo /\ (fst t <= nth d x 0)%Z) /\
    ((hi = [] /\ nth d x 0 < nth d sizes 0)%Z \/ exists t, In t hi /\ (nth d x 0 < nth d sizes 0 + snd t)%Z).

(* Assignments to arrays at the grid point and to local variables; arrays that are
   assigned are read at the grid point only. *)
From Verif Require Import KernelModel.
Definition pointwise (n : nat) (qs : kernel_eqs) : Prop :=
  (forall q, In q qs -> exists l r, q = KEq l r /\ ((exists b, l = EDat b (repeat 0%Z n)) \/ exists g, l = ESym KGridVar g)) /\
  (forall l r b ix l' r' jx, In (KEq l r) qs -> In (b, ix) (dsets r) -> In (KEq l' r') qs -> l' = EDat b jx -> ix = repeat 0%Z n).
(* the kernel uses a local variable that it does not assign *)
Definition unassigned_local (qs : kernel_eqs) : Prop :=
  exists l r g, In (KEq l r) qs /\ In g (syms KGridVar r) /\ forall r', ~ In (KEq (ESym KGridVar g) r') qs.
