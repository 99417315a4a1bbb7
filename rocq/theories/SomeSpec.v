(* Conditions on the equations for the low-storage scheme (C71). *)
From Verif Require Import Base Expr WorkModel DiscSpec.
From Coq Require Import ZArith Reals.

(* first derivative of a listed array *)
Definition stored_derivative (ndim : nat) (fns : list string) (v : expr) : Prop :=
  exists f n, In f fns /\ v = EApp HCD [EDat f (repeat 0%Z ndim); ESym KCoord n].

Record storable (ndim : nat) (dirof : string -> nat) (fns : list string) (eqs : list (string * expr)) : Prop := {
  sb_distinct : NoDup (map fst eqs);
  sb_functions : NoDup fns /\ forall f i, In f fns -> f <> wk_name i /\ ~ In f (map fst eqs);
  sb_residual : forall r rhs i, In (r, rhs) eqs -> r <> wk_name i;
  (* arrays at the grid point, other than work and residual arrays; no local variables *)
  sb_arrays : forall r rhs b ix, In (r, rhs) eqs -> In (b, ix) (dsets rhs) ->
    ix = repeat 0%Z ndim /\ (forall i, b <> wk_name i) /\ ~ In b (map fst eqs);
  sb_coordinates : forall r rhs n, In (r, rhs) eqs -> In n (syms KCoord rhs) -> (dirof n < ndim)%nat;
  sb_locals : forall r rhs, In (r, rhs) eqs -> syms KGridVar rhs = [];
  sb_form : forall r rhs, In (r, rhs) eqs -> exists args, rhs = EApp HAdd args \/ rhs = EApp HMul args;
  sb_function : forall r rhs, In (r, rhs) eqs -> no_function rhs;
  sb_derivative : forall r rhs v, In (r, rhs) eqs -> inside v rhs -> derivative v -> proper_derivative ndim dirof v;
  (* a derivative inside another one is a stored derivative, and there is only one *)
  sb_inner : forall r rhs a cs u, In (r, rhs) eqs -> inside (EApp HCD (a :: cs)) rhs -> inside u a -> derivative u ->
    stored_derivative ndim fns u;
  sb_nested : forall r rhs v, In (r, rhs) eqs -> inside v rhs -> derivative v -> (nderivs v <= 2)%nat }.

(* a term satisfying P has a derivative that is not stored *)
Definition keeps_derivative (ndim : nat) (fns : list string) (eqs : list (string * expr)) (P : expr -> Prop) : Prop :=
  exists r rhs t v, In (r, rhs) eqs /\ In t (terms rhs) /\ P t /\ inside v t /\ derivative v /\ ~ stored_derivative ndim fns v.
