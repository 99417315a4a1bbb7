(* Specification for the time-advancement kernels (C63). *)
From Coq Require Import Reals List String Bool Lra Lia Permutation.
From Verif Require Import Base BaseProofs AdvModel.
Open Scope R_scope.
Local Open Scope list_scope.

(* Equation e advances exactly the array v. *)
Definition advances (e : equation) (v : string) : Prop := eq_advanced e = [v].
Definition one_derivative_each (eqs : list equation) : Prop :=
  forall e, In e eqs -> exists v, advances e v.
(* All arrays involved are different. *)
Definition distinct_arrays (register : string -> string) (eqs : list equation) : Prop :=
  NoDup (flat_map eq_advanced eqs ++ map register (flat_map eq_advanced eqs) ++ map eq_residual eqs).

