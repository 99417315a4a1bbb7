(* Specification for the whole program: the semi-discrete periodic system, and the
   conditions on the problem. *)
From Verif Require Import Base Expr WorkModel ShiftSpec DiscSpec ProgModel.
From Verif Require AdvModel AdvSpec RKModel.
From Coq Require Import ZArith Reals.

(* the grid point that x is a periodic image of *)
Fixpoint wrap (sizes x : list Z) : list Z :=
  match sizes, x with n :: sizes, i :: x => (i mod n)%Z :: wrap sizes x | _, _ => [] end.

Section spec.
  Variables (J : interp R) (k : nat) (dirof : string -> nat) (h : nat -> R) (sizes : list Z).
  Variables (sys : list (string * expr))      (* advanced array, right-hand side *)
            (crs : list (string * expr))      (* constituent relations: array, expression *)
            (S : string -> list Z -> R).      (* all other arrays *)

  Definition solution := RKModel.state (string * list Z).

  (* F are the arrays that belong to the solution u: advanced arrays periodic, relations
     satisfied at every point, other arrays given. *)
  Record fields (u : solution) (F : string -> list Z -> R) : Prop := {
    f_solution : forall b x, In b (map fst sys) -> List.length x = List.length sizes -> F b x = u (b, wrap sizes x);
    f_relation : forall b e x, In (b, e) crs -> List.length x = List.length sizes -> F b x = value J F x e;
    f_other : forall b x, ~ In b (map fst sys) -> ~ In b (map fst crs) -> F b x = S b x }.

  (* f is the right-hand side of the semi-discrete system du/dt = f(u): at every grid point
     the right-hand side of the equation with difference formulas for the derivatives *)
  Definition semi_discrete (f : solution -> solution) : Prop :=
    forall u, exists F, fields u F /\
      forall v rhs x, In (v, rhs) sys -> grid_point sizes x -> f u (v, x) = sem J k dirof h F rhs x.
End spec.

(* array b occurs in the argument of a derivative in direction d *)
Definition differentiated (dirof : string -> nat) (sys : list (string * expr)) (b : string) (d : nat) : Prop :=
  exists v rhs a n cs ix, In (v, rhs) sys /\ inside (EApp HCD (a :: ESym KCoord n :: cs)) rhs /\ In (b, ix) (dsets a) /\ dirof n = d.

(* arrays for the use of the program: work arrays and the register of the time scheme *)
Definition private (register : string -> string) (sys : list (string * expr)) (b : string) : Prop :=
  (exists i, b = wk_name i) \/ exists v, In v (map fst sys) /\ b = register v.

Record periodic_problem (ndim : nat) (dirof : string -> nat) (register : string -> string)
    (sys crs : list (string * expr)) (known : list string) : Prop := {
  pp_form : well_formed ndim dirof (private register sys) (disc_eqs sys);
  pp_coordinates : forall v rhs v' rhs' n n', In (v, rhs) sys -> In (v', rhs') sys ->
    In n (syms KCoord rhs) -> In n' (syms KCoord rhs') -> dirof n = dirof n' -> n = n';
  (* different arrays for different purposes *)
  pp_arrays : AdvSpec.distinct_arrays register (adv_eqs sys);
  pp_work : forall v, In v (map fst sys) -> (forall i, v <> wk_name i) /\ (forall i, register v <> wk_name i);
  pp_relations : NoDup (map fst crs);
  pp_names : forall b, In b (map fst crs) ->
    ~ private register sys b /\ ~ In b (map fst sys) /\ ~ In b (map fst (disc_eqs sys)) /\ ~ In b known;
  (* relations are evaluated point by point, from arrays that are not private *)
  pp_local : forall b e c ix, In (b, e) crs -> In (c, ix) (dsets e) ->
    ix = repeat 0%Z ndim /\ ~ private register sys c /\ ~ In c (map fst (disc_eqs sys));
  pp_pointwise : forall b e v, In (b, e) crs -> inside v e -> ~ derivative v;
  (* a relation used in the argument of a derivative only depends on relations used in
     the argument of a derivative in the same direction *)
  pp_ranges : forall b e c ix d, In (b, e) crs -> In (c, ix) (dsets e) -> In c (map fst crs) ->
    differentiated dirof sys b d -> differentiated dirof sys c d }.
