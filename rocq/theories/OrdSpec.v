(* Specification of the orderings (C20-C22). *)
From Coq Require Import Permutation.
From Verif Require Import Base OrdModel.
Local Open Scope list_scope.

(* l lists each relation that is not already known once, each after everything
   it requires. *)
Definition evaluation_order (start : list key) (d : dictionary) (l : list key) : Prop :=
  NoDup l /\
  (forall k, In k l <-> In k (map fst d) /\ ~ In k start) /\
  forall a k b reqs, l = a ++ k :: b -> In (k, reqs) d ->
    forall r, In r reqs -> In r start \/ In r a.

(* The relations can be evaluated in at most n rounds: a round number between 1
   and n for each, greater than those of the relations it requires. *)
Definition rounds (n : nat) (start : list key) (d : dictionary) : Prop :=
  exists rank : key -> nat,
    forall k reqs, In (k, reqs) d -> ~ In k start ->
      1 <= rank k <= n /\
      forall r, In r reqs -> In r start \/ (In r (map fst d) /\ rank r < rank k).

(* block.py: nested lists of equations with at most one level of lists *)
Definition shallow {A} (e : nested A) : Prop :=
  match e with
  | NLeaf _ => True
  | NList l => forall x, In x l -> exists a, x = NLeaf a
  end.
(* the same nesting with converted equations *)
Fixpoint map_nested {A B} (f : A -> B) (e : nested A) : nested B :=
  match e with NLeaf a => NLeaf (f a) | NList l => NList (map (map_nested f) l) end.
Definition as_nested {B} (o : outelt B) : nested B :=
  match o with OOne b => NLeaf b | OSlice l => NList (map NLeaf l) end.
