(* Specification of reading nested lists: from left to right. *)
From Verif Require Import Base BCModel.
Local Open Scope list_scope.

Inductive reads_as {A} : nest A -> list A -> Prop :=
| reads_one : forall a, reads_as (One a) [a]
| reads_none : reads_as (Many []) []
| reads_more : forall t ts l ls, reads_as t l -> reads_as (Many ts) ls -> reads_as (Many (t :: ts)) (l ++ ls).
