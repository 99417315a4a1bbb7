(* Specification vocabulary: texts that differ in the case of letters only. *)
From Verif Require Import Base.
From Coq Require Import Ascii.
Local Open Scope list_scope.

Definition capitals : list ascii := list_ascii_of_string "ABCDEFGHIJKLMNOPQRSTUVWXYZ".
Definition smalls : list ascii := list_ascii_of_string "abcdefghijklmnopqrstuvwxyz".

(* the same character, or a letter and its capital *)
Definition same_letter (a b : ascii) : Prop :=
  a = b \/ In (a, b) (combine capitals smalls) \/ In (a, b) (combine smalls capitals).

Definition same_up_to_case (s t : string) : Prop :=
  Forall2 same_letter (list_ascii_of_string s) (list_ascii_of_string t).

Definition no_capitals (s : string) : Prop :=
  Forall (fun c => ~ In c capitals) (list_ascii_of_string s).
