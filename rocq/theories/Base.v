(* Shared definitions: error values and Python's numeric string formats. *)
From Coq Require Export List Arith ZArith Lia Bool String Ascii.
From Coq Require Import Decimal DecimalString DecimalNat DecimalFacts.
Export ListNotations.

(* Python exceptions as values.  The constructors name the exception classes
   that the modelled functions raise. *)
Inductive exn :=
| ValueError | NotImplemented | TypeErr | IndexErr | KeyErr | AttributeErr
| UnboundLocal.

Inductive result (A : Type) :=
| Ok (a : A)
| Err (e : exn).
Arguments Ok {A} a.
Arguments Err {A} e.

Definition bind {A B} (r : result A) (f : A -> result B) : result B :=
  match r with Ok a => f a | Err e => Err e end.

(* "%d" % n for a non-negative Python int. *)
Definition dec (n : nat) : string := NilEmpty.string_of_uint (Nat.to_uint n).

(* k copies of the character 0. *)
Fixpoint zeros (k : nat) : string :=
  match k with 0 => EmptyString | S k => String "0"%char (zeros k) end.

(* "%0<w>d" % n: pad with zeros on the left up to width w. *)
Definition decpad (w n : nat) : string :=
  append (zeros (w - String.length (dec n))) (dec n).

Arguments dec : simpl never.
Arguments decpad : simpl never.
