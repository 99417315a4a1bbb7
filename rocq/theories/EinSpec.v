(* The Einstein summation convention, stated directly. *)
From Verif Require Import Base EinModel.
Local Open Scope list_scope.

(* A domain of values in which expressions are read: fields on space and time, say. *)
Record values := {
  D : Type;
  zero : D;
  plus : D -> D -> D;
  number : Z -> D;
  times : list D -> D;
  power : D -> Z -> D;
  func : string -> list D -> D;
  oper : string -> list D -> D;      (* derivatives, Dot *)
  component : string -> list nat -> D
}.
(* addition is what addition should be *)
Definition lawful (V : values) : Prop :=
  (forall a b, plus V a b = plus V b a) /\ (forall a b c, plus V a (plus V b c) = plus V (plus V a b) c) /\
  (forall a, plus V a (zero V) = a).
Definition sum (V : values) (l : list (D V)) : D V := fold_right (plus V) (zero V) l.

Definition ix_is (i : string) (x : ix) : bool := match x with Sym s => String.eqb s i | Val _ => false end.
Definition times_in (i : string) (is : list ix) : nat := List.length (filter (ix_is i) is).
(* i is a free index of e: it appears in one factor only *)
Fixpoint free (i : string) (e : ex) : bool :=
  match e with
  | Tm _ is => Nat.eqb (times_in i is) 1
  | Num _ => false
  | KD a b => Nat.eqb (times_in i [a; b]) 1
  | LC a b c => Nat.eqb (times_in i [a; b; c]) 1
  | Add es | Fn _ es => existsb (free i) es
  | Mul es | Op _ es => Nat.eqb (List.length (filter (free i) es)) 1
  | Pow e _ => free i e
  | Sum _ _ => false
  end.
(* i is contracted in e: it appears in one term twice, or in two factors of a product, or in
   two arguments of a derivative *)
Definition contracted (i : string) (e : ex) : bool :=
  match e with
  | Tm _ is => Nat.ltb 1 (times_in i is)
  | KD a b => Nat.ltb 1 (times_in i [a; b])
  | LC a b c => Nat.ltb 1 (times_in i [a; b; c])
  | Mul es | Op _ es => Nat.ltb 1 (List.length (filter (free i) es))
  | _ => false
  end.
Fixpoint index_names (e : ex) : list string :=
  match e with
  | Tm _ is => syms is
  | Num _ => []
  | KD a b => syms [a; b]
  | LC a b c => syms [a; b; c]
  | Add es | Fn _ es | Mul es | Op _ es => List.concat (map index_names es)
  | Pow e _ => index_names e
  | Sum _ _ => []
  end.
Definition dummies (e : ex) : list string := nodup string_dec (filter (fun i => contracted i e) (index_names e)).

(* values of the indices *)
Definition env := string -> nat.
Definition set_index (r : env) (k : string) (d : nat) : env := fun s => if String.eqb s k then d else r s.
Fixpoint set_indices (r : env) (ks : list string) (a : list nat) : env :=
  match ks, a with k :: ks, d :: a => set_index (set_indices r ks a) k d | _, _ => r end.
Definition at_env (r : env) (x : ix) : nat := match x with Sym s => r s | Val n => n end.
(* sum of f over all n values of each index in ks *)
Fixpoint sum_over (V : values) (n : nat) (ks : list string) (r : env) (f : env -> D V) : D V :=
  match ks with
  | [] => f r
  | k :: ks => sum V (map (fun d => sum_over V n ks (set_index r k d) f) (seq 0 n))
  end.

(* What an expression in Einstein notation means in n dimensions, given values of its free
   indices: contracted indices are summed over. *)
Fixpoint meaning (V : values) (n : nat) (r : env) (e : ex) {struct e} : D V :=
  match e with
  | Tm b is => sum_over V n (dummies e) r (fun r => component V b (map (at_env r) is))
  | Num z => number V z
  | KD i j => sum_over V n (dummies e) r (fun r => number V (if Nat.eqb (at_env r i) (at_env r j) then 1 else 0)%Z)
  | LC i j k => sum_over V n (dummies e) r (fun r => number V (lc_value (at_env r i) (at_env r j) (at_env r k)))
  | Add es => sum V (map (meaning V n r) es)
  | Mul es => sum_over V n (dummies e) r (fun r => times V (map (meaning V n r) es))
  | Pow e p => power V (meaning V n r e) p
  | Fn f es => func V f (map (meaning V n r) es)
  | Op f es => sum_over V n (dummies e) r (fun r => oper V f (map (meaning V n r) es))
  | Sum _ _ => zero V
  end.

(* The value of an expression without summations. *)
Fixpoint value (V : values) (r : env) (e : ex) {struct e} : D V :=
  match e with
  | Tm b is => component V b (map (at_env r) is)
  | Num z => number V z
  | KD i j => number V (kd_value (at_env r i) (at_env r j))
  | LC i j k => number V (lc_value (at_env r i) (at_env r j) (at_env r k))
  | Add es => sum V (map (value V r) es)
  | Mul es => times V (map (value V r) es)
  | Pow e p => power V (value V r e) p
  | Fn f es => func V f (map (value V r) es)
  | Op f es => oper V f (map (value V r) es)
  | Sum _ _ => zero V
  end.
(* No index name and no summation is left. *)
Definition is_value (x : ix) : bool := match x with Sym _ => false | Val _ => true end.
Fixpoint expanded (e : ex) : bool :=
  match e with
  | Tm _ is => forallb is_value is
  | Num _ => true
  | KD a b => is_value a && is_value b
  | LC a b c => is_value a && (is_value b && is_value c)
  | Add es | Fn _ es | Mul es | Op _ es => forallb expanded es
  | Pow e _ => expanded e
  | Sum _ _ => false
  end.
(* As a user writes it: no summation sign, and powers other than 0 and 1. *)
Fixpoint plain (e : ex) : bool :=
  match e with
  | Add es | Fn _ es | Mul es | Op _ es => forallb plain es
  | Pow e p => plain e && (negb (Z.eqb p 0) && negb (Z.eqb p 1))
  | Sum _ _ => false
  | _ => true
  end.
(* Products of at least two factors with different bases. *)
Fixpoint distinct_factors (e : ex) : Prop :=
  match e with
  | Add es | Fn _ es | Op _ es => fold_right and True (map distinct_factors es)
  | Mul es => (2 <= List.length es)%nat /\ NoDup (map (fun f => fst (base_exp f)) es) /\ fold_right and True (map distinct_factors es)
  | Pow e _ => distinct_factors e
  | _ => True
  end.
(* The terms of every sum have the same free indices or none. *)
Fixpoint consistent (e : ex) : Prop :=
  match e with
  | Add es => fold_right and True (map consistent es) /\
      forall a b, In a es -> In b es -> (exists i, free i a = true) -> (exists i, free i b = true) -> forall i, free i a = free i b
  | Fn _ es | Mul es | Op _ es => fold_right and True (map consistent es)
  | Pow e _ => consistent e
  | _ => True
  end.
(* position of the assignment a in the list of all assignments, the last index fastest *)
Fixpoint position (n : nat) (a : list nat) : nat :=
  match a with [] => 0 | d :: a => d * n ^ List.length a + position n a end.

(* ---- names ---- *)
Fixpoint has_char (c : ascii) (s : string) : bool :=
  match s with EmptyString => false | String d s => Ascii.eqb c d || has_char c s end.
Definition is_digit (c : ascii) : bool := let n := nat_of_ascii c in (48 <=? n)%nat && (n <=? 57)%nat.
(* the name does not end in a digit *)
Fixpoint ends_plain (b : string) : bool :=
  match b with
  | EmptyString => true
  | String c EmptyString => negb (is_digit c)
  | String _ r => ends_plain r
  end.
(* neither name begins with the other *)
Definition unrelated (s t : string) : Prop := String.prefix s t = false /\ String.prefix t s = false.
