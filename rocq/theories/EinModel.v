(* Einstein notation: contraction structure, expansion of summations and of free indices,
   and the text of component names. *)
From Verif Require Import Base.
Local Open Scope string_scope.
Local Open Scope list_scope.

(* An index of a term: a name, or the number put in its place.
   opensbli/core/opensbliobjects.py 42-48, 88-100. *)
Inductive ix := Sym (s : string) | Val (n : nat).

(* Expressions after parsing, differentiation and local substitution.
   Tm: EinsteinTerm and its subclasses (DataObject, CoordinateObject, ConstantObject),
       opensbliobjects.py 14-48.
   KD, LC: opensblifunctions.py 13-67, with their index arguments.
   Op: the functions with their own contraction (derivatives, Dot),
       opensblifunctions.py 137-197, 383, 441, 552, 751.
   Fn: every other function of sympy.  Pow: an integer power.
   Sum: convert_to_summation's Sum(..., (k, 0, ndim)), opensblifunctions.py 70-77. *)
Inductive ex :=
| Tm (b : string) (is : list ix)
| Num (z : Z)
| KD (i j : ix)
| LC (i j k : ix)
| Add (es : list ex)
| Mul (es : list ex)
| Pow (e : ex) (p : Z)
| Fn (f : string) (es : list ex)
| Op (f : string) (es : list ex)
| Sum (k : string) (e : ex).

Definition ix_eqb (a b : ix) : bool :=
  match a, b with
  | Sym s, Sym t => String.eqb s t
  | Val n, Val m => Nat.eqb n m
  | _, _ => false
  end.
Definition list_eqb {A} (eqb : A -> A -> bool) : list A -> list A -> bool :=
  fix go (l m : list A) {struct l} : bool :=
  match l, m with
  | [], [] => true
  | a :: l, b :: m => eqb a b && go l m
  | _, _ => false
  end.
(* structural equality of sympy expressions *)
Fixpoint ex_eqb (a b : ex) {struct a} : bool :=
  match a, b with
  | Tm s i, Tm t j => String.eqb s t && list_eqb ix_eqb i j
  | Num x, Num y => Z.eqb x y
  | KD i j, KD i' j' => ix_eqb i i' && ix_eqb j j'
  | LC i j k, LC i' j' k' => ix_eqb i i' && (ix_eqb j j' && ix_eqb k k')
  | Add l, Add m => list_eqb ex_eqb l m
  | Mul l, Mul m => list_eqb ex_eqb l m
  | Pow e p, Pow e' p' => ex_eqb e e' && Z.eqb p p'
  | Fn f l, Fn g m => String.eqb f g && list_eqb ex_eqb l m
  | Op f l, Op g m => String.eqb f g && list_eqb ex_eqb l m
  | Sum k e, Sum k' e' => String.eqb k k' && ex_eqb e e'
  | _, _ => false
  end.

(* sympy: Expr.as_base_exp *)
Definition base_exp (e : ex) : ex * Z := match e with Pow b p => (b, p) | _ => (e, 1%Z) end.
(* sympy: Mul.flatten collects equal bases; xreplace at opensblifunctions.py 163 rebuilds
   every product that has an indexed factor.  Numeric factors and the reordering of factors are
   not modelled. *)
Fixpoint insert_factor (b : ex) (p : Z) (l : list (ex * Z)) : list (ex * Z) :=
  match l with
  | [] => [(b, p)]
  | (c, q) :: l => if ex_eqb b c then (c, (q + p)%Z) :: l else (c, q) :: insert_factor b p l
  end.
Definition rebuild (bp : ex * Z) : ex :=
  let '(b, p) := bp in if Z.eqb p 0 then Num 1 else if Z.eqb p 1 then b else Pow b p.
Definition collect_factors (es : list ex) : list ex :=
  map rebuild (fold_left (fun acc e => let '(b, p) := base_exp e in insert_factor b p acc) es []).

(* EinsteinTerm.get_indices, opensbliobjects.py 50-55: the names not yet given a value. *)
Definition syms (l : list ix) : list string :=
  flat_map (fun x => match x with Sym s => [s] | Val _ => [] end) l.

(* sympy.tensor.index_methods._remove_repeated: (indices met once, indices met again) *)
Definition occurrences (i : string) (l : list string) : nat := List.length (filter (String.eqb i) l).
Definition once (l : list string) : list string := filter (fun i => Nat.eqb (occurrences i l) 1) l.
Definition repeated (l : list string) : list string :=
  nodup string_dec (filter (fun i => Nat.ltb 1 (occurrences i l)) l).
(* convert_to_summation, opensblifunctions.py 70-77 *)
Definition to_summation (e : ex) (ks : list string) : ex := fold_left (fun e k => Sum k e) ks e.

Definition same_set (a b : list string) : bool :=
  forallb (fun i => existsb (String.eqb i) b) a && forallb (fun i => existsb (String.eqb i) a) b.

Fixpoint all_ok {A} (l : list (result A)) : result (list A) :=
  match l with
  | [] => Ok []
  | r :: l => bind r (fun a => bind (all_ok l) (fun l => Ok (a :: l)))
  end.
(* sympy.tensor.index_methods._get_indices_Add: scalars go with anything, the other
   terms must have the same indices; IndexConformanceException otherwise *)
Definition sum_indices (inds : list (list string)) : result (list string) :=
  match filter (fun l => match l with [] => false | _ => true end) inds with
  | [] => Ok []
  | l :: ls => if forallb (same_set l) ls then Ok l else Err ValueError
  end.

(* EinsteinStructure._structure and structure, opensblifunctions.py 139-197, and
   apply_contraction 206-232, with sympy's get_contraction_structure and get_indices: the
   expression in summation notation and its outer indices.
   Not modelled: the ValueError of 223-224 for a contracted product met twice. *)
Fixpoint structure (e : ex) : result (ex * list string) :=
  match e with
  | Tm b is => Ok (to_summation (Tm b is) (repeated (syms is)), once (syms is))
  | Num z => Ok (Num z, [])
  | KD i j => let l := syms [i; j] in Ok (to_summation (KD i j) (repeated l), once l)
  | LC i j k => let l := syms [i; j; k] in Ok (to_summation (LC i j k) (repeated l), once l)
  | Add es => bind (all_ok (map structure es)) (fun rs =>
      bind (sum_indices (map snd rs)) (fun inds => Ok (Add (map fst rs), inds)))
  | Mul es => bind (all_ok (map structure es)) (fun rs =>
      let l := List.concat (map snd rs) in Ok (to_summation (Mul (map fst rs)) (repeated l), once l))
  | Pow e p => bind (structure e) (fun r => Ok (Pow (fst r) p, snd r))
  | Fn f es => bind (all_ok (map structure es)) (fun rs =>
      Ok (Fn f (map fst rs), nodup string_dec (List.concat (map snd rs))))
  | Op f es => bind (all_ok (map structure es)) (fun rs =>
      let l := List.concat (map snd rs) in Ok (to_summation (Op f (map fst rs)) (repeated l), once l))
  | Sum _ _ => Err ValueError
  end.

(* the rebuilding of products that goes before it, opensblifunctions.py 163 *)
Fixpoint normalise (e : ex) : ex :=
  match e with
  | Add es => Add (map normalise es)
  | Mul es => match collect_factors (map normalise es) with [e] => e | l => Mul l end
  | Pow e p => Pow (normalise e) p
  | Fn f es => Fn f (map normalise es)
  | Op f es => Op f (map normalise es)
  | Sum k e => Sum k (normalise e)
  | e => e
  end.

(* EinsteinTerm.apply_index, opensbliobjects.py 81-100, on the list of indices *)
Definition put (k : string) (d : nat) (x : ix) : ix :=
  match x with Sym s => if String.eqb s k then Val d else Sym s | Val n => Val n end.
(* opensblifunctions.py 88-96: replace the index in every term *)
Fixpoint apply_index (k : string) (d : nat) (e : ex) : ex :=
  match e with
  | Tm b is => Tm b (map (put k d) is)
  | Num z => Num z
  | KD i j => KD (put k d i) (put k d j)
  | LC i j l => LC (put k d i) (put k d j) (put k d l)
  | Add es => Add (map (apply_index k d) es)
  | Mul es => Mul (map (apply_index k d) es)
  | Pow e p => Pow (apply_index k d e) p
  | Fn f es => Fn f (map (apply_index k d) es)
  | Op f es => Op f (map (apply_index k d) es)
  | Sum s e => Sum s (apply_index k d e)
  end.
(* expand_expr 80-103 and expand_summations 254-277: innermost summations first *)
Fixpoint expand_summations (n : nat) (e : ex) : ex :=
  match e with
  | Add es => Add (map (expand_summations n) es)
  | Mul es => Mul (map (expand_summations n) es)
  | Pow e p => Pow (expand_summations n e) p
  | Fn f es => Fn f (map (expand_summations n) es)
  | Op f es => Op f (map (expand_summations n) es)
  | Sum k e => let b := expand_summations n e in Add (map (fun d => apply_index k d b) (seq 0 n))
  | e => e
  end.
(* numpy.ndindex with r times the size n *)
Fixpoint ndindex (n r : nat) : list (list nat) :=
  match r with
  | 0 => [[]]
  | S r => flat_map (fun d => map (cons d) (ndindex n r)) (seq 0 n)
  end.
(* apply_multiple_indices, opensbliobjects.py 102-120, over a whole expression
   (opensblifunctions.py 129-132) *)
Definition apply_indices (m : list (string * nat)) (e : ex) : ex :=
  fold_left (fun e kd => apply_index (fst kd) (snd kd) e) m e.
(* expand_free_indices, opensblifunctions.py 106-134; an equation is a pair *)
Definition expand_free_indices (ks : list string) (n : nat) (eq : ex * ex) : list (ex * ex) :=
  map (fun a => (apply_indices (combine ks a) (fst eq), apply_indices (combine ks a) (snd eq))) (ndindex n (List.length ks)).

(* EinsteinEquation.expand, parsing.py 426-448.  The outer indices are a Python set; listed is
   the order in which Python lists it. *)
Definition expand_equation (listed : list string -> list string) (n : nat) (lhs rhs : ex) : result (list (ex * ex)) :=
  bind (structure (normalise lhs)) (fun l =>
  bind (structure (normalise rhs)) (fun r =>
    let eq := (expand_summations n (fst l), expand_summations n (fst r)) in
    match snd l, snd r with
    | [], [] => Ok [eq]
    | li, ri => if same_set li ri then Ok (expand_free_indices (listed li) n eq) else Err ValueError
    end)).

(* KD.value 33-40 and LC.value 64-67 (sympy's eval_levicivita for three arguments) *)
Definition kd_value (i j : nat) : Z := if Nat.eqb i j then 1%Z else 0%Z.
Definition lc_value (i j k : nat) : Z :=
  let '(a, b, c) := (Z.of_nat i, Z.of_nat j, Z.of_nat k) in ((b - a) * (c - a) * (c - b) / 2)%Z.

(* ---- the text of a name ---- *)
(* opensbliobjects.py 42-48: base, then "_index" or the digits that replaced it *)
Definition ix_text (x : ix) : string := match x with Sym s => ("_" ++ s)%string | Val n => dec n end.
Definition term_text (b : string) (is : list ix) : string := (b ++ String.concat "" (map ix_text is))%string.
(* Python's str.replace *)
Fixpoint strip (p s : string) : option string :=
  match p, s with
  | EmptyString, s => Some s
  | String a p, String c s => if Ascii.eqb a c then strip p s else None
  | String _ _, EmptyString => None
  end.
Fixpoint replace_fuel (fuel : nat) (old new s : string) : string :=
  match fuel with
  | 0 => s
  | S fuel =>
      match s with
      | EmptyString => EmptyString
      | String c r => match strip old s with
                      | Some rest => (new ++ replace_fuel fuel old new rest)%string
                      | None => String c (replace_fuel fuel old new r)
                      end
      end
  end.
Definition py_replace (old new s : string) : string := replace_fuel (String.length s) old new s.
(* opensbliobjects.py 90 and 113 *)
Definition apply_index_text (k : string) (d : nat) (name : string) : string := py_replace ("_" ++ k)%string (dec d) name.
