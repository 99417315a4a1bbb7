(* Model of the metric transformations, opensbli/equation_types/metric.py ("metric" below)
   and the derivative classes of opensbli/core/opensblifunctions.py ("functions" below). *)
From Verif Require Import Base.

(* Coordinates x_i (Cartesian) and xi_i (curvilinear): metric 43-46. *)
Inductive coord := Cart (i : nat) | Curv (i : nat).
Definition direction (c : coord) : nat := match c with Cart i | Curv i => i end.
Definition coord_eqb (a b : coord) : bool :=
  match a, b with Cart i, Cart j | Curv i, Curv j => i =? j | _, _ => false end.

(* Expressions.  Simplification: the data objects D%d%d, SD%d%d%d, detJ and x%d have
   constructors of their own, so that they cannot be confused with fields of the equations;
   Add and Mul are binary; other functions have one argument. *)
Inductive term :=
| TNum (z : Z)
| TFld (name : string)
| TMap (i : nat)                 (* the coordinate array x_i *)
| TMet (i j : nat)               (* D_ij *)
| TSec (i j k : nat)             (* SD_ijk *)
| TDet                           (* detJ *)
| TAdd (a b : term) | TMul (a b : term) | TDiv (a b : term)
| TTime (a : term)               (* TemporalDerivative *)
| TFun (f : string) (a : term)   (* a function of sympy *)
| TCD (a : term) (ds : list coord). (* CentralDerivative(a, directions) *)

Fixpoint term_eqb (a b : term) : bool :=
  match a, b with
  | TNum x, TNum y => Z.eqb x y
  | TFld x, TFld y => String.eqb x y
  | TMap i, TMap j => i =? j
  | TMet i j, TMet k l => (i =? k) && (j =? l)
  | TSec i j k, TSec l m n => (i =? l) && (j =? m) && (k =? n)
  | TDet, TDet => true
  | TAdd x y, TAdd z w | TMul x y, TMul z w | TDiv x y, TDiv z w => term_eqb x z && term_eqb y w
  | TTime x, TTime y => term_eqb x y
  | TFun f x, TFun g y => String.eqb f g && term_eqb x y
  | TCD x ds, TCD y es => term_eqb x y && (fix eqs (l m : list coord) := match l, m with [], [] => true | c :: l, d :: m => coord_eqb c d && eqs l m | _, _ => false end) ds es
  | _, _ => false
  end.

Definition tsum (n : nat) (f : nat -> term) : term := fold_right (fun k s => TAdd (f k) s) (TNum 0) (seq 0 n).

(* CentralDerivative.doit (functions 457-463) on arguments that are zero or coordinates:
   Some v if it evaluates to the number v, None if it stays a derivative. *)
Definition doit (args : list (option coord)) : option Z :=
  if existsb (fun a => match a with None => true | _ => false end) args then Some 0%Z
  else match args with
       | a :: l => if forallb (fun b => match a, b with Some x, Some y => coord_eqb x y | _, _ => false end) l then Some 1%Z else None
       | [] => None
       end.

Section metric.
  Variable n : nat.
  Variable params : list (bool * bool).     (* (stretched, curvilinear) for each direction *)
  (* metric 41-42 *)
  Definition stretch (i : nat) : bool := fst (nth i params (false, false)).
  Definition curv (i : nat) : bool := snd (nth i params (false, false)).

  (* The matrix M2, None for zero: metric 83-100. *)
  Definition M2 (i j : nat) : option coord :=
    if curv i then (if curv j then Some (Cart j) else None)
    else if i =? j then (if stretch j then Some (Cart j) else Some (Curv j)) else None.
  (* fd_jacobians: metric 81, 101-113 *)
  Definition entry (i j : nat) : term :=
    match doit [Some (Curv i); M2 i j] with Some v => TNum v | None => TMet i j end.
  (* Cartesian_curvilinear_derivatives: metric 101-113 *)
  Definition jac (i j : nat) : term :=
    match doit [Some (Curv i); M2 i j] with Some v => TNum v | None => TCD (TMap i) [Curv j] end.

  (* sympy's det and adjugate, by expansion along the first row.  Simplification: sympy
     returns an algebraically equal expression. *)
  Definition skip (i a : nat) : nat := if a <? i then a else S a.
  Definition minor (m : nat -> nat -> term) (i j a b : nat) : term := m (skip i a) (skip j b).
  Definition sign (i : nat) : term := TNum (if Nat.even i then 1 else -1).
  Fixpoint det (d : nat) (m : nat -> nat -> term) : term :=
    match d with
    | 0 => TNum 1
    | S d => tsum (S d) (fun j => TMul (TMul (sign j) (m 0 j)) (det d (minor m 0 j)))
    end.
  Definition adj (d : nat) (m : nat -> nat -> term) (i j : nat) : term := TMul (sign (i + j)) (det (d - 1) (minor m j i)).
  Definition pairs : list (nat * nat) := list_prod (seq 0 n) (seq 0 n).
  (* generate_fd_metrics_equations: metric 137-147; equations whose left side is a number
     are true and dropped. *)
  Definition fdequations : list (term * term) :=
    (TDet, det n jac) ::
    flat_map (fun ij => match entry (fst ij) (snd ij) with
                        | TMet i j => [(TMet i j, TDiv (adj n jac i j) (det n jac))]
                        | _ => [] end) pairs.
  (* SD: metric 153-169 *)
  Definition SD (i j k : nat) : option coord :=
    match M2 i j with
    | Some (Curv _) => None
    | _ => if curv k then Some (Cart k) else if stretch k && (i =? j) && (j =? k) then Some (Cart k) else None
    end.
  (* metric 170-183: is SD_ijk an array, or zero *)
  Definition kept (i j k : nat) : bool :=
    match entry i j with
    | TNum 0 => false
    | _ => match doit [Some (Curv i); Some (Cart j); SD i j k] with Some _ => false | None => true end
    end.
  Definition sd_entry (i j k : nat) : term := if kept i j k then TSec i j k else TNum 0.
  (* generate_sd_metrics_equations: metric 207-212 *)
  Definition sdequations : list (term * term) :=
    flat_map (fun ij => flat_map (fun k => if kept (fst ij) (snd ij) k
      then [(TSec (fst ij) (snd ij) k, TCD (entry (fst ij) (snd ij)) [Curv k])] else []) (seq 0 n)) pairs.

  (* Derivatives with two directions are stored with sorted variables (sympy's Derivative). *)
  Definition two (k l : nat) : list coord := if k <=? l then [Curv k; Curv l] else [Curv l; Curv k].
  (* fd_transformed[d] with the general function replaced by e: metric 114-119, 214-219,
     functions 540-544; MetricDer expands to the sum over k of d xi_k/d x_d * d e/d xi_k. *)
  Definition first (d : nat) (e : term) : term := tsum n (fun k => TMul (entry k d) (TCD e [Curv k])).
  (* sd_transformed[i, j]: metric 185-192, 221-225, functions 545-548; the chain rule applied
     to the first derivative. *)
  Definition second (i j : nat) (e : term) : term :=
    tsum n (fun l => TMul (entry l j)
      (tsum n (fun k => TAdd (TMul (sd_entry k i l) (TCD e [Curv k])) (TMul (entry k i) (TCD e (two k l)))))).
  (* classical_strong_differentiabilty_transformation of CentralDerivative (functions
     540-549), TemporalDerivative (735-737, unchanged) and of functions of sympy (which have
     no such attribute). *)
  Definition transform (fn : term) : result term :=
    match fn with
    | TCD e [c] => Ok (first (direction c) e)
    | TCD e [c; c'] => Ok (second (direction c) (direction c') e)
    | TCD _ _ => Err UnboundLocal
    | TTime _ => Ok fn
    | _ => Err AttributeErr
    end.
End metric.

(* sympy's subs for one pair *)
Fixpoint subst (old new e : term) : term :=
  if term_eqb e old then new else
  match e with
  | TAdd a b => TAdd (subst old new a) (subst old new b)
  | TMul a b => TMul (subst old new a) (subst old new b)
  | TDiv a b => TDiv (subst old new a) (subst old new b)
  | TTime a => TTime (subst old new a)
  | TFun f a => TFun f (subst old new a)
  | TCD a ds => TCD (subst old new a) ds
  | _ => e
  end.
(* equation.atoms(Function) *)
Fixpoint functions (e : term) : list term :=
  match e with
  | TAdd a b | TMul a b | TDiv a b => functions a ++ functions b
  | TTime a | TFun _ a | TCD a _ => e :: functions a
  | _ => []
  end.
(* apply_transformation: metric 227-234.  fns is the order in which Python's set of functions
   is traversed. *)
Fixpoint apply_transformation (n : nat) (params : list (bool * bool)) (fns : list term) (e : term) : result term :=
  match fns with
  | [] => Ok e
  | fn :: fns => bind (transform n params fn) (fun t => apply_transformation n params fns (subst fn t e))
  end.
(* generate_transformations: metric 37-56 (transformation_eq[0] fails if max_order is 0).
   The result is the first- and second-derivative metric equations. *)
Definition generate_transformations (n : nat) (params : list (bool * bool)) (max_order : nat) : result (list (term * term) * list (term * term)) :=
  if negb (2 * List.length params =? n * 2) then Err ValueError
  else if max_order =? 0 then Err IndexErr
  else Ok (fdequations n params, sdequations n params).
