(* Model of the central discretisation of a system of simulation equations:
   scheme.py 145-387.  Work arrays are named wk0, wk1, ... (grid.py 21-23; the block
   suffix is left out), arrays and derivatives are expressions of Expr.v. *)
From Verif Require Import Base Expr FDModel WorkModel ShiftModel.
From Coq Require Import QArith ZArith.
Local Close Scope Q_scope.

(* A central derivative is EApp HCD (argument :: coordinates). *)
Definition is_cd (e : expr) : bool := match e with EApp HCD (_ :: _) => true | _ => false end.
(* all central derivatives in e, in the order of postorder_traversal; as a set, this is
   e.atoms(CentralDerivative) *)
Fixpoint cds_post (e : expr) : list expr :=
  match e with
  | EApp h args =>
      (fix go l := match l with [] => [] | x :: l => cds_post x ++ go l end) args ++
      (if is_cd e then [e] else [])
  | _ => []
  end.
Definition cd_arg (v : expr) : expr := match v with EApp HCD (a :: _) => a | _ => v end.
Definition cd_coords (v : expr) : list expr := match v with EApp HCD (_ :: cs) => cs | _ => [] end.

(* ConstantObject("Re") occurs in e (Basic.has) *)
Definition has_re (e : expr) : bool := existsb (String.eqb "Re") (syms KConst e).

(* scheme.py 347-357: .subs of every function other than a central derivative by 0 *)
Fixpoint zero_functions (e : expr) : expr :=
  match e with
  | EApp (HFun _) _ => ENum 0
  | EApp h args => EApp h (map zero_functions args)
  | _ => e
  end.
(* scheme.py 329-358: (containing_terms, other_terms) of one right-hand side *)
Definition classify (rhs : expr) : expr * expr :=
  let '(containing, other) :=
    match rhs with
    | EApp HAdd args => (EApp HAdd (filter has_re args), EApp HAdd (filter (fun a => negb (has_re a)) args))
    | EApp HMul _ => if has_re rhs then (rhs, ENum 0) else (ENum 0, rhs)
    | _ => (ENum 0, ENum 0)
    end in
  (zero_functions containing, zero_functions other).

(* kernel.py: the equations of a kernel in order, and the directions in which its
   range is extended into the halo points (set_halo_range with the scheme's halos on
   both sides; C55). *)
Record kernel := { k_eqs : list (string * expr); k_ext : list nat }.

Section scheme.
  Variable k : nat.                    (* the scheme has order 2k *)
  Variable ndim : nat.
  Variable dirof : string -> nat.      (* CoordinateObject.direction *)
  Variable inv : nat -> nat -> expr.   (* constant standing for 1/delta^m: direction, m *)
  Variable dord : expr -> list dset.   (* iteration order of the set of data sets of an expression *)
  Variable sord : list (expr * string) -> list (expr * string).  (* order in which SymPy's subs treats a dictionary *)

  Definition here (a : string) : expr := EDat a (repeat 0%Z ndim).

  (* directions of a derivative; opensblifunctions.py 293-339: it is homogeneous if all are equal *)
  Definition cd_dirs (v : expr) : list nat :=
    map (fun c => match c with ESym KCoord n => dirof n | _ => 0%nat end) (cd_coords v).
  Definition cd_dir (v : expr) : nat := hd 0%nat (cd_dirs v).
  Definition homogeneous (v : expr) : bool := forallb (Nat.eqb (cd_dir v)) (cd_dirs v).
  (* opensblifunctions.py 485-521 *)
  Definition discretise (v : expr) : result expr :=
    if homogeneous v
    then discretise_derivative (2 * Z.of_nat k) (List.length (cd_coords v)) (cd_dir v)
           (fun _ => dord (cd_arg v)) (inv (cd_dir v) (List.length (cd_coords v))) (cd_arg v)
    else Err ValueError.

  (* scheme.py 145-157: dictionary from direction to list of derivatives *)
  Fixpoint group_add (v : expr) (g : list (nat * list expr)) : list (nat * list expr) :=
    match g with
    | [] => [(cd_dir v, [v])]
    | (d, l) :: g => if Nat.eqb (cd_dir v) d then (d, l ++ [v]) :: g else (d, l) :: group_add v g
    end.
  Definition group_by_direction (cds : list expr) : list (nat * list expr) :=
    fold_left (fun g v => group_add v g) cds [].

  Fixpoint mapM {A B} (f : A -> result B) (l : list A) : result (list B) :=
    match l with
    | [] => Ok []
    | x :: l => bind (f x) (fun y => bind (mapM f l) (fun ys => Ok (y :: ys)))
    end.

  (* the dictionary v -> v.work: work arrays are taken in the given order *)
  Definition assign_works (start : nat) (vs : list expr) : list (expr * string) :=
    combine vs (map wk_name (seq start (List.length vs))).
  Fixpoint lookup (v : expr) (l : list (expr * string)) : string :=
    match l with
    | [] => EmptyString
    | (v', w) :: l => if expr_eq_dec v v' then w else lookup v l
    end.

  (* scheme.py 213-236: one group; [c] is the next free work array.  Returns the
     equations of the evaluation kernel and the kernels of the derivatives. *)
  Definition many_datasets (v : expr) : bool :=
    Nat.ltb 1 (List.length (nodup dset_eq_dec (dsets (cd_arg v)))).
  Fixpoint conv_group (works : list (expr * string)) (c : nat) (vs : list expr)
    : result (list (string * expr) * list kernel) :=
    match vs with
    | [] => Ok ([], [])
    | v :: vs =>
        let temp := many_datasets v in
        let v1 := if temp then EApp HCD (here (wk_name c) :: cd_coords v) else v in
        bind (discretise v1) (fun r =>
        bind (conv_group works (if temp then S c else c) vs) (fun rest =>
          Ok ((if temp then [(wk_name c, cd_arg v)] else []) ++ fst rest,
              {| k_eqs := [(lookup v works, r)]; k_ext := [] |} :: snd rest)))
    end.
  (* scheme.py 233-241: the evaluation kernel (if it has equations) precedes the
     derivatives of its group; all groups reuse the same temporaries. *)
  Fixpoint conv_groups (works : list (expr * string)) (c : nat) (g : list (nat * list expr)) : result (list kernel) :=
    match g with
    | [] => Ok []
    | (d, vs) :: g =>
        bind (conv_group works c vs) (fun ek =>
        bind (conv_groups works c g) (fun rest =>
          Ok ((match fst ek with [] => [] | eqs => [{| k_eqs := eqs; k_ext := [d] |}] end) ++ snd ek ++ rest)))
    end.

  (* SymPy's subs with a dictionary: one replacement after the other *)
  Definition subs (l : list (expr * string)) (e : expr) : expr :=
    fold_left (fun e vw => subst1 (fst vw) (here (snd vw)) e) l e.

  (* scheme.py 284-297 *)
  Definition residual_kernel (convective : bool) (eqs : list (string * expr)) : kernel :=
    {| k_eqs := map (fun re => (fst re, if convective then snd re else EApp HAdd [here (fst re); snd re])) eqs;
       k_ext := [] |}.

  (* scheme.py 197-253; [cds] is the set of convective derivatives in its iteration order *)
  Definition convective_kernels (cds : list expr) (eqs : list (string * expr)) : result (list kernel) :=
    let g := group_by_direction cds in
    match g with
    | [] => Ok []
    | _ =>
        let works := assign_works 0 (flat_map snd g) in
        bind (conv_groups works (List.length works) g) (fun ks =>
          Ok (ks ++ [residual_kernel true (map (fun re => (fst re, subs (sord works) (snd re))) eqs)]))
    end.

  (* scheme.py 360-387: the derivative with inner derivatives replaced by their work
     arrays, and the directions in which the ranges of the inner kernels grow *)
  Definition traverse (works : list (expr * string)) (v : expr) : expr :=
    fold_left (fun e cd => subst1 cd (here (lookup cd works)) e) (removelast (cds_post v)) v.
  Fixpoint range_updates (l : list expr) : list (expr * list nat) :=
    match l with
    | cd :: ((next :: _) as l') => (cd, cd_dirs next) :: range_updates l'
    | _ => []
    end.
  Definition extended (cds : list expr) (v : expr) : list nat :=
    flat_map (fun u => if expr_eq_dec (fst u) v then snd u else []) (flat_map (fun o => range_updates (cds_post o)) cds).

  (* sorted(kernels, key=number of distinct coordinates): stable *)
  Definition coordinates (v : expr) : nat := List.length (nodup string_dec (syms KCoord v)).
  Fixpoint insert_by (v : expr) (l : list expr) : list expr :=
    match l with
    | [] => [v]
    | u :: l => if Nat.leb (coordinates v) (coordinates u) then v :: u :: l else u :: insert_by v l
    end.
  Definition sort_by_coordinates (l : list expr) : list expr := fold_right insert_by [] l.

  (* scheme.py 299-327, 256-268 *)
  Definition viscous_kernels (cds : list expr) (eqs : list (string * expr)) : result (list kernel) :=
    match cds with
    | [] => Ok []
    | _ =>
        let works := assign_works 0 cds in
        let keys := map (fun v => (traverse works v, lookup v works)) cds in
        bind (mapM (fun v => bind (discretise (traverse works v)) (fun r =>
                      Ok {| k_eqs := [(lookup v works, r)]; k_ext := extended cds v |}))
                   (sort_by_coordinates cds)) (fun ks =>
          Ok (ks ++ [residual_kernel false (map (fun re => (fst re, subs (sord keys) (snd re))) eqs)]))
    end.

  (* scheme.py 187-271; an equation is its residual array and its right-hand side *)
  Definition sbli_rhs_discretisation (ccds vcds : list expr) (eqs : list (string * expr)) : result (list kernel) :=
    let viscous := map (fun re => (fst re, fst (classify (snd re)))) eqs in
    let convective := map (fun re => (fst re, snd (classify (snd re)))) eqs in
    bind (convective_kernels ccds convective) (fun c =>
    bind (viscous_kernels vcds viscous) (fun v => Ok (c ++ v))).
End scheme.

(* Execution of a kernel: statement by statement over the points of its range.  (The
   generated loops run point by point; the two agree because no kernel reads an array
   it writes at another point.) *)
From Coq Require Import Reals.
Definition memory := string -> list Z -> R.
Section run.
  Variable J : interp R.
  Variable k : nat.
  Variable sizes : list Z.
  (* the range of a kernel: 0 <= x_d < size_d, extended by k points in the directions ext *)
  Definition in_range (ext : list nat) (x : list Z) : bool :=
    Nat.eqb (List.length x) (List.length sizes) &&
    forallb (fun d => let e := if existsb (Nat.eqb d) ext then Z.of_nat k else 0%Z in
                      Z.leb (- e) (nth d x 0%Z) && Z.ltb (nth d x 0%Z) (nth d sizes 0%Z + e))
            (seq 0 (List.length sizes)).
  (* component-wise sum *)
  Fixpoint at_offset (x ix : list Z) : list Z :=
    match x, ix with a :: x, b :: ix => (a + b)%Z :: at_offset x ix | _, _ => [] end.
  Definition exec_eq (ext : list nat) (M : memory) (s : string * expr) : memory :=
    fun a x => if String.eqb a (fst s) && in_range ext x then eval J (fun b ix => M b (at_offset x ix)) (snd s) else M a x.
  Definition exec_kernel (M : memory) (kn : kernel) : memory := fold_left (exec_eq (k_ext kn)) (k_eqs kn) M.
  Definition exec (ks : list kernel) (M : memory) : memory := fold_left exec_kernel ks M.
End run.
