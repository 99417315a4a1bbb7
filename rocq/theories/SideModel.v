(* Model of the central discretisation of a system of simulation equations on a block with
   boundary conditions that replace the central formulas next to a boundary: scheme.py 145-387
   as in DiscModel, with opensblifunctions.py 515-534 (modify_boundary_formula) and bc_core.py
   46-61 (check_modify_central).  The formulas are those of OneModel. *)
From Verif Require Import Base Expr FDModel WorkModel ShiftModel DiscModel OneModel.
From Coq Require Import QArith ZArith Reals.
Local Close Scope Q_scope.
Local Open Scope list_scope.

(* ---- right-hand sides of the equations of a kernel ---- *)
(* opensblifunctions.py 527-533: a Piecewise with conditions "grid index d equals loc", the
   formulas (weights times shifted expressions) of the conditions and a last one without
   condition, multiplied by 1/delta^m (517-519).  Weights are reals: OneModel. *)
Inductive rform :=
| Plain (e : expr)
| Piecewise (pairs : list (list (R * expr) * (nat * Z))) (last inv : expr).
Record skernel := { sk_eqs : list (string * rform); sk_ext : list nat }.
Definition plain_kernel (kn : kernel) : skernel :=
  {| sk_eqs := map (fun s => (fst s, Plain (snd s))) (k_eqs kn); sk_ext := k_ext kn |}.

(* bc_core.py 46-61: for every direction, the boundary schemes of the lower and the upper
   condition that modify central derivatives, if any.  The direction of a condition is taken to
   be its place in the list of conditions. *)
Definition sides := nat -> option bscheme * option bscheme.

Section scheme.
  Variables (k ndim : nat) (dirof : string -> nat) (inv : nat -> nat -> expr).
  Variable dord : expr -> list dset.
  Variable sord : list (expr * string) -> list (expr * string).
  Variables (sizes : list Z) (sd : sides).

  (* opensblifunctions.py 500-513: the central formula without 1/delta^m *)
  Definition central_form (m d : nat) (e : expr) : result expr :=
    match dsets e with
    | [] => Err ValueError
    | _ => disc_terms d (fun _ => dord e) e (combine (central_points (2 * Z.of_nat k)) (generate_weights (2 * Z.of_nat k) m)) (ENum 0)
    end.
  (* expr_cond_pairs of Carpenter_scheme.py 58-73, reduced_access_scheme.py 61-74 and
     reduced_order_scheme.py 57-71, as expressions *)
  Definition condition_pairs (e : expr) (m d : nat) (b : option bscheme) (side : bool)
    : result (list (list (R * expr) * (nat * Z))) :=
    bind (pairs_of b m side (nth d sizes 0%Z)) (fun prs =>
    mapM (fun c => bind (formula_terms dord d e (fst c)) (fun ts => Ok (ts, (d, snd c)))) prs).
  (* opensblifunctions.py 485-534 *)
  Definition discretise1 (v : expr) : result rform :=
    let d := cd_dir dirof v in let m := List.length (cd_coords v) in
    if homogeneous dirof v
    then bind (central_form m d (cd_arg v)) (fun form =>
         match sd d with
         | (None, None) => Ok (Plain (EApp HMul [form; inv d m]))
         | (l, r) =>
             bind (condition_pairs (cd_arg v) m d l false) (fun ps =>
             bind (condition_pairs (cd_arg v) m d r true) (fun qs =>
               Ok (Piecewise (ps ++ qs) form (inv d m))))
         end)
    else Err ValueError.

  (* scheme.py 213-241, as DiscModel.conv_group and DiscModel.conv_groups *)
  Fixpoint conv_group1 (works : list (expr * string)) (c : nat) (vs : list expr)
    : result (list (string * expr) * list skernel) :=
    match vs with
    | [] => Ok ([], [])
    | v :: vs =>
        let temp := many_datasets v in
        let v1 := if temp then EApp HCD (here ndim (wk_name c) :: cd_coords v) else v in
        bind (discretise1 v1) (fun r =>
        bind (conv_group1 works (if temp then S c else c) vs) (fun rest =>
          Ok ((if temp then [(wk_name c, cd_arg v)] else []) ++ fst rest,
              {| sk_eqs := [(lookup v works, r)]; sk_ext := [] |} :: snd rest)))
    end.
  Fixpoint conv_groups1 (works : list (expr * string)) (c : nat) (g : list (nat * list expr)) : result (list skernel) :=
    match g with
    | [] => Ok []
    | (d, vs) :: g =>
        bind (conv_group1 works c vs) (fun ek =>
        bind (conv_groups1 works c g) (fun rest =>
          Ok ((match fst ek with [] => [] | eqs => [plain_kernel {| k_eqs := eqs; k_ext := [d] |}] end) ++ snd ek ++ rest)))
    end.
  (* scheme.py 197-253 *)
  Definition convective_kernels1 (cds : list expr) (eqs : list (string * expr)) : result (list skernel) :=
    let g := group_by_direction dirof cds in
    match g with
    | [] => Ok []
    | _ =>
        let works := assign_works 0 (flat_map snd g) in
        bind (conv_groups1 works (List.length works) g) (fun ks =>
          Ok (ks ++ [plain_kernel (residual_kernel ndim true (map (fun re => (fst re, subs ndim (sord works) (snd re))) eqs))]))
    end.
  (* scheme.py 299-327, 256-268 *)
  Definition viscous_kernels1 (cds : list expr) (eqs : list (string * expr)) : result (list skernel) :=
    match cds with
    | [] => Ok []
    | _ =>
        let works := assign_works 0 cds in
        let keys := map (fun v => (traverse ndim works v, lookup v works)) cds in
        bind (mapM (fun v => bind (discretise1 (traverse ndim works v)) (fun r =>
                      Ok {| sk_eqs := [(lookup v works, r)]; sk_ext := extended dirof cds v |}))
                   (sort_by_coordinates cds)) (fun ks =>
          Ok (ks ++ [plain_kernel (residual_kernel ndim false (map (fun re => (fst re, subs ndim (sord keys) (snd re))) eqs))]))
    end.
  (* scheme.py 187-271 *)
  Definition sbli_rhs_discretisation1 (ccds vcds : list expr) (eqs : list (string * expr)) : result (list skernel) :=
    let viscous := map (fun re => (fst re, fst (classify (snd re)))) eqs in
    let convective := map (fun re => (fst re, snd (classify (snd re)))) eqs in
    bind (convective_kernels1 ccds convective) (fun c =>
    bind (viscous_kernels1 vcds viscous) (fun v => Ok (c ++ v))).
End scheme.

(* ---- execution, as DiscModel.exec ---- *)
Section run.
  Variable J : interp R.
  Variable k : nat.
  Variable sizes : list Z.
  (* the grid index of the point is its position; the first pair whose condition holds is taken *)
  Definition rvalue (M : memory) (x : list Z) (f : rform) : R :=
    let at_x := eval J (fun b ix => M b (at_offset x ix)) in
    match f with
    | Plain e => at_x e
    | Piecewise pairs last inv =>
        (match find (fun p => Z.eqb (nth (fst (snd p)) x 0%Z) (snd (snd p))) pairs with
         | Some (ts, _) => fold_right (fun p acc => fst p * at_x (snd p) + acc) 0 ts
         | None => at_x last
         end * at_x inv)%R
    end.
  Definition exec_eq1 (ext : list nat) (M : memory) (s : string * rform) : memory :=
    fun a x => if String.eqb a (fst s) && in_range k sizes ext x then rvalue M x (snd s) else M a x.
  Definition exec_kernel1 (M : memory) (kn : skernel) : memory := fold_left (exec_eq1 (sk_ext kn)) (sk_eqs kn) M.
  Definition exec1 (ks : list skernel) (M : memory) : memory := fold_left exec_kernel1 ks M.
End run.
