(* Model of simulation equations with shock capturing: weno.py 419-435 and 502-546
   (teno.py 390-405 and 489-530 are the same), shock_capturing.py 21-35 and 148-158,
   opensblifunctions.py 575-605, and opensbliequations.py 269-322 for the order of the
   schemes.  A WENO or TENO derivative is EApp (HFun "WD") [flux; coordinate].
   Not modelled: metric terms, constituent relations, adaptive TENO, the shock filter.
   Simplified: the numbers of the work arrays of a central scheme with convective
   derivatives start at 0 (in the code they follow those of the shock-capturing scheme). *)
From Verif Require Import Base Expr ShiftSpec WorkModel DiscModel LLFModel.
From Coq Require Import QArith ZArith Reals.
Local Close Scope Q_scope.
Local Open Scope list_scope.

Definition is_wd (e : expr) : bool :=
  match e with EApp (HFun f) [_; ESym KCoord _] => String.eqb f "WD" | _ => false end.
(* e.atoms(WenoDerivative), as a list with repetitions *)
Fixpoint wds (e : expr) : list expr :=
  match e with
  | EApp h args =>
      (fix go l := match l with [] => [] | x :: l => wds x ++ go l end) args ++
      (if is_wd e then [e] else [])
  | _ => []
  end.
Definition wd_flux (v : expr) : expr := match v with EApp _ (f :: _) => f | _ => v end.

(* A kernel with the reconstruction of all components in one direction, or an ordinary one *)
Inductive hkernel :=
| HRec (d : nat) (works : list string) (fluxes : list expr)
| HKer (kn : kernel).
(* the spatial schemes of a block, in the order of the dictionary *)
Inductive hscheme := Shock | CentralDiff.

Section scheme.
  Variable k : nat.                    (* the central scheme has order 2k *)
  Variable ndim : nat.
  Variable dirof : string -> nat.
  Variable inv : nat -> nat -> expr.
  Variable dord : expr -> list dset.
  Variable sord : list (expr * string) -> list (expr * string).
  Variable worder : list expr -> list expr.  (* iteration order of the set of derivatives of an equation *)

  Definition wd_dir (v : expr) : nat := match v with EApp _ [_; ESym KCoord n] => dirof n | _ => 0%nat end.
  (* weno.py 424-435: dictionary from direction to list *)
  Fixpoint wgroup_add (v : expr) (g : list (nat * list expr)) : list (nat * list expr) :=
    match g with
    | [] => [(wd_dir v, [v])]
    | (d, l) :: g => if Nat.eqb (wd_dir v) d then (d, l ++ [v]) :: g else (d, l) :: wgroup_add v g
    end.
  Definition shock_groups (eqs : list (string * expr)) : list (nat * list expr) :=
    fold_left (fun g v => wgroup_add v g) (flat_map (fun re => worder (nodup expr_eq_dec (wds (snd re)))) eqs) [].
  (* sorted(grouped.items()): the keys are distinct *)
  Fixpoint insert_group (p : nat * list expr) (g : list (nat * list expr)) : list (nat * list expr) :=
    match g with
    | [] => [p]
    | q :: g => if Nat.leb (fst p) (fst q) then p :: q :: g else q :: insert_group p g
    end.
  Definition sorted_groups (g : list (nat * list expr)) : list (nat * list expr) := fold_right insert_group [] g.

  (* weno.py 512-525: a work array for each derivative, a kernel for each direction.  The
     eigenvector matrices have ndim + 2 columns; SymPy refuses to multiply them with a
     vector of another length. *)
  Fixpoint shock_kernels (c : nat) (g : list (nat * list expr)) : result (list hkernel * list (expr * string)) :=
    match g with
    | [] => Ok ([], [])
    | (d, vs) :: g =>
        if Nat.eqb (List.length vs) (ndim + 2) then
          let ws := map wk_name (seq c (List.length vs)) in
          bind (shock_kernels (c + List.length vs) g) (fun rest =>
            Ok (HRec d ws (map wd_flux vs) :: fst rest, combine vs ws ++ snd rest))
        else Err ValueError
    end.

  (* opensblifunctions.py 585-593 *)
  Definition wd_form (d : nat) (w : string) : expr :=
    EApp HMul [EApp HAdd [here ndim w; EApp HMul [ENum (-1); EDat w (move d (-1) (repeat 0%Z ndim))]]; inv d 1].
  Definition work_of (v : expr) (works : list (expr * string)) : option string :=
    option_map snd (find (fun p => if expr_eq_dec v (fst p) then true else false) works).
  (* shock_capturing.py 21-30: every function is replaced, by 0 unless it is one of the
     derivatives; an outer function before those it contains *)
  Fixpoint replace (works : list (expr * string)) (e : expr) : expr :=
    match e with
    | EApp h args =>
        if is_wd e then match work_of e works with Some w => wd_form (wd_dir e) w | None => ENum 0 end
        else match h with HCD => ENum 0 | HFun _ => ENum 0 | _ => EApp h (map (replace works) args) end
    | _ => e
    end.
  (* weno.py 502-534; without derivatives the value returned was never assigned *)
  Definition shock_discretise (eqs : list (string * expr)) : result (list hkernel) :=
    match sorted_groups (shock_groups eqs) with
    | [] => Err UnboundLocal
    | g => bind (shock_kernels 0 g) (fun kw =>
        Ok (fst kw ++ [HKer {| k_eqs := map (fun re => (fst re, replace (snd kw) (snd re))) eqs; k_ext := [] |}]))
    end.

  (* opensbliequations.py 297-298; [ccds] and [vcds] as in DiscModel *)
  Definition discretise_scheme (ccds vcds : list expr) (eqs : list (string * expr)) (s : hscheme) : result (list hkernel) :=
    match s with
    | Shock => shock_discretise eqs
    | CentralDiff => bind (sbli_rhs_discretisation k ndim dirof inv dord sord ccds vcds eqs) (fun ks => Ok (map HKer ks))
    end.
  Definition hybrid_discretise (ccds vcds : list expr) (schemes : list hscheme) (eqs : list (string * expr)) : result (list hkernel) :=
    bind (mapM (discretise_scheme ccds vcds eqs) schemes) (fun l => Ok (List.concat l)).
End scheme.

(* Execution.  A reconstruction kernel reads no work array, so the order of its points
   does not matter; its range is the grid and one point on either side in its direction
   (weno.py 24-29).  The numerical flux is that of LLFModel. *)
Section run.
  Variable J : interp R.
  Variable k : nat.
  Variable sizes : list Z.
  Variable sch : LLFModel.scheme.
  Variable g : R.
  Variable av : averaging.
  Variable solution : list string.     (* the conserved variables *)
  Definition velocities : list string := firstn (List.length sizes) ["u0"; "u1"; "u2"]%string.
  Definition unit_row (d : nat) : list R := map (fun e => if Nat.eqb e d then 1%R else 0%R) (seq 0 (List.length sizes)).
  (* the values at point x from which the flux in direction d is computed *)
  Definition cell_at (d : nat) (fluxes : list expr) (M : memory) (x : list Z) : cell :=
    mkcell (map (fun q => M q x) solution) (map (value J M x) fluxes) (M "rho"%string x)
           (map (fun u => M u x) velocities) (M "a"%string x) (M "p"%string x) (unit_row d).
  (* 0 where the reconstruction fails: such a program is not generated *)
  Definition flux_at (d : nat) (fluxes : list expr) (M : memory) (x : list Z) : list R :=
    match interface_flux sch g av (fun j => cell_at d fluxes M (move d j x)) 0 with Ok w => w | Err _ => [] end.
  Fixpoint index_of (a : string) (l : list string) : option nat :=
    match l with
    | [] => None
    | b :: l => if String.eqb a b then Some 0%nat else option_map S (index_of a l)
    end.
  Definition exec_hkernel (M : memory) (kn : hkernel) : memory :=
    match kn with
    | HRec d works fluxes => fun a x =>
        match index_of a works with
        | Some i => if in_range 1 sizes [d] x then nth i (flux_at d fluxes M x) 0%R else M a x
        | None => M a x
        end
    | HKer kn => exec_kernel J k sizes M kn
    end.
  Definition exec_hybrid (ks : list hkernel) (M : memory) : memory := fold_left exec_hkernel ks M.
End run.
