(* Model of optimisations/StoreSome.py: the low-storage variant of the central scheme.
   First derivatives of listed arrays are stored in work arrays; all other derivatives
   are evaluated into local variables of the kernels that compute the residuals.
   Work arrays are wk0, wk1, ... (block suffix left out).  As in DiscModel.v, SymPy's
   simplify of a discretised derivative is left out (it does not change its value), and
   the attribute `work` of a derivative is looked up by the derivative itself (SymPy's
   cache returns the same object for equal derivatives). *)
From Verif Require Import Base Expr ShiftModel DiscModel.
From Verif Require KernelModel BCModel.
From Coq Require Import QArith ZArith Reals.
Local Close Scope Q_scope.
Local Open Scope list_scope.

(* kernel.py: the statements of a kernel and the directions in which its range is extended *)
Record skernel := { sk_eqs : KernelModel.kernel_eqs; sk_ext : list nat }.
Definition local_name (i : nat) : string := ("localeval_" ++ dec i)%string.

Section scheme.
  Variable k : nat.                    (* the scheme has order 2k *)
  Variable ndim : nat.
  Variable dirof : string -> nat.      (* CoordinateObject.direction *)
  Variable inv : nat -> nat -> expr.   (* constant standing for 1/delta^m: direction, m *)
  Variable dord : expr -> list dset.   (* iteration order of the set of data sets of an expression *)
  Variable sord : list (expr * string) -> list (expr * string).  (* order in which SymPy's subs treats a dictionary *)
  Variable corder : list string -> list string.  (* iteration order of the set of coordinates *)
  Variable eorder : list expr -> list expr.      (* iteration order of a set of derivatives *)
  Variable vsort : list expr -> list expr.       (* sorted(..., key=lambda x: str(x.args[0])) *)
  Variable korder : list (expr * expr) -> list (expr * expr).  (* iteration order of the dictionary of kernels *)

  (* 21-30: derivatives of the listed functions with respect to the spatial coordinates *)
  Definition derivatives_to_store (fns coords : list string) : list expr :=
    flat_map (fun a => map (fun b => EApp HCD [here ndim a; ESym KCoord b]) coords) fns.
  (* 77-79 with 25: the spatial coordinates of the equations (time only occurs in the
     time derivatives on the left-hand sides) *)
  Definition coordinates_of (eqs : list (string * expr)) : list string :=
    corder (nodup string_dec (flat_map (fun re => syms KCoord (snd re)) eqs)).
  (* scheme.py 138-143: get_local_function *)
  Definition local_functions (eqs : list (string * expr)) : list expr :=
    eorder (nodup expr_eq_dec (flat_map (fun re => cds_post (snd re)) eqs)).

  (* scheme.py 360-387, with the stored derivatives as keys of the dictionary; a derivative
     that is not stored has no attribute `work`.  Only the ranges are used (line 102). *)
  Fixpoint traverse_ranges (stored : list expr) (l : list expr) : result (list (expr * list nat)) :=
    match l with
    | cd :: ((next :: _) as l') =>
        if in_dec expr_eq_dec cd stored
        then bind (traverse_ranges stored l') (fun r => Ok ((cd, cd_dirs dirof next) :: r))
        else Err AttributeErr
    | _ => Ok []
    end.
  (* 100-102 *)
  Definition stored_ranges (stored all : list expr) : result (list (expr * list nat)) :=
    bind (mapM (fun d => if existsb (fun v => if in_dec expr_eq_dec v stored then true else false) (cds_post d)
                         then traverse_ranges stored (cds_post d) else Ok []) all) (fun l => Ok (List.concat l)).
  Definition range_of (upd : list (expr * list nat)) (v : expr) : list nat :=
    flat_map (fun u => if expr_eq_dec (fst u) v then snd u else []) upd.

  (* sorted(..., key=lambda x: x.args[1].direction): stable *)
  Fixpoint insert_dir (v : expr) (l : list expr) : list expr :=
    match l with
    | [] => [v]
    | u :: l => if Nat.leb (cd_dir dirof v) (cd_dir dirof u) then v :: u :: l else u :: insert_dir v l
    end.
  Definition sort_by_direction (l : list expr) : list expr := fold_right insert_dir [] l.

  (* 138-161: statements of the residual kernel, None if no derivative is left *)
  Definition SS (convective : bool) (eqs : list (string * expr)) : result (option KernelModel.kernel_eqs) :=
    match local_functions eqs with
    | [] => Ok None
    | cds =>
        let sorted := if convective then sort_by_direction cds else vsort cds in
        let vars := map (fun i => ESym KGridVar (local_name i)) (seq 0 (List.length sorted)) in
        bind (mapM (discretise k dirof inv dord) sorted) (fun rs =>
          Ok (Some (map (fun gr => KernelModel.KEq (fst gr) (snd gr)) (combine vars rs) ++
                    map (fun re => KernelModel.KEq (here ndim (fst re))
                           (fold_left (fun e dg => subst1 (fst dg) (snd dg) e) (combine sorted vars) (snd re))) eqs)))
    end.

  (* 71-132; [fns] are the functions to store, an equation is its residual array and its
     right-hand side.  Constituent relations are not part of this model. *)
  Definition store_some (fns : list string) (eqs : list (string * expr)) : result (list skernel) :=
    let stored := derivatives_to_store fns (coordinates_of eqs) in
    let works := assign_works 0 stored in
    bind (mapM (discretise k dirof inv dord) stored) (fun rs =>
    bind (stored_ranges stored (local_functions eqs)) (fun upd =>
    let eqs1 := map (fun re => (fst re, subs ndim (sord works) (snd re))) eqs in
    let viscous := map (fun re => (fst re, EApp HAdd [here ndim (fst re); fst (classify (snd re))])) eqs1 in
    let convective := map (fun re => (fst re, snd (classify (snd re)))) eqs1 in
    bind (SS true convective) (fun c =>
    bind (SS false viscous) (fun v =>
    let kernels_of o := match o with Some qs => [{| sk_eqs := qs; sk_ext := [] |}] | None => [] end in
    match c, v with
    | None, None => Ok []
    | _, _ => Ok (map (fun vr => {| sk_eqs := [KernelModel.KEq (here ndim (lookup (fst vr) works)) (snd vr)];
                                    sk_ext := range_of upd (fst vr) |}) (korder (combine stored rs))
                  ++ kernels_of c ++ kernels_of v)
    end)))).
End scheme.

(* Execution: every launch visits the points of its range in an order chosen by OPS
   ([order], by launch number and extension of the range); at each point the statements
   are executed one after the other (opsc.py 334-405; LoopModel.v). *)
Section run.
  Variables (J : interp R) (order : nat -> list nat -> list (list Z)).
  Fixpoint run_kernels (n : nat) (ks : list skernel) (M : memory) : memory :=
    match ks with
    | [] => M
    | kn :: ks => run_kernels (S n) ks (BCModel.run_kernel J (sk_eqs kn) (order n (sk_ext kn)) M)
    end.
End run.
