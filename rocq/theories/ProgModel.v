(* Model of the assembly of the program of one block with central differences in space, a
   Runge-Kutta scheme in time and periodic boundaries, out of the parts modelled in
   DiscModel, OrdModel, AdvModel, BCModel and AlgModel, and of the execution of that
   program on the arrays. *)
From Verif Require Import Base Expr DiscModel.
From Verif Require AdvModel AlgModel OrdModel BCModel RKModel KernelModel.
From Coq Require Import ZArith Reals.

(* ---- the kernels of the constituent relations ---- *)
(* names of the arrays in an expression: atoms(DataSet); all at one location *)
Definition arrays_in (e : expr) : list string := map fst (dsets e).

Section spatial.
  Variables (k ndim : nat) (dirof : string -> nat) (inv : nat -> nat -> expr).
  Variable dord : expr -> list dset.
  Variable sord : list (expr * string) -> list (expr * string).
  Variable num : string -> OrdModel.key.              (* array names as dictionary keys *)
  Variable kord : list string -> list string.         (* order in which sets fill a dictionary *)

  (* scheme.py 159-172: the directions in which the range of the kernel that evaluates
     the relation of array b is extended by the halos of the scheme *)
  Definition cr_directions (cds : list expr) (b : string) : list nat :=
    flat_map (fun v => if in_dec string_dec b (arrays_in (cd_arg v)) then [cd_dir dirof v] else []) cds.

  (* scheme.py 159-185, called at 215, 246, 257, 316: the keys of
     required_constituent_relations *)
  Definition required (ccds vcds : list expr) (eqs : list (string * expr)) : list string :=
    kord (nodup string_dec
      (flat_map (fun v => arrays_in (cd_arg v)) ccds ++
       match ccds with [] => [] | _ => flat_map (fun re => arrays_in (snd (classify (snd re)))) eqs end ++
       flat_map (fun v => arrays_in (cd_arg v)) vcds ++
       flat_map (fun re => arrays_in (fst (classify (snd re)))) eqs)).

  (* opensbliequations.py 480-486: a dictionary, the last relation of an array counts *)
  Definition relation (crs : list (string * expr)) (b : string) : option expr :=
    option_map snd (find (fun r => String.eqb b (fst r)) (rev crs)).

  (* opensbliequations.py 288-302: one kernel per required array that has a relation.
     Relations that contain derivatives (their own kernels, 292-299, 304-309) are not
     modelled. *)
  Definition cr_kernels (crs : list (string * expr)) (ccds vcds : list expr) (eqs : list (string * expr))
    : list (OrdModel.crkernel kernel) :=
    flat_map (fun b => match relation crs b with
                       | Some e => [{| OrdModel.ck_base := num b; OrdModel.ck_index := repeat 0%Z ndim;
                                       OrdModel.ck_requires := map num (nodup string_dec (arrays_in e));
                                       OrdModel.ck_kernel := {| k_eqs := [(b, e)]; k_ext := cr_directions (ccds ++ vcds) b |} |}]
                       | None => []
                       end) (required ccds vcds eqs).
  (* 303: the required arrays without a relation *)
  Definition requires (crs : list (string * expr)) (ccds vcds : list expr) (eqs : list (string * expr)) : list string :=
    filter (fun b => match relation crs b with Some _ => false | None => true end) (required ccds vcds eqs).

  (* 335-352, 438-439: all_spatial_kernels; [known] is block.known_datasets *)
  Definition all_spatial_kernels (crs : list (string * expr)) (known : list string) (ccds vcds : list expr) (eqs : list (string * expr))
    : result (list kernel) :=
    bind (sbli_rhs_discretisation k ndim dirof inv dord sord ccds vcds eqs) (fun ks =>
    bind (OrdModel.sort_constituents kernel OrdModel.max_passes
            (map num (nodup string_dec (requires crs ccds vcds eqs ++ known))) (cr_kernels crs ccds vcds eqs)) (fun cs =>
      Ok (cs ++ ks))).
End spatial.

(* ---- the simulation equations ---- *)
(* An equation is the array it advances and its right-hand side. *)
Definition system := list (string * expr).
(* opensbliequations.py 238-246: residual arrays are numbered *)
Definition disc_eqs (sys : system) : list (string * expr) :=
  combine (map AdvModel.residual_name (seq 0 (List.length sys))) (map snd sys).
Definition adv_eqs (sys : system) : list AdvModel.equation := AdvModel.with_residuals (map (fun s => [fst s]) sys).

(* scheme.py 35-47, 103-109: central halos on both sides of every direction *)
Definition block_halos (k ndim : nat) : KernelModel.halo_ranges :=
  let h := (- Z.of_nat k, Z.of_nat k)%Z in repeat ([h], [h]) ndim.

(* ---- the kernels of the program ---- *)
Inductive pkernel :=
| Spatial (kn : kernel)                          (* constituent relations, derivatives, residuals *)
| LowStorage (eqs : list AdvModel.equation)      (* rk_LS.py: the stage update *)
| SaveOld (eqs : list AdvModel.equation)         (* rk_sbli.py: copy at the start of a step *)
| SbliUpdate (eqs : list AdvModel.equation)      (* rk_sbli.py: stage and solution update *)
| Exchange (ex : BCModel.exchange).              (* periodic.py *)

Inductive timescheme := LS (order : nat) (form : RKModel.formulation) | SBLI (order : nat).
Definition coefficients (ts : timescheme) : result (list R * list R) :=
  match ts with
  | LS order form => RKModel.ls_coefficients order form
  | SBLI order => RKModel.sbli_coefficients order
  end.

(* block.py 162-182: discretise, for one class of simulation equations and constituent
   relations.  The number of stages is the number of coefficients (rk_LS.py 31-44,
   rk_sbli.py 20-30). *)
Definition discretised_block (k : nat) (dirof : string -> nat) (inv : nat -> nat -> expr)
    (dord : expr -> list dset) (sord : list (expr * string) -> list (expr * string))
    (num : string -> OrdModel.key) (kord : list string -> list string)
    (sizes : list Z) (ts : timescheme) (sys : system) (crs : list (string * expr)) (known : list string)
    (ccds vcds : list expr) (datasets : list string) (ios : list AlgModel.io)
  : result (AlgModel.block pkernel) :=
  let ndim := List.length sizes in
  bind (coefficients ts) (fun ab =>
  bind (all_spatial_kernels k ndim dirof inv dord sord num kord crs (map fst sys ++ known) ccds vcds (disc_eqs sys)) (fun sp =>
  Ok {| AlgModel.bk_schemes :=
          [{| AlgModel.sc_class := match ts with LS _ _ => "RungeKuttaLS" | SBLI _ => "RungeKuttaSBLI" end%string;
              AlgModel.sc_stage := AlgModel.SNum (Z.of_nat (List.length (fst ab)));
              AlgModel.sc_iter := AlgModel.SNiter;
              AlgModel.sc_solution :=
                [AlgModel.EqConstituent;
                 AlgModel.EqSim
                   {| AlgModel.sq_start := match ts with LS _ _ => [] | SBLI _ => [SaveOld (adv_eqs sys)] end;
                      AlgModel.sq_end := [];
                      AlgModel.sq_advance := match ts with LS _ _ => [LowStorage (adv_eqs sys)] | SBLI _ => [SbliUpdate (adv_eqs sys)] end;
                      AlgModel.sq_bc := map Exchange (BCModel.periodic_all sizes (block_halos k ndim) (map fst sys));
                      AlgModel.sq_spatial := map Spatial sp |}] |}];
        AlgModel.bk_datasets := datasets; AlgModel.bk_io := ios |})).

(* ---- execution ---- *)
Section run.
  Variables (J : interp R) (k : nat) (sizes : list Z) (dt : R) (ab : list R * list R).
  Local Notation advance := (AdvModel.run (list Z) (in_range k sizes [])).
  (* a kernel of the program; [stage] is the counter of the stage loop *)
  Definition run_pkernel (M : memory) (pk : pkernel) (stage : option Z) : memory :=
    let st := match stage with Some s => Z.to_nat s | None => 0%nat end in
    match pk with
    | Spatial kn => exec_kernel J k sizes M kn
    | LowStorage eqs => advance (AdvModel.ls_kernel dt (nth st (fst ab) 0%R) (nth st (snd ab) 0%R) eqs) M
    | SaveOld eqs => advance (AdvModel.sbli_save eqs) M
    | SbliUpdate eqs => advance (AdvModel.sbli_kernels dt (nth st (fst ab) 0%R) (nth st (snd ab) 0%R) eqs) M
    | Exchange ex => BCModel.transfer ex M
    end.
  (* output and monitoring do not change the arrays *)
  Definition run_event (M : memory) (ev : AlgModel.event pkernel) : memory :=
    match ev with AlgModel.EKernel pk _ stage => run_pkernel M pk stage | _ => M end.
  Definition run_program (tr : list (AlgModel.event pkernel)) (M : memory) : memory := fold_left run_event tr M.
End run.
