(* Model of the assembly of the program of one block with a shock-capturing scheme, with or
   without a central scheme, and boundary conditions of any of the kinds of FaceModel
   (block.py 162-217, opensbliequations.py 269-352).  The kernels of the shock-capturing
   scheme do not depend on the boundary conditions (weno.py 502-534, teno.py 489-520); the
   central scheme replaces its formulas next to the boundaries (scheme.py 145-387).  The parts
   are those of HybModel, CapModel, SideModel and FaceModel, with what these leave out. *)
From Verif Require Import Base Expr DiscModel KernelModel LLFModel HybModel ProgModel BndModel OneModel SideModel CapModel FaceModel.
From Verif Require AdvModel AlgModel OrdModel BCModel BC2Model RKModel.
From Coq Require Import ZArith Reals.
Local Open Scope list_scope.

(* ---- spatial kernels ---- *)
(* opensbliequations.py 297-352, 438-439: constituent relations in the order in which they can
   be evaluated, the kernels of the shock-capturing scheme, then those of the central scheme *)
Definition bounded_kernels (k : nat) (sh : shock) (central : bool) (sizes : list Z) (sd : sides) (dirof : string -> nat) (inv : nat -> nat -> expr)
    (dord : expr -> list dset) (sord : list (expr * string) -> list (expr * string)) (worder : list expr -> list expr)
    (num : string -> OrdModel.key) (kord : list string -> list string)
    (advanced : list string) (crs : list (string * expr)) (known : list string) (vcds : list expr) (eqs : list (string * expr))
  : result (list rkernel * list hkernel * list skernel) :=
  let ndim := List.length sizes in
  bind (shock_discretise ndim dirof inv worder eqs) (fun k1 =>
  bind (if central then sbli_rhs_discretisation1 k ndim dirof inv dord sord sizes sd [] vcds eqs else Ok []) (fun k2 =>
  bind (OrdModel.sort_constituents rkernel OrdModel.max_passes
          (map num (nodup string_dec (not_relations central sizes dirof worder kord advanced crs vcds eqs ++ advanced ++ known)))
          (relation_kernels k sh central sizes dirof worder num kord advanced crs vcds eqs)) (fun cs =>
    Ok (cs, k1, k2)))).

(* ---- the block ---- *)
Inductive gkernel :=
| Constituent (r : rkernel)         (* constituent relations *)
| Capture (kn : hkernel)            (* reconstructions and residuals of the shock-capturing scheme *)
| Ordinary (x : fkernel).           (* central differences, time stepping and boundary conditions *)

(* block.py 162-182, as FaceModel.face_block; the forcing strip fills the halos because there
   is a shock-capturing scheme (forcing_strip_wall.py 48) *)
Definition bounded_shock_block (k : nat) (sh : shock) (central : bool) (dirof : string -> nat) (inv : nat -> nat -> expr)
    (dord : expr -> list dset) (sord : list (expr * string) -> list (expr * string)) (worder : list expr -> list expr)
    (num : string -> OrdModel.key) (kord : list string -> list string)
    (sizes : list Z) (ts : timescheme) (sys : system) (crs : list (string * expr)) (known : list string)
    (vcds : list expr) (datasets : list string) (ios : list AlgModel.io)
    (ord : BCModel.order_of) (arrays : list BCModel.arr) (g : gas) (types : list (bcond * bcond))
  : result (AlgModel.block gkernel) :=
  bind (coefficients ts) (fun ab =>
  bind (bounded_kernels k sh central sizes (schemes_of types) dirof inv dord sord worder num kord (map fst sys) crs known vcds (disc_eqs sys)) (fun sp =>
  bind (apply_conditions true ord sizes (capturing_halos k sh central sizes) arrays g 0 types) (fun bcs =>
  let step pk := [Ordinary (Other (Inner pk))] in
  Ok {| AlgModel.bk_schemes :=
          [{| AlgModel.sc_class := match ts with LS _ _ => "RungeKuttaLS" | SBLI _ => "RungeKuttaSBLI" end%string;
              AlgModel.sc_stage := AlgModel.SNum (Z.of_nat (List.length (fst ab)));
              AlgModel.sc_iter := AlgModel.SNiter;
              AlgModel.sc_solution :=
                [AlgModel.EqConstituent;
                 AlgModel.EqSim
                   {| AlgModel.sq_start := match ts with LS _ _ => [] | SBLI _ => step (SaveOld (adv_eqs sys)) end;
                      AlgModel.sq_end := [];
                      AlgModel.sq_advance := match ts with LS _ _ => step (LowStorage (adv_eqs sys)) | SBLI _ => step (SbliUpdate (adv_eqs sys)) end;
                      AlgModel.sq_bc := map Ordinary bcs;
                      AlgModel.sq_spatial := map Constituent (fst (fst sp)) ++ map Capture (snd (fst sp)) ++
                                             map (fun s => Ordinary (Difference s)) (snd sp) |}] |}];
        AlgModel.bk_datasets := datasets; AlgModel.bk_io := ios |}))).

(* ---- execution ---- *)
Section run.
  Variables (J : interp R) (k : nat) (sizes : list Z) (sch : scheme) (gamma : R) (av : averaging) (solution : list string) (dt : R) (ab : list R * list R).
  Variable points : BCModel.bkernel -> list (list Z).
  Definition run_gkernel (M : memory) (x : gkernel) (stage : option Z) : memory :=
    match x with
    | Constituent r => exec_relation J M r
    | Capture kn => exec_hkernel J k sizes sch gamma av solution M kn
    | Ordinary x => run_fkernel J k sizes dt ab points M x stage
    end.
  Definition run_gevent (M : memory) (ev : AlgModel.event gkernel) : memory :=
    match ev with AlgModel.EKernel x _ stage => run_gkernel M x stage | _ => M end.
  Definition run_gprogram (tr : list (AlgModel.event gkernel)) (M : memory) : memory := fold_left run_gevent tr M.
End run.
