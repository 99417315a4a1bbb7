(* Model of the assembly of the program of one block with boundary conditions other than
   periodic ones (core/block.py 199-217, core/boundary_conditions), and of its execution.
   Only conditions that leave the difference formulas of the block alone are included, that
   is the classes that are not derived from ModifyCentralDerivative (bc_core.py 15-17):
   PeriodicBC, SymmetryBC, InviscidWallBC and ZeroGradientOutletBC.  The other parts are
   those of ProgModel. *)
From Verif Require Import Base Expr KernelModel DiscModel ProgModel.
From Verif Require AdvModel AlgModel OrdModel BCModel RKModel.
From Coq Require Import ZArith Reals.
Local Open Scope list_scope.

(* ---- the conditions ---- *)
(* [row] is the row of block.fd_metrics of the direction (symmetry.py 25-26,
   inviscid_wall.py 26-27) *)
Inductive boundary :=
| Periodic
| Symmetry (row : list expr)
| InviscidWall (row : list expr)
| ZeroGradient.
Inductive xkernel := Wall (bk : BCModel.bkernel) | Inner (pk : pkernel).

(* block.py 214-217: the kernel of one condition *)
Definition apply_bc_direction (ord : BCModel.order_of) (np : list Z) (bh : halo_ranges) (arrays : list BCModel.arr)
    (d : nat) (side : bool) (b : boundary) : result xkernel :=
  match b with
  | Periodic => Ok (Inner (Exchange (BCModel.periodic_apply np bh d side (map fst (flat_map dsets (BCModel.flat_arrays arrays))))))
  | Symmetry row => bind (BCModel.symmetry_apply ord np bh d side row arrays) (fun k => Ok (Wall k))
  | InviscidWall row => bind (BCModel.inviscid_wall_apply ord np bh d side row arrays) (fun k => Ok (Wall k))
  | ZeroGradient => bind (BCModel.zero_gradient_apply ord np bh d side arrays) (fun k => Ok (Wall k))
  end.
(* block.py 200-212: direction by direction, lower side first; [d] is the number of the
   first direction of the list *)
Fixpoint apply_boundary_conditions (ord : BCModel.order_of) (np : list Z) (bh : halo_ranges) (arrays : list BCModel.arr)
    (d : nat) (types : list (boundary * boundary)) : result (list xkernel) :=
  match types with
  | [] => Ok []
  | (l, r) :: types =>
      bind (apply_bc_direction ord np bh arrays d false l) (fun kl =>
      bind (apply_bc_direction ord np bh arrays d true r) (fun kr =>
      bind (apply_boundary_conditions ord np bh arrays (S d) types) (fun ks =>
        Ok (kl :: kr :: ks))))
  end.

(* ---- the block ---- *)
(* block.py 162-182, as ProgModel.discretised_block; opensbliequations.py 409-413: the
   conditions are applied to the advanced arrays *)
Definition bounded_block (k : nat) (dirof : string -> nat) (inv : nat -> nat -> expr)
    (dord : expr -> list dset) (sord : list (expr * string) -> list (expr * string))
    (num : string -> OrdModel.key) (kord : list string -> list string)
    (sizes : list Z) (ts : timescheme) (sys : system) (crs : list (string * expr)) (known : list string)
    (ccds vcds : list expr) (datasets : list string) (ios : list AlgModel.io)
    (ord : BCModel.order_of) (arrays : list BCModel.arr) (types : list (boundary * boundary))
  : result (AlgModel.block xkernel) :=
  let ndim := List.length sizes in
  bind (coefficients ts) (fun ab =>
  bind (all_spatial_kernels k ndim dirof inv dord sord num kord crs (map fst sys ++ known) ccds vcds (disc_eqs sys)) (fun sp =>
  bind (apply_boundary_conditions ord sizes (block_halos k ndim) arrays 0 types) (fun bcs =>
  Ok {| AlgModel.bk_schemes :=
          [{| AlgModel.sc_class := match ts with LS _ _ => "RungeKuttaLS" | SBLI _ => "RungeKuttaSBLI" end%string;
              AlgModel.sc_stage := AlgModel.SNum (Z.of_nat (List.length (fst ab)));
              AlgModel.sc_iter := AlgModel.SNiter;
              AlgModel.sc_solution :=
                [AlgModel.EqConstituent;
                 AlgModel.EqSim
                   {| AlgModel.sq_start := match ts with LS _ _ => [] | SBLI _ => [Inner (SaveOld (adv_eqs sys))] end;
                      AlgModel.sq_end := [];
                      AlgModel.sq_advance := match ts with LS _ _ => [Inner (LowStorage (adv_eqs sys))] | SBLI _ => [Inner (SbliUpdate (adv_eqs sys))] end;
                      AlgModel.sq_bc := bcs;
                      AlgModel.sq_spatial := map (fun s => Inner (Spatial s)) sp |}] |}];
        AlgModel.bk_datasets := datasets; AlgModel.bk_io := ios |}))).

(* ---- execution ---- *)
Section run.
  Variables (J : interp R) (k : nat) (sizes : list Z) (dt : R) (ab : list R * list R).
  (* the points of a boundary kernel, in the order chosen by the run-time system *)
  Variable points : BCModel.bkernel -> list (list Z).
  Definition run_xkernel (M : memory) (x : xkernel) (stage : option Z) : memory :=
    match x with
    | Wall bk => BCModel.run_kernel J (BCModel.bk_eqs bk) (points bk) M
    | Inner pk => run_pkernel J k sizes dt ab M pk stage
    end.
  Definition run_xevent (M : memory) (ev : AlgModel.event xkernel) : memory :=
    match ev with AlgModel.EKernel x _ stage => run_xkernel M x stage | _ => M end.
  Definition run_xprogram (tr : list (AlgModel.event xkernel)) (M : memory) : memory := fold_left run_xevent tr M.
End run.
