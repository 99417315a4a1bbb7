(* Model of the assembly of the program of one block with boundary conditions of any of the
   kinds modelled in BCModel and BC2Model, including those that replace the difference formulas
   of the block next to the boundary (core/block.py 162-217, scheme.py 145-387, bc_core.py
   15-61).  Not included: multi-block interfaces, split conditions and the curved
   InviscidWall2DBC.  The other parts are those of ProgModel, BndModel and SideModel. *)
From Verif Require Import Base Expr KernelModel DiscModel ProgModel BndModel OneModel SideModel.
From Verif Require AdvModel AlgModel OrdModel BCModel BC2Model RKModel.
From Coq Require Import ZArith Reals.
Local Open Scope list_scope.

(* ---- the conditions ---- *)
(* Every condition derived from ModifyCentralDerivative carries its one-sided scheme
   (modification_scheme, set by the constructor).  [Central] are the conditions of BndModel. *)
Inductive bcond :=
| Central (b : boundary)
| Dirichlet (ps : list (string * expr)) (s : bscheme)          (* dirichlet.py *)
| Extrapolation (order : Z) (s : bscheme)                      (* extrapolation.py *)
| InletTransfer (s : bscheme)                                  (* inlet_transfer.py *)
| PressureOutlet (s : bscheme)                                 (* pressure_outlet.py *)
| Adiabatic (s : bscheme)                                      (* adiabatic_wall.py *)
| Isothermal (x0 e : expr) (s : bscheme)                       (* isothermal_wall.py; e is the wall energy *)
| CarpenterWall (s : bscheme)                                  (* adiabatic_wall_Carpenter.py *)
| ForcingStrip (md : string) (e1 e2 : expr) (s : bscheme)      (* forcing_strip_wall.py; wall-normal momentum md = e1, energy e2 *)
| LawalInlet (s : bscheme)                                     (* inlet_Lawal.py *)
| PressureInlet (s : bscheme).                                 (* inlet_pressure_extrapolate.py *)

(* bc_core.py 46-61: isinstance(condition, ModifyCentralDerivative) *)
Definition scheme_of (c : bcond) : option bscheme :=
  match c with
  | Central _ => None
  | Dirichlet _ s | Extrapolation _ s | InletTransfer s | PressureOutlet s | Adiabatic s | Isothermal _ _ s
  | CarpenterWall s | ForcingStrip _ _ _ s | LawalInlet s | PressureInlet s => Some s
  end.
Definition schemes_of (types : list (bcond * bcond)) : sides :=
  fun d => match nth_error types d with Some (l, r) => (scheme_of l, scheme_of r) | None => (None, None) end.

(* the kernels of the program: boundary conditions and time stepping as in BndModel, spatial
   kernels as in SideModel *)
Inductive fkernel := Other (x : xkernel) | Difference (s : skernel).

(* ns_physics.py: the names of the conservative variables *)
Record gas := { g_density : string; g_momentum : list string; g_energy : string }.
Definition gas_vars (n : nat) (g : gas) : BCModel.nsvars :=
  {| BCModel.ns_rho := EDat (g_density g) (repeat 0%Z n); BCModel.ns_mom := map (fun m => EDat m (repeat 0%Z n)) (g_momentum g);
     BCModel.ns_rhoE := EDat (g_energy g) (repeat 0%Z n) |}.

(* block.py 214-217: the kernel of one condition.  The forcing strip fills halos only if a
   scheme of the block is shock capturing (forcing_strip_wall.py 48). *)
Definition apply_condition (shock : bool) (ord : BCModel.order_of) (np : list Z) (bh : halo_ranges) (arrays : list BCModel.arr) (g : gas)
    (d : nat) (side : bool) (c : bcond) : result fkernel :=
  let n := List.length np in
  let v := gas_vars n g in
  let wall r := bind r (fun k => Ok (Other (Wall k))) in
  match c with
  | Central b => bind (apply_bc_direction ord np bh arrays d side b) (fun x => Ok (Other x))
  | Dirichlet ps _ => wall (BCModel.dirichlet_apply np bh d side (map (fun p => KEq (EDat (fst p) (repeat 0%Z n)) (snd p)) ps))
  | Extrapolation order _ => wall (BCModel.extrapolation_apply ord np bh d side order arrays)
  | InletTransfer _ => wall (BCModel.inlet_transfer_apply ord np bh d side arrays)
  | PressureOutlet _ => wall (BCModel.pressure_outlet_apply ord np bh d side v)
  | Adiabatic _ => wall (BCModel.adiabatic_apply ord np bh d side v)
  | Isothermal x0 e _ => wall (BCModel.isothermal_apply ord np bh d side v x0 [KEq (EDat (g_energy g) (repeat 0%Z n)) e])
  | CarpenterWall _ => wall (BC2Model.carpenter_wall_apply ord np bh d side arrays v)
  | ForcingStrip md e1 e2 _ => wall (BC2Model.forcing_strip_apply ord np bh d side shock v
      (KEq (EDat md (repeat 0%Z n)) e1) [KEq (EDat (g_energy g) (repeat 0%Z n)) e2])
  | LawalInlet _ => wall (BC2Model.lawal_apply ord np bh d side v)
  | PressureInlet _ => wall (BC2Model.pressure_inlet_apply ord np bh d side arrays v)
  end.
(* block.py 200-212, as BndModel.apply_boundary_conditions *)
Fixpoint apply_conditions (shock : bool) (ord : BCModel.order_of) (np : list Z) (bh : halo_ranges) (arrays : list BCModel.arr) (g : gas)
    (d : nat) (types : list (bcond * bcond)) : result (list fkernel) :=
  match types with
  | [] => Ok []
  | (l, r) :: types =>
      bind (apply_condition shock ord np bh arrays g d false l) (fun kl =>
      bind (apply_condition shock ord np bh arrays g d true r) (fun kr =>
      bind (apply_conditions shock ord np bh arrays g (S d) types) (fun ks =>
        Ok (kl :: kr :: ks))))
  end.

(* ---- spatial kernels ---- *)
(* scheme.py 145-185, 329-440, as ProgModel.all_spatial_kernels: the kernels of the relations,
   in the order in which they can be evaluated, then those of the derivatives and residuals *)
Definition all_spatial_kernels1 (k ndim : nat) (dirof : string -> nat) (inv : nat -> nat -> expr)
    (dord : expr -> list dset) (sord : list (expr * string) -> list (expr * string))
    (num : string -> OrdModel.key) (kord : list string -> list string) (sizes : list Z) (sd : sides)
    (crs : list (string * expr)) (known : list string) (ccds vcds : list expr) (eqs : list (string * expr))
  : result (list skernel) :=
  bind (sbli_rhs_discretisation1 k ndim dirof inv dord sord sizes sd ccds vcds eqs) (fun ks =>
  bind (OrdModel.sort_constituents kernel OrdModel.max_passes
          (map num (nodup string_dec (requires kord crs ccds vcds eqs ++ known)))
          (cr_kernels ndim dirof num kord crs ccds vcds eqs)) (fun cs =>
    Ok (map plain_kernel cs ++ ks))).

(* ---- the block ---- *)
(* block.py 162-182, as BndModel.bounded_block *)
Definition face_block (k : nat) (dirof : string -> nat) (inv : nat -> nat -> expr)
    (dord : expr -> list dset) (sord : list (expr * string) -> list (expr * string))
    (num : string -> OrdModel.key) (kord : list string -> list string)
    (sizes : list Z) (ts : timescheme) (sys : system) (crs : list (string * expr)) (known : list string)
    (ccds vcds : list expr) (datasets : list string) (ios : list AlgModel.io)
    (ord : BCModel.order_of) (arrays : list BCModel.arr) (g : gas) (types : list (bcond * bcond))
  : result (AlgModel.block fkernel) :=
  let ndim := List.length sizes in
  bind (coefficients ts) (fun ab =>
  bind (all_spatial_kernels1 k ndim dirof inv dord sord num kord sizes (schemes_of types) crs (map fst sys ++ known) ccds vcds (disc_eqs sys)) (fun sp =>
  bind (apply_conditions false ord sizes (block_halos k ndim) arrays g 0 types) (fun bcs =>
  Ok {| AlgModel.bk_schemes :=
          [{| AlgModel.sc_class := match ts with LS _ _ => "RungeKuttaLS" | SBLI _ => "RungeKuttaSBLI" end%string;
              AlgModel.sc_stage := AlgModel.SNum (Z.of_nat (List.length (fst ab)));
              AlgModel.sc_iter := AlgModel.SNiter;
              AlgModel.sc_solution :=
                [AlgModel.EqConstituent;
                 AlgModel.EqSim
                   {| AlgModel.sq_start := match ts with LS _ _ => [] | SBLI _ => [Other (Inner (SaveOld (adv_eqs sys)))] end;
                      AlgModel.sq_end := [];
                      AlgModel.sq_advance := match ts with
                                             | LS _ _ => [Other (Inner (LowStorage (adv_eqs sys)))]
                                             | SBLI _ => [Other (Inner (SbliUpdate (adv_eqs sys)))]
                                             end;
                      AlgModel.sq_bc := bcs;
                      AlgModel.sq_spatial := map Difference sp |}] |}];
        AlgModel.bk_datasets := datasets; AlgModel.bk_io := ios |}))).

(* ---- execution ---- *)
Section run.
  Variables (J : interp R) (k : nat) (sizes : list Z) (dt : R) (ab : list R * list R).
  Variable points : BCModel.bkernel -> list (list Z).
  Definition run_fkernel (M : memory) (x : fkernel) (stage : option Z) : memory :=
    match x with
    | Other x => run_xkernel J k sizes dt ab points M x stage
    | Difference s => exec_kernel1 J k sizes M s
    end.
  Definition run_fevent (M : memory) (ev : AlgModel.event fkernel) : memory :=
    match ev with AlgModel.EKernel x _ stage => run_fkernel M x stage | _ => M end.
  Definition run_fprogram (tr : list (AlgModel.event fkernel)) (M : memory) : memory := fold_left run_fevent tr M.
End run.
