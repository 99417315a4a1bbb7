(* Model of initialisation/gridbasedinit.py in blocks with boundary conditions or
   shock-capturing schemes: the classes of InitModel in the blocks of FaceModel, ShkModel and
   CapModel. *)
From Verif Require Import Base Expr WorkModel KernelModel StoreModel DiscModel ProgModel InitModel BndModel OneModel SideModel CapModel FaceModel ShkModel.
From Verif Require AlgModel BCModel OrdModel.
From Coq Require Import ZArith Reals.
Local Open Scope list_scope.

(* the kernels of a program: those of the initialisations, and others *)
Inductive wkernel (K : Type) := First (ik : ikernel) | Then (x : K).
Arguments First {K} ik.
Arguments Then {K} x.

Section block.
  Context {K : Type}.
  (* gridbasedinit.py 17-27 and 48-60, and algorithm.py 416-426 (AlgModel), as InitModel.init_class *)
  Definition first_class (sizes : list Z) (g : gridinit) : AlgModel.eqclass (wkernel K) :=
    AlgModel.EqNonSim {| AlgModel.ns_order := order_of_init g; AlgModel.ns_places := [AlgModel.PBefore];
                         AlgModel.ns_kernels := [First (init_kernel sizes g)] |}.
  (* the kernels of the other classes, as InitModel.lift_class *)
  Definition then_class (e : AlgModel.eqclass K) : AlgModel.eqclass (wkernel K) :=
    match e with
    | AlgModel.EqSim s =>
        AlgModel.EqSim {| AlgModel.sq_start := map Then (AlgModel.sq_start s); AlgModel.sq_end := map Then (AlgModel.sq_end s);
                          AlgModel.sq_advance := map Then (AlgModel.sq_advance s); AlgModel.sq_bc := map Then (AlgModel.sq_bc s);
                          AlgModel.sq_spatial := map Then (AlgModel.sq_spatial s) |}
    | AlgModel.EqMetric m =>
        AlgModel.EqMetric {| AlgModel.mt_order := AlgModel.mt_order m; AlgModel.mt_places := AlgModel.mt_places m;
                             AlgModel.mt_fd := map Then (AlgModel.mt_fd m); AlgModel.mt_sd := map Then (AlgModel.mt_sd m) |}
    | AlgModel.EqNonSim n =>
        AlgModel.EqNonSim {| AlgModel.ns_order := AlgModel.ns_order n; AlgModel.ns_places := AlgModel.ns_places n;
                             AlgModel.ns_kernels := map Then (AlgModel.ns_kernels n) |}
    | AlgModel.EqConstituent => AlgModel.EqConstituent
    | AlgModel.EqOther => AlgModel.EqOther
    end.
  (* block.py 147-182: the block b with these initialisations as well.  [arrange] is the
     order in which the user listed the classes. *)
  Definition with_inits (arrange : list (AlgModel.eqclass (wkernel K)) -> list (AlgModel.eqclass (wkernel K)))
      (sizes : list Z) (inits : list gridinit) (b : AlgModel.block K) : AlgModel.block (wkernel K) :=
    {| AlgModel.bk_schemes :=
         map (fun sc => {| AlgModel.sc_class := AlgModel.sc_class sc; AlgModel.sc_stage := AlgModel.sc_stage sc;
                           AlgModel.sc_iter := AlgModel.sc_iter sc;
                           AlgModel.sc_solution := arrange (map then_class (AlgModel.sc_solution sc) ++ map (first_class sizes) inits) |})
             (AlgModel.bk_schemes b);
       AlgModel.bk_datasets := AlgModel.bk_datasets b; AlgModel.bk_io := AlgModel.bk_io b |}.
End block.

(* block.py 147-182 for blocks of FaceModel, ShkModel and CapModel: the arrays set by the
   initialisations are known (block.py 148-158) when the other classes are discretised *)
Definition started_face_block arrange k dirof inv dord sord num kord sizes ts sys crs known ccds vcds datasets ios ord arrays g types (inits : list gridinit)
  : result (AlgModel.block (wkernel fkernel)) :=
  bind (face_block k dirof inv dord sord num kord sizes ts sys crs (known ++ flat_map evaluated_datasets inits) ccds vcds datasets ios ord arrays g types)
    (fun b => Ok (with_inits arrange sizes inits b)).
Definition started_shock_block arrange k sh central dirof inv dord sord worder num kord sizes ts sys crs known vcds datasets ios ord arrays g types (inits : list gridinit)
  : result (AlgModel.block (wkernel gkernel)) :=
  bind (bounded_shock_block k sh central dirof inv dord sord worder num kord sizes ts sys crs (known ++ flat_map evaluated_datasets inits) vcds datasets ios ord arrays g types)
    (fun b => Ok (with_inits arrange sizes inits b)).
Definition started_capturing_block arrange k sh central dirof inv dord sord worder num kord sizes ts sys crs known vcds datasets ios (inits : list gridinit)
  : result (AlgModel.block (wkernel ckernel)) :=
  bind (capturing_block k sh central dirof inv dord sord worder num kord sizes ts sys crs (known ++ flat_map evaluated_datasets inits) vcds datasets ios)
    (fun b => Ok (with_inits arrange sizes inits b)).

(* ---- execution ---- *)
Section run.
  Context {K : Type}.
  Variables (J : interp R) (truth : R -> bool) (spread : list (Z * Z) -> list (list Z)).
  Variable runk : memory -> K -> option Z -> memory.
  (* [spread r] are the points of a range, in the order chosen by the run-time system *)
  Definition run_wevent (M : memory) (ev : AlgModel.event (wkernel K)) : memory :=
    match ev with
    | AlgModel.EKernel (First ik) _ _ => run_ikernel J truth (ik_eqs ik) (spread (ik_range ik)) M
    | AlgModel.EKernel (Then x) _ stage => runk M x stage
    | _ => M
    end.
  Definition run_wprogram (tr : list (AlgModel.event (wkernel K))) (M : memory) : memory := fold_left run_wevent tr M.
End run.
