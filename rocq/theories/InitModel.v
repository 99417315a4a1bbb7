(* Model of initialisation/gridbasedinit.py: the equations that set the arrays before the
   time loop, the program of a block that has them, and the execution of equations with
   conditions (GroupedPiecewise) and grid indices.  Equations with derivatives (which
   the class does not discretise, the code printer fails on them) are not modelled. *)
From Verif Require Import Base Expr KernelModel StoreModel DiscModel ProgModel.
From Verif Require AlgModel BCModel OrdModel ShiftSpec.
From Coq Require Import ZArith Reals.
Local Open Scope list_scope.

(* ---- the class ---- *)
(* gridbasedinit.py 17-27: an instance; an order that is not given is 0 *)
Record gridinit := { gi_order : option Z; gi_eqs : kernel_eqs }.
Definition order_of_init (g : gridinit) : Z :=
  match gi_order g with Some o => if (o =? 0)%Z then 0%Z else o | None => 0%Z end.
(* 38-46: evaluated_datasets *)
Definition evaluated_datasets (g : gridinit) : list string := flat_map lhs_of (gi_eqs g).
(* 48-60: one kernel, over the grid and the halos of CentralHalos_defdec (scheme.py
   47-57) on both sides of every direction *)
Record ikernel := { ik_eqs : kernel_eqs; ik_range : list (Z * Z) }.
Definition init_kernel (sizes : list Z) (g : gridinit) : ikernel :=
  {| ik_eqs := gi_eqs g; ik_range := extended_range sizes (-5, 5)%Z (seq 0 (List.length sizes)) |}.

(* ---- the block ---- *)
Inductive skernel := Init (ik : ikernel) | Prog (pk : pkernel).
(* 26, 48-60, and algorithm.py 416-426 (AlgModel): placed before the time loop *)
Definition init_class (sizes : list Z) (g : gridinit) : AlgModel.eqclass skernel :=
  AlgModel.EqNonSim {| AlgModel.ns_order := order_of_init g; AlgModel.ns_places := [AlgModel.PBefore];
                       AlgModel.ns_kernels := [Init (init_kernel sizes g)] |}.
(* the kernels of the other classes *)
Definition lift_class (e : AlgModel.eqclass pkernel) : AlgModel.eqclass skernel :=
  match e with
  | AlgModel.EqSim s =>
      AlgModel.EqSim {| AlgModel.sq_start := map Prog (AlgModel.sq_start s); AlgModel.sq_end := map Prog (AlgModel.sq_end s);
                        AlgModel.sq_advance := map Prog (AlgModel.sq_advance s); AlgModel.sq_bc := map Prog (AlgModel.sq_bc s);
                        AlgModel.sq_spatial := map Prog (AlgModel.sq_spatial s) |}
  | AlgModel.EqMetric m =>
      AlgModel.EqMetric {| AlgModel.mt_order := AlgModel.mt_order m; AlgModel.mt_places := AlgModel.mt_places m;
                           AlgModel.mt_fd := map Prog (AlgModel.mt_fd m); AlgModel.mt_sd := map Prog (AlgModel.mt_sd m) |}
  | AlgModel.EqNonSim n =>
      AlgModel.EqNonSim {| AlgModel.ns_order := AlgModel.ns_order n; AlgModel.ns_places := AlgModel.ns_places n;
                           AlgModel.ns_kernels := map Prog (AlgModel.ns_kernels n) |}
  | AlgModel.EqConstituent => AlgModel.EqConstituent
  | AlgModel.EqOther => AlgModel.EqOther
  end.
(* block.py 147-182 for a block with these classes: the arrays set by the initialisation
   are known (block.py 148-158); the classes are discretised one after the other.
   [arrange] is the order in which the user listed the classes. *)
Definition initialised_block (arrange : list (AlgModel.eqclass skernel) -> list (AlgModel.eqclass skernel))
    (k : nat) (dirof : string -> nat) (inv : nat -> nat -> expr)
    (dord : expr -> list dset) (sord : list (expr * string) -> list (expr * string))
    (num : string -> OrdModel.key) (kord : list string -> list string)
    (sizes : list Z) (ts : timescheme) (sys : system) (crs : list (string * expr)) (known : list string)
    (ccds vcds : list expr) (datasets : list string) (ios : list AlgModel.io) (inits : list gridinit)
  : result (AlgModel.block skernel) :=
  bind (discretised_block k dirof inv dord sord num kord sizes ts sys crs (known ++ flat_map evaluated_datasets inits) ccds vcds datasets ios) (fun b =>
    Ok {| AlgModel.bk_schemes :=
            map (fun sc => {| AlgModel.sc_class := AlgModel.sc_class sc; AlgModel.sc_stage := AlgModel.sc_stage sc;
                              AlgModel.sc_iter := AlgModel.sc_iter sc;
                              AlgModel.sc_solution := arrange (map lift_class (AlgModel.sc_solution sc) ++ map (init_class sizes) inits) |})
                (AlgModel.bk_schemes b);
          AlgModel.bk_datasets := AlgModel.bk_datasets b; AlgModel.bk_io := AlgModel.bk_io b |}).

(* ---- execution ---- *)
(* grid.py 176, opsc.py 153-155: the name of the index in direction d *)
Definition idx_name (d : nat) : string := ("idx[" ++ dec d ++ "]")%string.
Section run.
  Variable J : interp R.
  Variable truth : R -> bool.                (* the outcome of a condition *)
  (* ops_arg_idx: the index of the point *)
  Definition with_index (x : list Z) : interp R :=
    {| inum := inum J; iapp := iapp J;
       isym := fun kd s => match kd with
                           | KGridIdx => match find (fun d => String.eqb s (idx_name d)) (seq 0 (List.length x)) with
                                         | Some d => IZR (nth d x 0%Z)
                                         | None => isym J kd s
                                         end
                           | _ => isym J kd s
                           end |}.
  Local Notation locals := (string -> R).
  (* opsc.py 369-391: if (c) {...} else if (c') {...} else {...} *)
  Fixpoint exec_group (x : list Z) (s : memory * locals) (bs : list (list (expr * expr) * option expr)) : memory * locals :=
    match bs with
    | [] => s
    | (es, c) :: bs =>
        if match c with Some c => truth (BCModel.at_point (with_index x) (fst s) (snd s) x c) | None => true end
        then fold_left (fun s e => BCModel.exec1 (with_index x) x s (KEq (fst e) (snd e))) es s
        else exec_group x s bs
    end.
  Definition exec_keq (x : list Z) (s : memory * locals) (q : keq) : memory * locals :=
    match q with KGroup bs => exec_group x s bs | _ => BCModel.exec1 (with_index x) x s q end.
  (* opsc.py 364-396: local variables start with 0 *)
  Definition exec_point (qs : kernel_eqs) (M : memory) (x : list Z) : memory :=
    fst (fold_left (exec_keq x) qs (M, fun _ => 0%R)).
  (* ops_par_loop over the points, in the order of the list *)
  Definition run_ikernel (qs : kernel_eqs) (pts : list (list Z)) (M : memory) : memory :=
    fold_left (exec_point qs) pts M.
  (* the whole program; [points r] are the points of a range, in the order chosen by the
     run-time system *)
  Variables (k : nat) (sizes : list Z) (dt : R) (ab : list R * list R) (points : list (Z * Z) -> list (list Z)).
  Definition run_sevent (M : memory) (ev : AlgModel.event skernel) : memory :=
    match ev with
    | AlgModel.EKernel (Init ik) _ _ => run_ikernel (ik_eqs ik) (points (ik_range ik)) M
    | AlgModel.EKernel (Prog pk) _ stage => run_pkernel J k sizes dt ab M pk stage
    | _ => M
    end.
  Definition run_sprogram (tr : list (AlgModel.event skernel)) (M : memory) : memory := fold_left run_sevent tr M.
End run.
