(* Specification for programs with boundary conditions or shock capturing and initialisations
   (C87). *)
From Verif Require Import Base Expr WorkModel ShiftSpec DiscModel DiscSpec LLFModel HybSpec ProgModel ProgSpec InitModel InitSpec BCSpec BCGasSpec BC2Spec BndModel BndSpec OneModel SideModel SideSpec
  CapModel CapSpec FaceModel FaceSpec ShkModel ShkSpec Init2Model.
From Verif Require AdvModel AdvSpec AlgModel AlgProps WenoModel.
From Verif Require Import DiscProps ProgProps.
From Coq Require Import ZArith Reals Permutation Sorted.
Local Open Scope list_scope.

(* the initialisations in an order in which their numbers do not decrease; any order of those
   with equal numbers *)
Definition in_order (inits gs : list gridinit) : Prop :=
  Permutation inits gs /\ StronglySorted (fun g g' => (number_of g <= number_of g')%Z) gs.
(* the contents of the arrays after these initialisations, one after the other, each at all
   points of its range; what one of them does is the subject of C77 *)
Definition initialised_by (J : interp R) (truth : R -> bool) (spread : list (Z * Z) -> list (list Z)) (sizes : list Z) (gs : list gridinit) (M : memory) : memory :=
  fold_left (fun M g => run_ikernel J truth (gi_eqs g) (spread (ik_range (init_kernel sizes g))) M) gs M.

(* prg is a program generated for the problem with these conditions and initialisations, as
   FaceSpec.face_generated *)
Definition started_face (ts : timescheme) (J : interp R) (k : nat) (dirof : string -> nat) (h : nat -> R)
    (sizes : list Z) (fs : list field) (g : gas) (types : list (bcond * bcond)) (sys crs : list (string * expr)) (inits : list gridinit)
    (prg : list (AlgModel.stmt (wkernel fkernel))) : Prop :=
  functions J /\
  face_boundaries (fun _ => k) sizes fs g types /\
  (forall v, In v (field_names fs) <-> In v (map fst sys)) /\
  exists arrange inv dord sord num kord known ccds vcds datasets ios rqs mon ord blk,
    (forall l, Permutation l (arrange l)) /\
    (forall M x d m, value J M x (inv d m) = (/ h d ^ m)%R) /\
    (forall e, enumerates (dord e) e) /\ (forall l, Permutation l (sord l)) /\
    (forall l l', Permutation l l' -> inner_first l' -> inner_first (sord l)) /\
    (forall a b, num a = num b -> a = b) /\ (forall l, Permutation l (kord l)) /\
    periodic_problem (List.length sizes) dirof (register_of ts) sys crs (known ++ flat_map evaluated_datasets inits) /\
    lists_derivatives (disc_eqs sys) (fun t => ~ viscous_term t) ccds /\
    lists_derivatives (disc_eqs sys) viscous_term vcds /\
    ccds <> [] /\ (vcds = [] -> forall r rhs t, In (r, rhs) (disc_eqs sys) -> In t (terms rhs) -> ~ viscous_term t) /\
    AlgProps.made_from rqs ios /\ good_order ord /\
    started_face_block arrange k dirof inv dord sord num kord sizes ts sys crs known ccds vcds datasets ios ord (arrays_of (List.length sizes) fs) g types inits = Ok blk /\
    AlgModel.generate_solution blk mon = Ok prg.

(* as ShkSpec.bounded_shock_generated *)
Definition started_shock (ts : timescheme) (J : interp R) (k : nat) (sh : shock) (central : bool) (dirof : string -> nat) (h : nat -> R)
    (fluxes : nat -> list expr) (sizes : list Z) (fs : list field) (g : gas) (types : list (bcond * bcond)) (sys crs : list (string * expr)) (inits : list gridinit)
    (prg : list (AlgModel.stmt (wkernel gkernel))) : Prop :=
  functions J /\ sizes <> [] /\ usable_scheme sh /\
  face_boundaries (halo_layers sh k central) sizes fs g types /\
  (forall v, In v (field_names fs) <-> In v (map fst sys)) /\
  exists arrange inv dord sord worder num kord coordinate known vcds datasets ios rqs mon ord blk,
    (forall l, Permutation l (arrange l)) /\
    (forall M x d m, value J M x (inv d m) = (/ h d ^ m)%R) /\
    (forall e, enumerates (dord e) e) /\ (forall l, Permutation l (sord l)) /\
    (forall l l', Permutation l l' -> inner_first l' -> inner_first (sord l)) /\
    (forall l, Permutation l (worder l)) /\
    (forall a b, num a = num b -> a = b) /\ (forall l, Permutation l (kord l)) /\
    shock_problem (List.length sizes) (width sh) k dirof (register_of ts) coordinate fluxes sys crs (known ++ flat_map evaluated_datasets inits) /\
    lists_derivatives (disc_eqs sys) viscous_term vcds /\ (central = false -> vcds = []) /\
    AlgProps.made_from rqs ios /\ good_order ord /\
    started_shock_block arrange k sh central dirof inv dord sord worder num kord sizes ts sys crs known vcds datasets ios ord (arrays_of (List.length sizes) fs) g types inits = Ok blk /\
    AlgModel.generate_solution blk mon = Ok prg.

(* as CapSpec.shock_generated *)
Definition started_capturing (ts : timescheme) (J : interp R) (k : nat) (sh : shock) (central : bool) (dirof : string -> nat) (h : nat -> R)
    (fluxes : nat -> list expr) (sizes : list Z) (sys crs : list (string * expr)) (inits : list gridinit) (prg : list (AlgModel.stmt (wkernel ckernel))) : Prop :=
  real_arithmetic J /\ sizes <> [] /\ usable_scheme sh /\
  (forall d, (d < List.length sizes)%nat -> (Z.of_nat (width sh) <= nth d sizes 0)%Z /\ (central = true -> (Z.of_nat k <= nth d sizes 0)%Z)) /\
  exists arrange inv dord sord worder num kord coordinate known vcds datasets ios rqs mon blk,
    (forall l, Permutation l (arrange l)) /\
    (forall M x d m, value J M x (inv d m) = (/ h d ^ m)%R) /\
    (forall e, enumerates (dord e) e) /\ (forall l, Permutation l (sord l)) /\
    (forall l l', Permutation l l' -> inner_first l' -> inner_first (sord l)) /\
    (forall l, Permutation l (worder l)) /\
    (forall a b, num a = num b -> a = b) /\ (forall l, Permutation l (kord l)) /\
    shock_problem (List.length sizes) (width sh) k dirof (register_of ts) coordinate fluxes sys crs (known ++ flat_map evaluated_datasets inits) /\
    lists_derivatives (disc_eqs sys) viscous_term vcds /\ (central = false -> vcds = []) /\
    AlgProps.made_from rqs ios /\
    started_capturing_block arrange k sh central dirof inv dord sord worder num kord sizes ts sys crs known vcds datasets ios inits = Ok blk /\
    AlgModel.generate_solution blk mon = Ok prg.
