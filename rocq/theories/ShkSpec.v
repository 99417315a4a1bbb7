(* Specification for programs with shock capturing and any of the boundary conditions (C82). *)
From Verif Require Import Base Expr WorkModel ShiftSpec DiscModel DiscSpec LLFModel HybSpec ProgModel ProgSpec BCSpec BCGasSpec BC2Spec BndModel BndSpec OneModel SideModel SideSpec
  CapModel CapSpec FaceModel FaceSpec ShkModel.
From Verif Require AdvModel AdvSpec AlgModel AlgProps WenoModel.
From Verif Require Import DiscProps ProgProps.
From Coq Require Import ZArith Reals Permutation.
Local Open Scope list_scope.

(* Value of a right-hand side at a grid point, as HybSpec.hybrid_value, where central
   derivatives are the formulas of C79 *)
Section spec.
  Variables (J : interp R) (k : nat) (dirof : string -> nat) (h : nat -> R) (sizes : list Z) (sd : sides).
  Variables (M wd : string -> list Z -> R).
  Fixpoint hybrid_value1 (e : expr) (x : list Z) : R :=
    match e with
    | ENum q => inum J q
    | ESym kd n => isym J kd n
    | EDat b ix => M b (vadd x ix)
    | EApp hd args =>
        match hd, args with
        | HCD, a :: cs =>
            let d := direction dirof cs in
            difference k (List.length cs) (h d) (sd d) (nth d sizes 0%Z) (fun i => hybrid_value1 a (SideSpec.at_index d i x)) (nth d x 0%Z)
        | HFun f, [_; ESym KCoord n] =>
            if String.eqb f "WD" then wd n x else iapp J hd (map (fun a => hybrid_value1 a x) args)
        | _, _ => iapp J hd (map (fun a => hybrid_value1 a x) args)
        end
    end.
End spec.

(* the layers around the grid: on the upper side the shock-capturing scheme has one more *)
Definition halo_layers (sh : shock) (k : nat) (central : bool) (side : bool) : nat :=
  Nat.max (if side then width sh + 1 else width sh) (if central then k else 0).

(* r are the right-hand sides for the contents M: the relations hold at all points of the grid
   and its halos; shock-capturing derivatives are differences of the numerical fluxes (C37) on
   the lines through the point, central derivatives the formulas of C79 *)
Definition shock_right_hand_sides (J : interp R) (k : nat) (sh : shock) (central : bool) (gamma : R) (av : averaging) (dirof : string -> nat) (h : nat -> R)
    (fluxes : nat -> list expr) (sizes : list Z) (types : list (bcond * bcond)) (sys crs : list (string * expr)) (M : memory) (r : ProgSpec.solution) : Prop :=
  exists F fl, bounded_fields J (halo_layers sh k central false) sizes sys crs M M F /\
    (forall d x, (d < List.length sizes)%nat -> numerical_flux J (order_scheme sh) gamma av (map fst sys) (List.length sizes) d (fluxes d) F x = Ok (fl d x)) /\
    forall i v rhs x, nth_error sys i = Some (v, rhs) -> grid_point sizes x ->
      r (v, x) = hybrid_value1 J k dirof h sizes (announced_sides types) F (flux_difference dirof h fl i) rhs x.

(* prg is a program generated for the problem (sys, crs) with these schemes and conditions, as
   CapSpec.shock_generated and FaceSpec.face_generated *)
Definition bounded_shock_generated (ts : timescheme) (J : interp R) (k : nat) (sh : shock) (central : bool) (dirof : string -> nat) (h : nat -> R)
    (fluxes : nat -> list expr) (sizes : list Z) (fs : list field) (g : gas) (types : list (bcond * bcond)) (sys crs : list (string * expr))
    (prg : list (AlgModel.stmt gkernel)) : Prop :=
  functions J /\ sizes <> [] /\ usable_scheme sh /\
  face_boundaries (halo_layers sh k central) sizes fs g types /\
  (forall v, In v (field_names fs) <-> In v (map fst sys)) /\
  exists inv dord sord worder num kord coordinate known vcds datasets ios rqs mon ord blk,
    (forall M x d m, value J M x (inv d m) = (/ h d ^ m)%R) /\
    (forall e, enumerates (dord e) e) /\ (forall l, Permutation l (sord l)) /\
    (forall l l', Permutation l l' -> inner_first l' -> inner_first (sord l)) /\
    (forall l, Permutation l (worder l)) /\
    (forall a b, num a = num b -> a = b) /\ (forall l, Permutation l (kord l)) /\
    shock_problem (List.length sizes) (width sh) k dirof (register_of ts) coordinate fluxes sys crs known /\
    lists_derivatives (disc_eqs sys) viscous_term vcds /\ (central = false -> vcds = []) /\
    AlgProps.made_from rqs ios /\ good_order ord /\
    bounded_shock_block k sh central dirof inv dord sord worder num kord sizes ts sys crs known vcds datasets ios ord (arrays_of (List.length sizes) fs) g types = Ok blk /\
    AlgModel.generate_solution blk mon = Ok prg.
