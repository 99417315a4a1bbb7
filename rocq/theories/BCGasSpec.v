(* Specification: pressure, temperature and velocity of a state, and profiles at walls. *)
From Verif Require Import Base Expr KernelModel BCModel BCSpec.
From Coq Require Import QArith ZArith Reals.
Local Close Scope Q_scope.
Open Scope R_scope.

(* ideal gas: p = (g - 1) (E - |m|^2 / (2 rho)), T = g Ma^2 p / rho *)
Definition pressure_of (g rho : R) (ms : list R) (E : R) : R := (g - 1) * (E - norm2 ms / (2 * rho)).
Definition temperature_of (g ma rho : R) (ms : list R) (E : R) : R := g * (ma * ma) * pressure_of g rho ms E / rho.

Definition const (J : interp R) (s : string) : R := isym J KConst s.
Definition p_at (J : interp R) (M : string -> list Z -> R) (rho : string) (moms : list string) (E : string) (x : list Z) : R :=
  pressure_of (const J "gama") (M rho x) (map (fun m => M m x) moms) (M E x).
Definition T_at (J : interp R) (M : string -> list Z -> R) (rho : string) (moms : list string) (E : string) (x : list Z) : R :=
  temperature_of (const J "gama") (const J "Minf") (M rho x) (map (fun m => M m x) moms) (M E x).

(* the conservative variables as arrays *)
Definition ns_arrays (n : nat) (rho : string) (moms : list string) (E : string) : nsvars :=
  {| ns_rho := EDat rho (here n); ns_mom := map (fun m => EDat m (here n)) moms; ns_rhoE := EDat E (here n) |}.

(* what one point outside a face needs; y is on the face or in the halo of the given side *)
Definition face_or_halo (np : list Z) (bh : halo_ranges) (d : nat) (side : bool) (y : list Z) : Prop :=
  halo_point np bh d side y \/ on_face np bh d side y.
