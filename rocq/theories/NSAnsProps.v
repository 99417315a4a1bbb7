(* C51: the accessors of the Navier-Stokes physics object. *)
From Verif Require Import Base Expr KernelModel ShiftSpec BCModel BCSpec BCVec BCGasSpec NSModel NSAnsSpec NSProps NSAnsProofs.
From Coq Require Import QArith ZArith Reals Lra.
Local Close Scope Q_scope.
Local Open Scope R_scope.

(* C51.  Where the arrays of velocity, pressure and temperature hold the values of an ideal
   gas, every accessor, with any combination of its two options, that gives an answer gives
   an expression for the quantity asked for.  Not included: the speed of sound and the
   viscosity, see C51_speed_of_sound_refuted and C51_viscosity_refuted. *)
Theorem C51_answers :
  forall J n rho moms E p T a vels M x, reals J -> List.length x = n -> M rho x <> 0 ->
    map (fun u => M u x) vels = map (fun m => M m x / M rho x) moms ->
    M p x = pressure_of (const J "gama") (M rho x) (map (fun m => M m x) moms) (M E x) ->
    M T x = temperature_of (const J "gama") (const J "Minf") (M rho x) (map (fun m => M m x) moms) (M E x) ->
    forall q relation conservative l, q <> QSound -> q <> QViscosity ->
      answer (ns_block n rho moms E p T a vels) q relation conservative = Ok l ->
      map (value J M x) l = quantity (const J "gama") (const J "Minf") (M rho x) (map (fun m => M m x) moms) (M E x) q.
Proof. exact answers_value. Qed.
Print Assumptions C51_answers.

(* C51.  The conservative relations for pressure and temperature read density, momentum and
   energy only, the other relations density, velocity and energy only. *)
Theorem C51_arrays_read :
  forall n rho moms E p T a vels q conservative l e d,
    q = QPressure \/ q = QTemperature ->
    answer (ns_block n rho moms E p T a vels) q true conservative = Ok l -> In e l -> In d (bases e) ->
    d = rho \/ d = E \/ In d (if conservative then moms else vels).
Proof. exact answers_bases. Qed.
Print Assumptions C51_arrays_read.

(* A moving gas with density 2, momentum 4 and energy 6, gamma 2 and Mach number 1. *)
Example C51_answers_nonvacuous :
  let M := fun (b : string) (_ : list Z) =>
             if String.eqb b "rho" then 2 else if String.eqb b "rhou0" then 4 else if String.eqb b "rhoE" then 6
             else if String.eqb b "u0" then 2 else if String.eqb b "p" then 2 else 2 in
  M "rho"%string [0%Z] <> 0 /\
  map (fun u => M u [0%Z]) ["u0"%string] = map (fun m => M m [0%Z] / M "rho"%string [0%Z]) ["rhou0"%string] /\
  M "p"%string [0%Z] = pressure_of 2 (M "rho"%string [0%Z]) (map (fun m => M m [0%Z]) ["rhou0"%string]) (M "rhoE"%string [0%Z]) /\
  M "T"%string [0%Z] = temperature_of 2 1 (M "rho"%string [0%Z]) (map (fun m => M m [0%Z]) ["rhou0"%string]) (M "rhoE"%string [0%Z]) /\
  exists l, answer (ns_block 1 "rho" ["rhou0"%string] "rhoE" "p" "T" "a" ["u0"%string]) QPressure true true = Ok l.
Proof.
  unfold temperature_of, pressure_of, norm2. cbn.
  split; [lra|]. split; [f_equal; lra|]. split; [lra|]. split; [lra|]. eexists. reflexivity.
Qed.
