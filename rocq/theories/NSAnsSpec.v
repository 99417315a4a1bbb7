(* The quantities an accessor of the Navier-Stokes physics object stands for. *)
From Verif Require Import Base BCGasSpec NSModel.
From Coq Require Import Reals.
Local Open Scope R_scope.

(* what each query asks for, in terms of density, momentum and total energy *)
Definition quantity (g ma rho : R) (ms : list R) (E : R) (q : query) : list R :=
  match q with
  | QDensity => [rho]
  | QMomentum => ms
  | QEnergy => [E]
  | QPressure => [pressure_of g rho ms E]
  | QVelocity => map (fun m => m / rho) ms
  | QTemperature => [temperature_of g ma rho ms E]
  | QSound | QViscosity => []
  end.
