(* Specification: the Euler equations of a perfect gas in two dimensions. *)
From Coq Require Import Reals List.
Import ListNotations.
Open Scope R_scope.

(* conservative variables from density, velocity and pressure *)
Definition state (gamma rho u v p : R) : list R := [rho; rho * u; rho * v; p / (gamma - 1) + 1 / 2 * rho * (u ^ 2 + v ^ 2)].
(* flux of mass, momentum and energy through a surface with normal (nx, ny) *)
Definition flux (gamma rho u v p nx ny : R) : list R :=
  let un := u * nx + v * ny in
  [rho * un; rho * un * u + p * nx; rho * un * v + p * ny; un * (p / (gamma - 1) + 1 / 2 * rho * (u ^ 2 + v ^ 2) + p)].
Definition sound_speed (gamma rho p : R) : R := sqrt (gamma * p / rho).
