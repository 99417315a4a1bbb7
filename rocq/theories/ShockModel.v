(* Model of the oblique shock relations, opensbli/utilities/oblique_shock.py (line numbers below are in that file).  Simplifications: floats are real
   numbers and evalf is the identity. *)
From Verif Require Import Base.
From Coq Require Import Reals.
Open Scope R_scope.

(* sympy's rad and cot *)
Definition rad (a : R) : R := a * PI / 180.
Definition cot (a : R) : R := cos a / sin a.

(* the substitution dictionary: 22-34 *)
Record shock := { sh_M1 : R; sh_beta : R; sh_gamma : R; sh_wedge : R; sh_rho : R; sh_p : R; sh_T : R; sh_M2 : R }.
(* theta_beta_M_eqn: 37-42 *)
Definition theta_beta_M (beta M1 gamma : R) : R :=
  atan (2 * cot beta * (M1 ^ 2 * sin beta ^ 2 - 1) / (M1 ^ 2 * (gamma + cos (2 * beta)) + 2)).
(* pressure_ratio: 44-48 *)
Definition pressure_ratio (beta M1 gamma : R) : R := 1 + (2 * gamma) / (gamma + 1) * (M1 ^ 2 * sin beta ^ 2 - 1).
(* density_ratio: 50-54 *)
Definition density_ratio (beta M1 gamma : R) : R :=
  ((gamma + 1) * (M1 ^ 2 * sin beta ^ 2)) / ((gamma - 1) * M1 ^ 2 * sin beta ^ 2 + 2).
(* temperature_ratio: 56-59 *)
Definition temperature_ratio (d p : R) : R := p * (1 / d).
(* post_shock_mach_number: 61-66 *)
Definition post_shock_mach (beta M1 gamma theta : R) : R :=
  (1 / sin (beta - theta)) * sqrt ((1 + 1 / 2 * (gamma - 1) * M1 ^ 2 * sin beta ^ 2) / (gamma * M1 ^ 2 * sin beta ^ 2 - 1 / 2 * (gamma - 1))).
(* ObliqueShock.__init__: 17-35.  The wave angle is in degrees, asin in radians.  For |M| < 1 asin is complex and
   the comparison raises a TypeError (M = 0: ZeroDivisionError). *)
Definition oblique_shock (wave_angle M gamma : R) : result shock :=
  if Rlt_dec (Rabs M) 1 then Err TypeErr
  else if Rlt_dec wave_angle (asin (1 / M)) then Err ValueError
  else
    let beta := rad wave_angle in
    let wedge := theta_beta_M beta M gamma in
    let p := pressure_ratio beta M gamma in
    let d := density_ratio beta M gamma in
    Ok {| sh_M1 := M; sh_beta := beta; sh_gamma := gamma; sh_wedge := wedge; sh_rho := d; sh_p := p;
          sh_T := temperature_ratio d p; sh_M2 := post_shock_mach beta M gamma wedge |}.

(* the velocity normal and tangential to the wave: 86-87, 106-107 *)
Definition shock_u (s : shock) (U : R) : R := U * cos (1 / 2 * PI - sh_beta s) * tan (sh_beta s - sh_wedge s) / tan (sh_beta s).
Definition shock_v (s : shock) (U : R) : R := U * cos (1 / 2 * PI - sh_beta s) / tan (sh_beta s).
(* pressure behind the shock: 92-93, 112-113 *)
Definition shock_p2 (s : shock) : R := sh_p s * (1 / (sh_gamma s * sh_M1 s ^ 2)).
(* conservative_post_shock_conditions: 81-99 *)
Definition conservative_post_shock (s : shock) (U : R) : list R :=
  let u := shock_u s U in let v := shock_v s U in
  let rhou := sh_rho s * sqrt (u * u + v * v) * cos (sh_wedge s) in
  let rhov := - sh_rho s * sqrt (u * u + v * v) * sin (sh_wedge s) in
  [sh_rho s; rhou; rhov; shock_p2 s / (sh_gamma s - 1) + (1 / 2 / sh_rho s) * (rhou ^ 2 + rhov ^ 2)].
(* primitive_post_shock_conditions: 101-118 *)
Definition primitive_post_shock (s : shock) (U : R) : list R :=
  let u := shock_u s U in let v := shock_v s U in
  [sh_rho s; sqrt (u * u + v * v) * cos (sh_wedge s); -1 * sqrt (u * u + v * v) * sin (sh_wedge s); shock_p2 s].
