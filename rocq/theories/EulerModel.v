(* Model of the Euler eigensystems: physical_models/euler_eigensystem.py 20-140, and of
   the interface averages: schemes/spatial/averaging.py.  The matrices are the formulas
   after all substitutions, with real values for the symbols; the substitution passes
   themselves (64-71, 96-105, 126-135) are not modelled.  sqrt(2.0) is the exact root. *)
From Coq Require Import Reals List.
Import ListNotations.
Local Open Scope R_scope.

(* euler_eigensystem.py 57-75, one dimension *)
Definition ev1 (u0 a : R) : list R := [u0 - a; u0; u0 + a].
Definition H1 (g u0 a : R) : R := a ^ 2 / (g - 1) + u0 ^ 2 / 2.
Definition REV1 (g u0 a : R) : list (list R) :=
  let H := H1 g u0 a in
  [[1; 1; 1]; [u0 - a; u0; u0 + a]; [H - u0 * a; u0 ^ 2 / 2; H + u0 * a]].
Definition LEV1 (g u0 a : R) : list (list R) :=
  let H := H1 g u0 a in
  [[u0 * (2 * H + a * u0 - u0 ^ 2) / (2 * a * (2 * H - u0 ^ 2)); (- H - a * u0 + u0 ^ 2 / 2) / (a * (2 * H - u0 ^ 2)); 1 / (2 * H - u0 ^ 2)];
   [2 * (H - u0 ^ 2) / (2 * H - u0 ^ 2); 2 * u0 / (2 * H - u0 ^ 2); 2 / (- 2 * H + u0 ^ 2)];
   [u0 * (- 2 * H + a * u0 + u0 ^ 2) / (2 * a * (2 * H - u0 ^ 2)); (H - a * u0 - u0 ^ 2 / 2) / (a * (2 * H - u0 ^ 2)); 1 / (2 * H - u0 ^ 2)]].

(* 27-33: the scaling factor of the metric row *)
Definition metric_factor (k : list R) : R := sqrt (fold_right Rplus 0 (map (fun x => x ^ 2) k)).

(* 77-105, two dimensions *)
Definition ev2 (k0 k1 u0 u1 a : R) : list R :=
  let k := metric_factor [k0; k1] in let U := k0 * u0 + k1 * u1 in
  [U; U; U + a * k; U - a * k].
Definition REV2 (g k0 k1 rho u0 u1 a : R) : list (list R) :=
  let k := metric_factor [k0; k1] in
  let alpha := rho / (a * sqrt 2) in
  let phi_sq := (g - 1) * ((u0 ^ 2 + u1 ^ 2) / 2) in
  let k0_t := k0 / k in let k1_t := k1 / k in
  let theta_t := k0_t * u0 + k1_t * u1 in
  [[1; 0; alpha; alpha];
   [u0; k1_t * rho; alpha * (u0 + k0_t * a); alpha * (u0 - k0_t * a)];
   [u1; - k0_t * rho; alpha * (u1 + k1_t * a); alpha * (u1 - k1_t * a)];
   [phi_sq / (g - 1); rho * (k1_t * u0 - k0_t * u1); alpha * ((phi_sq + a ^ 2) / (g - 1) + a * theta_t); alpha * ((phi_sq + a ^ 2) / (g - 1) - a * theta_t)]].
Definition LEV2 (g k0 k1 rho u0 u1 a : R) : list (list R) :=
  let k := metric_factor [k0; k1] in
  let bta := 1 / (rho * a * sqrt 2) in
  let phi_sq := (g - 1) * ((u0 ^ 2 + u1 ^ 2) / 2) in
  let k0_t := k0 / k in let k1_t := k1 / k in
  let theta_t := k0_t * u0 + k1_t * u1 in
  [[1 - phi_sq / a ^ 2; (g - 1) * u0 / a ^ 2; (g - 1) * u1 / a ^ 2; - (g - 1) / a ^ 2];
   [- (k1_t * u0 - k0_t * u1) / rho; k1_t / rho; - k0_t / rho; 0];
   [bta * (phi_sq - a * theta_t); bta * (k0_t * a - (g - 1) * u0); bta * (k1_t * a - (g - 1) * u1); bta * (g - 1)];
   [bta * (phi_sq + a * theta_t); - bta * (k0_t * a + (g - 1) * u0); - bta * (k1_t * a + (g - 1) * u1); bta * (g - 1)]].

(* 107-135, three dimensions *)
Definition ev3 (k0 k1 k2 u0 u1 u2 a : R) : list R :=
  let k := metric_factor [k0; k1; k2] in let U := k0 * u0 + k1 * u1 + k2 * u2 in
  [U; U; U; U + a * k; U - a * k].
Definition REV3 (g k0 k1 k2 rho u0 u1 u2 a : R) : list (list R) :=
  let k := metric_factor [k0; k1; k2] in
  let alpha := rho / (a * sqrt 2) in
  let phi_sq := (g - 1) * ((u0 ^ 2 + u1 ^ 2 + u2 ^ 2) / 2) in
  let k0_t := k0 / k in let k1_t := k1 / k in let k2_t := k2 / k in
  let theta_t := k0_t * u0 + k1_t * u1 + k2_t * u2 in
  [[k0_t; k1_t; k2_t; alpha; alpha];
   [k0_t * u0; k1_t * u0 - k2_t * rho; k2_t * u0 + k1_t * rho; alpha * (u0 + k0_t * a); alpha * (u0 - k0_t * a)];
   [k0_t * u1 + k2_t * rho; k1_t * u1; k2_t * u1 - k0_t * rho; alpha * (u1 + k1_t * a); alpha * (u1 - k1_t * a)];
   [k0_t * u2 - k1_t * rho; k1_t * u2 + k0_t * rho; k2_t * u2; alpha * (u2 + k2_t * a); alpha * (u2 - k2_t * a)];
   [k0_t * phi_sq / (g - 1) + rho * (k2_t * u1 - k1_t * u2); k1_t * phi_sq / (g - 1) + rho * (k0_t * u2 - k2_t * u0);
    k2_t * phi_sq / (g - 1) + rho * (k1_t * u0 - k0_t * u1);
    alpha * ((phi_sq + a ^ 2) / (g - 1) + theta_t * a); alpha * ((phi_sq + a ^ 2) / (g - 1) - theta_t * a)]].
Definition LEV3 (g k0 k1 k2 rho u0 u1 u2 a : R) : list (list R) :=
  let k := metric_factor [k0; k1; k2] in
  let bta := 1 / (rho * a * sqrt 2) in
  let phi_sq := (g - 1) * ((u0 ^ 2 + u1 ^ 2 + u2 ^ 2) / 2) in
  let k0_t := k0 / k in let k1_t := k1 / k in let k2_t := k2 / k in
  let theta_t := k0_t * u0 + k1_t * u1 + k2_t * u2 in
  [[k0_t * (1 - phi_sq / a ^ 2) - (k2_t * u1 - k1_t * u2) / rho; k0_t * (g - 1) * u0 / a ^ 2; k0_t * (g - 1) * u1 / a ^ 2 + k2_t / rho;
    k0_t * (g - 1) * u2 / a ^ 2 - k1_t / rho; - k0_t * (g - 1) / a ^ 2];
   [k1_t * (1 - phi_sq / a ^ 2) - (k0_t * u2 - k2_t * u0) / rho; k1_t * (g - 1) * u0 / a ^ 2 - k2_t / rho; k1_t * (g - 1) * u1 / a ^ 2;
    k1_t * (g - 1) * u2 / a ^ 2 + k0_t / rho; - k1_t * (g - 1) / a ^ 2];
   [k2_t * (1 - phi_sq / a ^ 2) - (k1_t * u0 - k0_t * u1) / rho; k2_t * (g - 1) * u0 / a ^ 2 + k1_t / rho; k2_t * (g - 1) * u1 / a ^ 2 - k0_t / rho;
    k2_t * (g - 1) * u2 / a ^ 2; - k2_t * (g - 1) / a ^ 2];
   [bta * (phi_sq - theta_t * a); - bta * ((g - 1) * u0 - k0_t * a); - bta * ((g - 1) * u1 - k1_t * a); - bta * ((g - 1) * u2 - k2_t * a); bta * (g - 1)];
   [bta * (phi_sq + theta_t * a); - bta * ((g - 1) * u0 + k0_t * a); - bta * ((g - 1) * u1 + k1_t * a); - bta * ((g - 1) * u2 + k2_t * a); bta * (g - 1)]].

(* 22-33 and 51-55: the metric row of a direction; identity if the metric is diagonal
   (one dimension: always) *)
Definition eigenvalues (k u : list R) (a : R) : list R :=
  match k, u with
  | [_], [u0] => ev1 u0 a
  | [k0; k1], [u0; u1] => ev2 k0 k1 u0 u1 a
  | [k0; k1; k2], [u0; u1; u2] => ev3 k0 k1 k2 u0 u1 u2 a
  | _, _ => []
  end.
Definition right_matrix (g : R) (k : list R) (rho : R) (u : list R) (a : R) : list (list R) :=
  match k, u with
  | [_], [u0] => REV1 g u0 a
  | [k0; k1], [u0; u1] => REV2 g k0 k1 rho u0 u1 a
  | [k0; k1; k2], [u0; u1; u2] => REV3 g k0 k1 k2 rho u0 u1 u2 a
  | _, _ => []
  end.
Definition left_matrix (g : R) (k : list R) (rho : R) (u : list R) (a : R) : list (list R) :=
  match k, u with
  | [_], [u0] => LEV1 g u0 a
  | [k0; k1], [u0; u1] => LEV2 g k0 k1 rho u0 u1 a
  | [k0; k1; k2], [u0; u1; u2] => LEV3 g k0 k1 k2 rho u0 u1 u2 a
  | _, _ => []
  end.

(* averaging.py 31-60: SimpleAverage, applied to rho, the velocities, a and the metrics *)
Definition simple_average (x y : R) : R := (x + y) / 2.

(* averaging.py 63-125: RoeAverage *)
Definition roe_density (rL rR : R) : R := sqrt (rL * rR).
Definition roe_inv (rL rR : R) : R := / (sqrt rR + sqrt rL).
Definition roe_mean (rL rR x y : R) : R := (sqrt rL * x + sqrt rR * y) * roe_inv rL rR.
Definition roe_velocity (rL rR : R) (uL uR : list R) : list R :=
  map (fun xy => roe_mean rL rR (fst xy) (snd xy)) (combine uL uR).
Definition roe_enthalpy (rL rR EL ER pL pR : R) : R := roe_mean rL rR ((EL + pL) / rL) ((ER + pR) / rR).
Definition roe_sound (g rL rR : R) (uL uR : list R) (EL ER pL pR : R) : R :=
  let KE := 1 / 2 * fold_right Rplus 0 (map (fun u => u ^ 2) (roe_velocity rL rR uL uR)) in
  sqrt ((g - 1) * (roe_enthalpy rL rR EL ER pL pR - KE)).
