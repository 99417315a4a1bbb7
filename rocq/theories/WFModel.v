(* Model of the shock-capturing filter: filters/WENO_filter.py with shock_capturing.py
   92-95, 401-416, 440-442 and weno.py 436-452, and of the sensors that control it
   (WENO_filter.py 178-199, schemes/spatial/shock_sensors.py).  Uniform Cartesian grids:
   the metric terms of create_weno_equations are left out. *)
From Verif Require Import Base FDModel WenoModel EulerSpec EulerModel LLFModel ShiftSpec.
From Coq Require Import QArith Reals Qreals List ZArith.
Import ListNotations.
Local Open Scope R_scope.

(* shock_capturing.py 404-411 *)
Definition central_weights (order : nat) : result (list Q) :=
  match (order + 1)%nat with
  | 4%nat => Ok [-1 # 12; 7 # 12; 7 # 12; -1 # 12]%Q
  | 6%nat => Ok [1 # 60; -8 # 60; 37 # 60; 37 # 60; -8 # 60; 1 # 60]%Q
  | 8%nat => Ok [-1 # 280; 29 # 840; -139 # 840; 533 # 840; 533 # 840; -139 # 840; 29 # 840; -1 # 280]%Q
  | _ => Err NotImplemented
  end.
(* 412-414: CF_<component><j> is the characteristic flux at the j-th stencil point *)
Definition central_flux (ws : list Q) (pts : list Z) (CF : Z -> R) : R :=
  rsumR (map (fun wj => Q2R (fst wj) * CF (nth (snd wj) pts 0%Z)) (combine ws (seq 0 (List.length ws)))).

(* weno.py 436-448 (normalised); theta is the constant sensor_theta, 4 by default.
   Simplified: a natural number, so that pow is defined for every base. *)
Definition least (l : list R) : R := match l with [] => 0 | x :: l => fold_left Rmin l x end.
Definition sensor (s : side) (k theta : nat) (om : list R) : R :=
  let d r := Q2R (nth r (opt_weights s k) 0%Q) in
  rsumR (map (fun r => Rabs (nth r om 0 / d r - 1) ^ theta) (seq 0 k)) /
  (Rabs (1 / least (map d (seq 0 k)) - 1) ^ theta + (INR k - 1)).
(* the nonlinear weights of the reconstruction of f, formulation JS (WENO_filter.py 313) *)
Definition weno_weights (s : side) (k : nat) (eps : R) (f : Z -> R) : result (list R) :=
  bind (alphas JS s k eps (fun r => smoothness_indicator s k r f)) (fun al => Ok (omegas al)).
(* shock_capturing.py 92-95: rj of the right reconstruction, then the larger one *)
Definition wave_sensor (k theta : nat) (eps : R) (pos neg : Z -> R) : result R :=
  bind (weno_weights SRight k eps pos) (fun r => bind (weno_weights SLeft k eps neg) (fun l =>
    Ok (Rmax (sensor SRight k theta r) (sensor SLeft k theta l)))).

(* 357-398, 418-448 with a block that has a shock filter: the value stored in the
   reconstruction work arrays at cell i; k = int(0.5*(order+1)), SimpleAverage([0, 1]) *)
Definition filter_wave (order theta : nat) (eps : R) (ws : list Q) (pts : list Z) (lam : R) (CF CS : Z -> R) : result R :=
  let k := Nat.div (order + 1) 2 in
  let pos := positive_flux lam CF CS in let neg := negative_flux lam CF CS in
  bind (combined (weno_scheme JS k eps) pos neg) (fun recon => bind (wave_sensor k theta eps pos neg) (fun rj =>
    Ok (rj * (recon - central_flux ws pts CF)))).
Definition filter_flux (order theta : nat) (eps g : R) (line : Z -> cell) (i : Z) : result (list R) :=
  let sch := weno_scheme JS (Nat.div (order + 1) 2) eps in
  let pts := stencil_points sch in
  let st := average g Simple (line i) (line (i + 1)%Z) in
  let Lm := left_matrix g (s_k st) (s_rho st) (s_u st) (s_a st) in
  let Rm := right_matrix g (s_k st) (s_rho st) (s_u st) (s_a st) in
  let wave ws m := filter_wave order theta eps ws pts (wave_speed pts (speeds sch line i m))
                     (characteristic Lm m (fun p => c_F (line (i + p)%Z))) (characteristic Lm m (fun p => c_U (line (i + p)%Z))) in
  bind (central_weights order) (fun ws =>
  bind (collect (map (wave ws) (seq 0 (List.length Lm)))) (fun rs => Ok (mulvec Rm rs))).

(* WENO_filter.py 219-238: 0 if the point is one of the first six at a wall on the lower
   side or one of the last six at a wall on the upper side, else 1.  walls: direction and
   side (true: upper) of the walls in the order of the loops. *)
Definition wall_variable (walls : list (nat * bool)) (sizes x : list Z) : R :=
  if existsb (fun w : nat * bool => let i := nth (fst w) x 0%Z in
       if snd w then (nth (fst w) sizes 0 - 6 <=? i)%Z else (i <=? 5)%Z) walls then 0 else 1.
(* 260-266 *)
Definition kappa_max (ndim : nat) (kappa : list Z -> R) (x : list Z) : R :=
  fold_left (fun (f : R) (dl : nat * Z) => Rmax f (kappa (move (fst dl) (snd dl) x)))
    (list_prod (seq 0 ndim) [-2; -1; 0; 1; 2]%Z) (kappa x).
(* 277-279 with the right-hand sides of evaluate_residuals (shock_capturing.py 21-34):
   equation m at the point x.  work d x: the work arrays of direction d *)
Definition filter_rhs (ndim : nat) (delta : nat -> R) (work : nat -> list Z -> list R) (m : nat) (x : list Z) : R :=
  rsumR (map (fun d => - wd_derivative (fun j => work d (move d j x)) m (delta d) 0) (seq 0 ndim)).
Definition filtered (ndim : nat) (walls : list (nat * bool)) (sizes : list Z) (delta : nat -> R) (FC dt : R)
    (kmax : list Z -> R) (work : nat -> list Z -> list R) (m : nat) (q : list Z -> R) (x : list Z) : R :=
  q x + wall_variable walls sizes x * FC * kmax x * dt * filter_rhs ndim delta work m x.

(* 188-198: the Mach-number correction from the conserved variables *)
Definition yee_sensor (g rho rhoE : R) (mom : list R) : R :=
  let inv_rho := 1 / rho in
  let u := map (fun y => y * inv_rho) mom in
  let p := (g - 1) * (rhoE - 1/2 * rsumR (map (fun y => y ^ 2) mom) * inv_rho) in
  let inv_a := 1 / sqrt (g * p * inv_rho) in
  let M := sqrt (rsumR (map (fun y => y ^ 2) u)) * inv_a in
  Rmin (1/2 * M ^ 2 * sqrt (4 + (1 - M ^ 2) ^ 2) / (1 + M ^ 2)) 1.

(* shock_sensors.py 29-50: grad i j is the difference formula of u_i with respect to x_j.
   SymPy's tanh is tanh of the standard library; epsilon is 1.0e-12. *)
Definition divergence (ndim : nat) (grad : nat -> nat -> R) : R := rsumR (map (fun i => grad i i) (seq 0 ndim)).
Definition vorticity_sq (ndim : nat) (grad : nat -> nat -> R) : result R :=
  match ndim with
  | 2%nat => Ok ((grad 1%nat 0%nat - grad 0%nat 1%nat) ^ 2)
  | 3%nat => Ok ((grad 2%nat 1%nat - grad 1%nat 2%nat) ^ 2 + (grad 0%nat 2%nat - grad 2%nat 0%nat) ^ 2 + (grad 1%nat 0%nat - grad 0%nat 1%nat) ^ 2)
  | _ => Err ValueError
  end.
Definition tanh_filter (dv : R) : R := 1/2 * (1 - tanh (25/10 * (1 + 100 * dv))).
Definition ducros (eps : R) (ndim : nat) (grad : nat -> nat -> R) : result R :=
  bind (vorticity_sq ndim grad) (fun w2 => let dv := divergence ndim grad in
    Ok (tanh_filter dv * dv ^ 2 / (dv ^ 2 + w2 + eps))).
