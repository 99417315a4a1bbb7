(* Model of the local Lax-Friedrichs characteristic flux: schemes/spatial/shock_capturing.py
   21-34, 357-398, 418-536, the averages of schemes/spatial/averaging.py and the derivative
   of a WENO/TENO term, core/opensblifunctions.py 576-597 (the TENO one is the same).
   One grid line in the direction of the derivative; the cells are numbered by Z. *)
From Verif Require Import Base FDModel WenoModel TenoModel EulerSpec EulerModel.
From Coq Require Import Reals List ZArith.
Import ListNotations.
Local Open Scope R_scope.

(* The arrays at one grid point: conserved variables, the argument of the derivative in
   each equation, density, velocities, sound speed, pressure, and the metric row (1 and
   0s on a Cartesian grid). *)
Record cell := mkcell { c_U : list R; c_F : list R; c_rho : R; c_u : list R; c_a : R; c_p : R; c_k : list R }.

(* A reconstruction scheme: func_points of the two reconstruction classes
   (weno.py 122-135, teno.py 95-105) and the reconstruction. *)
Record scheme := mkscheme { sch_points : side -> list Z; sch_rec : side -> (Z -> R) -> result R }.
Definition weno_scheme (fm : formulation) (k : nat) (eps : R) : scheme :=
  mkscheme (fun s => func_points s k) (fun s => reconstruction fm s k eps).
Definition teno_scheme (order : nat) (eps CT : R) : scheme :=
  mkscheme (fun s => List.concat (teno_points s order)) (fun s => teno_reconstruction s order eps CT).

(* shock_capturing.py 451, 499, 515: sorted(list(set(right + left))) *)
Fixpoint insertZ (x : Z) (l : list Z) : list Z :=
  match l with [] => [x] | y :: l' => if (x <=? y)%Z then x :: l else y :: insertZ x l' end.
Definition sortZ (l : list Z) : list Z := fold_right insertZ [] l.
Definition stencil_points (sch : scheme) : list Z :=
  sortZ (nodup Z.eq_dec (sch_points sch SRight ++ sch_points sch SLeft)).

(* averaging.py 31-125 at the locations [0, 1]: the state used for the eigenvectors.
   The metric row is the simple average in both. *)
Inductive averaging := Simple | Roe.
Record state := mkstate { s_rho : R; s_u : list R; s_a : R; s_k : list R }.
Definition zip_avg (x y : list R) : list R := map (fun xy => simple_average (fst xy) (snd xy)) (combine x y).
Definition average (g : R) (av : averaging) (l r : cell) : state :=
  match av with
  | Simple => mkstate (simple_average (c_rho l) (c_rho r)) (zip_avg (c_u l) (c_u r))
                      (simple_average (c_a l) (c_a r)) (zip_avg (c_k l) (c_k r))
  | Roe => mkstate (roe_density (c_rho l) (c_rho r)) (roe_velocity (c_rho l) (c_rho r) (c_u l) (c_u r))
                   (roe_sound g (c_rho l) (c_rho r) (c_u l) (c_u r) (last (c_U l) 0) (last (c_U r) 0) (c_p l) (c_p r))
                   (zip_avg (c_k l) (c_k r))
  end.

(* 512-536: out starts at zero and takes the maximum over the stencil points in order *)
Definition wave_speed (pts : list Z) (lam : Z -> R) : R :=
  fold_left (fun out p => Rmax out (Rabs (lam p))) pts 0.
(* 450-462, 497-510: the row m of grid_LEV times the column of the stencil point p *)
Definition characteristic (Lm : list (list R)) (m : nat) (V : Z -> list R) (p : Z) : R :=
  dot (nth m Lm []) (V p).
(* 479-495 *)
Definition positive_flux (lam : R) (CF CS : Z -> R) (p : Z) : R := 1/2 * (CF p + lam * CS p).
Definition negative_flux (lam : R) (CF CS : Z -> R) (p : Z) : R := 1/2 * (CF p - lam * CS p).

(* 493-494, 72-96: the right reconstruction of the positive part, then the left one of the
   negative part, both added to Recon_m, which opsc.py 402 declares with the value 0 *)
Definition combined (sch : scheme) (pos neg : Z -> R) : result R :=
  bind (sch_rec sch SRight pos) (fun r => bind (sch_rec sch SLeft neg) (fun l => Ok (0 + r + l))).
Fixpoint collect {A} (l : list (result A)) : result (list A) :=
  match l with [] => Ok [] | r :: l => bind r (fun a => bind (collect l) (fun t => Ok (a :: t))) end.

(* 357-398 and 418-448: the value stored in the reconstruction work arrays at cell i.
   Simplified: no shock filter (439-442); the reciprocals of create_LEV_inverses are exact. *)
Definition speeds (sch : scheme) (line : Z -> cell) (i : Z) (m : nat) (p : Z) : R :=
  let c := line (i + p)%Z in nth m (eigenvalues (c_k c) (c_u c) (c_a c)) 0.
Definition interface_flux (sch : scheme) (g : R) (av : averaging) (line : Z -> cell) (i : Z) : result (list R) :=
  let st := average g av (line i) (line (i + 1)%Z) in
  let Lm := left_matrix g (s_k st) (s_rho st) (s_u st) (s_a st) in
  let Rm := right_matrix g (s_k st) (s_rho st) (s_u st) (s_a st) in
  let recon m :=
    let CF := characteristic Lm m (fun p => c_F (line (i + p)%Z)) in
    let CS := characteristic Lm m (fun p => c_U (line (i + p)%Z)) in
    let lam := wave_speed (stencil_points sch) (speeds sch line i m) in
    combined sch (positive_flux lam CF CS) (negative_flux lam CF CS) in
  bind (collect (map recon (seq 0 (List.length Lm)))) (fun rs => Ok (mulvec Rm rs)).

(* opensblifunctions.py 576-597: (work[i] - work[i-1]) / delta *)
Definition wd_derivative (work : Z -> list R) (m : nat) (delta : R) (i : Z) : R :=
  (nth m (work i) 0 - nth m (work (i - 1)%Z) 0) / delta.
