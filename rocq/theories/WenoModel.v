(* Model of the WENO reconstruction: weno.py 36-205 (coefficients, optimal weights,
   points, smoothness indicators), 283-377 (WENO-Z and WENO-JS weights), 454-466
   (reconstruction).  Coefficients are exact rationals as in SymPy; cell values are
   reals. *)
From Verif Require Import Base FDModel FDSpec FDProofs.
From Coq Require Import QArith Reals Qreals List ZArith.
Import ListNotations.
Local Open Scope Q_scope.

Inductive side := SRight | SLeft.      (* side = 1, side = -1 *)
Inductive formulation := JS | WZ.

(* sum and product of a list of integers *)
Definition zsumZ (l : list Z) : Z := fold_right Z.add 0%Z l.
Definition zprodZ (l : list Z) : Z := fold_right Z.mul 1%Z l.
Definition qsumQ (l : list Q) : Q := fold_right Qplus 0 l.
(* [x for x in l if x != m] *)
Definition without (m : Z) (l : list Z) : list Z := filter (fun x => negb (Z.eqb x m)) l.

(* weno.py 70-98: the entry (r, j) of generate_eno_coefficients(k) *)
Definition offset_d (s : side) : Z := match s with SRight => 1 | SLeft => 0 end.
Definition eno_term (s : side) (k r : nat) (m : Z) : Q :=
  let nodes := zrange 0 (Z.of_nat k + 1) in
  let top := zsumZ (map (fun l => zprodZ (map (fun q => Z.of_nat r - q + offset_d s)%Z
                                              (without l (without m nodes)))) (without m nodes)) in
  let bottom := zprodZ (map (fun l => m - l)%Z (without m nodes)) in
  inject_Z top / inject_Z bottom.
Definition eno_coefficient (s : side) (k r j : nat) : Q :=
  qsumQ (map (eno_term s k r) (zrange (Z.of_nat j + 1) (Z.of_nat k + 1))).

(* weno.py 122-135: the flat list of function points *)
Definition point_shift (s : side) : Z := match s with SRight => 0 | SLeft => 1 end.
Definition func_points (s : side) (k : nat) : list Z :=
  flat_map (fun r => map (fun j => - Z.of_nat r + Z.of_nat j + point_shift s)%Z (seq 0 k)) (seq 0 k).

(* weno.py 100-120.  Equation i (i = 0, ..., k-1) is
     sum_{j<=i} d_{k-1-i+j} c_(k-1-i+j, j) = c2_(k-1, i).
   SymPy's solve returns the solution; the system is triangular, so it is modelled by
   solving equation i for d_{k-1-i}.  [solve_weights s k i] is [d_{k-i}; ...; d_{k-1}]. *)
Fixpoint solve_weights (s : side) (k i : nat) : list Q :=
  match i with
  | O => []
  | S i => let ds := solve_weights s k i in
      let known := qsumQ (map (fun j => nth (j - 1) ds 0 * eno_coefficient s k (k - 1 - i + j) j) (seq 1 i)) in
      ((eno_coefficient s (2 * k - 1) (k - 1) i - known) / eno_coefficient s k (k - 1 - i) 0) :: ds
  end.
Definition opt_weights (s : side) (k : nat) : list Q := solve_weights s k k.

Local Open Scope R_scope.
Definition rsumR (l : list R) : R := fold_right Rplus 0 l.

(* SymPy interpolating_poly(n, z, X, Y): Lagrange form; polynomials are coefficient lists *)
Definition monoR (c : R) (p : list R) : list R := paddR (pscaleR (- c) p) (0 :: p).
Definition prodR (qs : list Z) : list R := fold_right (fun q p => monoR (IZR q) p) [1] qs.
Definition interpolating_poly (xs : list Z) (y : Z -> R) : list R :=
  fold_right (fun m acc => paddR (pscaleR (y m / IZR (zprodZ (map (fun l => m - l)%Z (without m xs)))) (prodR (without m xs))) acc)
             [] xs.

Fixpoint pmulR (p q : list R) : list R :=
  match p with [] => [] | a :: p => paddR (pscaleR a q) (0 :: pmulR p q) end.
(* definite integral from 0 to 1 *)
Fixpoint primitive_from (i : nat) (p : list R) : list R :=
  match p with [] => [] | a :: p => a / INR (S i) :: primitive_from (S i) p end.
Definition pprimitive (p : list R) : list R := 0 :: primitive_from 0 p.
Definition integral01 (p : list R) : R := peval (pprimitive p) 1 - peval (pprimitive p) 0.

(* weno.py 138-205: the smoothness indicator of candidate r for the cell values
   f(-r), ..., f(k-1-r): interpolation of the running sums at the nodes -r, ..., k-r,
   derivative, and sum over l = 1, ..., k-1 of the integral over the cell [0, 1] of the
   square of its l-th derivative.  Simplified: the grid spacing dz is 1 (it cancels);
   the coefficients are not extracted and multiplied out again (169-181, 200-203). *)
Definition running_sum (r : nat) (f : Z -> R) (x : Z) : R :=
  rsumR (map f (zrange (- Z.of_nat r) x)).
Definition smoothness (k r : nat) (f : Z -> R) : R :=
  let nodes := zrange (- Z.of_nat r) (Z.of_nat k + 1 - Z.of_nat r) in
  let p := pderiv (interpolating_poly nodes (running_sum r f)) in
  rsumR (map (fun l => let q := pderivs l p in integral01 (pmulR q q)) (seq 1 (k - 1))).
(* weno.py 184-205: the shift of the left reconstruction *)
Definition smoothness_indicator (s : side) (k r : nat) (f : Z -> R) : R :=
  smoothness k r (fun i => f (i + point_shift s)%Z).

(* weno.py 289-312 *)
Definition global_smoothness (k : nat) (b : nat -> R) : result R :=
  match k with
  | 2%nat => Ok (Rabs (b 0%nat - b 1%nat))
  | 3%nat => Ok (Rabs (b 0%nat - b 2%nat))
  | 4%nat => Ok (Rabs (b 0%nat + 3 * b 1%nat - 3 * b 2%nat - b 3%nat))
  | 5%nat => Ok (Rabs (b 0%nat + 2 * b 1%nat - 6 * b 2%nat + 2 * b 3%nat + b 4%nat))
  | 6%nat => Ok (Rabs (b 0%nat + b 1%nat - 8 * b 2%nat + 8 * b 3%nat - b 4%nat - b 5%nat))
  | 7%nat => Ok (Rabs (b 0%nat + 36 * b 1%nat + 135 * b 2%nat - 135 * b 4%nat - 36 * b 5%nat - b 6%nat))
  | _ => Err ValueError
  end.

(* weno.py 314-325, 346-354 *)
Definition alphas (fm : formulation) (s : side) (k : nat) (eps : R) (b : nat -> R) : result (list R) :=
  match fm with
  | JS => Ok (map (fun r => Q2R (nth r (opt_weights s k) 0%Q) / (eps + b r) ^ 2) (seq 0 k))
  | WZ => bind (global_smoothness k b) (fun tau =>
            Ok (map (fun r => Q2R (nth r (opt_weights s k) 0%Q) * (1 + (tau / (eps + b r)) ^ 2)) (seq 0 k)))
  end.
(* weno.py 327-339, 356-368 *)
Definition omegas (al : list R) : list R := let inv := 1 / rsumR al in map (fun a => a * inv) al.

(* weno.py 454-466 *)
Definition candidate (s : side) (k r : nat) (f : Z -> R) : R :=
  rsumR (map (fun j => Q2R (eno_coefficient s k r j) * f (nth (r * k + j) (func_points s k) 0%Z)) (seq 0 k)).
(* For k = 1 the total of weno.py 159 stays the Python integer 0, which has no coeff. *)
Definition reconstruction (fm : formulation) (s : side) (k : nat) (eps : R) (f : Z -> R) : result R :=
  if Nat.eqb k 1 then Err AttributeErr else
  bind (alphas fm s k eps (fun r => smoothness_indicator s k r f)) (fun al =>
    Ok (rsumR (map (fun r => nth r (omegas al) 0 * candidate s k r f) (seq 0 k)))).
