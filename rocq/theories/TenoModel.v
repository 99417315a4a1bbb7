(* Model of the TENO reconstruction: teno.py 56-192 (configuration), 195-235 (alphas),
   347-385 (supported orders), 407-465 (weights, reconstruction, cut-off).
   Coefficients are exact rationals, cell values reals. *)
From Verif Require Import Base FDModel WenoModel.
From Coq Require Import QArith Reals Qreals List ZArith.
Import ListNotations.
Local Open Scope Q_scope.

(* teno.py 95-105: the first order-2 lists *)
Definition all_points (s : side) : list (list Z) :=
  match s with
  | SRight => [[-1; 0; 1]; [0; 1; 2]; [-2; -1; 0]; [0; 1; 2; 3]; [-3; -2; -1; 0]; [0; 1; 2; 3; 4]]
  | SLeft => [[0; 1; 2]; [-1; 0; 1]; [1; 2; 3]; [-2; -1; 0; 1]; [1; 2; 3; 4]; [-3; -2; -1; 0; 1]]
  end%Z.
Definition teno_points (s : side) (order : nat) : list (list Z) := firstn (order - 2) (all_points s).

(* teno.py 107-122 *)
Definition in_6_8 (order : nat) : bool := Nat.eqb order 6 || Nat.eqb order 8.
Definition teno_coeffs (s : side) (order : nat) : list (list Q) :=
  match s with
  | SRight => [[-1 # 6; 5 # 6; 2 # 6]; [2 # 6; 5 # 6; -1 # 6]; [2 # 6; -7 # 6; 11 # 6]]
      ++ (if in_6_8 order then [[3 # 12; 13 # 12; -5 # 12; 1 # 12]] else [])
  | SLeft => [[2 # 6; 5 # 6; -1 # 6]; [-1 # 6; 5 # 6; 2 # 6]; [11 # 6; -7 # 6; 1 # 3]]
      ++ (if in_6_8 order then [[1 # 12; -5 # 12; 13 # 12; 3 # 12]] else [])
  end.

(* teno.py 124-143 with optimized = False *)
Definition teno_opt (order : nat) : result (list Q) :=
  match order with
  | 5%nat => Ok [11 # 20; 4 # 10; 1 # 20]
  | 6%nat => Ok [231 # 500; 3 # 10; 27 # 500; 23 # 125]
  | _ => Err UnboundLocal
  end.

Local Open Scope R_scope.

(* teno.py 145-180.  The last term of the right-sided fourth indicator is not squared
   in the source (line 167). *)
Definition teno_indicators (s : side) (order : nat) (f : Z -> R) : list R :=
  match s with
  | SRight =>
      [1/4 * (f (-1)%Z - f 1%Z) ^ 2 + 13/12 * (f (-1)%Z - 2 * f 0%Z + f 1%Z) ^ 2;
       1/4 * (3 * f 0%Z - 4 * f 1%Z + f 2%Z) ^ 2 + 13/12 * (f 0%Z - 2 * f 1%Z + f 2%Z) ^ 2;
       1/4 * (f (-2)%Z - 4 * f (-1)%Z + 3 * f 0%Z) ^ 2 + 13/12 * (f (-2)%Z - 2 * f (-1)%Z + f 0%Z) ^ 2]
      ++ (if in_6_8 order then
            [1/36 * (-11 * f 0%Z + 18 * f 1%Z - 9 * f 2%Z + 2 * f 3%Z) ^ 2
             + 13/12 * (2 * f 0%Z - 5 * f 1%Z + 4 * f 2%Z - f 3%Z) ^ 2
             + 781/720 * (- f 0%Z + 3 * f 1%Z - 3 * f 2%Z + f 3%Z)] else [])
  | SLeft =>
      [1/4 * (f 0%Z - f 2%Z) ^ 2 + 13/12 * (f 0%Z - 2 * f 1%Z + f 2%Z) ^ 2;
       1/4 * (f (-1)%Z - 4 * f 0%Z + 3 * f 1%Z) ^ 2 + 13/12 * (f (-1)%Z - 2 * f 0%Z + f 1%Z) ^ 2;
       1/4 * (3 * f 1%Z - 4 * f 2%Z + f 3%Z) ^ 2 + 13/12 * (f 1%Z - 2 * f 2%Z + f 3%Z) ^ 2]
      ++ (if in_6_8 order then
            [1/36 * (-2 * f (-2)%Z + 9 * f (-1)%Z - 18 * f 0%Z + 11 * f 1%Z) ^ 2
             + 13/12 * (-1 * f (-2)%Z + 4 * f (-1)%Z - 5 * f 0%Z + 2 * f 1%Z) ^ 2
             + 781/720 * (-1 * f (-2)%Z + 3 * f (-1)%Z - 3 * f 0%Z + f 1%Z) ^ 2] else [])
  end.

(* teno.py 209 (order 5: first minus last), 230 (order 6) *)
Definition teno_tau (order : nat) (b : list R) : R :=
  if Nat.eqb order 5 then Rabs (nth 0 b 0 - last b 0)
  else Rabs (nth 3 b 0 - 1/6 * (nth 0 b 0 + nth 2 b 0 - 4 * nth 1 b 0)).
(* teno.py 207-213, 228-234: C = 1, q = 6 *)
Definition teno_alphas (order : nat) (eps : R) (b : list R) : list R :=
  let tau := teno_tau order b in map (fun br => (1 + tau / (eps + br)) ^ 6) b.
(* teno.py 445-465: cut-off *)
Definition teno_deltas (CT : R) (al : list R) : list R :=
  let inv := 1 / rsumR al in map (fun a => if Rlt_dec (a * inv) CT then 0 else 1) al.
(* teno.py 407-428 *)
Fixpoint zipmul (a b : list R) : list R :=
  match a, b with x :: a, y :: b => x * y :: zipmul a b | _, _ => [] end.
Definition teno_omegas (opt : list Q) (deltas : list R) : list R :=
  let inv := 1 / rsumR (zipmul (map Q2R opt) deltas) in
  map (fun x => x * inv) (zipmul (map Q2R opt) deltas).
Definition teno_candidate (pts : list Z) (cs : list Q) (f : Z -> R) : R :=
  rsumR (zipmul (map f pts) (map Q2R cs)).
Definition teno_candidates (s : side) (order : nat) (f : Z -> R) : list R :=
  map (fun pc => teno_candidate (fst pc) (snd pc) f) (combine (teno_points s order) (teno_coeffs s order)).

(* teno.py 351-357: only orders 5 and 6 are accepted *)
Definition teno_reconstruction (s : side) (order : nat) (eps CT : R) (f : Z -> R) : result R :=
  if Nat.eqb order 5 || Nat.eqb order 6 then
    bind (teno_opt order) (fun opt =>
      let al := teno_alphas order eps (teno_indicators s order f) in
      Ok (rsumR (zipmul (teno_omegas opt (teno_deltas CT al)) (teno_candidates s order f))))
  else Err NotImplemented.

(* teno.py 430-443: the adaptive cut-off for the sensor value m *)
Definition adaptive_CT (a1 a2 m : R) : R :=
  let beta := a1 - a2 * (1 - (1 - m) ^ 4 * (1 + 4 * m)) in
  1 / powerRZ 10 (Int_part beta).
