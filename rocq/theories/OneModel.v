(* Model of the one-sided boundary schemes: Carpenter_scheme.py, reduced_access_scheme.py,
   reduced_order_scheme.py and the place where they replace the central formula
   (opensblifunctions.py 523-534, bc_core.py 46-61). *)
From Verif Require Import Base Expr FDModel ShiftModel BCModel.
From Verif Require ShiftSpec.
From Coq Require Import QArith ZArith Reals Qreals.
Local Close Scope Q_scope.
Local Open Scope R_scope.

(* ---- matrices of coefficients; Python's floating point numbers are read as reals ---- *)
Definition matrix := list (list R).
Definition entry (m : matrix) (i j : nat) : R := nth j (nth i m []) 0.

(* sympy Matrix.inv: the inverse, written with cofactors *)
Definition drop {A} (i : nat) (l : list A) : list A := firstn i l ++ skipn (S i) l.
Definition minor (m : matrix) (i j : nat) : matrix := map (drop j) (drop i m).
Definition altsign (k : nat) : R := if Nat.even k then 1 else -1.
Fixpoint det (fuel : nat) (m : matrix) : R :=
  match fuel with
  | O => 1
  | S fuel => fold_right Rplus 0 (map (fun j => altsign j * entry m 0 j * det fuel (minor m 0 j)) (seq 0 (List.length m)))
  end.
Definition minv (m : matrix) : matrix :=
  let n := List.length m in
  map (fun i => map (fun j => altsign (i + j)%nat * det (n - 1)%nat (minor m j i) / det n m) (seq 0 n)) (seq 0 n).
Definition mmul (a b : matrix) (cols : nat) : matrix :=
  map (fun row => map (fun j => fold_right Rplus 0 (map (fun k => nth k row 0 * entry b k j) (seq 0 (List.length row)))) (seq 0 cols)) a.

(* Carpenter_scheme.py 87-110 *)
Definition cR1 : R := - (2177 * sqrt 295369 - 1166427) / 25488.
Definition cR2 : R := (66195 * sqrt 53 * sqrt 5573 - 35909375) / 101952.
Definition al4_of (R1 R2 : R) : matrix :=
  [[- (216 * R2 + 2160 * R1 - 2125) / 12960; (81 * R2 + 675 * R1 + 415) / 540; - (72 * R2 + 720 * R1 + 445) / 1440; - (108 * R2 + 756 * R1 + 421) / 1296];
   [(81 * R2 + 675 * R1 + 415) / 540; - (4104 * R2 + 32400 * R1 + 11225) / 4320; (1836 * R2 + 14580 * R1 + 7295) / 2160; - (216 * R2 + 2160 * R1 + 655) / 4320];
   [- (72 * R2 + 720 * R1 + 445) / 1440; (1836 * R2 + 14580 * R1 + 7295) / 2160; - (4104 * R2 + 32400 * R1 + 12785) / 4320; (81 * R2 + 675 * R1 + 335) / 540];
   [- (108 * R2 + 756 * R1 + 421) / 1296; - (216 * R2 + 2160 * R1 + 655) / 4320; (81 * R2 + 675 * R1 + 335) / 540; - (216 * R2 + 2160 * R1 - 12085) / 12960]].
Definition ar4_of (R1 R2 : R) : matrix :=
  [[(-1) / 2; - (864 * R2 + 6480 * R1 + 305) / 4320; (216 * R2 + 1620 * R1 + 725) / 540; - (864 * R2 + 6480 * R1 + 3335) / 4320; 0; 0];
   [(864 * R2 + 6480 * R1 + 305) / 4320; 0; - (864 * R2 + 6480 * R1 + 2315) / 1440; (108 * R2 + 810 * R1 + 415) / 270; 0; 0];
   [- (216 * R2 + 1620 * R1 + 725) / 540; (864 * R2 + 6480 * R1 + 2315) / 1440; 0; - (864 * R2 + 6480 * R1 + 785) / 4320; (-1) / 12; 0];
   [(864 * R2 + 6480 * R1 + 3335) / 4320; - (108 * R2 + 810 * R1 + 415) / 270; (864 * R2 + 6480 * R1 + 785) / 4320; 0; 8 / 12; (-1) / 12]].
Definition al4 : matrix := al4_of cR1 cR2.
Definition ar4 : matrix := ar4_of cR1 cR2.
Definition bc4 : matrix := mmul (minv al4) ar4 6.
(* Carpenter_scheme.py 76-84, reduced_access_scheme.py 76-84; nsimplify of the quotients
   gives the rational numbers *)
Definition bc4_2 : matrix :=
  [[35 / 12; -104 / 12; 114 / 12; -56 / 12; 11 / 12]; [11 / 12; -20 / 12; 6 / 12; 4 / 12; -1 / 12]].
(* reduced_access_scheme.py 35-41 *)
Definition first_der : matrix :=
  [[-25 / 12; 48 / 12; -36 / 12; 16 / 12; -3 / 12]; [-3 / 12; -10 / 12; 18 / 12; -6 / 12; 1 / 12];
   [25 / 12; -48 / 12; 36 / 12; -16 / 12; 3 / 12]; [3 / 12; 10 / 12; -18 / 12; 6 / 12; -1 / 12]].

(* ---- formulas: weights and the offsets they apply to ---- *)
Inductive bscheme := Carpenter | ReducedAccess | ReducedOrder.
Definition stencil := list (R * Z).
(* Carpenter_scheme.py 16-37, reduced_access_scheme.py 15-33: the offset of entry
   (row, column) of the matrix of function points *)
Definition point (side : bool) (row col : nat) : Z :=
  if side then (Z.of_nat col - Z.of_nat row)%Z else (Z.of_nat row - Z.of_nat col)%Z.
(* Carpenter_scheme.py 39-56 *)
Definition carpenter_rows (order : nat) (side : bool) : result (list stencil) :=
  match order with
  | 1%nat => let h := if side then -1 else 1 in
         Ok (map (fun i => map (fun j => (h * entry bc4 i j, point side j i)) (seq 0 6)) (seq 0 4))
  | 2%nat => Ok (map (fun i => map (fun j => (1 * entry bc4_2 i j, point side j i)) (seq 0 5)) (seq 0 2))
  | _ => Err NotImplemented
  end.
(* reduced_access_scheme.py 43-59 *)
Definition access_rows (order : nat) (side : bool) : result (list stencil) :=
  match order with
  | 1%nat => Ok (map (fun i => map (fun j => (entry first_der (if side then (2 + i)%nat else i) j, point side j i)) (seq 0 5)) (seq 0 2))
  | 2%nat => Ok (map (fun i => map (fun j => (1 * entry bc4_2 i j, point side j i)) (seq 0 5)) (seq 0 2))
  | _ => Err NotImplemented
  end.
(* reduced_order_scheme.py 13-55 and 57-63; in both derivatives the weights are multiplied
   with fact (35, 53) *)
Definition order_rows (order : nat) (side : bool) : result (list stencil) :=
  let fact := if side then (-1)%Z else 1%Z in
  let rows ws := map (map (fun wp => (IZR fact * fst wp, (fact * snd wp)%Z))) ws in
  match order with
  | 1%nat => Ok (rows [[(- (3 / 2), 0%Z); (2, 1%Z); (- (1 / 2), 2%Z)]; [(- (1 / 3), (-1)%Z); (- (1 / 2), 0%Z); (1, 1%Z); (- (1 / 6), 2%Z)]])
  | 2%nat => Ok (rows [[(2, 0%Z); (-5, 1%Z); (4, 2%Z); (-1, 3%Z)];
                   [(11 / 12, (-1)%Z); (- (5 / 3), 0%Z); (1 / 2, 1%Z); (1 / 3, 2%Z); (- (1 / 12), 3%Z)]])
  | _ => Err NotImplemented
  end.
Definition rows (s : bscheme) : nat -> bool -> result (list stencil) :=
  match s with Carpenter => carpenter_rows | ReducedAccess => access_rows | ReducedOrder => order_rows end.
(* expr_cond_pairs of the three files: the formula and the index where it is used; n is the
   number of points in the direction *)
Definition expr_cond_pairs (s : bscheme) (order : nat) (side : bool) (n : Z) : result (list (stencil * Z)) :=
  bind (rows s order side) (fun rs =>
  Ok (map (fun c => (snd c, if side then (n - 1 + -1 * Z.of_nat (fst c))%Z else (0 + 1 * Z.of_nat (fst c))%Z)) (enum rs))).
(* Sum of the weights times values u at the offsets from i *)
Definition apply_stencil (s : stencil) (u : Z -> R) (i : Z) : R :=
  fold_right (fun p acc => fst p * u (i + snd p)%Z + acc) 0 s.
(* opensblifunctions.py 485-534 for one direction: lower and upper boundary conditions that
   modify the central derivative, if any; k: the central scheme has order 2k; the value at
   index i for values u along the direction.  Piecewise takes the first true condition. *)
Definition pairs_of (b : option bscheme) (order : nat) (side : bool) (n : Z) : result (list (stencil * Z)) :=
  match b with Some s => expr_cond_pairs s order side n | None => Ok [] end.
Definition boundary_derivative (k order : nat) (h : R) (mods : option bscheme * option bscheme) (n : Z)
           (u : Z -> R) (i : Z) : result R :=
  bind (pairs_of (fst mods) order false n) (fun l =>
  bind (pairs_of (snd mods) order true n) (fun r =>
  Ok (match find (fun c => Z.eqb i (snd c)) (l ++ r) with
      | Some (s, _) => apply_stencil s u i * / h ^ order
      | None => grid_formula (2 * Z.of_nat k) order h u i
      end))).

(* ---- the formulas as expressions: Carpenter_scheme.py 19-28, reduced_access_scheme.py
   16-25, reduced_order_scheme.py 24-35: all accesses of the expression are moved to loc + offset ---- *)
Definition formula_terms (ord : order_of) (d : nat) (e : expr) (s : stencil) : result (list (R * expr)) :=
  match ord e with
  | (_, loc) :: _ => Ok (map (fun p => (fst p, relocate ord (shift_ix d (snd p) loc) e)) s)
  | [] => Err IndexErr
  end.
Definition terms_value (J : interp R) (M : string -> list Z -> R) (x : list Z) (ts : list (R * expr)) : R :=
  fold_right (fun p acc => fst p * ShiftSpec.value J M x (snd p) + acc) 0 ts.
