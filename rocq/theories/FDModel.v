(* Model of the central finite-difference scheme: scheme.py 32-44, 63-85 and the
   weights it takes from SymPy's finite_diff_weights. *)
From Coq Require Import QArith Reals Qreals List ZArith.
From Verif Require Import Base.
Import ListNotations.
Local Open Scope Q_scope.

(* Python's int(a/b) truncates towards zero (also of a quotient of floats). *)
Definition pyint_half (n : Z) : Z := Z.quot n 2.

(* range(a, b) *)
Definition zrange (a b : Z) : list Z := map (fun i => (a + Z.of_nat i)%Z) (seq 0 (Z.to_nat (b - a))).

(* scheme.py 39: CentralHalos *)
Definition central_halos (order : Z) : Z * Z := (pyint_half (- order), pyint_half order).
(* scheme.py 76: range(int(-order/2), int(order/2+1)) *)
Definition central_points (order : Z) : list Z :=
  zrange (pyint_half (- order)) (pyint_half (order + 2)).

(* SymPy finite_diff_weights(M, x_list, x0) (Fornberg's recurrence), the entries
   [m][-1] of the returned table.  A row holds a point x_nu and, for each m, the
   weight delta[m][n][nu] of the current n.  The recurrence gives 0 for m > n,
   so the bound min(n, M) of the inner loops is left out. *)
Record frow := { pt : Q; del : nat -> Q }.
Definition nQ (m : nat) : Q := inject_Z (Z.of_nat m).
Definition pred_del (d : nat -> Q) (m : nat) : Q := match m with O => 0 | S m => d m end.

Definition fstep (x0 : Q) (s : Q * list frow) (xn : Q) : Q * list frow :=
  let '(c1, rows) := s in
  let c2 := fold_right (fun r acc => (xn - pt r) * acc) 1 rows in
  let rows' := map (fun r => {| pt := pt r;
                                del := fun m => ((xn - x0) * del r m - nQ m * pred_del (del r) m) / (xn - pt r) |}) rows in
  match rev rows with
  | [] => (c1, [{| pt := xn; del := fun m => match m with O => 1 | _ => 0 end |}])
  | l :: _ =>
      (c2, rows' ++ [{| pt := xn;
                        del := fun m => c1 / c2 * (nQ m * pred_del (del l) m - (pt l - x0) * del l m) |}])
  end.
Definition fornberg (xs : list Q) (x0 : Q) : list frow := snd (fold_left (fstep x0) xs (1, [])).
Definition finite_diff_weights (m : nat) (xs : list Q) (x0 : Q) : list Q :=
  map (fun r => Qred (del r m)) (fornberg xs x0).

(* scheme.py 81-85: _generate_weights *)
Definition generate_weights (order : Z) (m : nat) : list Q :=
  finite_diff_weights m (map inject_Z (central_points order)) 0.

(* The difference formula built from them (opensblifunctions.py 498-521, without
   boundary modification), for values u along one direction: order of the scheme
   n, of the derivative m, spacing h, at grid point i.  The values of the array
   expression are taken as given here; the rewriting that shifts the expression
   is the subject of ShiftModel.v. *)
Definition grid_formula (n : Z) (m : nat) (h : R) (u : Z -> R) (i : Z) : R :=
  (fold_right (fun jw acc => Q2R (snd jw) * u (i + fst jw)%Z + acc)
              0 (combine (central_points n) (generate_weights n m)) * / h ^ m)%R.
(* The same, for a function of a real coordinate sampled on the grid x + j h. *)
Definition central_formula (n : Z) (m : nat) (f : R -> R) (x h : R) : R :=
  grid_formula n m h (fun j => f (x + IZR j * h)%R) 0.

(* parsing.py 75-111 (Skew) with every derivative discretised: the skew-symmetric
   form of d(a v)/dx along one direction. *)
Definition skew_form (k : nat) (h : R) (a v : Z -> R) (i : Z) : R :=
  let D := grid_formula (2 * Z.of_nat k) 1 h in
  (/ 2 * (D (fun i => a i * v i) i + v i * D a i + a i * D v i))%R.
