(* Specification for the similarity solution behind the boundary-layer profiles (C84). *)
From Verif Require Import Base SimModel.
From Coq Require Import QArith ZArith Reals Qreals.
Local Close Scope Q_scope.
Open Scope R_scope.

(* Sutherland's law: viscosity relative to that of the free stream at temperature g *)
Definition viscosity (S g : R) : R := g * sqrt g * (1 + S) / (g + S).
(* density times viscosity; the density is 1/g *)
Definition c_of (S g : R) : R := viscosity S g / g.

(* the starting values at a wall: stream function and velocity are zero *)
Definition wall_values (shear temperature slope : R) : nat -> R :=
  fun i => match i with 2%nat => shear | 3%nat => temperature | 4%nat => slope | _ => 0 end.
(* the solver starts its solution from the values it is given *)
Definition starts (ode : (nat -> R) -> nat -> nat -> R) : Prop := forall v i, (i < 5)%nat -> ode v i 0%nat = v i.
(* velocity and temperature miss the free-stream values at the last point *)
Definition misses (n : nat) (s : nat -> nat -> R) : R * R := (s 1%nat n - 1, s 3%nat n - 1).

(* integral by the trapezoidal rule of a function given at points with spacing h *)
Fixpoint trapezoid (h : R) (f : nat -> R) (n : nat) : R :=
  match n with O => 0 | S m => trapezoid h f m + h * (f (S m) + f m) / 2 end.
Definition polynomial_of (cs : list R) (x : R) : R := fold_right (fun c v => c + x * v) 0 cs.
Definition misfit (cs : list R) (xs vs : list R) : R := fold_right Rplus 0 (map (fun p => (polynomial_of cs (fst p) - snd p) ^ 2) (combine xs vs)).
(* coefficients, lowest power first, with the least sum of squares for these data *)
Definition least_squares (coeffs : list Q) (xs vs : list R) (n : Z) : Prop :=
  List.length coeffs = Z.to_nat (n + 1) /\
  forall cs, List.length cs = Z.to_nat (n + 1) -> misfit (map Q2R coeffs) xs vs <= misfit cs xs vs.
