(* Specification for finite differences: polynomials with real coefficients,
   periodic grid functions. *)
From Coq Require Import Reals List ZArith.
Import ListNotations.
Local Open Scope R_scope.

(* a0 + a1 x + a2 x^2 + ... *)
Fixpoint peval (p : list R) (x : R) : R := match p with [] => 0 | a :: p => a + x * peval p x end.
Definition degree_at_most (p : list R) (n : nat) : Prop := (List.length p <= n + 1)%nat.

(* f has m-th derivative g (everywhere) *)
Inductive nth_derivative : nat -> (R -> R) -> (R -> R) -> Prop :=
| nd_0 : forall f, nth_derivative 0 f f
| nd_S : forall m f f' g, (forall x, derivable_pt_lim f x (f' x)) -> nth_derivative m f' g ->
    nth_derivative (S m) f g.

(* Grid functions on a periodic grid with n points *)
Definition periodic (n : nat) (u : Z -> R) : Prop := forall i, u (i + Z.of_nat n)%Z = u i.
(* sum over i = 0, ..., n-1 *)
Definition total (n : nat) (u : Z -> R) : R :=
  fold_right Rplus 0 (map (fun i => u (Z.of_nat i)) (seq 0 n)).
