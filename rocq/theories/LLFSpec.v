(* Specification for shock-capturing derivatives along a grid line. *)
From Coq Require Import Reals List ZArith.
From Verif Require Import FDSpec WenoSpec EulerSpec.
Import ListNotations.
Local Open Scope R_scope.

(* sum of u over the cells a, a+1, ..., a+n-1 *)
Fixpoint range_total (n : nat) (u : Z -> R) (a : Z) : R :=
  match n with O => 0 | S n => range_total n u a + u (a + Z.of_nat n)%Z end.
(* every component of the vectors V(j) is given by the values q_m(x + j h) of a polynomial
   of degree at most d *)
Definition polynomial_samples (d n : nat) (q : nat -> list R) (x h : R) (V : Z -> list R) : Prop :=
  forall j, List.length (V j) = n /\
    forall m, (m < n)%nat -> degree_at_most (q m) d /\ nth m (V j) 0 = peval (q m) (x + IZR j * h).
