(* Specification: the solution arrays, the selective frequency damping equations and linear
   and periodic fields. *)
From Verif Require Import Base ShiftSpec.
From Coq Require Import ZArith Reals.

(* the conservative variables of an n-dimensional flow *)
Definition conservative (n : nat) : list string :=
  (["rho"; "rhou0"; "rhou1"]%string ++ (if n =? 3 then ["rhou2"]%string else []) ++ ["rhoE"]%string)%list.

(* the damping equations dv/dt = -chi (v - f), df/dt = omega (v - f) *)
Definition damped (chi omega : R) (v f : R -> R) : Prop :=
  forall t, derivable_pt_lim v t (- chi * (v t - f t))%R /\ derivable_pt_lim f t (omega * (v t - f t))%R.

(* applying a transformation k times *)
Definition times {A} (k : nat) (F : A -> A) (x : A) : A := Nat.iter k F x.

(* u(x) = a + sum_d b_d x_d *)
Definition linear_field (n : nat) (u : list Z -> R) : Prop :=
  exists a b, forall x, List.length x = n -> u x = (a + fold_right Rplus 0 (map (fun d => b d * IZR (nth d x 0%Z)) (seq 0 n)))%R.
(* the wave that changes sign between neighbouring points in every direction *)
Definition alternating (n : nat) (u : list Z -> R) : Prop :=
  forall d x, (d < n)%nat -> List.length x = n -> u (move d 1 x) = (- u x)%R.
(* periodic with np_d points in direction d, and the sum over one period *)
Definition periodic_field (np : list nat) (u : list Z -> R) : Prop :=
  forall d x, (d < List.length np)%nat -> List.length x = List.length np -> u (move d (Z.of_nat (nth d np 0%nat)) x) = u x.
Fixpoint grid_sum (np : list nat) (u : list Z -> R) : R :=
  match np with
  | [] => u []
  | m :: np => fold_right Rplus 0%R (map (fun i => grid_sum np (fun x => u (Z.of_nat i :: x))) (seq 0 m))
  end.
(* average over the n directions of the binomial means of order 2h:
   sum_i C(2h,i)/2^(2h) u(x + (i-h) e_d) *)
Definition binomial_mean (n h : nat) (u : list Z -> R) (x : list Z) : R :=
  (fold_right Rplus 0 (map (fun d =>
     fold_right Rplus 0 (map (fun i => C (2 * h) i / 2 ^ (2 * h) * u (move d (Z.of_nat i - Z.of_nat h) x)) (seq 0 (2 * h + 1))))
     (seq 0 n)) / INR n)%R.
