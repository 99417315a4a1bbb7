(* Specification for the Euler equations of a perfect gas: conserved variables, the
   flux through a face with (unnormalised) normal k, eigenvectors of its Jacobian. *)
From Coq Require Import Reals List.
Import ListNotations.
Local Open Scope R_scope.

Definition sum (l : list R) : R := fold_right Rplus 0 l.
Fixpoint dot (a b : list R) : R := match a, b with x :: a, y :: b => x * y + dot a b | _, _ => 0 end.
Definition vadd (a b : list R) : list R := map (fun xy => fst xy + snd xy) (combine a b).
Definition vscale (c : R) (a : list R) : list R := map (Rmult c) a.

(* A conserved state is  density :: momenta ++ [total energy]. *)
Definition density (U : list R) : R := hd 0 U.
Definition momenta (U : list R) : list R := removelast (tl U).
Definition energy (U : list R) : R := last U 0.
Definition pressure (g : R) (U : list R) : R :=
  (g - 1) * (energy U - dot (momenta U) (momenta U) / (2 * density U)).
(* mass, momentum and energy flux through a face with normal k *)
Definition flux (g : R) (k U : list R) : list R :=
  let th := dot k (momenta U) / density U in
  density U * th :: map (fun mk => fst mk * th + snd mk * pressure g U) (combine (momenta U) k)
  ++ [(energy U + pressure g U) * th].
(* The conserved state with density rho, velocity u and sound speed a: the pressure is
   rho a^2 / g and the internal energy pressure / (g - 1). *)
Definition conserved (g rho : R) (u : list R) (a : R) : list R :=
  rho :: map (Rmult rho) u ++ [rho * a ^ 2 / g / (g - 1) + rho * dot u u / 2].

(* the derivative of f at U in the direction r is v *)
Definition directional_derivative (f : list R -> list R) (U r v : list R) : Prop :=
  List.length v = List.length U /\
  forall i, (i < List.length U)%nat ->
    derivable_pt_lim (fun t => nth i (f (vadd U (vscale t r))) 0) 0 (nth i v 0).
(* r is a right eigenvector of the Jacobian of f at U for the eigenvalue lam *)
Definition right_eigenvector (f : list R -> list R) (U r : list R) (lam : R) : Prop :=
  directional_derivative f U r (vscale lam r).

(* matrices are lists of rows *)
Definition column (j : nat) (M : list (list R)) : list R := map (fun row => nth j row 0) M.
Definition mulvec (M : list (list R)) (v : list R) : list R := map (fun row => dot row v) M.
Definition mulmat (A B : list (list R)) (n : nat) : list (list R) :=
  map (fun row => map (fun j => dot row (column j B)) (seq 0 n)) A.
Definition identity (n : nat) : list (list R) :=
  map (fun i => map (fun j => if Nat.eqb i j then 1 else 0) (seq 0 n)) (seq 0 n).
Definition inverse_of (n : nat) (A B : list (list R)) : Prop :=
  mulmat A B n = identity n /\ mulmat B A n = identity n.
(* R diag(lam) L v *)
Definition through_characteristics (Rm : list (list R)) (lam : list R) (Lm : list (list R)) (v : list R) : list R :=
  mulvec Rm (map (fun xy => fst xy * snd xy) (combine lam (mulvec Lm v))).
Definition vsub (a b : list R) : list R := map (fun xy => fst xy - snd xy) (combine a b).
