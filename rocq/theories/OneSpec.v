(* Specification for derivatives next to a boundary *)
From Coq Require Import Reals ZArith.
Local Open Scope R_scope.

(* ip is an inner product of grid functions on the points 0 .. n-1 *)
Definition inner_product (n : Z) (ip : (Z -> R) -> (Z -> R) -> R) : Prop :=
  (forall a u v w, ip (fun i => a * u i + v i) w = a * ip u w + ip v w) /\
  (forall u v, ip u v = ip v u) /\
  (forall u v w, (forall i, (0 <= i < n)%Z -> u i = v i) -> ip u w = ip v w) /\
  (forall u, 0 <= ip u u) /\
  (forall u, ip u u = 0 -> forall i, (0 <= i < n)%Z -> u i = 0).

(* Samples of f on a grid with spacing h *)
Definition samples (f : R -> R) (x0 h : R) (i : Z) : R := f (x0 + IZR i * h).
