(* Specification: the functions that occur in the boundary conditions. *)
From Verif Require Import Base Expr KernelModel ShiftSpec BCModel BCSpec BCGasSpec OneModel.
From Coq Require Import QArith ZArith Reals Qreals.
Local Close Scope Q_scope.
Open Scope R_scope.

(* J computes with real numbers: arithmetic, powers of positive numbers, absolute value,
   comparison (true is 1, false is 0), Piecewise with two branches, sine and cosine, the
   angle of a vector, and the first row of the Carpenter coefficients *)
Record functions (J : interp R) : Prop := {
  f_reals : reals J;
  f_power : forall a b, 0 < a -> iapp J HPow [a; b] = Rpower a b;
  f_abs : forall a, iapp J (HFun "Abs") [a] = Rabs a;
  f_true : iapp J (HFun "true") [] = 1;
  f_ge : forall a b, iapp J (HFun ">=") [a; b] = if Rle_dec b a then 1 else 0;
  f_first : forall a b t, iapp J (HFun "Piecewise") [a; 1; b; t] = a;
  f_second : forall a b, iapp J (HFun "Piecewise") [a; 0; b; 1] = b;
  f_cos : forall a, iapp J (HFun "cos") [a] = cos a;
  f_sin : forall a, iapp J (HFun "sin") [a] = sin a;
  f_angle : forall y x, x * x + y * y <> 0 -> let t := iapp J (HFun "atan2") [y; x] in
    - PI < t <= PI /\ x = sqrt (x * x + y * y) * cos t /\ y = sqrt (x * x + y * y) * sin t;
  f_carp : forall j, (j < 6)%nat -> iapp J (HFun "carp_coefficients_0") [INR j] = entry bc4 0 j }.

(* the velocity of a state *)
Definition velocity_at (M : string -> list Z -> R) (rho m : string) (x : list Z) : R := M m x / M rho x.
(* the speed of sound: a^2 = g p / rho *)
Definition sound_at (J : interp R) (M : string -> list Z -> R) (rho : string) (moms : list string) (E : string) (x : list Z) : R :=
  sqrt (const J "gama" * p_at J M rho moms E x / M rho x).

(* ---- a curved wall in two dimensions; t is the direction along the wall ---- *)
(* central difference of a coordinate along the wall *)
Definition span (M : string -> list Z -> R) (c : string) (t : nat) (x : list Z) : R := M c (move t 1 x) - M c (move t (-1) x).
Definition span_norm (M : string -> list Z -> R) (cx cy : string) (t : nat) (x : list Z) : R :=
  sqrt (span M cx t x * span M cx t x + span M cy t x * span M cy t x).
(* velocity at z along the tangent of the wall at x *)
Definition along_wall (M : string -> list Z -> R) (rho m0 m1 cx cy : string) (t : nat) (x z : list Z) : R :=
  (velocity_at M rho m0 z * span M cx t x + velocity_at M rho m1 z * span M cy t x) / span_norm M cx cy t x.
(* distance of two points *)
Definition distance (M : string -> list Z -> R) (cx cy : string) (y z : list Z) : R :=
  sqrt ((M cy y - M cy z) * (M cy y - M cy z) + (M cx y - M cx z) * (M cx y - M cx z)).

(* the points of a grid and its halos *)
Definition with_halos (np : list Z) (bh : halo_ranges) (x : list Z) : Prop :=
  List.length x = List.length np /\ forall i, (i < List.length np)%nat -> (lower_halo bh i <= nth i x 0 < nth i np 0 + upper_halo bh i)%Z.
