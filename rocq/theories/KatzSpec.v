(* Specification for the boundary-layer initial conditions (C83). *)
From Verif Require Import Base Expr KernelModel ShiftSpec BCModel BCSpec BCGasSpec InitSpec.
From Verif Require Import DiscModel InitModel KatzModel.
From Coq Require Import QArith ZArith Reals Qreals.
Local Close Scope Q_scope.
Open Scope R_scope.

(* J computes with real numbers: arithmetic, whole powers, comparisons (true is 1, false
   is 0) and Piecewise with two branches *)
Record initial_functions (J : interp R) : Prop := {
  i_reals : reals J;
  i_power : forall a p, iapp J HPow [a; Q2R (Z.of_nat p # 1)] = a ^ p;
  i_true : iapp J (HFun "true") [] = 1;
  i_lt : forall a b, iapp J (HFun "<") [a; b] = if Rlt_dec a b then 1 else 0;
  i_le : forall a b, iapp J (HFun "<=") [a; b] = if Rle_dec a b then 1 else 0;
  i_first : forall a b t, iapp J (HFun "Piecewise") [a; 1; b; t] = a;
  i_second : forall a b, iapp J (HFun "Piecewise") [a; 0; b; 1] = b }.

(* the polynomial with these coefficients, highest power first *)
Definition horner (cs : list Q) (y : R) : R := fold_left (fun v c => v * y + Q2R c) cs 0.
(* below the edge a polynomial, above it a constant *)
Definition below (y edge : R) (a b : R) : R := if Rlt_dec y edge then a else b.
Definition profile (f : fit) (y : R) : R := below y (Q2R (fit_edge f)) (horner (fit_coeffs f) y) (Q2R (fit_free f)).

(* total energy from momenta, density and temperature: internal and kinetic energy *)
Definition energy (J : interp R) (moms : list R) (rho T : R) : R :=
  rho * T / (const J "gama" * (const J "gama" - 1) * (const J "Minf" * const J "Minf")) + norm2 moms / (2 * rho).
(* the arrays that the initial condition sets *)
Definition conserved : list string := ["rho"; "rhou0"; "rhou1"; "rhou2"; "rhoE"]%string.
Definition momenta (n : nat) : list string := (if (n =? 3)%nat then ["rhou0"; "rhou1"; "rhou2"] else ["rhou0"; "rhou1"])%string.

Definition number_of_walls (k : katzer) : nat := List.length (filter (fun p => fst p) (kz_directions k)).
(* direction d, with the coordinate in array c, is the only one with a boundary layer *)
Definition only_wall (n : nat) (k : katzer) (d : nat) (c : string) : Prop :=
  nth_error (kz_directions k) d = Some (true, EDat c (repeat 0%Z n)) /\ ~ In c conserved /\
  forall i e, nth_error (kz_directions k) i = Some (true, e) -> i = d.
(* the equations for the coordinates set arrays and local variables from values at the
   same point, and do not involve the arrays of the initial condition *)
Definition coordinate_eqs (k : katzer) : kernel_eqs := match kz_coordinates k with Some cs => cs | None => [] end.
Definition independent (n : nat) (qs : kernel_eqs) : Prop :=
  local_uses n qs /\ forall q b, In q qs -> In b conserved -> ~ sets n q (Array b) /\ forall e, evaluates q e -> ~ uses e (Array b).

(* a halo type: a lower and an upper extent *)
Definition proper_halos (hs : list halo) : Prop := forall h, In h hs -> (fst h <= 0 <= snd h)%Z.
(* the points of the grid and of the halos of the schemes *)
Definition covered (sizes : list Z) (hs : list halo) (x : list Z) : Prop :=
  List.length x = List.length sizes /\
  forall d, (d < List.length sizes)%nat ->
    ((0 <= nth d x 0) \/ exists h, In h hs /\ fst h <= nth d x 0)%Z /\
    ((nth d x 0 < nth d sizes 0) \/ exists h, In h hs /\ nth d x 0 < nth d sizes 0 + snd h)%Z.

(* ---- two walls: y and z are the coordinates normal to them, Lz the width ---- *)
Definition fold_over (Lz z : R) : R := if Rle_dec z (Lz / 2) then z else Lz - z.
Definition facing (Lz z : R) : R := if Rle_dec z (Lz / 2) then 1 else -1.
(* velocity and temperature profiles from 0 at a wall to 1 outside of its boundary layer *)
Definition ramp (w : wall) (cs : list Q) (y : R) : R := below y (Q2R (w_edge w)) (horner cs y) 1.
Record flow := { f_rhou : R; f_T : R; f_rhov : R; f_rhow : R }.
Definition two_layers (w1 w2 : wall) (Tw Lz y z : R) : flow :=
  let s := fold_over Lz z in
  let U1 := ramp w1 (w_rhou w1) y in
  let U2 := ramp w2 (w_rhou w2) s in
  {| f_rhou := U1 * U2;
     f_T := Tw + ramp w1 (w_g w1) y * ramp w2 (w_g w2) s * (1 - Tw);
     f_rhov := U2 * below y (Q2R (w_edge w1)) (horner (w_normal w1) y) (Q2R (w_normal_free w1));
     f_rhow := facing Lz z * U1 * below s (Q2R (w_edge w2)) (horner (w_normal w2) s)
                 (Q2R (w_normal_free w2) * (1 - (s - Q2R (w_edge w2)) / (Lz / 2 - Q2R (w_edge w2)))) |}.
Definition same_lengths (w1 w2 : wall) : Prop :=
  forall cs, In cs [w_g w1; w_normal w1; w_rhou w2; w_g w2; w_normal w2] -> List.length cs = List.length (w_rhou w1).
(* the width of the domain: spacing times number of intervals in direction 2 of block b *)
Definition width (J : interp R) (b : nat) : R :=
  const J ("Delta2block" ++ dec b)%string * (const J ("block" ++ dec b ++ "np2")%string - 1).

(* ---- what a kernel computes: M0 holds the coordinates, M' the result ---- *)
(* the state that a kernel of either class leaves, for one wall *)
Definition one_wall_state (J : interp R) (truth : R -> bool) (sizes : list Z) (hs : list halo) (k : katzer) (c : string) (fu fv fT : fit)
    (kern : ikernel) (pts : list (list Z)) (M : memory) : Prop :=
  let M' := run_ikernel J truth (ik_eqs kern) pts M in
  let M0 := run_ikernel J truth (coordinate_eqs k) pts M in
  (forall x, covered sizes hs x ->
     let y := M0 c x in
     let T := profile fT y in
     M' "rho"%string x = 1 / T /\ M' "rhou0"%string x = profile fu y /\ M' "rhou1"%string x = profile fv y /\
     (List.length sizes = 3%nat -> M' "rhou2"%string x = 0) /\
     M' "rhoE"%string x = energy J [profile fu y; profile fv y] (1 / T) T /\
     forall b, ~ In b conserved -> M' b x = M0 b x) /\
  forall b x, ~ covered sizes hs x -> M' b x = M b x.
Definition two_wall_state (J : interp R) (truth : R -> bool) (sizes : list Z) (b : nat) (hs : list halo) (k : katzer) (c1 c2 : string) (w1 w2 : wall)
    (kern : ikernel) (pts : list (list Z)) (M : memory) : Prop :=
  let M' := run_ikernel J truth (ik_eqs kern) pts M in
  let M0 := run_ikernel J truth (coordinate_eqs k) pts M in
  (forall x, covered sizes hs x ->
     let f := two_layers w1 w2 (const J "Twall") (width J b) (M0 c1 x) (M0 c2 x) in
     M' "rho"%string x = 1 / f_T f /\ M' "rhou0"%string x = f_rhou f /\ M' "rhou1"%string x = f_rhov f /\ M' "rhou2"%string x = f_rhow f /\
     M' "rhoE"%string x = energy J [f_rhou f; f_rhov f; f_rhow f] (1 / f_T f) (f_T f) /\
     forall a, ~ In a conserved -> M' a x = M0 a x) /\
  forall a x, ~ covered sizes hs x -> M' a x = M a x.
(* in three dimensions, a wall in direction 1 and walls on both sides of direction 2 *)
Definition side_walls (k : katzer) (c1 c2 : string) : Prop :=
  exists e, kz_directions k = [(false, e); (true, EDat c1 [0; 0; 0]%Z); (true, EDat c2 [0; 0; 0]%Z)].
