(* Model of the Runge-Kutta programs: rk_LS.py and rk_sbli.py.
   Coefficients, step sizes and field values are real numbers (no rounding). *)
From Coq Require Import Reals List.
From Verif Require Import Base.
Open Scope R_scope.

(* The values of all time-advanced arrays at all grid points: I is the set of
   pairs (array, point). *)
Definition state (I : Type) := I -> R.

(* ---- coefficients ---- *)
Inductive formulation := Standard | SSP.

(* rk_LS.py 72-102: (A, B) = (stage_coeffs, solution_coeffs) *)
Definition ssp_c : R := 924574 / 1000000.                                  (* 75 *)
Definition ssp_coeffs (c : R) : list R * list R :=
  let z1 := sqrt (36*c^4 + 36*c^3 - 135*c^2 + 84*c - 12) in
  let z2 := 2*c^2 + c - 2 in
  let z3 := 12*c^4 - 18*c^3 + 18*c^2 - 11*c + 2 in
  let z4 := 36*c^4 - 36*c^3 + 13*c^2 - 8*c + 4 in
  let z5 := 69*c^3 - 62*c^2 + 28*c - 8 in
  let z6 := 34*c^4 - 46*c^3 + 34*c^2 - 13*c + 2 in
  let B1 := 924574 / 1000000 in
  let B2 := (12*c*(c-1)*(3*z2-z1) - (3*z2-z1)^2)/(144*c*(3*c-2)*(c-1)^2) in
  let B3 := (-24*(3*c-2)*(c-1)^2)/((3*z2-z1)^2 - 12*c*(c-1)*(3*z2-z1)) in
  let A1 := 0 in
  let A2 := (-z1*(6*c^2 - 4*c + 1) + 3*z3)/((2*c+1)*z1 - 3*(c+2)*(2*c-1)^2) in
  let A3 := (-z1*z4 + 108*(2*c-1)*c^5 - 3*(2*c-1)*z5)
            /(24*z1*c*(c-1)^4 + 72*c*z6 + 72*c^6 * (2*c-13)) in
  ([A1; A2; A3], [B1; B2; B3]).

Definition dec13 (n : Z) : R := IZR n / IZR 10000000000000.    (* thirteen decimals *)

Definition ls_coefficients (order : nat) (f : formulation) : result (list R * list R) :=
  match order, f with
  | 3%nat, SSP => Ok (ssp_coeffs ssp_c)
  | 3%nat, Standard => Ok ([0; -5/9; -153/128], [1/3; 15/16; 8/15])        (* 91-94 *)
  | _, SSP => Err ValueError                                               (* 36-37 *)
  | 4%nat, Standard =>                                                     (* 96-99 *)
      Ok ([0; dec13 (-4178904745000); dec13 (-11921516946430); dec13 (-16977846924710); dec13 (-15141834442570)],
          [dec13 1496590219993; dec13 3792103129999; dec13 8229550293869; dec13 6994504559488; dec13 1530572479681])
  | _, _ => Err UnboundLocal                                               (* 44: n_stages *)
  end.

(* rk_sbli.py 20-22, 59-60: (rkold, rknew) *)
Definition sbli_coefficients (order : nat) : result (list R * list R) :=
  match order with
  | 3%nat => Ok ([1/4; 3/20; 3/5], [2/3; 5/12; 3/5])
  | _ => Err NotImplemented
  end.

Section programs.
  Variable I : Type.
  Variable dt : R.
  (* What the spatial kernels of a stage leave in the residual arrays, as a
     function of the time-advanced arrays. *)
  Variable residual : state I -> state I.

  (* rk_LS.py 155-166.  Memory: the solution u and the register tempRK.
     For each equation: tmp = rkA[stage]*tmp + dt*R; u = u + rkB[stage]*tmp. *)
  Definition ls_stage (m : state I * state I) (ab : R * R) : state I * state I :=
    let '(u, tmp) := m in
    let '(a, b) := ab in
    let r := residual u in
    let tmp' := fun i => a * tmp i + dt * r i in
    let u' := fun i => u i + b * tmp' i in
    (u', tmp').
  Definition ls_step (ab : list R * list R) (m : state I * state I) : state I * state I :=
    fold_left ls_stage (combine (fst ab) (snd ab)) m.

  (* rk_sbli.py 117-133.  Memory: u and the register RKold.  A stage is the stage
     update kernel u = old + dt*rknew*R followed by the solution update kernel
     old = old + dt*rkold*R; a step starts with old = u. *)
  Definition sbli_stage (m : state I * state I) (on : R * R) : state I * state I :=
    let '(u, old) := m in
    let '(o, n) := on in
    let r := residual u in
    let u' := fun i => old i + dt * n * r i in
    let old' := fun i => old i + dt * o * r i in
    (u', old').
  Definition sbli_step (on : list R * list R) (m : state I * state I) : state I * state I :=
    let '(u, _) := m in
    fold_left sbli_stage (combine (fst on) (snd on)) (u, u).
End programs.
