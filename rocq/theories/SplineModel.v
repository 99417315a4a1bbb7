(* Model of the cubic spline routines, numerical_functions.py.  Simplifications: arrays are
   functions from indices, floats are real numbers, and y is an array of floats (zeros_like
   of an integer array would truncate).  n >= 2 is assumed, as smaller n use index -1. *)
From Verif Require Import Base.
From Coq Require Import Reals.
Open Scope R_scope.

Definition store (a : nat -> R) (i : nat) (v : R) : nat -> R := fun j => if (j =? i)%nat then v else a j.
Definition above (a b : R) : bool := if Rlt_dec b a then true else false.
(* 0.99e30 *)
Definition huge : R := 99 * 10 ^ 28.

Section spline.
  Variables (x y : nat -> R).
  (* 20-25: the arrays d2y and u *)
  Definition spline_start (y_start : R) : (nat -> R) * (nat -> R) :=
    let zeros := fun _ : nat => 0 in
    if above y_start huge then (store zeros 0 0, store zeros 0 0)
    else (store zeros 0 (-(1/2)), store zeros 0 (3 / (x 1%nat - x 0%nat) * ((y 1%nat - y 0%nat) / (x 1%nat - x 0%nat) - y_start))).
  (* 26-31 *)
  Definition spline_forward (s : (nat -> R) * (nat -> R)) (i : nat) : (nat -> R) * (nat -> R) :=
    let '(d2y, u) := s in
    let sig := (x i - x (i - 1)%nat) / (x (i + 1)%nat - x (i - 1)%nat) in
    let p := sig * d2y (i - 1)%nat + 2 in
    let d2y := store d2y i ((sig - 1) / p) in
    let u := store u i ((y (i + 1)%nat - y i) / (x (i + 1)%nat - x i) - (y i - y (i - 1)%nat) / (x i - x (i - 1)%nat)) in
    let u := store u i ((6 * u i / (x (i + 1)%nat - x (i - 1)%nat) - sig * u (i - 1)%nat) / p) in
    (d2y, u).
  (* 32-37: qn and un *)
  Definition spline_last (n : nat) (y_end : R) : R * R :=
    if above y_end huge then (0, 0)
    else (1/2, 3 / (x (n - 1)%nat - x (n - 2)%nat) * (y_end - (y (n - 1)%nat - y (n - 2)%nat) / (x (n - 1)%nat - x (n - 2)%nat))).
  (* 38-40 *)
  Definition spline_back (u : nat -> R) (d2y : nat -> R) (k : nat) : nat -> R := store d2y k (d2y k * d2y (k + 1)%nat + u k).
  Definition spline (n : nat) (y_start y_end : R) : nat -> R :=
    let '(d2y, u) := fold_left spline_forward (seq 1 (n - 2)) (spline_start y_start) in
    let '(qn, un) := spline_last n y_end in
    let d2y := store d2y (n - 1) ((un - qn * u (n - 2)%nat) / (qn * d2y (n - 2)%nat + 1)) in
    fold_left (spline_back u) (rev (seq 0 (n - 1))) d2y.
End spline.

(* 55-61: the bisection loop; every pass shortens khi - klo, so n passes suffice *)
Fixpoint bisect (xa : nat -> R) (x : R) (fuel klo khi : nat) : nat * nat :=
  match fuel with
  | O => (klo, khi)
  | S fuel =>
      if (1 <? khi - klo)%nat then
        let k := Nat.div (khi + klo) 2 in
        if above (xa k) x then bisect xa x fuel klo k else bisect xa x fuel k khi
      else (klo, khi)
  end.
(* 54-68 *)
Definition splint (xa ya y2a : nat -> R) (n : nat) (x : R) : result R :=
  let '(klo, khi) := bisect xa x n 0 (n - 1) in
  let h := xa khi - xa klo in
  if Req_EM_T h 0 then Err ValueError
  else
    let a := (xa khi - x) / h in
    let b := (x - xa klo) / h in
    Ok (a * ya klo + b * ya khi + ((a ^ 3 - a) * y2a klo + (b ^ 3 - b) * y2a khi) * h ^ 2 / 6).
