(* Model of the numbers behind the boundary-layer initial conditions, utilities/katzer_init.py:
   class Boundary_layer_profile (similarity solution by shooting) and the methods of
   Initialise_Katzer that turn it into polynomials.  Simplifications: floats are real
   numbers, except that a division by zero (NaN or infinity with NumPy) gives None; arrays
   are functions from indices; scipy's odeint and NumPy's polyfit are arbitrary functions. *)
From Verif Require Import Base SplineModel KatzModel.
From Coq Require Import QArith ZArith Reals.
Local Close Scope Q_scope.
Open Scope R_scope.

Definition vec := nat -> R.
Definition soln := nat -> nat -> R.   (* component, index of the point *)
Definition fdiv (a b : R) : option R := if Req_EM_T b 0 then None else Some (a / b).
Definition obind {A B} (a : option A) (f : A -> option B) : option B := match a with Some x => f x | None => None end.
Definition less (a b : R) : bool := if Rlt_dec a b then true else false.

(* 62-69: the constants of the problem *)
Record gas := { g_pr : R; g_gama : R; g_mach : R; g_suth : R }.
(* 36-50: compbl *)
Definition compbl (p : gas) (v : vec) : vec :=
  let suth := g_suth p in
  let c := sqrt (v 3%nat) * (1 + suth) / (v 3%nat + suth) in
  let dcdg := 1 / (2 * sqrt (v 3%nat)) - sqrt (v 3%nat) / (v 3%nat + suth) in
  let dcdg := dcdg * ((1 + suth) / (v 3%nat + suth)) in
  let cp := dcdg * v 4%nat in
  fun i => match i with
    | 0%nat => v 1%nat
    | 1%nat => v 2%nat
    | 2%nat => - v 2%nat * (cp + v 0%nat) / c
    | 3%nat => v 4%nat
    | _ => - v 4%nat * (cp + g_pr p * v 0%nat) / c - g_pr p * (g_gama p - 1) * (g_mach p) ^ 2 * (v 2%nat) ^ 2
    end.

(* 63-142: generate_boundary_layer_profile *)
Definition n_iter : nat := 5.
Definition jmax : nat := 1001.
Definition etamax : R := 10.
Definition errtol : R := / 10 ^ 10.
Record shooting := { s_v0 : R; s_v1 : R; s_dv0 : R; s_dv1 : R; s_soln : soln }.
Section shoot.
  Variables (ode : vec -> soln) (nstep : nat) (Tw : R).
  (* 73-76, 95-99: the array vstart; a is v[0] or v[0] + dv[0], b belongs to v[1] *)
  Definition vstart (a b : R) : vec := fun i => match i with
    | 2%nat => a
    | 3%nat => if less Tw 0 then b else if less 0 Tw then Tw else 0
    | 4%nat => if less Tw 0 then 0 else b
    | _ => 0
    end.
  (* 75-89: first guess and increments *)
  Definition first_guess (gama xmach : R) (v1_power : R) : shooting :=
    let v1 := if less 0 Tw then 0 else if less Tw 0 then 1 + 1/2 * (84 / 100) * (gama - 1) * xmach ^ 2 else 45 / 10 in
    (* v1_power is v[1]**0.21 *)
    let v0 := if less 0 Tw then 0 else if less Tw 0 then 47 / 100 * v1_power else 494891 / 1000000 in
    {| s_v0 := v0; s_v1 := v1; s_dv0 := v0 * (1 / 100); s_dv1 := if less Tw 0 then v1 * (1 / 100) else 1 / 10;
       s_soln := fun _ _ => 0 |}.
  Definition residual (s : soln) : R * R := (s 1%nat nstep - 1, s 3%nat nstep - 1).
  (* 102-104 *)
  Definition error_of (s : soln) : R := Rabs (s 1%nat nstep - 1) + Rabs (s 3%nat nstep - 1).
  (* 95-135: one pass of the main loop; inl when it breaks *)
  Definition iteration (s : shooting) : option (shooting + shooting) :=
    let base := ode (vstart (s_v0 s) (if less Tw 0 then s_v1 s else 1141575 / 1000000)) in
    if less (error_of base) errtol then Some (inl {| s_v0 := s_v0 s; s_v1 := s_v1 s; s_dv0 := s_dv0 s; s_dv1 := s_dv1 s; s_soln := base |})
    else
      let f := residual base in
      let f1 := residual (ode (vstart (s_v0 s + s_dv0 s) (s_v1 s))) in
      let soln2 := ode (vstart (s_v0 s) (s_v1 s + s_dv1 s)) in
      let f2 := residual soln2 in
      obind (fdiv (fst f1 - fst f) (s_dv0 s)) (fun al11 =>
      obind (fdiv (snd f1 - snd f) (s_dv0 s)) (fun al21 =>
      obind (fdiv (fst f2 - fst f) (s_dv1 s)) (fun al12 =>
      obind (fdiv (snd f2 - snd f) (s_dv1 s)) (fun al22 =>
      let det := al11 * al22 - al21 * al12 in
      obind (fdiv (- al22 * fst f + al12 * snd f) det) (fun dv0 =>
      obind (fdiv (al21 * fst f - al11 * snd f) det) (fun dv1 =>
      Some (inr {| s_v0 := s_v0 s + dv0; s_v1 := s_v1 s + dv1; s_dv0 := dv0; s_dv1 := dv1; s_soln := soln2 |}))))))).
  Fixpoint iterate (k : nat) (s : shooting) : option shooting :=
    match k with
    | O => Some s
    | S k => obind (iteration s) (fun r => match r with inl s => Some s | inr s => iterate k s end)
    end.
End shoot.
(* 145-183: integrate_boundary_layer; d_eta is half the spacing of the points *)
Section integrate.
  Variables (d_eta : R) (s : soln).
  Fixpoint z_of (i : nat) : R :=
    match i with O => 0 | S j => z_of j + d_eta * (s 3%nat (S j) + s 3%nat j) end.
  Fixpoint sumd (i : nat) : R :=
    match i with O => 0 | S j => sumd j + d_eta * ((s 3%nat (S j) - s 1%nat (S j)) + (s 3%nat j - s 1%nat j)) end.
End integrate.
Definition half_spacing : R := etamax / INR (jmax - 1) * (1 / 2).
(* 179-182: dudy and dTdy *)
Definition e15 : R := / 10 ^ 15.
Definition wall_slope (y u : vec) : option R :=
  fdiv (- (1833333333333340 * e15) * u 0%nat + 3000000000000020 * e15 * u 1%nat - 1500000000000030 * e15 * u 2%nat
        + 333333333333356 * e15 * u 3%nat - 834657956545823 * / 10 ^ 29 * u 4%nat + 106910315192207 * / 10 ^ 29 * u 5%nat) (y 1%nat).
(* y, u, T, the scale factor, the wall temperature and du/dy at the wall *)
Record profile_data := { d_y : vec; d_u : vec; d_T : vec; d_scale : R; d_twall : R; d_dudy : R }.
Definition boundary_layer (ode : vec -> soln) (Tw gama xmach v1_power : R) : option profile_data :=
  obind (iterate ode (jmax - 1) Tw n_iter (first_guess Tw gama xmach v1_power)) (fun s =>
    let scale := sumd half_spacing (s_soln s) (jmax - 1) in
    obind (fdiv 1 scale) (fun _ =>
    let y := fun i => z_of half_spacing (s_soln s) i / scale in
    obind (wall_slope y (s_soln s 1%nat)) (fun dudy =>
    Some {| d_y := y; d_u := s_soln s 1%nat; d_T := s_soln s 3%nat; d_scale := scale; d_twall := s_v1 s; d_dudy := dudy |}))).

(* ---- Initialise_Katzer ---- *)
(* 313-315 *)
Definition n_elem : nat := 100 * 100.
Definition uniform_coordinate (i : nat) : R := 20 * INR i / INR (n_elem - 1).
(* 317-325 *)
Definition temperature_scaling (T : vec) (Tw Tinf : R) : vec := fun i => (T i - Tw) / (Tinf - Tw).
(* 530-541 *)
Definition interpolate_onto_grid (y_in : vec) (n : nat) (y_out var_in : vec) (y0 yn : R) : nat -> result R :=
  let d2y := spline y_in var_in n y0 yn in
  fun i => splint y_in var_in d2y n (y_out i).
(* 543-552: find_edge_of_bl for an array of n values; reading beyond its end is an IndexError *)
Fixpoint find_edge (variable : vec) (n : nat) (tolerance : R) (fuel index : nat) : result nat :=
  match fuel with
  | O => Err IndexErr
  | S fuel =>
      if (index <? n)%nat then
        if less tolerance (Rabs (variable index - variable (index - 1)%nat)) then find_edge variable n tolerance fuel (S index) else Ok index
      else Err IndexErr
  end.
Definition find_edge_of_bl (variable : vec) (n : nat) (tolerance : R) : result nat := find_edge variable n tolerance n 1.
(* 455-478: fit_polynomial; polyfit returns the lowest power first *)
Definition fit_polynomial (polyfit : list R -> list R -> Z -> list Q) (coords variable : vec) (bl_edge : nat) (n_coeffs : Z) : list Q :=
  rev (polyfit (map coords (seq 0 bl_edge)) (map variable (seq 0 bl_edge)) n_coeffs).
(* 480-514: solve_continuity; index -1 is the last element, which is still zero in drudx
   and rhov when j = 0 *)
Definition delta : R := 1 / 1000.
Section continuity.
  Variables (n : nat) (y u rho : vec) (scale re dudy : R).
  Definition rex0 : R := 1/2 * (re / scale) ^ 2.
  Definition x0 : R := 1/2 * re / scale ^ 2.
  Definition delsx : R := sqrt 2 * scale * x0 / sqrt rex0.
  (* the array ya2 when the loop has reached index j: multiplied once before the loop, and
     once more up to index j *)
  Definition ya2 (j i : nat) : R := if (i <=? j)%nat then delsx * (delsx * y i) else delsx * y i.
  Definition drudx (j : nat) : result R :=
    let d2y_u := spline (fun i => delsx * y i) u n dudy 0 in
    let d2y_rho := spline (fun i => delsx * y i) rho n 0 0 in
    let yp := ya2 j j / (delsx * sqrt ((x0 + delta) / x0)) in
    let ym := ya2 j j / (delsx * sqrt ((x0 - delta) / x0)) in
    bind (splint (ya2 j) u d2y_u n yp) (fun uxp =>
    bind (splint (ya2 j) u d2y_u n ym) (fun uxm =>
    bind (splint (ya2 j) rho d2y_rho n yp) (fun rhoxp =>
    bind (splint (ya2 j) rho d2y_rho n ym) (fun rhoxm =>
    Ok ((rhoxp * uxp - rhoxm * uxm) / (2 * delta)))))).
  (* rhov[j] and drudx[j] *)
  Fixpoint continuity (j : nat) : result (R * R) :=
    match j with
    | O => bind (drudx 0) (fun d => Ok (0 - 1/2 * (ya2 0 0 - ya2 0 (n - 1)) * (d + 0), d))
    | S i => bind (continuity i) (fun p => let '(r, d') := p in
             bind (drudx j) (fun d => Ok (r - 1/2 * (ya2 j j - ya2 j i) * (d + d'), d)))
    end.
End continuity.
(* 256-282: the three fits for one wall *)
Definition fit_of (float : R -> Q) (polyfit : list R -> list R -> Z -> list Q) (variable : vec) (edge : nat) (n_coeffs : Z) : fit :=
  {| fit_coeffs := fit_polynomial polyfit uniform_coordinate variable edge n_coeffs;
     fit_edge := float (uniform_coordinate edge); fit_free := float (variable edge) |}.
(* 205-216: find_constant_values; None stands for a value given as a string *)
Fixpoint find_constant_values (l : list (option R)) : result (list R) :=
  match l with
  | [] => Ok []
  | None :: _ => Err ValueError
  | Some a :: l => bind (find_constant_values l) (fun l => Ok (a :: l))
  end.
