(* C38, C39: characteristic decomposition of the Euler equations and the Roe average. *)
From Coq Require Import Reals List Lra Lia.
From Verif Require Import EulerSpec EulerModel EulerProofs RoeProofs.
Import ListNotations.
Local Open Scope R_scope.

(* A face of a one-, two- or three-dimensional grid: velocity and metric row have the
   same length, the metric row is not zero; in one dimension it is [1]. *)
Definition face (k u : list R) : Prop :=
  List.length k = List.length u /\
  (k = [1] \/ ((List.length k = 2%nat \/ List.length k = 3%nat) /\ exists c, In c k /\ c <> 0)).
Lemma face_cases : forall (P : list R -> list R -> Prop),
  (forall u0, P [1] [u0]) ->
  (forall k0 k1 u0 u1, (k0 <> 0 \/ k1 <> 0) -> P [k0; k1] [u0; u1]) ->
  (forall k0 k1 k2 u0 u1 u2, (k0 <> 0 \/ k1 <> 0 \/ k2 <> 0) -> P [k0; k1; k2] [u0; u1; u2]) ->
  forall k u, face k u -> P k u.
Proof.
  intros P A B C k u [L [-> |[[E|E] (c & I & N)]]].
  - destruct u as [|u0 [|]]; try discriminate. apply A.
  - destruct k as [|k0 [|k1 [|]]]; try discriminate. destruct u as [|u0 [|u1 [|]]]; try discriminate.
    apply B. cbn in I. destruct I as [<-|[<-|[]]]; auto.
  - destruct k as [|k0 [|k1 [|k2 [|]]]]; try discriminate. destruct u as [|u0 [|u1 [|u2 [|]]]]; try discriminate.
    apply C. cbn in I. destruct I as [<-|[<-|[<-|[]]]]; auto.
Qed.

(* C38.  For every positive density and sound speed, every velocity and every non-zero
   metric row, the left and right eigenvector matrices are inverse to each other, ... *)
Theorem C38_inverse :
  forall g k rho u a, 1 < g -> 0 < rho -> 0 < a -> face k u ->
    inverse_of (List.length u + 2) (left_matrix g k rho u a) (right_matrix g k rho u a).
Proof.
  intros g k rho u a Hg Hr Ha F. revert k u F. apply face_cases; intros; cbn [List.length Nat.add left_matrix right_matrix].
  - apply inverse1; lra.
  - apply inverse2; auto; lra.
  - apply inverse3; auto; lra.
Qed.
Print Assumptions C38_inverse.
(* ... each column of the right matrix is an eigenvector of the Jacobian of the flux
   through the face, for the eigenvalue in the same place, ... *)
Theorem C38_eigenvectors :
  forall g k rho u a j, 1 < g -> 0 < rho -> 0 < a -> face k u -> (j < List.length u + 2)%nat ->
    right_eigenvector (flux g k) (conserved g rho u a) (column j (right_matrix g k rho u a)) (nth j (eigenvalues k u a) 0).
Proof.
  intros g k rho u a j Hg Hr Ha F. revert k u F.
  apply (face_cases (fun k u => (j < List.length u + 2)%nat ->
    right_eigenvector (flux g k) (conserved g rho u a) (column j (right_matrix g k rho u a)) (nth j (eigenvalues k u a) 0)));
    intros; cbn [List.length Nat.add left_matrix right_matrix eigenvalues] in *.
  - apply eigen1; auto; lra.
  - apply eigen2; auto; lra.
  - apply eigen3; auto; lra.
Qed.
Print Assumptions C38_eigenvectors.
(* ... so going to characteristic variables, multiplying by the eigenvalues and coming
   back is the Jacobian: the derivative of the flux in every direction v. *)
Theorem C38_diagonalises :
  forall g k rho u a v, 1 < g -> 0 < rho -> 0 < a -> face k u -> List.length v = (List.length u + 2)%nat ->
    directional_derivative (flux g k) (conserved g rho u a) v
      (through_characteristics (right_matrix g k rho u a) (eigenvalues k u a) (left_matrix g k rho u a) v).
Proof.
  intros g k rho u a v Hg Hr Ha F. revert k u F.
  apply (face_cases (fun k u => List.length v = (List.length u + 2)%nat ->
    directional_derivative (flux g k) (conserved g rho u a) v
      (through_characteristics (right_matrix g k rho u a) (eigenvalues k u a) (left_matrix g k rho u a) v)));
    intros; cbn [List.length Nat.add left_matrix right_matrix eigenvalues] in *.
  - destruct v as [|v0 [|v1 [|v2 [|]]]]; try discriminate. rewrite through1 by lra. apply flux_deriv1; lra.
  - destruct v as [|v0 [|v1 [|v2 [|v3 [|]]]]]; try discriminate. rewrite through2 by (auto; lra). apply flux_deriv2; lra.
  - destruct v as [|v0 [|v1 [|v2 [|v3 [|v4 [|]]]]]]; try discriminate. rewrite through3 by (auto; lra). apply flux_deriv3; lra.
Qed.
Print Assumptions C38_diagonalises.
(* The conserved state used above has the sound speed a. *)
Theorem C38_state_sound_speed :
  forall g rho u a, 1 < g -> 0 < rho -> g * pressure g (conserved g rho u a) / rho = a ^ 2.
Proof.
  intros g rho u a Hg Hr. pose proof (enthalpy_of g rho u a ltac:(lra) ltac:(lra) ltac:(lra)) as E.
  assert (En : energy (conserved g rho u a) = rho * a ^ 2 / g / (g - 1) + rho * dot u u / 2).
  { unfold energy, conserved. rewrite app_comm_cons, last_last. auto. }
  rewrite En in E. set (p := pressure g (conserved g rho u a)) in *. clearbody p.
  assert (p = rho * a ^ 2 / g).
  { assert (rho * ((rho * a ^ 2 / g / (g - 1) + rho * dot u u / 2 + p) / rho) = rho * (a ^ 2 / (g - 1) + dot u u / 2)) by (rewrite E; auto).
    replace (rho * ((rho * a ^ 2 / g / (g - 1) + rho * dot u u / 2 + p) / rho)) with (rho * a ^ 2 / g / (g - 1) + rho * dot u u / 2 + p) in H by (field; lra).
    replace (rho * a ^ 2 / g) with (rho * (a ^ 2 / (g - 1)) - rho * a ^ 2 / g / (g - 1)) by (field; lra). lra. }
  subst p. field. lra.
Qed.
Print Assumptions C38_state_sound_speed.
Example C38_nonvacuous : face [3; 4] [1; 2] /\ face [1] [5] /\ face [0; 0; 1] [1; 2; 3] /\
  eigenvalues [3; 4] [1; 2] 7 = [11; 11; 46; -24].
Proof.
  split; [split; [auto|right; split; [cbn; auto|exists 3; cbn; split; [auto|lra]]]|].
  split; [split; [auto|left; auto]|].
  split; [split; [auto|right; split; [cbn; auto|exists 1; cbn; split; [auto|lra]]]|].
  cbn [eigenvalues]. unfold ev2, metric_factor. cbn [map fold_right].
  replace (3 ^ 2 + (4 ^ 2 + 0)) with (5 * 5) by ring. rewrite sqrt_square by lra.
  repeat (apply cons_eq; [ring|]). auto.
Qed.

(* The averages at the interface keep density and sound speed positive, so the matrices
   above are inverse to each other there too. *)
Theorem C38_simple_average_admissible :
  forall g k rL rR uL uR aL aR, 1 < g -> 0 < rL -> 0 < rR -> 0 < aL -> 0 < aR ->
    List.length uL = List.length uR -> face k uL ->
    let u := map (fun xy => simple_average (fst xy) (snd xy)) (combine uL uR) in
    inverse_of (List.length uL + 2) (left_matrix g k (simple_average rL rR) u (simple_average aL aR))
                                    (right_matrix g k (simple_average rL rR) u (simple_average aL aR)).
Proof.
  intros g k rL rR uL uR aL aR Hg HL HR AL AR L F u.
  assert (Lu : List.length u = List.length uL) by (unfold u; rewrite map_length, combine_length; lia).
  rewrite <- Lu. apply C38_inverse; auto; [unfold simple_average; lra|unfold simple_average; lra|].
  destruct F as [F1 F2]. split; [lia|exact F2].
Qed.
Print Assumptions C38_simple_average_admissible.

(* C39.  The Roe-averaged state: the flux jump between the two sides is exactly the
   Jacobian at the averaged state applied to the jump of the conserved variables. *)
Theorem C39_roe_jump :
  forall g k rL rR uL uR aL aR, 1 < g -> 0 < rL -> 0 < rR -> 0 < aL -> 0 < aR ->
    face k uL -> List.length uR = List.length uL ->
    let UL := conserved g rL uL aL in let UR := conserved g rR uR aR in
    let rho := roe_density rL rR in
    let u := roe_velocity rL rR uL uR in
    let a := roe_sound g rL rR uL uR (energy UL) (energy UR) (pressure g UL) (pressure g UR) in
    through_characteristics (right_matrix g k rho u a) (eigenvalues k u a) (left_matrix g k rho u a) (vsub UR UL)
    = vsub (flux g k UR) (flux g k UL).
Proof.
  intros g k rL rR uL uR aL aR Hg HL HR AL AR F L. cbv zeta.
  destruct (roe_sound_eq g rL rR uL uR aL aR HL HR Hg ltac:(lra) (eq_sym L)) as [A0 A2]. cbv zeta in A0, A2.
  set (a := roe_sound g rL rR uL uR _ _ _ _) in *. clearbody a.
  rewrite roe_velocity_eq by auto.
  assert (R0 : roe_density rL rR <> 0).
  { unfold roe_density. assert (0 < sqrt (rL * rR)) by (apply sqrt_lt_R0, Rmult_lt_0_compat; auto). lra. }
  set (rho := roe_density rL rR) in *. clearbody rho.
  assert (XL : 0 < sqrt rL) by (apply sqrt_lt_R0; auto). assert (XR : 0 < sqrt rR) by (apply sqrt_lt_R0; auto).
  assert (EL : rL = sqrt rL * sqrt rL) by (symmetry; apply sqrt_sqrt; lra).
  assert (ER : rR = sqrt rR * sqrt rR) by (symmetry; apply sqrt_sqrt; lra).
  set (x := sqrt rL) in *. set (y := sqrt rR) in *. clearbody x y. subst rL rR.
  revert k uL F L A2. apply (face_cases (fun k uL => List.length uR = List.length uL ->
    a ^ 2 = hat_a2 g x y uL uR aL aR ->
    through_characteristics (right_matrix g k rho (hat_u x y uL uR) a) (eigenvalues k (hat_u x y uL uR) a)
       (left_matrix g k rho (hat_u x y uL uR) a) (vsub (conserved g (y * y) uR aR) (conserved g (x * x) uL aL))
    = vsub (flux g k (conserved g (y * y) uR aR)) (flux g k (conserved g (x * x) uL aL)))).
  - intros u0 L A2. destruct uR as [|v0 [|]]; try discriminate.
    rewrite <- (jump1 g 1 x y u0 v0 aL aR a) by (auto; lra).
    cbn [hat_u map combine fst snd right_matrix left_matrix eigenvalues]. unfold conserved, vsub. cbn [map combine fst snd app].
    apply through1; lra.
  - intros k0 k1 u0 u1 N L A2. destruct uR as [|v0 [|v1 [|]]]; try discriminate.
    rewrite <- (jump2 g k0 k1 x y u0 u1 v0 v1 aL aR a) by (auto; lra).
    cbn [hat_u map combine fst snd right_matrix left_matrix eigenvalues]. unfold conserved, vsub. cbn [map combine fst snd app].
    apply through2; auto; lra.
  - intros k0 k1 k2 u0 u1 u2 N L A2. destruct uR as [|v0 [|v1 [|v2 [|]]]]; try discriminate.
    rewrite <- (jump3 g k0 k1 k2 x y u0 u1 u2 v0 v1 v2 aL aR a) by (auto; lra).
    cbn [hat_u map combine fst snd right_matrix left_matrix eigenvalues]. unfold conserved, vsub. cbn [map combine fst snd app].
    apply through3; auto; lra.
Qed.
Print Assumptions C39_roe_jump.
(* The averaged sound speed is a positive real number, and equal states are averaged
   to themselves. *)
Theorem C39_roe_admissible :
  forall g rL rR uL uR aL aR, 1 < g -> 0 < rL -> 0 < rR -> 0 < aL -> 0 < aR -> List.length uL = List.length uR ->
    let UL := conserved g rL uL aL in let UR := conserved g rR uR aR in
    0 < roe_density rL rR /\
    0 < roe_sound g rL rR uL uR (energy UL) (energy UR) (pressure g UL) (pressure g UR).
Proof.
  intros g rL rR uL uR aL aR Hg HL HR AL AR L UL UR. split.
  - apply sqrt_lt_R0, Rmult_lt_0_compat; auto.
  - apply (roe_sound_eq g rL rR uL uR aL aR); auto; lra.
Qed.
Print Assumptions C39_roe_admissible.
Theorem C39_roe_consistent :
  forall g r u a, 1 < g -> 0 < r -> 0 < a ->
    let U := conserved g r u a in
    roe_density r r = r /\ roe_velocity r r u u = u /\
    roe_sound g r r u u (energy U) (energy U) (pressure g U) (pressure g U) = a.
Proof.
  intros g r u a Hg Hr Ha U. assert (X : 0 < sqrt r) by (apply sqrt_lt_R0; auto).
  assert (M : forall p, mean (sqrt r) (sqrt r) p p = p) by (intros; unfold mean; field; lra).
  assert (V : hat_u (sqrt r) (sqrt r) u u = u).
  { unfold hat_u. clear - M. induction u; cbn; auto. rewrite M, IHu. auto. }
  split; [|split].
  - unfold roe_density. apply sqrt_square. lra.
  - rewrite roe_velocity_eq; auto.
  - destruct (roe_sound_eq g r r u u a a Hr Hr Hg ltac:(lra) eq_refl) as [P E]. cbv zeta in P, E. fold U in P, E.
    set (b := roe_sound g r r u u (energy U) (energy U) (pressure g U) (pressure g U)) in *. clearbody b.
    unfold hat_a2 in E. rewrite V, M in E. unfold enth in E.
    replace ((g - 1) * (a ^ 2 / (g - 1) + dot u u / 2 - dot u u / 2)) with (a ^ 2) in E by (field; lra).
    assert ((b - a) * (b + a) = 0) by (cbn in E; lra). apply Rmult_integral in H. lra.
Qed.
Print Assumptions C39_roe_consistent.
Example C39_nonvacuous :
  roe_velocity 1 4 [3] [6] = [5] /\ roe_density 1 4 = 2.
Proof.
  assert (S4 : sqrt 4 = 2) by (replace 4 with (2 * 2) by ring; apply sqrt_square; lra).
  split.
  - unfold roe_velocity, roe_mean, roe_inv. cbn [combine map fst snd]. rewrite sqrt_1, S4. apply cons_eq; [field|auto].
  - unfold roe_density. rewrite Rmult_1_l. auto.
Qed.
