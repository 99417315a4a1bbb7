(* C58: oblique shock relations. *)
From Verif Require Import Base ShockModel ShockSpec.
From Coq Require Import Reals Lra Psatz.
Open Scope R_scope.

Section jump.
  Variables (w M g : R).
  Hypotheses (Hw : 0 < w < 90) (HM : 1 <= M) (Hg : 1 < g).
  Let b := rad w.
  Let s := sin b. Let c := cos b.
  Let th := theta_beta_M b M g.
  Let D := M ^ 2 * (g + 1 - 2 * s ^ 2) + 2.
  Lemma angle_range : 0 < b < PI / 2.
  Proof. unfold b, rad. pose proof PI_RGT_0. split; nra. Qed.
  Lemma s_pos : 0 < s.
  Proof. pose proof angle_range. unfold s. apply sin_gt_0; lra. Qed.
  Lemma c_pos : 0 < c.
  Proof. pose proof angle_range. unfold c. apply cos_gt_0; lra. Qed.
  Lemma sc : s ^ 2 + c ^ 2 = 1.
  Proof. pose proof (sin2_cos2 b) as H. unfold Rsqr in H. unfold s, c. lra. Qed.
  Lemma D_pos : 0 < D.
  Proof. unfold D. pose proof s_pos. pose proof sc. pose proof (pow2_ge_0 c). assert (0 < M ^ 2) by nra. nra. Qed.
  Lemma th_range : - PI / 2 < th < PI / 2.
  Proof. unfold th, theta_beta_M. apply atan_bound. Qed.
  Lemma cos_th_pos : 0 < cos th.
  Proof. pose proof th_range. apply cos_gt_0; lra. Qed.
  Lemma tan_th : tan th = 2 * (c / s) * (M ^ 2 * s ^ 2 - 1) / D.
  Proof.
    unfold th, theta_beta_M. rewrite tan_atan. unfold cot. fold s c. rewrite cos_2a_sin. fold s.
    replace (M ^ 2 * (g + (1 - 2 * s * s)) + 2) with D by (unfold D; ring). reflexivity.
  Qed.
  Let ph := b - th.
  Lemma cos_ph : cos ph = cos th * c * (M ^ 2 * (g + 1) / D).
  Proof.
    unfold ph. rewrite cos_minus. fold s c. pose proof tan_th as T. pose proof cos_th_pos. pose proof D_pos. pose proof s_pos.
    assert (E : sin th = tan th * cos th) by (unfold tan; field; lra). rewrite E, T.
    pose proof sc. unfold D in *. field. lra.
  Qed.
  Lemma cos_ph_pos : 0 < cos ph.
  Proof.
    rewrite cos_ph. pose proof cos_th_pos. pose proof D_pos. pose proof c_pos.
    apply Rmult_lt_0_compat; [apply Rmult_lt_0_compat; auto|]. apply Rdiv_lt_0_compat; auto. nra.
  Qed.
  Let X := ((g - 1) * M ^ 2 * s ^ 2 + 2) / ((g + 1) * M ^ 2 * s).
  Lemma tan_ph : c * tan ph = X.
  Proof.
    unfold tan. rewrite cos_ph. unfold ph. rewrite sin_minus. fold s c. pose proof tan_th as T. pose proof cos_th_pos. pose proof D_pos. pose proof s_pos. pose proof c_pos.
    assert (E : sin th = tan th * cos th) by (unfold tan; field; lra). rewrite E, T.
    assert (C2 : c ^ 2 = 1 - s ^ 2) by (pose proof sc; lra). unfold X.
    assert (HM2 : M <> 0) by lra.
    transitivity ((s ^ 2 * D - 2 * c ^ 2 * (M ^ 2 * s ^ 2 - 1)) / (s * (M ^ 2 * (g + 1)))).
    - field. repeat split; lra.
    - rewrite C2. unfold D. field. repeat split; lra.
  Qed.
  Lemma X_pos : 0 < X.
  Proof. unfold X. pose proof s_pos. assert (0 < M ^ 2) by nra. assert (0 < (g - 1) * M ^ 2) by nra. apply Rdiv_lt_0_compat; [|nra]. pose proof (pow2_ge_0 s). nra. Qed.
  Let q U := sqrt ((U * cos (1 / 2 * PI - b) * tan ph / tan b) * (U * cos (1 / 2 * PI - b) * tan ph / tan b) + (U * cos (1 / 2 * PI - b) / tan b) * (U * cos (1 / 2 * PI - b) / tan b)).
  Lemma speed : forall U, 0 < U -> q U = U * c / cos ph.
  Proof.
    intros U HU. unfold q. pose proof s_pos. pose proof c_pos. pose proof cos_ph_pos.
    replace (cos (1 / 2 * PI - b)) with s by (unfold s; replace (1 / 2 * PI - b) with (PI / 2 - b) by field; rewrite cos_shift; auto).
    replace (tan b) with (s / c) by reflexivity.
    replace (U * s * tan ph / (s / c) * (U * s * tan ph / (s / c)) + U * s / (s / c) * (U * s / (s / c))) with (Rsqr (U * c / cos ph)).
    - apply sqrt_Rsqr. apply Rlt_le. apply Rdiv_lt_0_compat; auto. apply Rmult_lt_0_compat; auto.
    - unfold Rsqr, tan. pose proof (sin2_cos2 ph) as Q. unfold Rsqr in Q.
      transitivity ((U * c) * (U * c) * (sin ph * sin ph + cos ph * cos ph) / (cos ph * cos ph)); [rewrite Q; field; lra|]. field. repeat split; lra.
  Qed.
  (* post-shock velocity along the axes for a unit free stream *)
  Lemma velocity : forall U, 0 < U -> q U * cos th = U * (s * X + c ^ 2) /\ - q U * sin th = U * (c * X - c * s).
  Proof.
    intros U HU. rewrite speed by auto. pose proof cos_ph_pos as P. rewrite <- tan_ph. unfold tan.
    assert (Eth : th = b - ph) by (unfold ph; ring).
    rewrite Eth at 1 2. rewrite cos_minus, sin_minus. fold s c. split; field; lra.
  Qed.
End jump.

Lemma shock_ok : forall w M g sh, oblique_shock w M g = Ok sh ->
  sh = {| sh_M1 := M; sh_beta := rad w; sh_gamma := g; sh_wedge := theta_beta_M (rad w) M g; sh_rho := density_ratio (rad w) M g;
          sh_p := pressure_ratio (rad w) M g; sh_T := temperature_ratio (density_ratio (rad w) M g) (pressure_ratio (rad w) M g);
          sh_M2 := post_shock_mach (rad w) M g (theta_beta_M (rad w) M g) |}.
Proof. intros w M g sh H. unfold oblique_shock in H. destruct (Rlt_dec (Rabs M) 1); [discriminate|]. destruct (Rlt_dec w (asin (1 / M))); [discriminate|]. congruence. Qed.

(* In front of the shock the state is density 1, velocity (1, 0) and pressure 1/(gamma M^2),
   for which the Mach number is M.  The shock is inclined at the wave angle: its normal is
   (sin beta, cos beta).  The computed state behind the shock carries the same flux of mass,
   momentum and energy through the shock, and its primitive form is consistent with it. *)
Theorem C58_jump : forall w M g sh, 0 < w < 90 -> 1 <= M -> 1 < g -> oblique_shock w M g = Ok sh ->
  let nx := sin (w * PI / 180) in let ny := cos (w * PI / 180) in
  1 / sound_speed g 1 (1 / (g * M ^ 2)) = M /\
  exists rho u v p, primitive_post_shock sh 1 = [rho; u; v; p] /\
    conservative_post_shock sh 1 = state g rho u v p /\ 0 < rho /\
    flux g rho u v p nx ny = flux g 1 1 0 (1 / (g * M ^ 2)) nx ny.
Proof.
  intros w M g sh Hw HM Hg H nx ny. rewrite (shock_ok _ _ _ _ H). clear H sh. split.
  { unfold sound_speed. replace (g * (1 / (g * M ^ 2)) / 1) with (Rsqr (/ M)) by (unfold Rsqr; field; lra).
    rewrite sqrt_Rsqr; [field; lra|]. left. apply Rinv_0_lt_compat. lra. }
  unfold primitive_post_shock, conservative_post_shock, shock_u, shock_v, shock_p2. cbn [sh_M1 sh_beta sh_gamma sh_wedge sh_rho sh_p].
  destruct (velocity w M g Hw HM Hg 1 Rlt_0_1) as [Vu Vv].
  set (qq := sqrt _) in *. set (th := theta_beta_M (rad w) M g) in *. cbv zeta in *.
  assert (Sp := s_pos w Hw). assert (Cp := c_pos w Hw). assert (SC := sc w). subst nx ny. change (w * PI / 180) with (rad w).
  set (nx := sin (rad w)) in *. set (ny := cos (rad w)) in *.
  set (X := ((g - 1) * M ^ 2 * nx ^ 2 + 2) / ((g + 1) * M ^ 2 * nx)) in *.
  set (d := density_ratio (rad w) M g). set (pr := pressure_ratio (rad w) M g).
  exists d, (qq * cos th), (-1 * qq * sin th), (pr * (1 / (g * M ^ 2))).
  assert (A : 0 < M ^ 2) by nra. assert (N2 : 0 < nx ^ 2) by nra.
  assert (A2 : 0 < M ^ 2 * nx ^ 2) by nra.
  assert (P1 : 0 < (g - 1) * M ^ 2 * nx ^ 2 + 2) by nra.
  assert (Hd : 0 < d). { unfold d, density_ratio. fold nx. apply Rdiv_lt_0_compat; nra. }
  split; [reflexivity|]. split; [|split; [exact Hd|]].
  - unfold state. f_equal. f_equal; [ring|]. f_equal; [ring|]. f_equal. f_equal. field. lra.
  - replace (-1 * qq * sin th) with (- qq * sin th) by ring. rewrite Vu, Vv. rewrite !Rmult_1_l.
    assert (Un : (nx * X + ny ^ 2) * nx + (ny * X - ny * nx) * ny = X).
    { transitivity (X * (nx ^ 2 + ny ^ 2)); [ring|]. rewrite SC. ring. }
    assert (SC' : ny ^ 2 = 1 - nx ^ 2) by lra.
    assert (Ms : d * X = nx). { unfold d, density_ratio, X. fold nx. field. repeat split; nra. }
    assert (Pj : pr * (1 / (g * M ^ 2)) - 1 / (g * M ^ 2) = nx ^ 2 - nx * X).
    { unfold pr, pressure_ratio, X. fold nx. field. repeat split; lra. }
    set (p2 := pr * (1 / (g * M ^ 2))) in *. set (p1 := 1 / (g * M ^ 2)) in *.
    assert (E2 : p2 = p1 + nx ^ 2 - nx * X) by lra.
    unfold flux. rewrite Un. rewrite Ms. replace (1 * nx + 0 * ny) with nx by ring.
    f_equal; [ring|]. f_equal; [|f_equal; [|f_equal]].
    + rewrite E2, SC'. ring.
    + rewrite E2. ring.
    + assert (K : (nx * X + ny ^ 2) ^ 2 + (ny * X - ny * nx) ^ 2 = X ^ 2 + ny ^ 2).
      { transitivity (X ^ 2 * (nx ^ 2 + ny ^ 2) + ny ^ 2 * (ny ^ 2 + nx ^ 2)); [ring|]. rewrite SC'. ring. }
      rewrite K, E2, SC'. replace (1 / 2 * d * (X ^ 2 + (1 - nx ^ 2))) with (1 / 2 * (d * X) * X + 1 / 2 * d * (1 - nx ^ 2)) by ring. rewrite Ms.
      assert (Ed : d = nx / X). { rewrite <- Ms. field. unfold X. apply Rgt_not_eq. apply Rdiv_lt_0_compat; nra. }
      rewrite Ed. unfold p1, X. field. repeat split; nra.
Qed.
Print Assumptions C58_jump.

(* The reported Mach number behind the shock is that of the computed state, and the
   temperature ratio is the one of a perfect gas. *)
Theorem C58_mach : forall w M g sh, 0 < w < 90 -> 1 <= M -> 1 < g -> oblique_shock w M g = Ok sh ->
  (g - 1) / (2 * g) < M ^ 2 * sin (w * PI / 180) ^ 2 ->
  exists rho u v p, primitive_post_shock sh 1 = [rho; u; v; p] /\ 0 < p /\
    sh_M2 sh = sqrt (u ^ 2 + v ^ 2) / sound_speed g rho p /\ sh_T sh = (p / rho) / (1 / (g * M ^ 2)).
Proof.
  intros w M g sh Hw HM Hg H Hn. rewrite (shock_ok _ _ _ _ H). clear H sh.
  unfold primitive_post_shock, shock_u, shock_v, shock_p2. cbn [sh_M1 sh_beta sh_gamma sh_wedge sh_rho sh_p sh_M2 sh_T].
  destruct (velocity w M g Hw HM Hg 1 Rlt_0_1) as [Vu Vv]. assert (Sq := speed w M g Hw HM Hg 1 Rlt_0_1).
  assert (Tp := tan_ph w M g Hw HM Hg). assert (Cq := cos_ph_pos w M g Hw HM Hg).
  cbv zeta in *. set (th := theta_beta_M (rad w) M g) in *. set (ph := rad w - th) in *. match type of Sq with ?z = _ => set (qq := z) in * end.
  assert (Sp := s_pos w Hw). assert (Cp := c_pos w Hw). assert (SC := sc w).
  change (w * PI / 180) with (rad w) in Hn.
  set (s := sin (rad w)) in *. set (c := cos (rad w)) in *.
  set (d := density_ratio (rad w) M g). set (pr := pressure_ratio (rad w) M g).
  exists d, (qq * cos th), (-1 * qq * sin th), (pr * (1 / (g * M ^ 2))).
  split; [reflexivity|].
  assert (A : 0 < M ^ 2) by nra. assert (N2 : 0 < s ^ 2) by nra.
  assert (A2 : 0 < M ^ 2 * s ^ 2) by nra.
  assert (P1 : 0 < (g - 1) * M ^ 2 * s ^ 2 + 2) by nra.
  assert (P0 : 0 < 2 * g * (M ^ 2 * s ^ 2) - (g - 1)).
  { apply (Rmult_lt_compat_l (2 * g)) in Hn; [|lra]. replace (2 * g * ((g - 1) / (2 * g))) with (g - 1) in Hn by (field; lra). lra. }
  assert (Hd : 0 < d). { unfold d, density_ratio. fold s. apply Rdiv_lt_0_compat; nra. }
  assert (Epr : pr = (2 * g * (M ^ 2 * s ^ 2) - (g - 1)) / (g + 1)). { unfold pr, pressure_ratio. fold s. field. lra. }
  assert (Hpr : 0 < pr) by (rewrite Epr; apply Rdiv_lt_0_compat; lra).
  assert (Hp : 0 < pr * (1 / (g * M ^ 2))) by (apply Rmult_lt_0_compat; auto; apply Rdiv_lt_0_compat; nra).
  split; [exact Hp|]. split.
  - assert (Hq : 0 < qq) by (rewrite Sq; apply Rdiv_lt_0_compat; lra).
    replace (sqrt ((qq * cos th) ^ 2 + (-1 * qq * sin th) ^ 2)) with qq.
    2:{ replace ((qq * cos th) ^ 2 + (-1 * qq * sin th) ^ 2) with (Rsqr qq * (Rsqr (sin th) + Rsqr (cos th))) by (unfold Rsqr; ring).
        rewrite sin2_cos2, Rmult_1_r, sqrt_Rsqr; lra. }
    unfold post_shock_mach, sound_speed. fold s ph. set (X := ((g - 1) * M ^ 2 * s ^ 2 + 2) / ((g + 1) * M ^ 2 * s)) in *.
    assert (HX : 0 < X) by (unfold X; apply Rdiv_lt_0_compat; nra).
    assert (Es : qq * sin ph = X). { rewrite Sq, <- Tp. unfold tan. field. lra. }
    assert (Hs : 0 < sin ph) by nra.
    assert (Hr : 0 < g * (pr * (1 / (g * M ^ 2))) / d) by (apply Rdiv_lt_0_compat; auto; nra).
    assert (Ha : 0 < sqrt (g * (pr * (1 / (g * M ^ 2))) / d)) by (apply sqrt_lt_R0; auto).
    set (a := sqrt (g * (pr * (1 / (g * M ^ 2))) / d)) in *.
    assert (Ea : a * a = g * (pr * (1 / (g * M ^ 2))) / d) by (apply sqrt_sqrt; lra).
    assert (En : sqrt ((1 + 1 / 2 * (g - 1) * M ^ 2 * s ^ 2) / (g * M ^ 2 * s ^ 2 - 1 / 2 * (g - 1))) = X / a).
    { replace ((1 + 1 / 2 * (g - 1) * M ^ 2 * s ^ 2) / (g * M ^ 2 * s ^ 2 - 1 / 2 * (g - 1))) with (Rsqr (X / a)).
      - apply sqrt_Rsqr. left. apply Rdiv_lt_0_compat; auto.
      - unfold Rsqr. replace (X / a * (X / a)) with (X * X / (a * a)) by (field; lra). rewrite Ea, Epr. unfold X, d, density_ratio. fold s.
        field. repeat split; try nra. }
    rewrite En. rewrite <- Es. field. lra.
  - unfold temperature_ratio. field. repeat split; lra.
Qed.
Print Assumptions C58_mach.

(* At or above the Mach angle the shock compresses the gas and turns the flow towards it. *)
Theorem C58_compression : forall w M g sh, 0 < w < 90 -> 1 <= M -> 1 < g -> oblique_shock w M g = Ok sh ->
  1 <= M * sin (w * PI / 180) ->
  1 <= sh_rho sh /\ 1 <= sh_p sh /\ 1 <= sh_T sh /\ 0 <= sh_wedge sh < w * PI / 180.
Proof.
  intros w M g sh Hw HM Hg H Hn. rewrite (shock_ok _ _ _ _ H). clear H sh. cbn [sh_rho sh_p sh_T sh_wedge].
  assert (Sp := s_pos w Hw). assert (Cp := c_pos w Hw). assert (SC := sc w). assert (Dp := D_pos w M g Hw HM Hg). change (w * PI / 180) with (rad w) in Hn.
  assert (Tt := tan_th w M g). assert (Ct := cos_th_pos w M g). assert (Tp := tan_ph w M g Hw HM Hg). assert (Xp := X_pos w M g Hw HM Hg). assert (Cq := cos_ph_pos w M g Hw HM Hg).
  assert (Ar := angle_range w Hw). assert (Tr := th_range w M g).
  cbv zeta in *. change (w * PI / 180) with (rad w).
  set (s := sin (rad w)) in *. set (c := cos (rad w)) in *. set (th := theta_beta_M (rad w) M g) in *.
  assert (N : 1 <= M ^ 2 * s ^ 2) by (replace (M ^ 2 * s ^ 2) with ((M * s) ^ 2) by ring; nra).
  set (N2 := M ^ 2 * s ^ 2) in *.
  assert (Ed : density_ratio (rad w) M g = (g + 1) * N2 / ((g - 1) * N2 + 2)) by (unfold density_ratio, N2; fold s; f_equal; ring).
  assert (Ep : pressure_ratio (rad w) M g = 1 + 2 * g / (g + 1) * (N2 - 1)) by reflexivity.
  assert (Dd : 0 < (g - 1) * N2 + 2) by nra.
  assert (R1 : 1 <= density_ratio (rad w) M g).
  { rewrite Ed. apply (Rmult_le_reg_r ((g - 1) * N2 + 2)); auto. unfold Rdiv. rewrite Rmult_assoc, Rinv_l by lra. nra. }
  assert (G2 : 0 < 2 * g / (g + 1)) by (apply Rdiv_lt_0_compat; lra).
  assert (R2 : 1 <= pressure_ratio (rad w) M g) by (rewrite Ep; nra).
  split; [exact R1|]. split; [exact R2|]. split.
  - unfold temperature_ratio. rewrite Ed, Ep.
    apply (Rmult_le_reg_r ((g + 1) ^ 2 * N2)); [nra|].
    replace ((1 + 2 * g / (g + 1) * (N2 - 1)) * (1 / ((g + 1) * N2 / ((g - 1) * N2 + 2))) * ((g + 1) ^ 2 * N2)) with ((g + 1 + 2 * g * (N2 - 1)) * ((g - 1) * N2 + 2)) by (field; lra).
    assert (E : (g + 1 + 2 * g * (N2 - 1)) * ((g - 1) * N2 + 2) - 1 * ((g + 1) ^ 2 * N2) = 2 * (g - 1) * (N2 - 1) * (g * N2 + 1)) by ring.
    assert (0 <= 2 * (g - 1) * (N2 - 1) * (g * N2 + 1)) by (apply Rmult_le_pos; [apply Rmult_le_pos; lra | nra]). lra.
  - split.
    + unfold th, theta_beta_M. rewrite <- atan_0. assert (L : 0 <= 2 * cot (rad w) * (M ^ 2 * sin (rad w) ^ 2 - 1) / (M ^ 2 * (g + cos (2 * rad w)) + 2)).
      { fold s. fold N2. rewrite cos_2a_sin. fold s. replace (M ^ 2 * (g + (1 - 2 * s * s)) + 2) with (M ^ 2 * (g + 1 - 2 * s ^ 2) + 2) by ring.
        apply Rmult_le_pos; [|left; apply Rinv_0_lt_compat; auto]. unfold cot. fold s c. apply Rmult_le_pos; [|lra]. assert (0 < c / s) by (apply Rdiv_lt_0_compat; auto). lra. }
      destruct L as [L | L]; [left; apply atan_increasing; auto | right; rewrite <- L; auto].
    + destruct (Rlt_le_dec th (rad w)) as [L | L]; auto. exfalso.
      assert (Hs : sin (rad w - th) <= 0).
      { replace (rad w - th) with (- (th - rad w)) by ring. rewrite sin_neg. assert (0 <= sin (th - rad w)); [|lra]. apply sin_ge_0; lra. }
      assert (K : tan (rad w - th) <= 0) by (unfold tan; unfold Rdiv; assert (0 < / cos (rad w - th)) by (apply Rinv_0_lt_compat; auto); nra). nra.
Qed.
Print Assumptions C58_compression.

(* What is rejected: angles whose value in degrees is below the Mach angle in radians. *)
Theorem C58_check : forall w M g, 1 <= M ->
  (oblique_shock w M g = Err ValueError <-> w < asin (1 / M)).
Proof.
  intros w M g HM. unfold oblique_shock. destruct (Rlt_dec (Rabs M) 1) as [L | L]; [rewrite Rabs_pos_eq in L; lra|].
  destruct (Rlt_dec w (asin (1 / M))); split; intros; auto; try discriminate; contradiction.
Qed.
Print Assumptions C58_check.
(* Hence a wave angle below the Mach angle is not rejected: at M = 2 the Mach angle is 30
   degrees, and a wave of 10 degrees is accepted although it expands the gas. *)
Theorem C58_mach_angle_refuted : exists w M g sh, 0 < w < 90 /\ 1 <= M /\ 1 < g /\
  w * PI / 180 < asin (1 / M) /\ oblique_shock w M g = Ok sh /\ sh_rho sh < 1 /\ sh_p sh < 1.
Proof.
  assert (HP : 3 < PI <= 4) by (split; [pose proof PI2_3_2; lra | apply PI_4]).
  assert (As : asin (1 / 2) = PI / 6) by (replace (1 / 2) with (sin (PI / 6)) by apply sin_PI6; rewrite asin_sin; lra).
  set (b := rad 10). assert (Eb : b = PI / 18) by (unfold b, rad; field).
  assert (Sb : 0 < sin b < 1 / 4). { split; [apply sin_gt_0; lra|]. apply Rlt_le_trans with b; [apply sin_lt_x; lra | lra]. }
  assert (Ok' : exists sh, oblique_shock 10 2 (7 / 5) = Ok sh).
  { unfold oblique_shock. destruct (Rlt_dec (Rabs 2) 1) as [L | _]; [rewrite Rabs_pos_eq in L; lra|].
    destruct (Rlt_dec 10 (asin (1 / 2))) as [L | _]; [exfalso; lra|]. eexists. reflexivity. }
  destruct Ok' as (sh & E). exists 10, 2, (7 / 5), sh. split; [lra|]. split; [lra|]. split; [lra|]. split; [rewrite As; lra|]. split; auto.
  rewrite (shock_ok _ _ _ _ E). cbn [sh_rho sh_p]. fold b. unfold density_ratio, pressure_ratio. set (z := sin b) in *.
  assert (z ^ 2 < 1 / 16) by nra. split.
  - apply (Rmult_lt_reg_r ((7 / 5 - 1) * 2 ^ 2 * z ^ 2 + 2)); [nra|]. unfold Rdiv at 1. rewrite Rmult_assoc, Rinv_l by nra. nra.
  - nra.
Qed.
Print Assumptions C58_mach_angle_refuted.

(* The free-stream pressure assumes a unit free-stream velocity: with another velocity the
   momentum flux is not the same on both sides. *)
Theorem C58_freestream_refuted : exists w M g sh U rho u v p, 0 < w < 90 /\ 1 <= M /\ 1 < g /\ 0 < U /\ oblique_shock w M g = Ok sh /\
  primitive_post_shock sh U = [rho; u; v; p] /\
  flux g rho u v p (sin (w * PI / 180)) (cos (w * PI / 180)) <> flux g 1 U 0 (1 / (g * M ^ 2)) (sin (w * PI / 180)) (cos (w * PI / 180)).
Proof.
  assert (HP : 3 < PI <= 4) by (split; [pose proof PI2_3_2; lra | apply PI_4]).
  assert (As : asin (1 / 2) = PI / 6) by (replace (1 / 2) with (sin (PI / 6)) by apply sin_PI6; rewrite asin_sin; lra).
  assert (Ok' : exists sh, oblique_shock 45 2 2 = Ok sh).
  { unfold oblique_shock. destruct (Rlt_dec (Rabs 2) 1) as [L | _]; [rewrite Rabs_pos_eq in L; lra|].
    destruct (Rlt_dec 45 (asin (1 / 2))) as [L | _]; [exfalso; lra|]. eexists. reflexivity. }
  destruct Ok' as (sh & E). exists 45, 2, 2, sh, 2.
  destruct (velocity 45 2 2 ltac:(lra) ltac:(lra) ltac:(lra) 2 ltac:(lra)) as [Vu Vv].
  do 4 eexists. split; [lra|]. split; [lra|]. split; [lra|]. split; [lra|]. split; [exact E|].
  rewrite (shock_ok _ _ _ _ E). unfold primitive_post_shock, shock_u, shock_v, shock_p2. cbn [sh_M1 sh_beta sh_gamma sh_wedge sh_rho sh_p]. split; [reflexivity|].
  set (qq := sqrt _) in *. set (th := theta_beta_M (rad 45) 2 2) in *. replace (-1 * qq * sin th) with (- qq * sin th) by ring. rewrite Vu, Vv. clear Vu Vv qq th.
  unfold density_ratio, pressure_ratio. change (45 * PI / 180) with (rad 45).
  assert (Sp := s_pos 45 ltac:(lra)). assert (Cp := c_pos 45 ltac:(lra)).
  assert (S2 : sin (rad 45) ^ 2 = 1 / 2).
  { unfold rad. replace (45 * PI / 180) with (PI / 4) by field. rewrite sin_PI4. replace ((1 / sqrt 2) ^ 2) with (1 / (sqrt 2 * sqrt 2)) by (field; apply Rgt_not_eq; apply sqrt_lt_R0; lra). rewrite sqrt_sqrt; lra. }
  assert (C2 : cos (rad 45) ^ 2 = 1 / 2) by (pose proof (sc 45); lra).
  set (s := sin (rad 45)) in *. set (c := cos (rad 45)) in *. unfold flux. intros K. apply (f_equal (fun l => nth 1 l 0)) in K. cbn [nth] in K.
  rewrite S2, C2 in K.
  assert (Es : s * (((2 - 1) * 2 ^ 2 * (1 / 2) + 2) / ((2 + 1) * 2 ^ 2 * s)) = 1 / 3) by (field; lra). rewrite Es in K.
  assert (Ec : c * (((2 - 1) * 2 ^ 2 * (1 / 2) + 2) / ((2 + 1) * 2 ^ 2 * s)) = c / s * (1 / 3)) by (field; lra). rewrite Ec in K.
  assert (Esc : c = s) by nra. rewrite Esc in K. replace (s / s) with 1 in K by (field; lra). nra.
Qed.
Print Assumptions C58_freestream_refuted.

Example C58_nonvacuous : 0 < 45 < 90 /\ 1 <= 2 /\ 1 < 7 / 5 /\ (exists sh, oblique_shock 45 2 (7 / 5) = Ok sh) /\
  1 <= 2 * sin (45 * PI / 180) /\ (7 / 5 - 1) / (2 * (7 / 5)) < 2 ^ 2 * sin (45 * PI / 180) ^ 2.
Proof.
  assert (HP : 3 < PI <= 4) by (split; [pose proof PI2_3_2; lra | apply PI_4]).
  assert (As : asin (1 / 2) = PI / 6) by (replace (1 / 2) with (sin (PI / 6)) by apply sin_PI6; rewrite asin_sin; lra).
  assert (Sp := s_pos 45 ltac:(lra)). change (rad 45) with (45 * PI / 180) in Sp.
  assert (S2 : sin (45 * PI / 180) ^ 2 = 1 / 2).
  { replace (45 * PI / 180) with (PI / 4) by field. rewrite sin_PI4. replace ((1 / sqrt 2) ^ 2) with (1 / (sqrt 2 * sqrt 2)) by (field; apply Rgt_not_eq; apply sqrt_lt_R0; lra). rewrite sqrt_sqrt; lra. }
  split; [lra|]. split; [lra|]. split; [lra|]. split.
  - unfold oblique_shock. destruct (Rlt_dec (Rabs 2) 1) as [L | _]; [rewrite Rabs_pos_eq in L; lra|].
    destruct (Rlt_dec 45 (asin (1 / 2))) as [L | _]; [exfalso; lra|]. eexists. reflexivity.
  - split; [nra | rewrite S2; lra].
Qed.
