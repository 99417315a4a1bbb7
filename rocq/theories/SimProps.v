(* Theorems about the similarity solution and the fitted profiles (C84). *)
From Verif Require Import Base SplineModel SplineProps KatzModel KatzSpec KatzProofs SimModel SimSpec.
From Coq Require Import QArith ZArith Reals Qreals Lia Lra.
Local Close Scope Q_scope.
Local Open Scope list_scope.
Open Scope R_scope.

(* ---- the equations ---- *)
Lemma c_of_eq : forall S g, 0 < g -> c_of S g = sqrt g * (1 + S) / (g + S).
Proof. intros S g H. unfold c_of, viscosity, Rdiv. set (q := / (g + S)). field. lra. Qed.
Lemma c_lim : forall S g, 0 < g -> 0 < g + S ->
  derivable_pt_lim (c_of S) g ((1 / (2 * sqrt g) - sqrt g / (g + S)) * ((1 + S) / (g + S))).
Proof.
  intros S g Hg HS. assert (Q : 0 < sqrt g) by (apply sqrt_lt_R0; exact Hg). assert (QQ : sqrt g * sqrt g = g) by (apply sqrt_sqrt; lra).
  assert (D0 : derivable_pt_lim (fun t => t * sqrt t) g (1 * sqrt g + g * / (2 * sqrt g))).
  { apply (derivable_pt_lim_mult id sqrt); [apply derivable_pt_lim_id | apply derivable_pt_lim_sqrt; exact Hg]. }
  assert (D1 : derivable_pt_lim (fun t => t * sqrt t * (1 + S)) g ((1 * sqrt g + g * / (2 * sqrt g)) * (1 + S) + g * sqrt g * 0)).
  { apply (derivable_pt_lim_mult (fun t => t * sqrt t) (fct_cte (1 + S))); [exact D0 | apply derivable_pt_lim_const]. }
  assert (D2 : derivable_pt_lim (fun t => t + S) g 1).
  { replace 1 with (1 + 0) by ring. apply (derivable_pt_lim_plus id (fct_cte S)); [apply derivable_pt_lim_id | apply derivable_pt_lim_const]. }
  pose proof (derivable_pt_lim_div _ _ _ _ _ D1 D2 ltac:(cbv beta; lra)) as D3.
  pose proof (derivable_pt_lim_div _ _ _ _ _ D3 (derivable_pt_lim_id g) ltac:(unfold id; lra)) as D. unfold div_fct, id in D. cbv beta in D.
  match type of D with derivable_pt_lim _ _ ?l => replace ((1 / (2 * sqrt g) - sqrt g / (g + S)) * ((1 + S) / (g + S))) with l end; [exact D|].
  unfold Rsqr. set (q := sqrt g) in *. clearbody q. subst g. field. nra.
Qed.
(* a solution of the system satisfies the similarity equations of a compressible boundary
   layer: f''' and g'' enter as (c f'')' = - f f'' and (c g')' = - Pr f g' - Pr (gamma-1) M^2 c f''^2 *)
Theorem C84_equations : forall p (v : R -> nat -> R) eta, 0 < v eta 3%nat -> 0 < v eta 3%nat + g_suth p ->
  0 < 1 + g_suth p ->
  (forall i, (i < 5)%nat -> derivable_pt_lim (fun t => v t i) eta (compbl p (v eta) i)) ->
  let f := v eta 0%nat in let shear := v eta 2%nat in let g1 := v eta 4%nat in let c := c_of (g_suth p) (v eta 3%nat) in
  derivable_pt_lim (fun t => v t 0%nat) eta (v eta 1%nat) /\ derivable_pt_lim (fun t => v t 1%nat) eta shear /\ derivable_pt_lim (fun t => v t 3%nat) eta g1 /\
  derivable_pt_lim (fun t => c_of (g_suth p) (v t 3%nat) * v t 2%nat) eta (- f * shear) /\
  derivable_pt_lim (fun t => c_of (g_suth p) (v t 3%nat) * v t 4%nat) eta
    (- g_pr p * f * g1 - g_pr p * (g_gama p - 1) * (g_mach p) ^ 2 * c * shear ^ 2).
Proof.
  intros p v eta Hg HS H1 D f shear g1 c. pose proof (c_of_eq (g_suth p) _ Hg) as Ec. fold c in Ec.
  assert (Q : 0 < sqrt (v eta 3%nat)) by (apply sqrt_lt_R0; exact Hg).
  assert (Hc : 0 < c) by (rewrite Ec; unfold Rdiv; repeat apply Rmult_lt_0_compat; try lra; apply Rinv_0_lt_compat; lra).
  pose proof (D 3%nat ltac:(lia)) as D3. pose proof (derivable_pt_lim_comp _ _ _ _ _ D3 (c_lim _ _ Hg HS)) as DC. unfold comp in DC.
  pose proof (D 2%nat ltac:(lia)) as D2. pose proof (D 4%nat ltac:(lia)) as D4.
  split; [exact (D 0%nat ltac:(lia))|]. split; [exact (D 1%nat ltac:(lia))|]. split; [exact D3|].
  pose proof (derivable_pt_lim_mult _ _ _ _ _ DC D2) as M2. pose proof (derivable_pt_lim_mult _ _ _ _ _ DC D4) as M4. unfold mult_fct in M2, M4. cbv beta in M2, M4.
  fold c in M2, M4. split.
  - match type of M2 with derivable_pt_lim _ _ ?l => replace (- f * shear) with l end; [exact M2|].
    cbn [compbl]. rewrite <- Ec. fold f shear g1. field. lra.
  - match type of M4 with derivable_pt_lim _ _ ?l => replace (- g_pr p * f * g1 - g_pr p * (g_gama p - 1) * (g_mach p) ^ 2 * c * shear ^ 2) with l end; [exact M4|].
    cbn [compbl]. rewrite <- Ec. fold f shear g1. field. lra.
Qed.
Print Assumptions C84_equations.
(* with Pr = 1 the gradient h of the total enthalpy satisfies a homogeneous equation, so it
   remains zero if it is zero at the wall *)
Theorem C84_enthalpy : forall p (v : R -> nat -> R) eta, g_pr p = 1 ->
  (forall i, (i < 5)%nat -> derivable_pt_lim (fun t => v t i) eta (compbl p (v eta) i)) ->
  let m := (g_gama p - 1) * (g_mach p) ^ 2 in
  let h := fun t => v t 4%nat + m * (v t 1%nat * v t 2%nat) in
  derivable_pt_lim (fun t => v t 3%nat + m / 2 * (v t 1%nat * v t 1%nat)) eta (h eta) /\
  exists k, derivable_pt_lim h eta (k * h eta) /\ compbl p (v eta) 2%nat = k * v eta 2%nat.
Proof.
  intros p v eta HP D m h. pose proof (D 1%nat ltac:(lia)) as D1. pose proof (D 2%nat ltac:(lia)) as D2. pose proof (D 3%nat ltac:(lia)) as D3. pose proof (D 4%nat ltac:(lia)) as D4.
  pose proof (derivable_pt_lim_mult _ _ _ _ _ D1 D1) as E1. pose proof (derivable_pt_lim_mult _ _ _ _ _ D1 D2) as E2. unfold mult_fct in E1, E2. cbv beta in E1, E2.
  split.
  - pose proof (derivable_pt_lim_plus _ _ _ _ _ D3 (derivable_pt_lim_scal _ (m / 2) _ _ E1)) as E. unfold plus_fct, mult_real_fct in E.
    match type of E with derivable_pt_lim _ _ ?l => replace (h eta) with l end; [exact E|]. unfold h. cbn [compbl]. field.
  - pose proof (derivable_pt_lim_plus _ _ _ _ _ D4 (derivable_pt_lim_scal _ m _ _ E2)) as E. unfold plus_fct, mult_real_fct in E.
    set (cc := sqrt (v eta 3%nat) * (1 + g_suth p) / (v eta 3%nat + g_suth p)).
    set (cp := (1 / (2 * sqrt (v eta 3%nat)) - sqrt (v eta 3%nat) / (v eta 3%nat + g_suth p)) * ((1 + g_suth p) / (v eta 3%nat + g_suth p)) * v eta 4%nat).
    exists (- (cp + v eta 0%nat) / cc). split.
    + match type of E with derivable_pt_lim _ _ ?l => replace (- (cp + v eta 0%nat) / cc * h eta) with l end; [exact E|].
      unfold h. cbn [compbl]. rewrite HP. fold cc cp. unfold m. unfold Rdiv. ring.
    + cbn [compbl]. fold cc cp. unfold Rdiv. ring.
Qed.
Print Assumptions C84_enthalpy.

(* ---- shooting ---- *)
Lemma less_true : forall a b, less a b = true <-> a < b.
Proof. intros a b. unfold less. destruct (Rlt_dec a b); split; intros; auto; try discriminate; contradiction. Qed.
Lemma less_false : forall a b, less a b = false <-> b <= a.
Proof. intros a b. unfold less. destruct (Rlt_dec a b); split; intros; auto; try discriminate; lra. Qed.
Lemma adiabatic_start : forall Tw a b i, Tw < 0 -> vstart Tw a b i = wall_values a b 0 i.
Proof. intros Tw a b i H. apply less_true in H. unfold vstart, wall_values. rewrite H. destruct i as [|[|[|[|[|i]]]]]; reflexivity. Qed.
Lemma fdiv_some : forall a b c, fdiv a b = Some c -> b <> 0 /\ c = a / b.
Proof. intros a b c H. unfold fdiv in H. destruct (Req_EM_T b 0); [discriminate|]. injection H as <-. auto. Qed.
Lemma fdiv_ok : forall a b, b <> 0 -> fdiv a b = Some (a / b).
Proof. intros a b H. unfold fdiv. destruct (Req_EM_T b 0); [contradiction | reflexivity]. Qed.
Section shooting.
Variables (ode : vec -> soln) (n : nat) (Tw : R).
Hypothesis AD : Tw < 0.
Hypothesis EX : forall u v, (forall i, u i = v i) -> ode u = ode v.
Notation F a b := (misses n (ode (wall_values a b 0))).
Lemma start_sol : forall a b, ode (vstart Tw a b) = ode (wall_values a b 0).
Proof. intros a b. apply EX. intros i. apply adiabatic_start. exact AD. Qed.
Lemma less_ad : less Tw 0 = true. Proof. apply less_true. exact AD. Qed.
Lemma iteration_next : forall s s', iteration ode n Tw s = Some (inr s') ->
  let v0 := s_v0 s in let v1 := s_v1 s in let d0 := s_dv0 s in let d1 := s_dv1 s in
  let a11 := (fst (F (v0 + d0) v1) - fst (F v0 v1)) / d0 in let a21 := (snd (F (v0 + d0) v1) - snd (F v0 v1)) / d0 in
  let a12 := (fst (F v0 (v1 + d1)) - fst (F v0 v1)) / d1 in let a22 := (snd (F v0 (v1 + d1)) - snd (F v0 v1)) / d1 in
  d0 <> 0 /\ d1 <> 0 /\ a11 * a22 - a21 * a12 <> 0 /\
  s_dv0 s' = (- a22 * fst (F v0 v1) + a12 * snd (F v0 v1)) / (a11 * a22 - a21 * a12) /\
  s_dv1 s' = (a21 * fst (F v0 v1) - a11 * snd (F v0 v1)) / (a11 * a22 - a21 * a12) /\
  s_v0 s' = v0 + s_dv0 s' /\ s_v1 s' = v1 + s_dv1 s' /\ s_soln s' = ode (wall_values v0 (v1 + d1) 0) /\
  error_of n (ode (wall_values v0 v1 0)) >= errtol.
Proof.
  intros s s' H. unfold iteration in H. rewrite less_ad, !start_sol in H. destruct (less _ errtol) eqn:EL in H; [discriminate|]. apply less_false in EL.
  repeat match type of H with obind ?o _ = _ => let E := fresh "E" in destruct o eqn:E; cbn [obind] in H; [apply fdiv_some in E; destruct E as [? ->] | discriminate] end.
  injection H as <-. cbn [s_dv0 s_dv1 s_v0 s_v1 s_soln]. unfold residual in *. unfold misses. cbv zeta.
  repeat (split; [assumption || reflexivity|]). apply Rle_ge. exact EL.
Qed.
Lemma iteration_stop : forall s s', iteration ode n Tw s = Some (inl s') ->
  s_v0 s' = s_v0 s /\ s_v1 s' = s_v1 s /\ s_soln s' = ode (wall_values (s_v0 s) (s_v1 s) 0) /\ error_of n (s_soln s') < errtol.
Proof.
  intros s s' H. unfold iteration in H. rewrite less_ad, !start_sol in H. destruct (less _ errtol) eqn:EL in H.
  - injection H as <-. apply less_true in EL. auto.
  - repeat match type of H with obind ?o _ = _ => destruct o; cbn [obind] in H; [|discriminate] end. discriminate.
Qed.
End shooting.
(* one pass of the iteration solves the linear equations whose matrix holds the difference
   quotients of what the solution misses *)
Theorem C84_newton_step : forall ode n Tw s s', Tw < 0 -> (forall u v, (forall i, u i = v i) -> ode u = ode v) ->
  iteration ode n Tw s = Some (inr s') ->
  let F a b := misses n (ode (wall_values a b 0)) in
  let x := s_v0 s' - s_v0 s in let y := s_v1 s' - s_v1 s in
  forall comp, comp = @fst R R \/ comp = @snd R R ->
  (comp (F (s_v0 s + s_dv0 s) (s_v1 s)) - comp (F (s_v0 s) (s_v1 s))) / s_dv0 s * x +
  (comp (F (s_v0 s) (s_v1 s + s_dv1 s)) - comp (F (s_v0 s) (s_v1 s))) / s_dv1 s * y = - comp (F (s_v0 s) (s_v1 s)).
Proof.
  intros ode n Tw s s' AD EX H F x y comp HC. destruct (iteration_next ode n Tw AD EX s s' H) as (D0 & D1 & DD & E0 & E1 & V0 & V1 & _).
  assert (Ex : x = s_dv0 s') by (unfold x; rewrite V0; ring). assert (Ey : y = s_dv1 s') by (unfold y; rewrite V1; ring). rewrite Ex, Ey, E0, E1. clear Ex Ey x y E0 E1 V0 V1. unfold F. clear F.
  set (p := misses n (ode (wall_values (s_v0 s) (s_v1 s) 0))) in *. set (p1 := misses n (ode (wall_values (s_v0 s + s_dv0 s) (s_v1 s) 0))) in *. set (p2 := misses n (ode (wall_values (s_v0 s) (s_v1 s + s_dv1 s) 0))) in *.
  set (a11 := (fst p1 - fst p) / s_dv0 s) in *. set (a21 := (snd p1 - snd p) / s_dv0 s) in *. set (a12 := (fst p2 - fst p) / s_dv1 s) in *. set (a22 := (snd p2 - snd p) / s_dv1 s) in *.
  destruct HC as [-> | ->]; [fold a11 a12 | fold a21 a22]; field; exact DD.
Qed.
Print Assumptions C84_newton_step.
(* if the miss depends linearly on the two guesses, the next pass stops with both conditions met *)
Theorem C84_newton_exact : forall ode n Tw s s', Tw < 0 -> (forall u v, (forall i, u i = v i) -> ode u = ode v) ->
  iteration ode n Tw s = Some (inr s') ->
  (exists a b c d e f, forall p q, misses n (ode (wall_values p q 0)) = (a * p + b * q + c, d * p + e * q + f)) ->
  misses n (ode (wall_values (s_v0 s') (s_v1 s') 0)) = (0, 0) /\ exists r, iteration ode n Tw s' = Some (inl r) /\ s_v0 r = s_v0 s' /\ s_v1 r = s_v1 s'.
Proof.
  intros ode n Tw s s' AD EX H (a & b & c & d & e & f & HF).
  destruct (iteration_next ode n Tw AD EX s s' H) as (D0 & D1 & _ & _ & _ & _). pose proof (C84_newton_step ode n Tw s s' AD EX H) as NS.
  assert (Z : misses n (ode (wall_values (s_v0 s') (s_v1 s') 0)) = (0, 0)).
  { pose proof (NS fst (or_introl eq_refl)) as N1. pose proof (NS snd (or_intror eq_refl)) as N2. cbv beta zeta in N1, N2. rewrite !HF in N1, N2. cbn [fst snd] in N1, N2. rewrite HF.
    replace (a * (s_v0 s + s_dv0 s) + b * s_v1 s + c - (a * s_v0 s + b * s_v1 s + c)) with (a * s_dv0 s) in N1 by ring.
    replace (a * s_v0 s + b * (s_v1 s + s_dv1 s) + c - (a * s_v0 s + b * s_v1 s + c)) with (b * s_dv1 s) in N1 by ring.
    replace (d * (s_v0 s + s_dv0 s) + e * s_v1 s + f - (d * s_v0 s + e * s_v1 s + f)) with (d * s_dv0 s) in N2 by ring.
    replace (d * s_v0 s + e * (s_v1 s + s_dv1 s) + f - (d * s_v0 s + e * s_v1 s + f)) with (e * s_dv1 s) in N2 by ring.
    replace (a * s_dv0 s / s_dv0 s) with a in N1 by (field; exact D0). replace (b * s_dv1 s / s_dv1 s) with b in N1 by (field; exact D1).
    replace (d * s_dv0 s / s_dv0 s) with d in N2 by (field; exact D0). replace (e * s_dv1 s / s_dv1 s) with e in N2 by (field; exact D1).
    f_equal; lra. }
  split; [exact Z|]. unfold iteration. rewrite (proj2 (less_true Tw 0) AD), (start_sol ode Tw AD EX).
  assert (L : less (error_of n (ode (wall_values (s_v0 s') (s_v1 s') 0))) errtol = true).
  { apply less_true. unfold error_of. unfold misses in Z. injection Z as Z1 Z2. rewrite Z1, Z2, Rabs_R0. unfold errtol. replace (0 + 0) with 0 by ring. apply Rinv_0_lt_compat. apply pow_lt. lra. }
  rewrite L. eexists. split; [reflexivity|]. split; reflexivity.
Qed.
Print Assumptions C84_newton_exact.
(* the solution that is kept: if the iteration stopped, it starts from the reported wall
   temperature and meets the free stream; otherwise it belongs to an increased guess *)
Theorem C84_kept_solution : forall ode n Tw k s r, Tw < 0 -> (forall u v, (forall i, u i = v i) -> ode u = ode v) ->
  (0 < k)%nat -> iterate ode n Tw k s = Some r ->
  (s_soln r = ode (wall_values (s_v0 r) (s_v1 r) 0) /\ Rabs (s_soln r 1%nat n - 1) + Rabs (s_soln r 3%nat n - 1) < / 10 ^ 10) \/
  exists q, iteration ode n Tw q = Some (inr r) /\ s_soln r = ode (wall_values (s_v0 q) (s_v1 q + s_dv1 q) 0) /\
    s_v1 r = s_v1 q + s_dv1 r.
Proof.
  intros ode n Tw k s r AD EX. revert s. induction k as [|k IH]; intros s Hk H; [lia|]. cbn [iterate] in H.
  destruct (iteration ode n Tw s) as [[a | a]|] eqn:E; cbn [obind] in H; [| |discriminate].
  - injection H as <-. left. destruct (iteration_stop ode n Tw AD EX s a E) as (V0 & V1 & S & L). rewrite V0, V1. auto.
  - destruct k as [|k].
    + cbn [iterate] in H. injection H as <-. right. exists s. destruct (iteration_next ode n Tw AD EX s a E) as (_ & _ & _ & _ & _ & _ & V1 & S & _). auto.
    + apply (IH a); [lia | exact H].
Qed.
Print Assumptions C84_kept_solution.

(* a solver for which the iteration never stops: both misses are one over the guess *)
Definition slow_ode (v : vec) : soln := fun i j => match j with
  | O => v i
  | _ => match i with 1%nat => 1 + / v 2%nat | 3%nat => 1 + / v 3%nat | _ => 0 end
  end.
Definition moderate (B : R) (s : shooting) : Prop := 0 < s_v0 s <= B /\ 0 < s_v1 s <= B /\ 0 < s_dv0 s <= B /\ 0 < s_dv1 s <= B.
Lemma slow_ext : forall u v, (forall i, u i = v i) -> slow_ode u = slow_ode v.
Proof. intros u v H. assert (E : u = v) by (apply FunctionalExtensionality.functional_extensionality; exact H). rewrite E. reflexivity. Qed.
Lemma slow_step : forall n Tw B s, Tw < 0 -> (0 < n)%nat -> B <= 1000000 -> moderate B s ->
  exists s', iteration slow_ode n Tw s = Some (inr s') /\ moderate (3 * B) s' /\ s_soln s' 3%nat 0%nat = s_v1 s + s_dv1 s /\ s_v1 s' = 2 * s_v1 s + s_dv1 s.
Proof.
  intros n Tw B s AD Hn HB ((A1 & A2) & (B1 & B2) & (C1 & C2) & (D1 & D2)).
  destruct n as [|m]; [lia|]. set (n := S m).
  assert (MS : forall a b, misses n (slow_ode (wall_values a b 0)) = (/ a, / b)) by (intros a b; unfold misses, n; cbn; f_equal; ring).
  assert (NZ : exists s', iteration slow_ode n Tw s = Some (inr s')).
  { unfold iteration. rewrite (less_ad Tw AD), !(start_sol slow_ode Tw AD slow_ext).
    assert (L : less (error_of n (slow_ode (wall_values (s_v0 s) (s_v1 s) 0))) errtol = false).
    { apply less_false. unfold error_of, n. cbn [slow_ode wall_values]. replace (1 + / s_v0 s - 1) with (/ s_v0 s) by ring. replace (1 + / s_v1 s - 1) with (/ s_v1 s) by ring.
      pose proof (Rinv_0_lt_compat _ A1). pose proof (Rinv_0_lt_compat _ B1). rewrite !Rabs_right by lra.
      assert (/ 10 ^ 10 <= / s_v0 s) by (apply Rinv_le_contravar; [exact A1 | cbn; lra]). unfold errtol. lra. }
    rewrite L. change (residual n) with (misses n). rewrite !MS. cbn [fst snd].
    rewrite !fdiv_ok by lra. cbn [obind].
    assert (G : (/ (s_v0 s + s_dv0 s) - / s_v0 s) / s_dv0 s * ((/ (s_v1 s + s_dv1 s) - / s_v1 s) / s_dv1 s) - (/ s_v1 s - / s_v1 s) / s_dv0 s * ((/ s_v0 s - / s_v0 s) / s_dv1 s)
      = / (s_v0 s * (s_v0 s + s_dv0 s)) * / (s_v1 s * (s_v1 s + s_dv1 s))) by (field; lra).
    assert (GP : 0 < / (s_v0 s * (s_v0 s + s_dv0 s)) * / (s_v1 s * (s_v1 s + s_dv1 s))) by (apply Rmult_lt_0_compat; apply Rinv_0_lt_compat; apply Rmult_lt_0_compat; lra).
    rewrite !fdiv_ok by (rewrite G; lra). cbn [obind]. eexists. reflexivity. }
  destruct NZ as [s' E]. exists s'. split; [exact E|].
  destruct (iteration_next slow_ode n Tw AD slow_ext s s' E) as (_ & _ & _ & E0 & E1 & V0 & V1 & S & _). rewrite !MS in E0, E1. cbn [fst snd] in E0, E1.
  assert (F0 : s_dv0 s' = s_v0 s + s_dv0 s) by (rewrite E0; field; repeat split; lra || (try (intros Q; nra))).
  assert (F1 : s_dv1 s' = s_v1 s + s_dv1 s) by (rewrite E1; field; repeat split; lra || (try (intros Q; nra))).
  unfold moderate. rewrite V0, V1, F0, F1, S. cbn [slow_ode wall_values]. lra.
Qed.
(* when the five passes do not suffice, the temperature of the kept solution at the wall is
   not the reported wall temperature; nothing is reported *)
Theorem C84_wall_temperature_refuted : exists ode Tw gama xmach v1_power r,
  Tw < 0 /\ starts ode /\ (forall u v, (forall i, u i = v i) -> ode u = ode v) /\
  iterate ode (jmax - 1) Tw n_iter (first_guess Tw gama xmach v1_power) = Some r /\ s_soln r 3%nat 0%nat <> s_v1 r.
Proof.
  exists slow_ode, (-1), (14 / 10), 2, 1.
  assert (AD : -1 < 0) by lra. assert (N : (0 < jmax - 1)%nat) by (unfold jmax; lia).
  assert (M0 : moderate 2 (first_guess (-1) (14 / 10) 2 1)).
  { unfold moderate, first_guess. rewrite (proj2 (less_true (-1) 0) AD), (proj2 (less_false 0 (-1)) ltac:(lra)). cbn [s_v0 s_v1 s_dv0 s_dv1].
    replace (2 ^ 2) with 4 by ring. lra. }
  destruct (slow_step _ _ 2 _ AD N ltac:(lra) M0) as (s1 & I1 & M1 & _). destruct (slow_step _ _ (3 * 2) _ AD N ltac:(lra) M1) as (s2 & I2 & M2 & _).
  destruct (slow_step _ _ (3 * (3 * 2)) _ AD N ltac:(lra) M2) as (s3 & I3 & M3 & _). destruct (slow_step _ _ (3 * (3 * (3 * 2))) _ AD N ltac:(lra) M3) as (s4 & I4 & M4 & _).
  destruct (slow_step _ _ (3 * (3 * (3 * (3 * 2)))) _ AD N ltac:(lra) M4) as (s5 & I5 & _ & T5 & V5). exists s5.
  split; [exact AD|]. split; [intros v i _; reflexivity|]. split; [exact slow_ext|]. split.
  - unfold n_iter. cbn [iterate]. rewrite I1. cbn [obind]. rewrite I2. cbn [obind]. rewrite I3. cbn [obind]. rewrite I4. cbn [obind]. rewrite I5. reflexivity.
  - rewrite T5, V5. destruct M4 as (_ & (P & _) & _). lra.
Qed.
Print Assumptions C84_wall_temperature_refuted.
(* with a given wall temperature the first increment is zero, so that the first pass
   divides by zero, whatever the solver *)
Theorem C84_isothermal_refuted : forall ode Tw gama xmach v1_power, 0 < Tw ->
  / 10 ^ 10 <= error_of (jmax - 1) (ode (vstart Tw 0 (1141575 / 1000000))) -> boundary_layer ode Tw gama xmach v1_power = None.
Proof.
  intros ode Tw gama xmach v1_power HT HE. unfold boundary_layer, n_iter. cbn [iterate].
  assert (I : iteration ode (jmax - 1) Tw (first_guess Tw gama xmach v1_power) = None); [|rewrite I; reflexivity].
  unfold iteration, first_guess. rewrite (proj2 (less_true 0 Tw) HT), (proj2 (less_false Tw 0) ltac:(lra)). cbn [s_v0 s_v1 s_dv0 s_dv1].
  rewrite (proj2 (less_false _ errtol)) by exact HE. unfold fdiv at 1. destruct (Req_EM_T (0 * (1 / 100)) 0) as [_ | N]; [reflexivity | exfalso; lra].
Qed.
Print Assumptions C84_isothermal_refuted.

(* ---- coordinates ---- *)
Lemma sumd_trapezoid : forall h s i, sumd (h * (1 / 2)) s i = trapezoid h (fun j => s 3%nat j - s 1%nat j) i.
Proof. induction i as [|i IH]; cbn [sumd trapezoid]; [reflexivity|]. rewrite IH. field. Qed.
Lemma spacing : half_spacing = 10 / 1000 * (1 / 2).
Proof. unfold half_spacing, etamax, jmax. replace (INR (1001 - 1)) with 1000; [reflexivity|]. rewrite INR_IZR_INZ. reflexivity. Qed.
Lemma scale_trapezoid : forall s, sumd half_spacing s (jmax - 1) = trapezoid (10 / 1000) (fun j => s 3%nat j - s 1%nat j) 1000.
Proof. intros s. rewrite spacing, sumd_trapezoid. assert (E : (jmax - 1)%nat = 1000%nat) by reflexivity. rewrite E. reflexivity. Qed.
(* the wall is at y = 0; the distance of two points is the integral of the temperature in
   the similarity coordinate, in multiples of the displacement thickness *)
Theorem C84_coordinates : forall ode Tw gama xmach v1_power d,
  Tw < 0 -> starts ode -> (forall u v, (forall i, u i = v i) -> ode u = ode v) -> boundary_layer ode Tw gama xmach v1_power = Some d ->
  d_y d 0%nat = 0 /\ d_u d 0%nat = 0 /\
  d_scale d <> 0 /\ trapezoid (10 / 1000) (fun i => (d_T d i - d_u d i) / d_scale d) 1000 = 1 /\
  (forall i, (i < 1000)%nat -> d_y d (S i) - d_y d i = 10 / 1000 * (d_T d (S i) + d_T d i) / 2 / d_scale d) /\
  (0 < d_scale d -> (forall i, (i <= 1000)%nat -> 0 < d_T d i) -> forall i, (i < 1000)%nat -> d_y d i < d_y d (S i)) /\
  wall_slope (d_y d) (d_u d) = Some (d_dudy d).
Proof.
  intros ode Tw gama xmach v1_power d AD ST EX H. unfold boundary_layer in H.
  destruct (iterate ode (jmax - 1) Tw n_iter (first_guess Tw gama xmach v1_power)) as [r|] eqn:EI; cbn [obind] in H; [|discriminate].
  set (scale := sumd half_spacing (s_soln r) (jmax - 1)) in H. destruct (fdiv 1 scale) as [q|] eqn:ES; cbn [obind] in H; [|discriminate].
  apply fdiv_some in ES. destruct ES as [NS _]. destruct (wall_slope _ _) as [sl|] eqn:EW in H; cbn [obind] in H; [|discriminate]. injection H as <-. cbn [d_y d_u d_T d_scale d_dudy].
  assert (ESC : scale = trapezoid (10 / 1000) (fun j => s_soln r 3%nat j - s_soln r 1%nat j) 1000).
  { exact (scale_trapezoid (s_soln r)). }
  clearbody scale.
  assert (STEP : forall i, z_of half_spacing (s_soln r) (S i) / scale - z_of half_spacing (s_soln r) i / scale = 10 / 1000 * (s_soln r 3%nat (S i) + s_soln r 3%nat i) / 2 / scale).
  { intros i. cbn [z_of]. rewrite spacing. generalize (10 / 1000). intros h. field. exact NS. }
  assert (S0 : s_soln r 1%nat 0%nat = 0).
  { destruct (C84_kept_solution ode (jmax - 1) Tw n_iter _ r AD EX ltac:(unfold n_iter; lia) EI) as [[-> _] | (q' & _ & -> & _)]; rewrite ST by lia; reflexivity. }
  split; [cbn [z_of]; unfold Rdiv; ring|]. split; [exact S0|]. split; [exact NS|]. split.
  - assert (TR : forall n, trapezoid (10 / 1000) (fun i => (s_soln r 3%nat i - s_soln r 1%nat i) / scale) n = trapezoid (10 / 1000) (fun j => s_soln r 3%nat j - s_soln r 1%nat j) n / scale).
    { induction n as [|n IH]; cbn [trapezoid]; [unfold Rdiv; ring|]. rewrite IH. generalize (10 / 1000). intros h. field. exact NS. }
    rewrite TR, <- ESC. field. exact NS.
  - split; [intros i _; apply STEP|]. split; [|exact EW]. intros HP HT i Hi. specialize (STEP i). pose proof (HT i ltac:(lia)). pose proof (HT (S i) ltac:(lia)).
    assert (0 < 10 / 1000 * (s_soln r 3%nat (S i) + s_soln r 3%nat i) / 2 / scale).
    { unfold Rdiv. repeat apply Rmult_lt_0_compat; try lra. apply Rinv_0_lt_compat. exact HP. }
    lra.
Qed.
Print Assumptions C84_coordinates.
(* what is reported belongs to the solution that is kept (see C84_kept_solution); if that
   solution is the one of the last guesses, the profile starts at the reported wall temperature *)
Theorem C84_reported : forall ode Tw gama xmach v1_power d, Tw < 0 -> starts ode -> boundary_layer ode Tw gama xmach v1_power = Some d ->
  exists r, iterate ode (jmax - 1) Tw n_iter (first_guess Tw gama xmach v1_power) = Some r /\
    d_u d = s_soln r 1%nat /\ d_T d = s_soln r 3%nat /\ d_twall d = s_v1 r /\
    (s_soln r = ode (wall_values (s_v0 r) (s_v1 r) 0) -> d_T d 0%nat = d_twall d).
Proof.
  intros ode Tw gama xmach v1_power d AD ST H. unfold boundary_layer in H.
  destruct (iterate ode (jmax - 1) Tw n_iter (first_guess Tw gama xmach v1_power)) as [r|]; cbn [obind] in H; [|discriminate].
  destruct (fdiv 1 _) as [q|]; cbn [obind] in H; [|discriminate]. destruct (wall_slope _ _) as [sl|]; cbn [obind] in H; [|discriminate]. injection H as <-. cbn [d_u d_T d_twall].
  exists r. repeat (split; [reflexivity|]). intros E. rewrite E, ST by lia. reflexivity.
Qed.
Print Assumptions C84_reported.
(* slope at the wall: exact up to rounding of the weights for cubics on equidistant points *)
Theorem C84_wall_slope : forall (y u : nat -> R) a b c d B, 0 < y 1%nat ->
  (forall i, (i < 6)%nat -> u i = a + b * (INR i * y 1%nat) + c * (INR i * y 1%nat) ^ 2 + d * (INR i * y 1%nat) ^ 3 /\ Rabs (u i) <= B) ->
  exists s, wall_slope y u = Some s /\ Rabs (s - b) <= / 10 ^ 13 * B / y 1%nat.
Proof.
  intros y u a b c d B Hy H. unfold wall_slope. rewrite fdiv_ok by lra. eexists. split; [reflexivity|].
  assert (Hb : forall i, (i < 6)%nat -> - B <= u i <= B) by (intros i Hi; destruct (H i Hi) as [_ Q]; unfold Rabs in Q; destruct (Rcase_abs (u i)); lra).
  pose proof (Hb 0%nat ltac:(lia)). pose proof (Hb 1%nat ltac:(lia)). pose proof (Hb 2%nat ltac:(lia)). pose proof (Hb 3%nat ltac:(lia)). pose proof (Hb 4%nat ltac:(lia)). pose proof (Hb 5%nat ltac:(lia)).
  assert (EB : b * y 1%nat = - (11 / 6) * u 0%nat + 3 * u 1%nat - 3 / 2 * u 2%nat + 1 / 3 * u 3%nat).
  { rewrite (proj1 (H 0%nat ltac:(lia))), (proj1 (H 1%nat ltac:(lia))), (proj1 (H 2%nat ltac:(lia))), (proj1 (H 3%nat ltac:(lia))). cbn [INR]. field. }
  match goal with |- Rabs (?X / _ - b) <= _ => replace (X / y 1%nat - b) with ((X - b * y 1%nat) * / y 1%nat) by (generalize X; intros; field; lra) end.
  rewrite EB, Rabs_mult, (Rabs_right (/ y 1%nat)) by (apply Rle_ge, Rlt_le, Rinv_0_lt_compat, Hy).
  apply Rmult_le_compat_r; [apply Rlt_le, Rinv_0_lt_compat, Hy|]. unfold e15. replace (/ 10 ^ 15) with (1 / 1000000000000000) by (cbn; lra). replace (/ 10 ^ 13) with (1 / 10000000000000) by (cbn; lra).
  replace (/ 10 ^ 29) with (1 / 100000000000000000000000000000) by (cbn; lra).
  unfold Rabs. destruct (Rcase_abs _); lra.
Qed.
Print Assumptions C84_wall_slope.
(* but the points are not equidistant: a linear profile, temperature 1 at two points and 2 beyond *)
Theorem C84_wall_slope_refuted : exists (s : soln) d_eta, 0 < d_eta /\ (forall i, 0 < s 3%nat i) /\
  exists q, wall_slope (z_of d_eta s) (z_of d_eta s) = Some q /\ q < 8 / 10.
Proof.
  exists (fun i j => if (j <=? 1)%nat then 1 else 2), (1 / 2). split; [lra|]. split; [intros i; destruct (i <=? 1)%nat; lra|].
  unfold wall_slope. rewrite fdiv_ok by (cbn; lra). eexists. split; [reflexivity|]. cbn [z_of Nat.leb]. unfold e15.
  replace (/ 10 ^ 15) with (1 / 1000000000000000) by (cbn; lra). replace (/ 10 ^ 29) with (1 / 100000000000000000000000000000) by (cbn; lra). lra.
Qed.
Print Assumptions C84_wall_slope_refuted.

(* ---- interpolation and edge ---- *)
Theorem C84_interpolated : forall (y_in y_out var : nat -> R) n y0 yn, (2 <= n)%nat -> (forall i, (i + 1 < n)%nat -> y_in i < y_in (i + 1)%nat) ->
  exists S S1 S2 : R -> R, (forall i, interpolate_onto_grid y_in n y_out var y0 yn i = Ok (S (y_out i))) /\
    (forall i, (i < n)%nat -> S (y_in i) = var i) /\ (forall t, derivable_pt_lim S t (S1 t) /\ derivable_pt_lim S1 t (S2 t) /\ continuity_pt S2 t) /\
    (y0 <= 99 * 10 ^ 28 -> S1 (y_in 0%nat) = y0) /\ (yn <= 99 * 10 ^ 28 -> S1 (y_in (n - 1)%nat) = yn).
Proof.
  intros y_in y_out var n y0 yn Hn Hy. destruct (C54_spline y_in var n y0 yn Hn Hy) as (S & S1 & S2 & A & B & _ & D & E & _ & G & _).
  exists S, S1, S2. split; [intros i; apply A|]. auto.
Qed.
Print Assumptions C84_interpolated.
Lemma find_edge_spec : forall v n tol fuel k, (n <= k + fuel)%nat -> (0 < k)%nat ->
  match find_edge v n tol fuel k with
  | Ok e => (k <= e < n)%nat /\ Rabs (v e - v (e - 1)%nat) <= tol /\ forall i, (k <= i < e)%nat -> tol < Rabs (v i - v (i - 1)%nat)
  | Err x => x = IndexErr /\ forall i, (k <= i < n)%nat -> tol < Rabs (v i - v (i - 1)%nat)
  end.
Proof.
  induction fuel as [|fuel IH]; intros k Hf Hk; cbn [find_edge]; [split; auto; intros; lia|].
  destruct (Nat.ltb_spec k n) as [L | L]; [|split; auto; intros; lia].
  destruct (less tol _) eqn:E; [apply less_true in E | apply less_false in E; split; [lia|]; split; [exact E | intros; lia]].
  specialize (IH (S k) ltac:(lia) ltac:(lia)). destruct (find_edge v n tol fuel (S k)) as [e|x].
  - destruct IH as (H1 & H2 & H3). split; [lia|]. split; [exact H2|]. intros i Hi. destruct (Nat.eq_dec i k) as [-> | N]; [exact E | apply H3; lia].
  - destruct IH as (H1 & H3). split; [exact H1|]. intros i Hi. destruct (Nat.eq_dec i k) as [-> | N]; [exact E | apply H3; lia].
Qed.
(* the edge is the first point where the profile has stopped changing *)
Theorem C84_edge : forall v n tol e, (0 < n)%nat ->
  (find_edge_of_bl v n tol = Ok e <->
   (1 <= e < n)%nat /\ Rabs (v e - v (e - 1)%nat) <= tol /\ forall i, (1 <= i < e)%nat -> tol < Rabs (v i - v (i - 1)%nat)) /\
  (find_edge_of_bl v n tol = Err IndexErr <-> forall i, (1 <= i < n)%nat -> tol < Rabs (v i - v (i - 1)%nat)).
Proof.
  intros v n tol e Hn. unfold find_edge_of_bl. pose proof (find_edge_spec v n tol n 1 ltac:(lia) ltac:(lia)) as S. destruct (find_edge v n tol n 1) as [f|x].
  - destruct S as (H1 & H2 & H3). split; split.
    + intros E. injection E as <-. auto.
    + intros (K1 & K2 & K3). f_equal. destruct (lt_eq_lt_dec f e) as [[L | L] | L]; [|exact L|].
      * specialize (K3 f ltac:(lia)). lra.
      * specialize (H3 e ltac:(lia)). lra.
    + discriminate.
    + intros K. specialize (K f H1). lra.
  - destruct S as (-> & H3). split; split; [discriminate | | auto | auto]. intros (K1 & K2 & K3). specialize (H3 e K1). lra.
Qed.
Print Assumptions C84_edge.

(* ---- wall-normal momentum ---- *)
Lemma delsx_one : forall scale re, 0 < scale -> 0 < re -> delsx scale re = 1.
Proof.
  intros scale re Hs Hr. unfold delsx, rex0, x0.
  replace (1 / 2 * (re / scale) ^ 2) with (((re / scale) / sqrt 2) * ((re / scale) / sqrt 2)).
  2: { pose proof (sqrt_sqrt 2 ltac:(lra)) as Q. assert (0 < sqrt 2) by (apply sqrt_lt_R0; lra). replace (re / scale / sqrt 2 * (re / scale / sqrt 2)) with ((re / scale) ^ 2 * / (sqrt 2 * sqrt 2)) by (field; lra). rewrite Q. field. lra. }
  assert (Q2 : 0 < sqrt 2) by (apply sqrt_lt_R0; lra). rewrite sqrt_square.
  2: { apply Rlt_le. unfold Rdiv. repeat apply Rmult_lt_0_compat; try apply Rinv_0_lt_compat; lra. }
  pose proof (sqrt_sqrt 2 ltac:(lra)) as Q. replace (sqrt 2 * scale * (1 / 2 * re / scale ^ 2) / (re / scale / sqrt 2)) with (sqrt 2 * sqrt 2 / 2) by (field; lra). rewrite Q. lra.
Qed.
Lemma ya2_same : forall y scale re j, 0 < scale -> 0 < re -> ya2 y scale re j = y.
Proof.
  intros y scale re j Hs Hr. apply FunctionalExtensionality.functional_extensionality. intros i. unfold ya2. rewrite delsx_one by auto. destruct (i <=? j)%nat; ring.
Qed.
(* the boundary layer is self-similar around x0: at x the profile is stretched by sqrt (x/x0);
   the computed momentum satisfies continuity, with the central difference in x over 2/1000
   and the trapezoidal rule in y, and is zero at the wall *)
Theorem C84_continuity : forall n (y u rho : nat -> R) scale re dudy, (2 <= n)%nat -> (forall i, (i + 1 < n)%nat -> y i < y (i + 1)%nat) -> y 0%nat = 0 ->
  0 < scale -> 0 < re ->
  let x0 := re / (2 * scale ^ 2) in 1 / 1000 < x0 ->
  exists (U D : R -> R) (r : nat -> R),
    (forall i, (i < n)%nat -> U (y i) = u i /\ D (y i) = rho i) /\
    let m x t := D (t / sqrt (x / x0)) * U (t / sqrt (x / x0)) in
    let dmdx t := (m (x0 + 1 / 1000) t - m (x0 - 1 / 1000) t) / (2 / 1000) in
    (forall j, (j < n)%nat -> SimModel.continuity n y u rho scale re dudy j = Ok (r j, dmdx (y j))) /\
    r 0%nat = 0 /\ forall j, r (S j) = r j - (y (S j) - y j) * (dmdx (y (S j)) + dmdx (y j)) / 2.
Proof.
  intros n y u rho scale re dudy Hn Hy Hy0 Hs Hr x0 _.
  assert (E0 : SimModel.x0 scale re = x0) by (unfold SimModel.x0, x0; field; lra).
  destruct (C54_spline y u n dudy 0 Hn Hy) as (U & U1 & U2 & UA & UB & _). destruct (C54_spline y rho n 0 0 Hn Hy) as (D & D1 & D2 & DA & DB & _).
  set (m := fun x t => D (t / sqrt (x / x0)) * U (t / sqrt (x / x0))).
  set (dm := fun t => (m (x0 + 1 / 1000) t - m (x0 - 1 / 1000) t) / (2 / 1000)).
  assert (EY : (fun i => delsx scale re * y i) = y) by (apply FunctionalExtensionality.functional_extensionality; intros i; rewrite delsx_one by auto; ring).
  assert (DR : forall j, drudx n y u rho scale re dudy j = Ok (dm (y j))).
  { intros j. unfold drudx. rewrite EY, ya2_same by auto. rewrite UA. cbn [bind]. rewrite UA. cbn [bind]. rewrite DA. cbn [bind]. rewrite DA. cbn [bind]. f_equal.
    unfold dm, m. rewrite E0, delsx_one by auto. rewrite !Rmult_1_l. unfold delta. replace (2 * (1 / 1000)) with (2 / 1000) by lra. reflexivity. }
  assert (Z : dm 0 = 0) by (unfold dm, m, Rdiv; rewrite !Rmult_0_l; ring).
  set (r := fix r j := match j with O => 0 | S i => r i - (y (S i) - y i) * (dm (y (S i)) + dm (y i)) / 2 end).
  exists U, D, r. split; [auto|]. cbv zeta. fold m. fold dm. split; [|split; [reflexivity | intros j; reflexivity]].
  intros j _. induction j as [|j IH]; cbn [SimModel.continuity].
  - rewrite DR. cbn [bind]. rewrite Hy0, Z. f_equal. f_equal. cbn. ring.
  - rewrite IH. cbn [bind]. rewrite DR. cbn [bind]. rewrite !ya2_same by auto. f_equal. f_equal. cbn [r]. fold r. field.
Qed.
Print Assumptions C84_continuity.

(* ---- fits ---- *)
Lemma horner_rev : forall cs y, horner (rev cs) y = polynomial_of (map Q2R cs) y.
Proof.
  intros cs y. induction cs as [|c cs IH]; [reflexivity|]. cbn [rev map]. rewrite horner_snoc. unfold polynomial_of in *. cbn [fold_right]. rewrite <- IH. ring.
Qed.
Lemma misfit_zero : forall cs ps, 0 <= fold_right Rplus 0 (map (fun p => (polynomial_of cs (fst p) - snd p) ^ 2) ps) /\
  (fold_right Rplus 0 (map (fun p => (polynomial_of cs (fst p) - snd p) ^ 2) ps) <= 0 -> forall p, In p ps -> polynomial_of cs (fst p) = snd p).
Proof.
  intros cs. induction ps as [|p ps [IH1 IH2]]; cbn [map fold_right]; [split; [lra | intros _ p []]|].
  pose proof (pow2_ge_0 (polynomial_of cs (fst p) - snd p)) as S. split; [lra|]. intros H q [<- | Hq].
  - assert (Q : (polynomial_of cs (fst p) - snd p) ^ 2 = 0) by lra. cbn in Q. rewrite Rmult_1_r in Q. apply Rmult_integral in Q. lra.
  - apply IH2; [lra | exact Hq].
Qed.
(* the profile is the polynomial found by polyfit (one coefficient more than asked for)
   below the edge and the value at the edge above; data on such a polynomial are reproduced *)
Theorem C84_fit : forall float polyfit (var : nat -> R) edge n,
  let xs := map (fun i => 20 * INR i / 9999) (seq 0 edge) in let vs := map var (seq 0 edge) in
  let cs := polyfit xs vs n in least_squares cs xs vs n ->
  let f := fit_of float polyfit var edge n in
  List.length (fit_coeffs f) = Z.to_nat (n + 1) /\
  (forall y, y < Q2R (float (20 * INR edge / 9999)) -> profile f y = polynomial_of (map Q2R cs) y) /\
  (forall y, Q2R (float (20 * INR edge / 9999)) <= y -> profile f y = Q2R (float (var edge))) /\
  ((exists ps, List.length ps = Z.to_nat (n + 1) /\ forall i, (i < edge)%nat -> polynomial_of ps (20 * INR i / 9999) = var i) ->
   forall i, (i < edge)%nat -> horner (fit_coeffs f) (20 * INR i / 9999) = var i).
Proof.
  intros float polyfit var edge n xs vs cs [L1 L2] f.
  assert (E : forall i, uniform_coordinate i = 20 * INR i / 9999).
  { intros i. unfold uniform_coordinate, n_elem. replace (INR (100 * 100 - 1)) with 9999; [reflexivity|]. rewrite INR_IZR_INZ. reflexivity. }
  assert (EX : map uniform_coordinate (seq 0 edge) = xs) by (unfold xs; apply map_ext; exact E).
  assert (EC : fit_coeffs f = rev cs) by (unfold f, fit_of, fit_polynomial; cbn [fit_coeffs]; rewrite EX; reflexivity). assert (EE : fit_edge f = float (20 * INR edge / 9999)) by (unfold f, fit_of; cbn [fit_edge]; rewrite E; reflexivity).
  split; [rewrite EC, rev_length; exact L1|]. split; [|split].
  - intros y Hy. unfold profile, below. rewrite EE, EC. destruct (Rlt_dec _ _); [apply horner_rev | contradiction].
  - intros y Hy. unfold profile, below. rewrite EE. destruct (Rlt_dec _ _); [lra | reflexivity].
  - intros (ps & Lp & Hp) i Hi. rewrite EC, horner_rev.
    assert (Zp : misfit ps xs vs = 0).
    { rewrite <- EX. unfold misfit, vs. assert (G : forall l, (forall j, In j l -> (j < edge)%nat) -> fold_right Rplus 0 (map (fun p => (polynomial_of ps (fst p) - snd p) ^ 2) (combine (map uniform_coordinate l) (map var l))) = 0).
      { induction l as [|j l IH]; intros Hl; [reflexivity|]. cbn [map combine fold_right fst snd]. rewrite IH by (intros; apply Hl; right; auto). rewrite E, Hp by (apply Hl; left; reflexivity). ring. }
      apply G. intros j Hj. apply in_seq in Hj. lia. }
    specialize (L2 ps Lp). rewrite Zp in L2. unfold misfit, vs in L2. rewrite <- EX in L2. destruct (misfit_zero (map Q2R cs) (combine (map uniform_coordinate (seq 0 edge)) (map var (seq 0 edge)))) as [_ Z].
    specialize (Z L2 (uniform_coordinate i, var i)). cbn [fst snd] in Z. rewrite <- E. apply Z.
    assert (G : forall l, In i l -> In (uniform_coordinate i, var i) (combine (map uniform_coordinate l) (map var l))).
    { induction l as [|j l IH]; intros Hl; [destruct Hl|]. destruct Hl as [-> | Hl]; [left; reflexivity | right; auto]. }
    apply G. apply in_seq. lia.
Qed.
Print Assumptions C84_fit.
(* the scaled temperature is 0 at the wall and 1 in the free stream, and gives T back *)
Theorem C84_scaling : forall (T : nat -> R) Tw Tinf i, Tw <> Tinf ->
  let g := temperature_scaling T Tw Tinf i in
  Tw + g * (Tinf - Tw) = T i /\ (g = 0 <-> T i = Tw) /\ (g = 1 <-> T i = Tinf).
Proof.
  intros T Tw Tinf i H g. assert (E : Tw + g * (Tinf - Tw) = T i) by (unfold g, temperature_scaling; field; lra). split; [exact E|].
  split; split; intros K.
  - rewrite K in E. lra.
  - unfold g, temperature_scaling. rewrite K. unfold Rdiv. ring.
  - rewrite K in E. lra.
  - unfold g, temperature_scaling. rewrite K. field. lra.
Qed.
Print Assumptions C84_scaling.

Theorem C84_constants : forall l, (forall r, find_constant_values l = Ok r <-> l = map Some r) /\ (find_constant_values l = Err ValueError <-> In None l).
Proof.
  induction l as [|[a|] l [IH1 IH2]]; cbn [find_constant_values].
  - split; [|split; [discriminate | intros []]]. intros [|b r]; split; intros H; try discriminate; reflexivity.
  - destruct (find_constant_values l) as [q|x]; cbn [bind].
    + split.
      * intros [|b r]; [split; discriminate|]. cbn [map]. split; intros H; injection H as -> H; f_equal.
        -- subst q. apply IH1. reflexivity.
        -- f_equal. apply IH1 in H. injection H as ->. reflexivity.
      * split; [discriminate|]. intros [H | H]; [discriminate | apply IH2 in H; discriminate].
    + split.
      * intros [|b r]; [split; discriminate|]. cbn [map]. split; [discriminate|]. intros H. injection H as -> H. apply IH1 in H. discriminate.
      * split; [intros H; right; apply IH2; exact H|]. intros [H | H]; [discriminate|]. apply IH2. exact H.
  - split; [|split; auto; intros _; left; reflexivity]. intros [|b r]; split; discriminate.
Qed.
Print Assumptions C84_constants.

(* ---- the hypotheses can be met ---- *)
(* heat conduction at rest, viscosity proportional to the square root of the temperature *)
Definition conduction (t : R) : nat -> R := fun i => match i with 3%nat => (1 + t) * (1 + t) | 4%nat => 2 * (1 + t) | _ => 0 end.
Example C84_equations_nonvacuous :
  let p := {| g_pr := 1; g_gama := 14 / 10; g_mach := 2; g_suth := 0 |} in
  0 < conduction 0 3%nat /\ 0 < conduction 0 3%nat + g_suth p /\ 0 < 1 + g_suth p /\
  forall i, (i < 5)%nat -> derivable_pt_lim (fun t => conduction t i) 0 (compbl p (conduction 0) i).
Proof.
  cbn [conduction g_suth]. split; [lra|]. split; [lra|]. split; [lra|]. intros i Hi.
  assert (Q : sqrt ((1 + 0) * (1 + 0)) = 1) by (replace ((1 + 0) * (1 + 0)) with 1 by ring; apply sqrt_1).
  assert (D1 : derivable_pt_lim (fun t => 1 + t) 0 1).
  { pose proof (derivable_pt_lim_plus (fct_cte 1) id 0 0 1 (derivable_pt_lim_const 1 0) (derivable_pt_lim_id 0)) as D. rewrite Rplus_0_l in D. exact D. }
  destruct i as [|[|[|[|[|i]]]]]; [| | | | |lia].
  - apply derivable_pt_lim_const.
  - apply derivable_pt_lim_const.
  - replace (compbl _ _ 2%nat) with 0; [apply derivable_pt_lim_const|]. cbn [compbl conduction]. unfold Rdiv. ring.
  - pose proof (derivable_pt_lim_mult _ _ _ _ _ D1 D1) as D. unfold mult_fct in D. cbn [compbl conduction].
    replace (2 * (1 + 0)) with (1 * (1 + 0) + (1 + 0) * 1) by ring. exact D.
  - pose proof (derivable_pt_lim_scal _ 2 _ _ D1) as D. unfold mult_real_fct in D. cbn [compbl conduction g_pr g_gama g_mach g_suth].
    match goal with |- derivable_pt_lim _ _ ?l => replace l with (2 * 1) end; [exact D|]. rewrite Q. field.
Qed.
(* a solver with linear profiles *)
Definition linear_ode (v : vec) : soln := fun i j => match i with
  | 1%nat => v 1%nat + v 2%nat * (INR j / 1000) | 3%nat => v 3%nat - 1 / 2 * (INR j / 1000) | _ => v i end.
Lemma linear_ext : forall u v, (forall i, u i = v i) -> linear_ode u = linear_ode v.
Proof. intros u v H. assert (E : u = v) by (apply FunctionalExtensionality.functional_extensionality; exact H). rewrite E. reflexivity. Qed.
Lemma linear_misses : forall p q, misses (jmax - 1) (linear_ode (wall_values p q 0)) = (1 * p + 0 * q + -1, 0 * p + 1 * q + - (3 / 2)).
Proof.
  intros p q. unfold misses, linear_ode, wall_values. assert (E : INR (jmax - 1) = 1000) by (rewrite INR_IZR_INZ; reflexivity). rewrite E. f_equal; field.
Qed.
Lemma trapezoid_linear : forall h a b n, trapezoid h (fun i => a + b * INR i) n = h * (a * INR n + b * (INR n) ^ 2 / 2).
Proof. induction n as [|n IH]; cbn [trapezoid]; [cbn; field|]. rewrite IH, S_INR. field. Qed.
Example C84_nonvacuous : exists s' d, iteration linear_ode (jmax - 1) (-1) (first_guess (-1) (14 / 10) 2 1) = Some (inr s') /\ s_v1 s' = 3 / 2 /\
  starts linear_ode /\ (forall u v, (forall i, u i = v i) -> linear_ode u = linear_ode v) /\
  boundary_layer linear_ode (-1) (14 / 10) 2 1 = Some d /\ d_twall d = 3 / 2 /\ d_scale d = 15 / 2.
Proof.
  assert (AD : -1 < 0) by lra.
  remember (first_guess (-1) (14 / 10) 2 1) as g eqn:Hg.
  assert (G0 : s_v0 g = 47 / 100 /\ s_dv0 g = 47 / 10000 /\ s_dv1 g = s_v1 g / 100 /\ 1 < s_v1 g).
  { rewrite Hg. unfold first_guess. rewrite (proj2 (less_true (-1) 0) AD), (proj2 (less_false 0 (-1)) ltac:(lra)). cbn [s_v0 s_v1 s_dv0 s_dv1]. replace (2 ^ 2) with 4 by ring. lra. }
  destruct G0 as (G0 & G1 & G2 & G3).
  assert (NZ : exists s', iteration linear_ode (jmax - 1) (-1) g = Some (inr s')).
  { unfold iteration. rewrite (less_ad (-1) AD), !(start_sol linear_ode (-1) AD linear_ext).
    assert (L : less (error_of (jmax - 1) (linear_ode (wall_values (s_v0 g) (s_v1 g) 0))) errtol = false).
    { apply less_false. pose proof (linear_misses (s_v0 g) (s_v1 g)) as M. unfold misses in M. pose proof (f_equal fst M) as M1. pose proof (f_equal snd M) as M2. cbn [fst snd] in M1, M2. unfold error_of. rewrite M1, M2, G0. pose proof (Rabs_pos (0 * (47 / 100) + 1 * s_v1 g + - (3 / 2))).
      rewrite (Rabs_left (1 * (47 / 100) + 0 * s_v1 g + -1)) by lra. unfold errtol. assert (/ 10 ^ 10 <= / 10) by (apply Rinv_le_contravar; [lra | cbn; lra]). lra. }
    rewrite L. change (residual (jmax - 1)) with (misses (jmax - 1)). rewrite !linear_misses. cbn [fst snd].
    rewrite !fdiv_ok by lra. cbn [obind]. rewrite !fdiv_ok by (match goal with |- ?x <> 0 => replace x with 1 by (field; lra) end; lra).
    cbn [obind]. eexists. reflexivity. }
  destruct NZ as [s' E].
  destruct (C84_newton_exact linear_ode (jmax - 1) (-1) g s' AD linear_ext E) as [Z (r & Er & R0 & R1)].
  { exists 1, 0, (-1), 0, 1, (- (3 / 2)). exact linear_misses. }
  rewrite linear_misses in Z. pose proof (f_equal fst Z) as Z0. pose proof (f_equal snd Z) as Z1. cbn [fst snd] in Z0, Z1. assert (V0 : s_v0 s' = 1) by lra. assert (V1 : s_v1 s' = 3 / 2) by lra.
  destruct (iteration_stop linear_ode (jmax - 1) (-1) AD linear_ext s' r Er) as (_ & _ & SO & _). rewrite V0, V1 in SO.
  assert (U : forall j, s_soln r 1%nat j = INR j / 1000) by (intros j; rewrite SO; cbn [linear_ode wall_values]; lra).
  assert (T : forall j, s_soln r 3%nat j = 3 / 2 - 1 / 2 * (INR j / 1000)) by (intros j; rewrite SO; cbn [linear_ode wall_values]; lra).
  assert (SC : sumd half_spacing (s_soln r) (jmax - 1) = 15 / 2).
  { rewrite scale_trapezoid. replace (fun j => s_soln r 3%nat j - s_soln r 1%nat j) with (fun j => 3 / 2 + - (3 / 2000) * INR j) by (apply FunctionalExtensionality.functional_extensionality; intros j; rewrite U, T; field).
    rewrite trapezoid_linear. assert (EE : INR 1000 = 1000) by (rewrite INR_IZR_INZ; reflexivity). rewrite EE. field. }
  assert (Y1 : z_of half_spacing (s_soln r) 1 / (15 / 2) <> 0).
  { cbn [z_of]. rewrite !T, spacing. cbn [INR]. lra. }
  assert (B : exists q, boundary_layer linear_ode (-1) (14 / 10) 2 1 = Some {| d_y := fun i => z_of half_spacing (s_soln r) i / (15 / 2); d_u := s_soln r 1%nat; d_T := s_soln r 3%nat; d_scale := 15 / 2; d_twall := s_v1 r; d_dudy := q |}).
  2: { destruct B as [q B]. exists s', {| d_y := fun i => z_of half_spacing (s_soln r) i / (15 / 2); d_u := s_soln r 1%nat; d_T := s_soln r 3%nat; d_scale := 15 / 2; d_twall := s_v1 r; d_dudy := q |}.
       split; [exact E|]. split; [exact V1|]. split; [|split; [exact linear_ext|]].
       - intros v i Hi. unfold linear_ode. destruct i as [|[|[|[|i]]]]; try reflexivity; cbn [INR]; field.
       - split; [exact B|]. cbn [d_twall d_scale]. split; [lra | reflexivity]. }
  unfold boundary_layer, n_iter. rewrite <- Hg. cbn [iterate]. rewrite E. cbn [obind]. rewrite Er. cbn [obind]. rewrite SC, fdiv_ok by lra. cbn [obind].
  unfold wall_slope. rewrite fdiv_ok by exact Y1. cbn [obind]. eexists. reflexivity.
Qed.
Example C84_wall_slope_nonvacuous : exists s, wall_slope (fun i => INR i) (fun i => 1 + 2 * INR i - 1 / 100 * (INR i) ^ 3) = Some s /\ Rabs (s - 2) <= / 10 ^ 13 * 100 / 1.
Proof.
  destruct (C84_wall_slope (fun i => INR i) (fun i => 1 + 2 * INR i - 1 / 100 * (INR i) ^ 3) 1 2 0 (- (1 / 100)) 100) as [s [H1 H2]].
  - cbn. lra.
  - intros i Hi. cbn [INR]. split; [field|]. do 6 (destruct i as [|i]; [cbn [INR]; unfold Rabs; destruct (Rcase_abs _); lra|]). lia.
  - exists s. split; [exact H1|]. cbn [INR] in H2. exact H2.
Qed.
Example C84_edge_nonvacuous : find_edge_of_bl (fun i => if (i <=? 2)%nat then INR i else 2) 5 (1 / 10) = Ok 3%nat.
Proof.
  apply C84_edge; [lia|]. split; [lia|]. cbn [Nat.leb Nat.sub INR]. split.
  - replace (2 - (1 + 1)) with 0 by ring. rewrite Rabs_R0. lra.
  - intros i Hi. destruct i as [|[|[|i]]]; [lia | | | lia]; cbn [Nat.leb Nat.sub INR]; unfold Rabs; destruct (Rcase_abs _); lra.
Qed.
Example C84_continuity_nonvacuous : let y := fun i => INR i in (2 <= 4)%nat /\ (forall i, (i + 1 < 4)%nat -> y i < y (i + 1)%nat) /\ y 0%nat = 0 /\ 0 < 5 /\ 0 < 1000 /\ 1 / 1000 < 1000 / (2 * 5 ^ 2).
Proof. cbv zeta. split; [lia|]. split; [intros i _; apply lt_INR; lia|]. cbn. lra. Qed.
Example C84_fit_nonvacuous : let xs := map (fun i => 20 * INR i / 9999) (seq 0 3) in
  least_squares [0%Q; 1%Q] xs (map (fun i => 20 * INR i / 9999) (seq 0 3)) 1.
Proof.
  cbv zeta. split; [reflexivity|]. intros cs _. apply Rle_trans with 0.
  - apply Req_le. unfold misfit. cbn [seq map combine fold_right fst snd polynomial_of]. unfold polynomial_of. cbn [fold_right]. unfold Q2R. cbn. lra.
  - apply misfit_zero.
Qed.
