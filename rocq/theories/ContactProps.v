(* C66: contact waves.  Where velocity and pressure are constant and only the density
   varies, the shock-capturing derivative keeps velocity and pressure constant and moves
   the density with an upwind reconstruction. *)
From Coq Require Import Reals List ZArith Lra Lia.
From Verif Require Import Base FDModel FDSpec WenoModel WenoSpec TenoModel TenoProofs EulerSpec EulerModel EulerProofs EulerProps
  LLFModel LLFSpec LLFProofs LLFProps ContactProofs.
Import ListNotations.
Local Open Scope R_scope.

(* the conserved state with density rho, velocity u and pressure p, and the arrays there *)
Definition contact_state (g p : R) (u : list R) (rho : R) : list R := conserved g rho u (sqrt (g * p / rho)).
Definition contact_cell (g p : R) (k u : list R) (rho : R) : cell :=
  let U := contact_state g p u rho in mkcell U (flux g k U) rho u (sqrt (g * p / rho)) p k.
(* mass flux M through the face, carrying momentum and kinetic energy along *)
Definition carried_flux (g p : R) (k u : list R) (M : R) : list R :=
  M :: map (fun uk => M * fst uk + snd uk * p) (combine u k) ++ [M * (dot u u / 2) + dot k u * (g * p / (g - 1))].

Definition KF (g p : R) (k u : list R) : list R := 0 :: map (fun c => c * p) k ++ [dot k u * (g * p / (g - 1))].
Definition KU (g p : R) (u : list R) : list R := 0 :: map (fun _ => 0) u ++ [p / (g - 1)].
Lemma sound_sq : forall g p rho, 1 < g -> 0 < p -> 0 < rho -> sqrt (g * p / rho) ^ 2 = g * p / rho.
Proof. intros. cbn [pow]. rewrite Rmult_1_r. apply sqrt_sqrt. apply Rlt_le, Rdiv_lt_0_compat; nra. Qed.
Lemma contact_split : forall g p k u rho, 1 < g -> 0 < p -> 0 < rho -> face k u ->
  contact_state g p u rho = vadd (KU g p u) (vscale rho (entropy_wave u)) /\
  flux g k (contact_state g p u rho) = vadd (KF g p k u) (vscale (dot k u * rho) (entropy_wave u)) /\
  pressure g (contact_state g p u rho) = p.
Proof.
  intros g p k u rho Hg Hp Hr F. pose proof (sound_sq g p rho Hg Hp Hr) as A. revert k u F.
  apply (face_cases (fun k u => _ /\ _ /\ _));
    [intros u0|intros k0 k1 u0 u1 _|intros k0 k1 k2 u0 u1 u2 _];
    unfold contact_state, conserved; rewrite A;
    unfold flux, pressure, density, momenta, energy, KU, KF, entropy_wave, vadd, vscale;
    cbn [map app dot hd tl removelast last combine fst snd];
    (split; [entries ltac:(field; repeat split; lra)|split; [entries ltac:(field; repeat split; lra)|field; repeat split; lra]]).
Qed.
Lemma carried_split : forall g p k u M, face k u -> carried_flux g p k u M = vadd (KF g p k u) (vscale M (entropy_wave u)).
Proof.
  intros g p k u M F. revert k u F. apply face_cases; [intros u0|intros k0 k1 u0 u1 _|intros k0 k1 k2 u0 u1 u2 _];
    unfold carried_flux, KF, entropy_wave, vadd, vscale; cbn [map app dot combine fst snd]; entries ltac:(ring).
Qed.
Lemma zip_same : forall l, zip_avg l l = l.
Proof. unfold zip_avg. induction l; cbn; auto. rewrite IHl. unfold simple_average. f_equal. field. Qed.
Lemma roe_velocity_same : forall rL rR u, 0 < rL -> 0 < rR -> roe_velocity rL rR u u = u.
Proof.
  intros rL rR u HL HR. assert (0 < sqrt rL) by (apply sqrt_lt_R0; auto). assert (0 < sqrt rR) by (apply sqrt_lt_R0; auto).
  unfold roe_velocity. induction u; cbn; auto. rewrite IHu. unfold roe_mean, roe_inv. f_equal. field. lra.
Qed.
Lemma contact_gas : forall g p k u rho, 1 < g -> 0 < p -> 0 < rho -> face k u -> gas g (contact_cell g p k u rho).
Proof.
  intros g p k u rho Hg Hp Hr F. unfold gas. cbn [contact_cell c_rho c_a c_U c_u c_p].
  split; auto. split; [apply sqrt_lt_R0, Rdiv_lt_0_compat; nra|]. split; auto.
  symmetry. apply (contact_split g p k u rho); auto.
Qed.
Lemma contact_average : forall g av p k u r1 r2, 1 < g -> 0 < p -> 0 < r1 -> 0 < r2 -> face k u ->
  let st := average g av (contact_cell g p k u r1) (contact_cell g p k u r2) in
  good_state st (List.length u + 2) /\ s_k st = k /\ s_u st = u.
Proof.
  intros g av p k u r1 r2 Hg Hp H1 H2 F st. split; [|split].
  - apply (good_average g av (contact_cell g p k u r1) (contact_cell g p k u r2)); auto; try (apply contact_gas; auto).
    cbn [contact_cell c_k c_u]. rewrite zip_same. auto.
  - unfold st. destruct av; cbn [average s_k contact_cell c_k]; apply zip_same.
  - unfold st. destruct av; cbn [average s_u contact_cell c_u c_rho]; [apply zip_same|apply roe_velocity_same; auto].
Qed.
Definition lmat (g : R) (av : averaging) (p : R) (k u : list R) (r1 r2 : R) : list (list R) :=
  let st := average g av (contact_cell g p k u r1) (contact_cell g p k u r2) in left_matrix g (s_k st) (s_rho st) (s_u st) (s_a st).
Lemma contact_formula : forall sch d g av p k u rho i,
  supported sch d -> 1 < g -> 0 < p -> (forall j, 0 < rho j) -> face k u -> aligned k ->
  interface_flux sch g av (fun j => contact_cell g p k u (rho j)) i =
  Ok (carried_flux g p k u (carried sch (lmat g av p k u (rho i) (rho (i + 1)%Z)) (wave_of k) (dot k u) (entropy_wave u) (KF g p k u) (KU g p u) rho i)).
Proof.
  intros sch d g av p k u rho i S Hg Hp Hr F A. rewrite carried_split by auto.
  destruct (contact_average g av p k u (rho i) (rho (i + 1)%Z) Hg Hp (Hr _) (Hr _) F) as (G & Ek & Eu). cbv zeta in *.
  assert (L : List.length k = List.length u) by apply F.
  pose proof G as (G1 & G2 & _ & _). rewrite <- Eu in F at 1. rewrite <- Ek in F at 1.
  destruct (one_wave g (s_k (average g av (contact_cell g p k u (rho i)) (contact_cell g p k u (rho (i + 1)%Z)))) _ _ _ Hg G1 G2 F ltac:(rewrite Ek; auto)) as (W1 & W2 & W3).
  rewrite Ek, Eu in W1, W2, W3, F.
  apply (contact_flux sch d g av (fun j => contact_cell g p k u (rho j)) i (List.length u + 2)); auto.
  - unfold entropy_wave. cbn [List.length]. rewrite app_length. cbn. lia.
  - unfold KF. cbn [List.length]. rewrite app_length, map_length. cbn. lia.
  - unfold KU. cbn [List.length]. rewrite app_length, map_length. cbn. lia.
  - intros j. cbn [contact_cell c_F c_U]. destruct (contact_split g p k u (rho j) Hg Hp (Hr j) F) as (X & Y & _). auto.
  - intros m Hm. rewrite Ek, Eu. apply W1; auto.
  - rewrite Ek, Eu. apply W2.
Qed.

(* The state is what its name says. *)
Theorem C66_contact_state :
  forall g p k u rho, 1 < g -> 0 < p -> 0 < rho -> face k u ->
    density (contact_state g p u rho) = rho /\ momenta (contact_state g p u rho) = map (Rmult rho) u /\
    pressure g (contact_state g p u rho) = p.
Proof.
  intros g p k u rho Hg Hp Hr F. split; [reflexivity|]. split; [|apply (contact_split g p k u rho); auto].
  unfold momenta, contact_state, conserved. cbn [tl]. apply removelast_last.
Qed.
Print Assumptions C66_contact_state.
(* C66.  One, two and three dimensions (in three with a metric row along a grid axis): the
   flux at every interface is a mass flux M that carries velocity u, plus the flux due to
   the pressure p. *)
Theorem C66_flux :
  forall sch d g av p k u rho, supported sch d -> 1 < g -> 0 < p -> (forall j, 0 < rho j) -> face k u -> aligned k ->
    forall i, exists M, interface_flux sch g av (fun j => contact_cell g p k u (rho j)) i = Ok (carried_flux g p k u M).
Proof. intros. eexists. eapply contact_formula; eauto. Qed.
Print Assumptions C66_flux.
(* Hence a time step of any size changes the density only. *)
Theorem C66_equilibrium :
  forall sch d g av p k u rho h dt, supported sch d -> 1 < g -> 0 < p -> (forall j, 0 < rho j) -> face k u -> aligned k -> h <> 0 ->
    exists work rho', (forall j, interface_flux sch g av (fun j => contact_cell g p k u (rho j)) j = Ok (work j)) /\
      forall i, 0 < rho' i ->
        vadd (contact_state g p u (rho i)) (vscale (- dt) (map (fun m => wd_derivative work m h i) (seq 0 (List.length u + 2))))
        = contact_state g p u (rho' i).
Proof.
  intros sch d g av p k u rho h dt S Hg Hp Hr F A Hh.
  set (M := fun i => carried sch (lmat g av p k u (rho i) (rho (i + 1)%Z)) (wave_of k) (dot k u) (entropy_wave u) (KF g p k u) (KU g p u) rho i).
  exists (fun i => carried_flux g p k u (M i)), (fun i => rho i - dt * ((M i - M (i - 1)%Z) / h)).
  split; [intros j; unfold M; apply (contact_formula sch d); auto|].
  intros i Hi. rewrite (proj1 (contact_split g p k u _ Hg Hp Hi F)), (proj1 (contact_split g p k u _ Hg Hp (Hr i) F)).
  unfold wd_derivative. generalize (M i) (M (i - 1)%Z) (rho i). intros M1 M0 r. clear -F Hh Hg.
  enough (G : forall k u, face k u -> vadd (vadd (KU g p u) (vscale r (entropy_wave u)))
     (vscale (- dt) (map (fun m => (nth m (carried_flux g p k u M1) 0 - nth m (carried_flux g p k u M0) 0) / h) (seq 0 (List.length u + 2))))
     = vadd (KU g p u) (vscale (r - dt * ((M1 - M0) / h)) (entropy_wave u))) by (apply G; auto).
  apply face_cases; [intros u0|intros k0 k1 u0 u1 _|intros k0 k1 k2 u0 u1 u2 _];
    unfold carried_flux, KU, entropy_wave, vadd, vscale; cbn [List.length Nat.add seq map app dot combine fst snd nth];
    entries ltac:(field; repeat split; auto; lra).
Qed.
Print Assumptions C66_equilibrium.
(* The flux depends only on the densities at the points of the upwind reconstruction. *)
Theorem C66_upwind :
  forall sch d g av p k u rho rho' i, supported sch d -> 1 < g -> 0 < p -> (forall j, 0 < rho j) -> (forall j, 0 < rho' j) ->
    face k u -> aligned k ->
    (forall q, In q (sch_points sch (if Rlt_dec (dot k u) 0 then SLeft else SRight)) -> rho (i + q)%Z = rho' (i + q)%Z) ->
    interface_flux sch g av (fun j => contact_cell g p k u (rho j)) i = interface_flux sch g av (fun j => contact_cell g p k u (rho' j)) i.
Proof.
  intros sch d g av p k u rho rho' i S Hg Hp Hr Hr' F A H. rewrite !(contact_formula sch d) by auto.
  assert (I : forall s, In 0%Z (sch_points sch s) /\ In 1%Z (sch_points sch s)).
  { intros s. destruct S as [fm n eps Hk HW He|order eps CT Ho He HC]; cbn [sch_points weno_scheme teno_scheme].
    - destruct s; split; [apply (in_func_points SRight n 0 0)|apply (in_func_points SRight n 0 1)|apply (in_func_points SLeft n 1 0)|apply (in_func_points SLeft n 0 0)]; lia.
    - destruct Ho as [-> | ->], s; cbn; auto 10. }
  assert (E0 : rho i = rho' i) by (rewrite <- (Z.add_0_r i); apply H, I).
  assert (E1 : rho (i + 1)%Z = rho' (i + 1)%Z) by (apply H, I).
  rewrite <- E0, <- E1. do 2 f_equal. unfold carried. cbv zeta. unfold upwind in *.
  rewrite (scheme_local sch d _ (fun p0 => _ * rho (i + p0)%Z + _) (fun p0 => dot k u * dot (nth (wave_of k) (lmat g av p k u (rho i) (rho (i + 1)%Z)) []) (entropy_wave u) * rho' (i + p0)%Z +
     1 / 2 * (dot (nth (wave_of k) (lmat g av p k u (rho i) (rho (i + 1)%Z)) []) (KF g p k u) + dot k u * dot (nth (wave_of k) (lmat g av p k u (rho i) (rho (i + 1)%Z)) []) (KU g p u)))); auto.
  intros q Hq. cbv beta. rewrite (H q Hq). reflexivity.
Qed.
Print Assumptions C66_upwind.
(* WENO: with flow to the right the last cell of the stencil, i+k, is not used. *)
Theorem C66_upwind_weno :
  forall fm n eps q, In q (sch_points (weno_scheme fm n eps) SRight) -> (q < Z.of_nat n)%Z.
Proof.
  intros fm n eps q H. cbn [sch_points weno_scheme] in H. unfold func_points in H. apply in_flat_map in H.
  destruct H as (r & Hr & H). apply in_map_iff in H. destruct H as (j & <- & Hj). apply in_seq in Hr. apply in_seq in Hj.
  cbn [point_shift]. lia.
Qed.
Print Assumptions C66_upwind_weno.
Example C66_nonvacuous :
  supported (weno_scheme WZ 3 (1/1000)) 2 /\ face [0; 2; 0] [1; 2; 3] /\ aligned [0; 2; 0] /\
  (forall j, 0 < (fun j : Z => if Z.ltb j 0 then 1 else 2) j) /\ ~ dot [0; 2; 0] [1; 2; 3] < 0.
Proof.
  split; [apply (sup_weno WZ 3); [lia|lia|lra]|].
  split; [split; [auto|right; split; [cbn; auto|exists 2; cbn; split; [auto|lra]]]|].
  split; [intros _; exists 1%nat; split; [lia|intros [|[|[|j]]] Hj N; cbn; auto; lia]|].
  split; [intros j; cbv beta; destruct (Z.ltb j 0); lra|cbn; lra].
Qed.
