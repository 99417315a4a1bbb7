(* What holds at the end of a run of a program with boundary conditions. *)
From Verif Require Import Base Expr ExprProofs FDModel FDProofs WorkModel WorkProofs ShiftSpec ShiftProofs DiscModel DiscSpec DiscProofs DiscRun DiscMain ProgModel ProgSpec ProgProofs.
From Verif Require AdvModel AdvSpec AdvProofs AdvProps AlgModel AlgSpec AlgProps OrdModel OrdSpec OrdProps BCModel BCVec BC2Props BCIsoProps RKModel RKSpec RKProofs RKProps.
From Verif Require Import DiscProps ProgProps BCSpec BCGasSpec BC2Spec BCProofs BCKern BCMirror BCGas BndModel BndSpec BndKern BndExist BndProofs BndProps OneModel SideModel SideSpec SideRun SideMain SideProps FaceModel FaceSpec FaceKern.
From Coq Require Import QArith ZArith Reals Lia Lra Permutation List.
Local Close Scope Q_scope.
Local Open Scope list_scope.

(* ---- the end of a run ---- *)
Section end_of_run.
Variables (J : interp R) (w : bool -> nat) (shock : bool) (sizes : list Z) (fs : list field) (g : gas) (types : list (bcond * bcond)).
Variables (ts : timescheme) (sys crs : list (string * expr)) (dt : R) (RHS : memory -> solution -> Prop).
Hypothesis FB : face_boundaries w sizes fs g types.
Hypothesis Hfs : forall v, In v (field_names fs) <-> In v (map fst sys).
Notation given := (BndSpec.given (register_of ts) sys crs).
Notation names := (field_names fs).
Notation n := (List.length sizes).

Lemma imposed_given : forall M M' b y, imposed J w shock sizes fs g types M M' -> ~ In b names -> M' b y = M b y.
Proof. intros M M' b y H Nb. apply (imposed_from_keeps J w shock sizes fs g types FB types 0 M M' b y); auto. Qed.
Lemma given_not : forall b, given b -> ~ In b names.
Proof. intros b (A & _). rewrite Hfs. auto. Qed.
Lemma stages_given : forall l s s', stages J w shock sizes fs g types ts sys crs dt RHS l s s' ->
  (forall b y, given b -> fst s' b y = fst s b y) /\
  (l <> [] -> exists M0, imposed J w shock sizes fs g types M0 (fst s') /\ forall b y, given b -> M0 b y = fst s b y).
Proof.
  induction l as [|[a b] l IH]; intros s s' H; cbn [stages] in H; [subst; split; [auto | congruence]|].
  destruct H as (s1 & (r & M1 & _ & _ & _ & G & I) & H2). destruct (IH s1 s' H2) as [A B].
  assert (G1 : forall b y, given b -> fst s1 b y = fst s b y).
  { intros c y Hc. rewrite (imposed_given _ _ c y I (given_not c Hc)). auto. }
  split; [intros c y Hc; rewrite A, G1; auto|]. intros _. destruct l as [|p l].
  - cbn [stages] in H2. subst s'. exists M1. split; auto.
  - destruct B as (M0 & B1 & B2); [discriminate|]. exists M0. split; auto. intros c y Hc. rewrite B2, G1; auto.
Qed.
Lemma steps_given : forall ab m M M', steps J w shock sizes fs g types ts sys crs dt RHS m ab M M' ->
  (forall b y, given b -> M' b y = M b y) /\
  (combine (fst ab) (snd ab) <> [] -> m <> 0%nat -> exists M0, imposed J w shock sizes fs g types M0 M' /\ forall b y, given b -> M0 b y = M b y).
Proof.
  intros ab. induction m as [|m IH]; intros M M' H; cbn [steps] in H; [subst; split; [auto | congruence]|].
  destruct H as (Ms & (M1 & M2 & T & T' & I & G & _ & S) & H2). destruct (IH Ms M' H2) as [A B]. apply stages_given in S. cbn [fst] in S. destruct S as [S1 S2].
  assert (G1 : forall b y, given b -> M2 b y = M b y).
  { intros b y Hb. rewrite G by auto. apply imposed_given; auto. apply given_not. auto. }
  split; [intros b y Hb; rewrite A, S1, G1; auto|]. intros Nc _. destruct m as [|m].
  - cbn [steps] in H2. subst M'. destruct (S2 Nc) as (M0 & P & Q). exists M0. split; auto. intros b y Hb. rewrite Q, G1; auto.
  - destruct (B Nc ltac:(discriminate)) as (M0 & P & Q). exists M0. split; auto. intros b y Hb. rewrite Q, S1, G1; auto.
Qed.
Lemma direction_of : forall tl d0 M M', (forall i p, nth_error tl i = Some p -> nth_error types (d0 + i) = Some p) ->
  imposed_from J w shock sizes fs g d0 tl M M' -> forall i l r, nth_error tl i = Some (l, r) ->
  exists M1 M2, imposed_on J w shock sizes fs g (d0 + i) l r M1 M2 /\
    (forall b y, ~ In b names -> M1 b y = M b y) /\
    (forall b y, settled w sizes (d0 + i) y -> M' b y = M2 b y).
Proof.
  induction tl as [|[l0 r0] tl IH]; intros d0 M M' Ht H i l r E; [destruct i; discriminate|]. cbn [imposed_from] in H.
  destruct H as (M1 & H1 & H2).
  assert (Ht' : forall i p, nth_error tl i = Some p -> nth_error types (S d0 + i) = Some p).
  { intros j p Hj. replace (S d0 + j)%nat with (d0 + S j)%nat by lia. apply Ht. auto. }
  assert (E0 : nth_error types d0 = Some (l0, r0)) by (specialize (Ht 0%nat (l0, r0) eq_refl); rewrite Nat.add_0_r in Ht; auto).
  destruct i as [|i]; cbn [nth_error] in E.
  - injection E as -> ->. rewrite Nat.add_0_r. exists M, M1. split; auto. split; auto. intros b y [Ny Hy].
    apply (imposed_from_keeps J w shock sizes fs g types FB tl (S d0) M1 M' b y Ht' H2). right. split; [exact Ny|]. intros i Hi. apply Hy. lia.
  - replace (d0 + S i)%nat with (S d0 + i)%nat by lia. destruct (IH (S d0) M1 M' Ht' H2 i l r E) as (Ma & Mb & A & B & C).
    exists Ma, Mb. split; auto. split; auto. intros b y Nb. rewrite B by auto.
    eapply imposed_on_keeps; eauto.
Qed.
Lemma side_of : forall ab m M M' d side c, coefficients ts = Ok ab -> steps J w shock sizes fs g types ts sys crs dt RHS m ab M M' -> m <> 0%nat ->
  condition_at types d side c -> c <> Central Periodic ->
  exists M1 M2, imposes J w shock sizes fs g c d side M1 M2 /\ (forall b y, given b -> M1 b y = M b y) /\
    (forall b y, settled w sizes d y -> side = true \/ (nth d y 0 < nth d sizes 0 - 1)%Z -> M' b y = M2 b y) /\
    (d < n)%nat /\ admissible n fs g d c /\ (2 <= nth d sizes 0)%Z /\ (Z.of_nat (w false) <= nth d sizes 0)%Z.
Proof.
  intros ab m M M' d side c Hab H Hm (l & r & E & Ec) Np.
  assert (Nab : combine (fst ab) (snd ab) <> []).
  { destruct ts as [order form | order]; cbn in Hab.
    - destruct (RKProps.C23_rejected_orders order form ab Hab) as [-> | [-> ->]]; [destruct form|]; cbn in Hab; injection Hab as <-; discriminate.
    - destruct order as [|[|[|[|o]]]]; cbn in Hab; try discriminate Hab; injection Hab as <-; discriminate. }
  destruct (steps_given ab m M M' H) as [_ X]. destruct (X Nab Hm) as (M0 & I & G).
  destruct (direction_of types 0 M0 M' (fun i p Q => Q) I d l r E) as (Ma & Mb & A & B & C). cbn [Nat.add] in *.
  destruct (admissible_at w sizes fs g types FB d l r E) as (Al & Ar & Gl & Gr & Hd). pose proof (fb_wide _ _ _ _ _ FB d Hd) as W.
  pose proof (fb_matched _ _ _ _ _ FB l r (nth_error_In _ _ E)) as Mt.
  destruct A as [(-> & -> & _) | (Mm & A1 & A2)]; [exfalso; apply Np; destruct side; auto|].
  pose proof (imposes_changes J w shock sizes fs g l d false Ma Mm Al Gl A1) as C1.
  pose proof (imposes_changes J w shock sizes fs g r d true Mm Mb Ar Gr A2) as C2.
  destruct side; subst c.
  - exists Mm, Mb. split; auto. split; [|split; [intros b y Hy _; apply C; auto | tauto]].
    intros b y Hb. pose proof (given_not b Hb). rewrite C1, B, G; tauto.
  - exists Ma, Mm. split; auto. split; [|split; [|tauto]].
    + intros b y Hb. pose proof (given_not b Hb). rewrite B, G; auto.
    + intros b y Hy [Q | Q]; [discriminate|]. rewrite C by auto. apply C2. intros [_ Z]. apply edge_coord in Z; auto. cbn in Z. lia.
Qed.

Lemma end_no_slip : forall ab m0 M M', coefficients ts = Ok ab -> steps J w shock sizes fs g types ts sys crs dt RHS m0 ab M M' -> m0 <> 0%nat -> functions J ->
  forall d side c x m, condition_at types d side c -> no_slip c -> face w sizes d side x -> settled w sizes d x ->
      In m (g_momentum g) -> M' m x = 0%R.
Proof.
  intros ab m0 M M' Hab S0 Nm HF d side c x m Hc Hw Hx Hs Hm.
  destruct (side_of ab m0 M M' d side c Hab S0 Nm Hc) as (M1 & M2 & I & _ & E & Hd & _ & H2 & _).
  { intros ->. destruct Hw. }
  assert (L : side = true \/ (nth d x 0 < nth d sizes 0 - 1)%Z) by (destruct side; auto; right; rewrite (proj2 Hx); lia).
  rewrite E by auto. destruct c; try destruct Hw; cbn [imposes] in I; destruct I as (I & _); apply (I x Hx); auto.
Qed.
Lemma end_wall_temperature : forall ab m0 M M', coefficients ts = Ok ab -> steps J w shock sizes fs g types ts sys crs dt RHS m0 ab M M' -> m0 <> 0%nat -> functions J ->
  forall d side x0 s x, condition_at types d side (Isothermal x0 (BCIsoProps.wall_energy (List.length sizes) (g_density g)) s) ->
      face w sizes d side x -> settled w sizes d x -> proper J -> M' (g_density g) x <> 0%R ->
      T_at J M' (g_density g) (g_momentum g) (g_energy g) x = const J "Twall".
Proof.
  intros ab m0 M M' Hab S0 Nm HF d side x0 s x Hc Hx Hs (G1 & G0 & Mi) R0.
  destruct (side_of ab m0 M M' d side _ Hab S0 Nm Hc) as (M1 & M2 & I & _ & E & Hd & _ & H2 & _).
  { discriminate. }
  assert (L : side = true \/ (nth d x 0 < nth d sizes 0 - 1)%Z) by (destruct side; auto; right; rewrite (proj2 Hx); lia).
  cbn [imposes] in I. destruct I as (I & _). destruct (I x Hx) as (M0 & RW & EW). pose proof (f_reals _ HF) as HJ.
  rewrite E in R0 by auto.
  unfold T_at, temperature_of, pressure_of. rewrite !E by auto. rewrite (map_ext_in _ (fun _ => 0%R) (g_momentum g)) by (intros m Hm; rewrite E by auto; auto).
  assert (Z0 : norm2 (map (fun _ => 0%R) (g_momentum g)) = 0%R) by (clear; unfold norm2; induction (g_momentum g) as [|a l IHl]; cbn; auto; rewrite IHl; ring).
  rewrite Z0, EW. rewrite RW in *. assert (Lx : List.length x = List.length sizes) by apply Hx.
  assert (Pw : BCSpec.placed (List.length sizes) (BCIsoProps.wall_energy (List.length sizes) (g_density g))).
  { apply placed_div; apply placed_mul; repeat (constructor; [first [apply placed_dat | apply placed_const | apply placed_g1]|]); auto. }
  rewrite value_at by (rewrite Lx; auto). unfold BCIsoProps.wall_energy. rewrite (ap_div J HJ), !(ap_mul J HJ). cbn [map fold_right].
  rewrite (ap_sub J HJ), (ap_int J HJ), ap_dat by auto. unfold BCModel.gama, BCModel.Minf. rewrite !ap_const. field. repeat split; auto. intros Z. apply G1. lra.
Qed.
Lemma end_adiabatic_wall : forall ab m0 M M', coefficients ts = Ok ab -> steps J w shock sizes fs g types ts sys crs dt RHS m0 ab M M' -> m0 <> 0%nat -> functions J ->
  forall d side c x, condition_at types d side c -> (exists s, c = Adiabatic s \/ c = CarpenterWall s) -> (5 <= nth d sizes 0)%Z ->
      face w sizes d side x -> settled w sizes d x -> proper J -> M' (g_density g) x <> 0%R ->
      temperature_slope J g M' d side x = 0%R.
Proof.
  intros ab m0 M M' Hab S0 Nm HF d side c x Hc (s & Hw) H5 Hx Hs Pr R0.
  destruct (side_of ab m0 M M' d side c Hab S0 Nm Hc) as (M1 & M2 & I & _ & E & Hd & _ & H2 & _).
  { destruct Hw; subst; discriminate. }
  assert (Q : forall b t, (0 <= t <= 3)%Z -> M' b (inwards d side t x) = M2 b (inwards d side t x)).
  { intros b t Ht. destruct Hx as [[Lx Nx] Ex]. destruct Hs as [_ Hs]. unfold inwards. apply E.
    - split; [split; [rewrite move_length; auto|]|].
      + intros i Hi'. destruct (Nat.eq_dec i d) as [-> | Ne]; [rewrite move_nth by lia; rewrite Ex; destruct side; lia|]. rewrite move_nth_other by auto. apply Nx. auto.
      + intros i Hi'. rewrite move_nth_other by lia. apply Hs. auto.
    - destruct side; auto. right. rewrite move_nth by lia. rewrite Ex. lia. }
  assert (E0 : inwards d side 0 x = x) by (unfold inwards; destruct side; apply move_0).
  assert (QT : forall t, (0 <= t <= 3)%Z -> T_at J M' (g_density g) (g_momentum g) (g_energy g) (inwards d side t x) = T_at J M2 (g_density g) (g_momentum g) (g_energy g) (inwards d side t x)).
  { intros t Ht. unfold T_at, temperature_of, pressure_of. rewrite !(Q _ t Ht). rewrite (map_ext_in _ (fun m => M2 m (inwards d side t x)) (g_momentum g)) by (intros m _; apply Q; auto). reflexivity. }
  assert (R1 : M1 (g_density g) x <> 0%R /\ (proper J -> M1 (g_density g) x <> 0%R -> temperature_slope J g M2 d side x = 0%R)).
  { pose proof (Q (g_density g) 0%Z ltac:(lia)) as Q0. rewrite E0 in Q0. rewrite Q0 in R0.
    destruct Hw as [-> | ->]; cbn [imposes] in I; destruct I as (I & _); destruct (I x Hx) as (_ & RW & T0); rewrite RW in R0; auto. }
  destruct R1 as [R1 R2]. rewrite <- (R2 Pr R1). unfold temperature_slope. rewrite !QT by lia. pose proof (QT 0%Z ltac:(lia)) as QT0. rewrite E0 in QT0. rewrite QT0. reflexivity.
Qed.
Lemma end_outlet_pressure : forall ab m0 M M', coefficients ts = Ok ab -> steps J w shock sizes fs g types ts sys crs dt RHS m0 ab M M' -> m0 <> 0%nat -> functions J ->
  forall d side s x t, condition_at types d side (PressureOutlet s) -> face w sizes d side x -> settled w sizes d x ->
      t = 0%Z \/ layer w side t -> const J "gama" <> 1%R -> let y := outwards d side t x in M' (g_density g) y <> 0%R ->
      p_at J M' (g_density g) (g_momentum g) (g_energy g) y = const J "back_pressure".
Proof.
  intros ab m0 M M' Hab S0 Nm HF d side s x t Hc Hx Hs Ht G1 y R0.
  destruct (side_of ab m0 M M' d side _ Hab S0 Nm Hc) as (M1 & M2 & I & _ & E & Hd & _ & H2 & _).
  { discriminate. }
  cbn [imposes] in I. destruct I as (-> & I & _). destruct (I x t Hx Ht) as (RW & MW & PW).
  assert (Q : forall b, M' b y = M2 b y).
  { intros b. apply E; auto. destruct Hx as [[Lx Nx] Ex]. destruct Hs as [_ Hs]. unfold y, outwards, layer in *. split; [split; [rewrite move_length; auto|]|].
    - intros i Hi'. destruct (Nat.eq_dec i d) as [-> | Ne]; [rewrite move_nth by lia; rewrite Ex; lia|]. rewrite move_nth_other by auto. apply Nx. auto.
    - intros i Hi'. rewrite move_nth_other by lia. apply Hs. auto. }
  rewrite Q in R0. unfold y in R0. rewrite RW in R0. rewrite <- (PW G1 R0). unfold p_at, pressure_of. rewrite !Q. rewrite (map_ext_in _ (fun m => M2 m y) (g_momentum g)) by (intros m _; apply Q). reflexivity.
Qed.
Lemma end_dirichlet_held : forall ab m0 M M', coefficients ts = Ok ab -> steps J w shock sizes fs g types ts sys crs dt RHS m0 ab M M' -> m0 <> 0%nat -> functions J ->
  forall d side ps s b e y, condition_at types d side (Dirichlet ps s) -> In (b, e) ps ->
      (forall a ix, In (a, ix) (dsets e) -> BndSpec.given (register_of ts) sys crs a) ->
      edge w sizes d side y -> settled w sizes d y -> M' b y = value J M y e.
Proof.
  intros ab m0 M M' Hab S0 Nm HF d side ps s b e y Hc Hb He Hy Hs.
  destruct (side_of ab m0 M M' d side _ Hab S0 Nm Hc) as (M1 & M2 & I & Gv & E & Hd & _ & H2 & _).
  { discriminate. }
  cbn [imposes] in I. destruct I as (I & _). rewrite E; auto.
  - rewrite (I y b e Hy Hb). unfold value. apply eval_ext. intros a ix Ha. apply Gv. eapply He; eauto.
  - destruct side; auto. right. apply edge_coord in Hy; auto. cbn in Hy. lia.
Qed.
Lemma end_extrapolated : forall ab m0 M M', coefficients ts = Ok ab -> steps J w shock sizes fs g types ts sys crs dt RHS m0 ab M M' -> m0 <> 0%nat -> functions J ->
  forall d side order s x t b, condition_at types d side (Extrapolation order s) -> (3 <= nth d sizes 0)%Z ->
      face w sizes d side x -> settled w sizes d x -> layer w side t -> In b (field_names fs) ->
      (order = 0%Z /\ M' b x = M' b (inwards d side 1 x) /\ M' b (outwards d side t x) = M' b (inwards d side 1 x)) \/
      (order = 1%Z /\ M' b (outwards d side t x) = (M' b x + IZR t * (M' b x - M' b (inwards d side 1 x)))%R).
Proof.
  intros ab m0 M M' Hab S0 Nm HF d side order s x t b Hc H3 Hx Hs Ht Hb.
  destruct (side_of ab m0 M M' d side _ Hab S0 Nm Hc) as (M1 & M2 & I & _ & E & Hd & _ & H2 & Hk).
  { discriminate. }
  assert (Q : forall v, (- Z.of_nat (w side) <= v <= 1)%Z -> M' b (move d (if side then - v else v)%Z x) = M2 b (move d (if side then - v else v)%Z x)).
  { intros v Hv. destruct Hx as [[Lx Nx] Ex]. destruct Hs as [_ Hs]. apply E.
    - split; [split; [rewrite move_length; auto|]|].
      + intros i Hi'. destruct (Nat.eq_dec i d) as [-> | Ne]; [rewrite move_nth by lia; rewrite Ex; destruct side; lia|]. rewrite move_nth_other by auto. apply Nx. auto.
      + intros i Hi'. rewrite move_nth_other by lia. apply Hs. auto.
    - destruct side; auto. right. rewrite move_nth by lia. rewrite Ex. lia. }
  unfold layer in *.
  assert (Q1 : M' b (inwards d side 1 x) = M2 b (inwards d side 1 x)) by (specialize (Q 1%Z ltac:(lia)); unfold inwards; destruct side; exact Q).
  assert (Qt : M' b (outwards d side t x) = M2 b (outwards d side t x)).
  { specialize (Q (- t)%Z ltac:(lia)). unfold outwards. destruct side; auto. rewrite Z.opp_involutive in Q. auto. }
  assert (Q0 : M' b x = M2 b x) by (specialize (Q 0%Z ltac:(lia)); destruct side; cbn [Z.opp] in Q; rewrite move_0 in Q; exact Q).
  assert (Ix : (- Z.of_nat (w side) <= 1)%Z) by lia.
  assert (Fi : ~ edge w sizes d side (inwards d side 1 x)).
  { intros Z0. apply edge_coord in Z0; auto. unfold inwards in Z0. destruct Hx as [[Lx Nx] Ex]. rewrite move_nth in Z0 by lia. rewrite Ex in Z0. destruct side; lia. }
  cbn [imposes] in I. destruct I as [(-> & I & Fr) | (-> & I & Fr)].
  - left. split; auto. rewrite Q0, Q1, Qt. rewrite (Fr b (inwards d side 1 x)) by (intros [_ C]; auto).
    assert (O0 : outwards d side 0 x = x) by (unfold outwards; destruct side; cbn [Z.opp]; apply move_0).
    split; [|apply I; auto]. pose proof (I x 0%Z b Hx (or_introl eq_refl) Hb) as X. rewrite O0 in X. exact X.
  - right. split; auto. rewrite Q0, Q1, Qt. rewrite (I x t b Hx Ht Hb).
    rewrite (Fr b (inwards d side 1 x)) by (intros [_ C]; apply Fi; right; auto).
    rewrite (Fr b x); auto. intros [_ (z & u & [[Lz _] Ez] & Hu & Z0)]. destruct Hx as [_ Ex]. rewrite Z0 in Ex. unfold outwards, layer in *. rewrite move_nth in Ex by lia. rewrite Ez in Ex. destruct side; lia.
Qed.
End end_of_run.
