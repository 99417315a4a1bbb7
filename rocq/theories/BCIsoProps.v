(* C46: the isothermal wall. *)
From Verif Require Import Base Expr ExprProofs KernelModel ShiftModel ShiftSpec ShiftProofs BCModel BCSpec BCGasSpec BCProofs BCKern BCMirror BCOrder BCVec BCStm BCGas BCIso.
From Coq Require Import QArith ZArith Reals Qreals Lia Lra.
Local Close Scope Q_scope.

(* The user supplies the energy equation rhoE = e at the wall.  Afterwards: no slip, wall
   density unchanged, wall energy as prescribed.  With p the wall pressure and T1 the
   temperature at the first point inside, the t-th halo point has the temperature
   (t+1) Twall - t T1, the wall pressure and the mirrored velocity with opposite sign. *)
Theorem C46_isothermal :
  forall J ord np bh d side rho moms E x0 e,
    reals J -> good_order ord -> List.length bh = List.length np -> (d < List.length np)%nat ->
    NoDup (rho :: moms ++ [E]) -> (List.length moms <= 10)%nat ->
    placed (List.length np) x0 -> (forall b ix, In (b, ix) (dsets x0) -> ~ In b (moms ++ [E])) ->
    placed (List.length np) e -> (forall b ix, In (b, ix) (dsets e) -> ~ In b (moms ++ [E])) ->
  exists k, isothermal_apply ord np bh d side (ns_arrays (List.length np) rho moms E) x0 [KEq (EDat E (here (List.length np))) e] = Ok k /\
    (forall x, bk_points k x = true <-> on_face np bh d side x) /\
    forall pts M, sweeps pts (on_face np bh d side) ->
      let M' := run_kernel J (bk_eqs k) pts M in
      let g := const J "gama" in let ma := const J "Minf" in
      (forall x, on_face np bh d side x ->
         (forall m, In m moms -> M' m x = 0%R) /\ M' rho x = M rho x /\ M' E x = value J M x e /\
         forall t, (1 <= t <= halo_width bh side)%Z ->
           let y := outwards d side t x in let z := inwards d side t x in
           let p := p_at J M' rho moms E x in
           let T := ((IZR t + 1) * const J "Twall" - IZR t * T_at J M rho moms E (inwards d side 1 x))%R in
           M' rho y = (p * g * ma * ma / T)%R /\
           (forall m, In m moms -> M' m y = - M' rho y * (M m z / M rho z))%R /\
           (g <> 1 -> g <> 0 -> ma <> 0 -> T <> 0 -> p <> 0 -> p_at J M' rho moms E y = p /\ T_at J M' rho moms E y = T)%R) /\
      (forall b y, ~ (In b (rho :: moms ++ [E]) /\ face_or_halo np bh d side y) -> M' b y = M b y).
Proof.
  intros J ord np bh d side rho moms E x0 e HJ Go Lb Hd ND H10 Px0 Nx0 Pe Ne.
  rewrite isothermal_eqs by auto. eexists. split; [reflexivity|]. split; [intros x; apply bk_points_face; auto|].
  intros pts M Sw. cbn [bk_eqs]. set (n := List.length np) in *. set (w := Z.to_nat (halo_width bh side)).
  destruct (set_side_factor side) as [from to] eqn:Es. cbn [fst snd].
  assert (W0 : (0 <= halo_width bh side)%Z) by (unfold halo_width; lia).
  assert (Hft : (side = true /\ from = 1 /\ to = -1 \/ side = false /\ from = -1 /\ to = 1)%Z) by (destruct side; injection Es as <- <-; auto).
  assert (Hs : (from = 1 /\ to = -1 \/ from = -1 /\ to = 1)%Z) by lia.
  destruct (nodup3 _ _ _ ND) as (N1 & N2 & N3 & NDm).
  set (q := BCIso.Q n d from to rho moms E x0 e). set (qs := map q (idxs w moms)).
  pose proof (iso_along n d from to w rho moms E x0 e Px0 Pe) as Al. fold q in Al. fold qs in Al.
  pose proof (iso_ordered n d from to w rho moms E x0 e Hd Hs ND H10 Px0 Nx0 Pe Ne) as Or. fold q in Or. fold qs in Or.
  cbv zeta. set (M' := run_kernel J qs pts M).
  assert (Out : forall i x, move d (from * i) x = outwards d side i x) by (intros; rewrite outwards_factor, Es; reflexivity).
  assert (Inn : forall i x, move d (to * i) x = inwards d side i x) by (intros; rewrite inwards_factor, Es; reflexivity).
  assert (Fr : forall b y, (forall k x, (b <> rho \/ k <> 0%Z) -> In b (rho :: moms ++ [E]) -> (exists i, (0 <= i <= halo_width bh side)%Z /\ k = (from * i)%Z) ->
      on_face np bh d side x -> y <> move d k x) -> M' b y = M b y).
  { intros b y H. apply (face_frame R J np bh d side); auto. intros q0 k x Hq Ht Hx. unfold qs in Hq. apply in_map_iff in Hq.
    destruct Hq as (a & <- & Ha). apply (in_idxs n d w moms Hd H10) in Ha. unfold q in Ht. rewrite target_Q in Ht. destruct Ht as [Ht | []]. fold n in Ht.
    assert (I1 : In rho (rho :: moms ++ [E])) by (left; auto).
    assert (I2 : forall m, In m moms -> In m (rho :: moms ++ [E])) by (intros; right; apply in_app_iff; auto).
    assert (I3 : In E (rho :: moms ++ [E])) by (right; apply in_app_iff; right; left; auto).
    destruct a; cbn [tg valid] in *; try discriminate Ht; apply inl_inj in Ht; destruct Ht as [<- Ht]; apply off_inj in Ht; auto; subst k; unfold rng in Ha.
    - apply H; auto; [left; intros ->; contradiction | exists 0%Z; split; lia].
    - apply H; auto; exists 0%Z; split; lia.
    - apply H; auto; [right; lia | exists (Z.of_nat i); split; lia].
    - destruct Ha as [Hc Ha]. apply nth_error_In in Hc. apply H; auto; [right; lia | exists (Z.of_nat i); split; lia].
    - apply H; auto; exists (Z.of_nat i); split; lia. }
  assert (Keep : forall x b i, on_face np bh d side x -> (1 <= i)%Z -> M' b (inwards d side i x) = M b (inwards d side i x)).
  { intros x b i Hx Hi. apply Fr. intros k x2 _ _ (j & Hj & ->) Hx2 Ey.
    apply (f_equal (fun l => nth d l 0%Z)) in Ey. rewrite Out in Ey. unfold inwards, outwards in Ey.
    assert (Lx : List.length x = n) by apply Hx. assert (Lx2 : List.length x2 = n) by apply Hx2.
    rewrite !move_nth in Ey by (rewrite ?Lx, ?Lx2; auto). destruct Hx as (_ & X & _), Hx2 as (_ & X2 & _). rewrite X, X2 in Ey. destruct side; lia. }
  assert (Keep0 : forall x b, on_face np bh d side x -> ~ In b (moms ++ [E]) -> M' b x = M b x).
  { intros x b Hx Nb. apply Fr. intros k x2 Hk Hb (j & Hj & ->) Hx2 Ey. destruct Hb as [<- | Hb]; [|contradiction].
    destruct Hk as [Hk | Hk]; [congruence|].
    apply (f_equal (fun l => nth d l 0%Z)) in Ey. assert (Lx2 : List.length x2 = n) by apply Hx2.
    rewrite !move_nth in Ey by (rewrite ?Lx2; auto). destruct Hx as (_ & X & _), Hx2 as (_ & X2 & _). rewrite X, X2 in Ey. lia. }
  split.
  - intros x Hx. assert (Lx : List.length x = n) by apply Hx.
    destruct (face_holds R J np bh d side qs pts M x Hd Al Or Sw Hx) as [L H]. fold M' in H.
    assert (HQ : forall a, valid w moms a -> holds J x (M', L) (q a)) by (intros a Ha; apply H; apply in_map; apply (in_idxs n d w moms Hd H10); auto).
    assert (At0 : forall b, at_point J M' L x (EDat b (here n)) = M' b x) by (intros b; apply ap_dat; auto).
    assert (Dat : forall b k, at_point J M' L x (EDat b (move d k (here n))) = M' b (move d k x)).
    { intros b k. unfold at_point. cbn [eval]. unfold here. rewrite (vadd_along n) by auto. reflexivity. }
    assert (Var : forall s, at_point J M' L x (evar s) = L s) by reflexivity.
    assert (Cst : forall s, at_point J M' L x (econst s) = const J s) by reflexivity.
    assert (Mom0 : forall m, In m moms -> M' m x = 0%R).
    { intros m Hm. specialize (HQ (Am m) Hm). cbn [q BCIso.Q holds fst snd] in HQ. change (vadd x (here n)) with (vadd x (repeat 0%Z n)) in HQ.
      rewrite vadd_here in HQ by auto. rewrite HQ. rewrite (ap_num J HJ). unfold Q2R. cbn. lra. }
    assert (RhoW : M' rho x = M rho x).
    { apply Keep0; auto. intros I. apply in_app_iff in I. destruct I as [I | [I | []]]; auto. }
    assert (EW : M' E x = value J M x e).
    { specialize (HQ Ae I). cbn [q BCIso.Q holds fst snd] in HQ. change (vadd x (here n)) with (vadd x (repeat 0%Z n)) in HQ.
      rewrite vadd_here in HQ by auto. rewrite HQ. destruct Pe as (Lo & Gv & _). rewrite <- (at_point_value R J M L) by auto.
      apply at_point_ext; auto. intros b ix0 Hb. rewrite (Lo b ix0 Hb). unfold here. rewrite vadd_here by auto. apply Keep0; auto. apply (Ne b ix0 Hb). }
    assert (LP : L "Pwall"%string = p_at J M' rho moms E x).
    { specialize (HQ AP I). cbn [q BCIso.Q holds fst snd evar] in HQ. rewrite HQ, at_point_put; auto; [|apply (placed_pressure n rho moms E)]. rewrite move_0. apply ap_pressure; auto. }
    assert (LT : L "T_above"%string = T_at J M rho moms E (inwards d side 1 x)).
    { specialize (HQ AT I). cbn [q BCIso.Q holds fst snd evar] in HQ. rewrite HQ, at_point_put; auto; [|apply (placed_temperature n rho moms E)].
      replace to with (to * 1)%Z by lia. rewrite Inn. rewrite ap_temperature; auto; [|apply inwards_length; auto].
      unfold T_at. rewrite !(Keep x) by (auto; lia). f_equal. apply map_ext. intros m. apply Keep; auto; lia. }
    split; auto. split; auto. split; auto.
    intros t Ht. set (i := Z.to_nat t). assert (Hi : rng w i) by (unfold rng, i, w; lia). assert (Ti : Z.of_nat i = t) by (unfold i; lia).
    set (p := p_at J M' rho moms E x) in *.
    set (T := ((IZR t + 1) * const J "Twall" - IZR t * T_at J M rho moms E (inwards d side 1 x))%R).
    assert (LTi : L (digits_name "T" i) = T).
    { specialize (HQ (ATi i) Hi). cbn [q BCIso.Q holds fst snd evar] in HQ. rewrite HQ. rewrite (ap_sub J HJ), !(ap_mul J HJ). cbn [map fold_right].
      rewrite !(ap_int J HJ), Var, Cst, LT, Ti. unfold T. rewrite plus_IZR. ring. }
    assert (LR : L (digits_name "rho_halo_" i) = (p * const J "gama" * const J "Minf" * const J "Minf" / T)%R).
    { specialize (HQ (Arh i) Hi). cbn [q BCIso.Q holds fst snd evar] in HQ. rewrite HQ. rewrite (ap_div J HJ), (ap_mul J HJ). cbn [map fold_right].
      rewrite !Var, LTi, LP. unfold gama, Minf. rewrite !Cst. unfold Rdiv. ring. }
    assert (LU : forall c m, nth_error moms c = Some m -> L (uname c i) = (M m (inwards d side t x) / M rho (inwards d side t x))%R).
    { intros c m Hc. specialize (HQ (Au c m i) (conj Hc Hi)). cbn [q BCIso.Q holds fst snd evar] in HQ. rewrite HQ. rewrite (ap_div J HJ), !Dat, Ti, Inn, !(Keep x) by (auto; lia). reflexivity. }
    assert (RY : M' rho (outwards d side t x) = (p * const J "gama" * const J "Minf" * const J "Minf" / T)%R).
    { specialize (HQ (Ar i) Hi). cbn [q BCIso.Q holds fst snd] in HQ. change (vadd x (move d (from * Z.of_nat i) (here n))) with (vadd x (move d (from * Z.of_nat i) (repeat 0%Z n))) in HQ.
      rewrite (vadd_along n) in HQ by auto. rewrite Ti, Out in HQ. rewrite HQ, Var, LR. reflexivity. }
    assert (MY : forall c m, nth_error moms c = Some m -> M' m (outwards d side t x) = (- M' rho (outwards d side t x) * (M m (inwards d side t x) / M rho (inwards d side t x)))%R).
    { intros c m Hc. specialize (HQ (Amo i c m) (conj Hc Hi)). cbn [q BCIso.Q holds fst snd] in HQ. change (vadd x (move d (from * Z.of_nat i) (here n))) with (vadd x (move d (from * Z.of_nat i) (repeat 0%Z n))) in HQ.
      rewrite (vadd_along n) in HQ by auto. rewrite Ti, Out in HQ. rewrite HQ. rewrite (ap_mul J HJ). cbn [map fold_right].
      rewrite (ap_int J HJ), !Var, LR, (LU c m Hc), RY. ring. }
    split; auto. split.
    { intros m Hm. destruct (In_nth_error _ _ Hm) as [c Hc]. apply (MY c m Hc). }
    intros G1 G0 Mi T0 P0.
    assert (EY : M' E (outwards d side t x) = (p / (const J "gama" - 1) + / 2 * M' rho (outwards d side t x) * norm2 (map (fun m => M m (inwards d side t x) / M rho (inwards d side t x)) moms))%R).
    { specialize (HQ (AE i) Hi). cbn [q BCIso.Q holds fst snd] in HQ. change (vadd x (move d (from * Z.of_nat i) (here n))) with (vadd x (move d (from * Z.of_nat i) (repeat 0%Z n))) in HQ.
      rewrite (vadd_along n) in HQ by auto. rewrite Ti, Out in HQ. rewrite HQ. rewrite (ap_add J HJ). cbn [map fold_right].
      rewrite (ap_div J HJ), (ap_sub J HJ), (ap_int J HJ), (ap_mul J HJ). cbn [map fold_right]. rewrite (ap_num J HJ), !Var, LP, LR, RY. unfold gama. rewrite Cst.
      rewrite (ap_add J HJ). rewrite enum_map, !map_map. cbn [fst].
      assert (Sq : fold_right Rplus 0%R (map (fun c => at_point J M' L x (epow (evar (uname (fst c) i)) 2)) (enum moms)) =
                   norm2 (map (fun m => (M m (inwards d side t x) / M rho (inwards d side t x))%R) moms)).
      { rewrite (map_ext_in _ (fun c => (fun u => (u * u)%R) (M (snd c) (inwards d side t x) / M rho (inwards d side t x))%R)).
        - unfold enum, norm2. generalize 0%nat. clear. induction moms as [|m l IH]; intros s; cbn; auto. rewrite IH. reflexivity.
        - intros [c m] Hc. apply in_enum in Hc. cbn [fst snd]. rewrite (ap_sqr J HJ), Var, (LU c m Hc). reflexivity. }
      rewrite Sq. unfold Q2R. cbn [Qnum Qden]. field. split; auto. intros Z. apply G1. lra. }
    assert (R0 : M' rho (outwards d side t x) <> 0%R).
    { rewrite RY. unfold Rdiv. clearbody p T. repeat (apply Rmult_integral_contrapositive_currified; auto). apply Rinv_neq_0_compat. auto. }
    assert (NY : norm2 (map (fun m => M' m (outwards d side t x)) moms) =
        (M' rho (outwards d side t x) * M' rho (outwards d side t x) * norm2 (map (fun m => M m (inwards d side t x) / M rho (inwards d side t x)) moms))%R).
    { rewrite (map_ext_in _ (fun m => (- M' rho (outwards d side t x) * (M m (inwards d side t x) / M rho (inwards d side t x)))%R)).
      - set (r := M' rho (outwards d side t x)). unfold norm2. generalize moms. induction moms0 as [|m l IH]; cbn; [ring|]. rewrite IH. ring.
      - intros m Hm. destruct (In_nth_error _ _ Hm) as [c Hc]. apply (MY c m Hc). }
    assert (PY : p_at J M' rho moms E (outwards d side t x) = p).
    { unfold p_at, pressure_of. rewrite NY, EY. field. split; auto. intros Z. apply G1. lra. }
    split; auto. unfold T_at, temperature_of. change (pressure_of _ _ _ _) with (p_at J M' rho moms E (outwards d side t x)). rewrite PY, RY. field. auto.
  - intros b y Hn. apply Fr. intros k x Hk Hb (i & Hi & ->) Hx Ey. apply Hn. split; auto. destruct (Z.eq_dec i 0) as [-> | N].
    + right. rewrite Z.mul_0_r, move_0 in Ey. subst. auto.
    + left. exists x, i. split; auto. split; [lia|]. rewrite <- Out. exact Ey.
Qed.
Print Assumptions C46_isothermal.

(* the energy equation used with this condition: rhoE = rho Twall / (gama (gama-1) Minf^2) *)
Definition wall_energy (n : nat) (rho : string) : expr :=
  ediv (emul [EDat rho (here n); econst "Twall"]) (emul [gama; esub gama (eint 1); Minf; Minf]).
(* With it the wall temperature is the prescribed one. *)
Theorem C46_isothermal_temperature :
  forall J ord np bh d side rho moms E x0 k,
    reals J -> good_order ord -> List.length bh = List.length np -> (d < List.length np)%nat ->
    NoDup (rho :: moms ++ [E]) -> (List.length moms <= 10)%nat ->
    placed (List.length np) x0 -> (forall b ix, In (b, ix) (dsets x0) -> ~ In b (moms ++ [E])) ->
    isothermal_apply ord np bh d side (ns_arrays (List.length np) rho moms E) x0
      [KEq (EDat E (here (List.length np))) (wall_energy (List.length np) rho)] = Ok k ->
    forall pts M x, sweeps pts (on_face np bh d side) -> on_face np bh d side x ->
      (const J "gama" <> 1 -> const J "gama" <> 0 -> const J "Minf" <> 0 -> M rho x <> 0 ->
       T_at J (run_kernel J (bk_eqs k) pts M) rho moms E x = const J "Twall")%R.
Proof.
  intros J ord np bh d side rho moms E x0 k HJ Go Lb Hd ND H10 Px0 Nx0 Ek pts M x Sw Hx G1 G0 Mi R0.
  destruct (nodup3 _ _ _ ND) as (N1 & N2 & N3 & NDm).
  assert (Pw : placed (List.length np) (wall_energy (List.length np) rho)).
  { apply placed_div; apply placed_mul; repeat (constructor; [first [apply placed_dat | apply placed_const | apply placed_g1]|]); auto. }
  destruct (C46_isothermal J ord np bh d side rho moms E x0 (wall_energy (List.length np) rho)) as (k' & Ek' & _ & H); auto.
  { intros b ix0 Hb. cbn in Hb. destruct Hb as [Hb | []]. injection Hb as <- <-. intros I. apply in_app_iff in I. destruct I as [I | [I | []]]; auto. }
  rewrite Ek in Ek'. injection Ek' as <-. destruct (H pts M Sw) as [Hf _]. destruct (Hf x Hx) as (M0 & RW & EW & _).
  unfold T_at, temperature_of, pressure_of. rewrite RW, EW. rewrite (map_ext_in _ (fun _ => 0%R) moms M0).
  assert (Z0 : norm2 (map (fun _ => 0%R) moms) = 0%R) by (clear; unfold norm2; induction moms as [|a l IHl]; cbn; auto; rewrite IHl; ring).
  assert (Lx : List.length x = List.length np) by apply Hx.
  rewrite Z0. rewrite value_at by (rewrite Lx; auto). unfold wall_energy. rewrite (ap_div J HJ), !(ap_mul J HJ). cbn [map fold_right].
  rewrite (ap_sub J HJ), (ap_int J HJ), ap_dat by auto. unfold gama, Minf. rewrite !ap_const. field. repeat split; auto. intros Z. apply G1. lra.
Qed.
Print Assumptions C46_isothermal_temperature.

(* Refuted: the isothermal wall keeps halo densities positive.  If the first point inside is
   at least twice as hot as the wall, the extrapolated halo temperature is not positive. *)
Definition gasJ : interp R :=
  {| inum := inum stdJ; iapp := iapp stdJ; isym := fun k s => if string_dec s "gama" then 2%R else 1%R |}.
Lemma gasJ_reals : reals gasJ.
Proof. destruct stdJ_reals as [A B C D E F]. split; auto. Qed.
Theorem C46_isothermal_positive_refuted :
  exists J ord np bh d side rho moms E x0 k pts M x,
    reals J /\ good_order ord /\ sweeps pts (on_face np bh d side) /\ on_face np bh d side x /\
    isothermal_apply ord np bh d side (ns_arrays (List.length np) rho moms E) x0
      [KEq (EDat E (here (List.length np))) (wall_energy (List.length np) rho)] = Ok k /\
    (forall y, 0 < M rho y /\ 0 < p_at J M rho moms E y)%R /\ (0 < const J "Twall")%R /\ (1 < const J "gama")%R /\
    (run_kernel J (bk_eqs k) pts M rho (outwards d side 1 x) < 0)%R.
Proof.
  set (np := [4%Z]). set (bh := [([(-2, 2)%Z], [(-2, 2)%Z])] : halo_ranges).
  set (M := fun (b : string) (y : list Z) => if string_dec b "rho" then 1%R else if string_dec b "rhou0" then 0%R else (3 / 2)%R).
  assert (Sw : sweeps [[0%Z]] (on_face np bh 0 false)).
  { split; [constructor; [intros [] | constructor]|]. intros x. split.
    - intros [<- | []]. split; [reflexivity|]. split; [reflexivity|]. intros [|i] Hi N; [congruence | cbn in Hi; lia].
    - intros (L & X & _). destruct x as [|a [|b x]]; try discriminate. cbn in X. subst. left; auto. }
  assert (Hx : on_face np bh 0 false [0%Z]) by (apply Sw; left; auto).
  assert (ND : NoDup ("rho" :: ["rhou0"] ++ ["rhoE"])%string) by (repeat constructor; cbn; intuition discriminate).
  assert (Px : placed 1 (EDat "x0" [0%Z])) by apply (placed_dat 1).
  destruct (C46_isothermal gasJ std_order np bh 0 false "rho" ["rhou0"%string] "rhoE" (EDat "x0" [0%Z]) (wall_energy 1 "rho")) as (k & Ek & _ & H);
    auto using gasJ_reals, std_order_good.
  { cbn. lia. }
  { intros b ix0 [Hb | []]. injection Hb as <- <-. cbn. intuition discriminate. }
  { apply placed_div; apply placed_mul; repeat (constructor; [first [apply placed_dat | apply placed_const | apply placed_g1]|]); auto. }
  { intros b ix0 Hb. cbn in Hb. destruct Hb as [Hb | []]. injection Hb as <- <-. cbn. intuition discriminate. }
  exists gasJ, std_order, np, bh, 0%nat, false, "rho"%string, ["rhou0"%string], "rhoE"%string, (EDat "x0" [0%Z]), k, [[0%Z]], M, [0%Z].
  split; [apply gasJ_reals|]. split; [apply std_order_good|]. split; [exact Sw|]. split; [exact Hx|]. split; [exact Ek|].
  split; [intros y; unfold p_at, pressure_of, M, const, gasJ, norm2; cbn; split; lra|]. split; [unfold const; cbn; lra|]. split; [unfold const; cbn; lra|].
  destruct (H [[0%Z]] M Sw) as [Hf _]. destruct (Hf [0%Z] Hx) as (M0 & RW & EW & Ht). destruct (Ht 1%Z) as (RY & _); [unfold halo_width; cbn; lia|].
  rewrite RY. unfold p_at at 1. rewrite RW, EW. cbn [map]. rewrite (M0 "rhou0"%string) by (left; auto).
  rewrite value_at by (apply placed_div; apply placed_mul; repeat (constructor; [first [apply placed_dat | apply placed_const | apply placed_g1]|]); auto).
  unfold wall_energy. rewrite (ap_div gasJ gasJ_reals), !(ap_mul gasJ gasJ_reals). cbn [map fold_right].
  rewrite (ap_sub gasJ gasJ_reals), (ap_int gasJ gasJ_reals), ap_dat by auto. unfold gama, Minf. rewrite !ap_const.
  unfold T_at, temperature_of, pressure_of, norm2, M, const. cbn. lra.
Qed.
Print Assumptions C46_isothermal_positive_refuted.
