(* The kernels of the boundary conditions impose the conditions. *)
From Verif Require Import Base Expr KernelModel ExprProofs WorkModel ShiftSpec ShiftProofs DiscModel DiscSpec ProgModel ProgSpec BndModel BndSpec BndKern.
From Verif Require Import BCModel BCSpec BCGasSpec BC2Spec BCProofs BCKern BCMirror BCProps BCWallProps BCIsoProps BC2Model BC2WallProps BC2StripProps BC2LawalProps BC2InletProps.
From Verif Require Import OneModel SideModel FaceModel FaceSpec.
From Coq Require Import ZArith Reals Lia Lra List.
Local Open Scope list_scope.

(* the exchange of a periodic direction, with halos of different widths *)
Lemma exchange_pair : forall sizes bh (w : bool -> nat) arrays d (M : memory) b y, List.length bh = List.length sizes ->
  lower_halo bh 0 = (- Z.of_nat (w false))%Z -> upper_halo bh 0 = Z.of_nat (w true) -> (w false <= w true <= 2 * w false)%nat ->
  (forall i, (i < List.length sizes)%nat -> (Z.of_nat (w false) <= nth i sizes 0)%Z) ->
  (d < List.length sizes)%nat -> In b arrays -> around w sizes y -> (nth d y 0 < nth d sizes 0 + Z.of_nat (w false))%Z ->
  transfer (periodic_apply sizes bh d true arrays) (transfer (periodic_apply sizes bh d false arrays) M) b y =
  M b (BndSpec.at_index d (nth d y 0 mod nth d sizes 0)%Z y).
Proof.
  intros sizes bh w arrays d M b x Lb E1 E2 Hw Hn Hd Hb [Lx Hx] Xu. pose proof (Hx d Hd) as Xd. pose proof (Hn d Hd) as Nd.
  assert (Ly : (- lower_halo bh 0 <= upper_halo bh 0 <= 2 * - lower_halo bh 0)%Z) by lia.
  assert (Hm0 : (0 <= - lower_halo bh 0)%Z) by lia.
  assert (Hn' : forall i, (i < List.length sizes)%nat -> (- lower_halo bh 0 <= nth i sizes 0)%Z) by (intros i Hi; specialize (Hn i Hi); lia).
  rewrite PerProps.transfer_at; auto; [|intros i Hi _; specialize (Hx i Hi); lia].
  rewrite E1, E2, Z.opp_involutive. set (m := Z.of_nat (w false)) in *. set (p := Z.of_nat (w true)) in *.
  set (c := (if _ && _ then _ else _)%Z).
  rewrite PerProps.transfer_at; auto.
  2:{ rewrite set_nth_length. auto. }
  2:{ intros i Hi Ne. rewrite nth_set_nth by lia. destruct (Nat.eq_dec i d); [congruence|]. specialize (Hx i Hi). lia. }
  rewrite E1, Z.opp_involutive. fold m.
  f_equal. rewrite nth_set_nth by lia. destruct (Nat.eq_dec d d) as [_ | N]; [|congruence].
  assert (SS : forall v w, set_nth d v (set_nth d w x) = set_nth d v x).
  { intros v u. apply PerProps.list_ext; [rewrite !set_nth_length; auto|]. intros i Hi. rewrite !set_nth_length in Hi.
    rewrite !nth_set_nth by (rewrite ?set_nth_length; lia). destruct (Nat.eq_dec i d); auto. }
  rewrite SS, set_nth_at_index by lia. f_equal. set (n := nth d sizes 0%Z) in *. set (a := nth d x 0%Z) in *.
  assert (Ec : c = if (- m <=? a)%Z && (a <? - m + p)%Z then (a + n)%Z else a) by reflexivity.
  assert (Hmp : (0 <= m <= p /\ p <= 2 * m)%Z) by lia. clearbody n a c m p. clear - Ec Hmp Xd Nd Xu.
  destruct ((- m <=? a)%Z && (a <? - m + p)%Z) eqn:E1.
  - apply andb_true_iff in E1. rewrite Z.leb_le, Z.ltb_lt in E1. subst c.
    destruct (Z_lt_le_dec a 0).
    + replace ((n <=? a + n)%Z && (a + n <? n + m)%Z) with false by (symmetry; apply andb_false_iff; left; apply Z.leb_gt; lia).
      symmetry. rewrite <- (Z_mod_plus_full a 1 n). rewrite Z.mul_1_l. apply Z.mod_small. lia.
    + replace ((n <=? a + n)%Z && (a + n <? n + m)%Z) with true by (symmetry; apply andb_true_iff; rewrite Z.leb_le, Z.ltb_lt; lia).
      rewrite Z.mod_small; lia.
  - apply andb_false_iff in E1. rewrite Z.leb_gt, Z.ltb_ge in E1. subst c.
    destruct ((n <=? a)%Z && (a <? n + m)%Z) eqn:E2.
    + apply andb_true_iff in E2. rewrite Z.leb_le, Z.ltb_lt in E2. symmetry. rewrite <- (Z_mod_plus_full a (-1) n).
      replace (a + -1 * n)%Z with (a - n)%Z by lia. apply Z.mod_small. lia.
    + apply andb_false_iff in E2. rewrite Z.leb_gt, Z.ltb_ge in E2. symmetry. apply Z.mod_small. lia.
Qed.

Section kern.
Variables (J : interp R) (ord : order_of) (k : nat) (w : bool -> nat) (shock : bool) (bh : halo_ranges)
  (sizes : list Z) (fs : list field) (g : gas) (types : list (bcond * bcond)).
Variables (dt : R) (ab : list R * list R) (points : bkernel -> list (list Z)).
Notation n := (List.length sizes).
Hypothesis len_bh : List.length bh = n.
Hypothesis Hbh : forall i, (i < n)%nat -> lower_halo bh i = (- Z.of_nat (w false))%Z /\ upper_halo bh i = Z.of_nat (w true).
Hypothesis Hw : (w false <= w true <= 2 * w false)%nat.
Notation n_ d := (nth d sizes 0%Z).
Notation names := (field_names fs).
Hypothesis HF : functions J.
Hypothesis Hord : good_order ord.
Hypothesis FB : face_boundaries w sizes fs g types.
Hypothesis Hp : all_points points.

Lemma face_iff : forall d side x, (d < n)%nat -> on_face sizes bh d side x <-> face w sizes d side x.
Proof.
  intros d side x Hd. destruct (fb_wide _ _ _ _ _ FB d Hd) as [_ W]. split.
  - intros (L & E & H). split; auto. split; auto. intros i Hi. destruct (Nat.eq_dec i d) as [-> | N]; [rewrite E; destruct side; lia|].
    specialize (H i Hi N). destruct (Hbh i Hi) as [E1 E2]. rewrite E1, E2 in H. lia.
  - intros ((L & H) & E). split; auto. split; auto. intros i Hi N. specialize (H i Hi). destruct (Hbh i Hi) as [-> ->]. lia.
Qed.
Lemma width_k : forall d side, (d < n)%nat -> halo_width bh side = Z.of_nat (w side).
Proof. intros d side Hd. unfold halo_width. destruct (Hbh 0) as [-> ->]; [lia|]. destruct side; lia. Qed.
Lemma beyond_iff : forall d side y, (d < n)%nat -> halo_point sizes bh d side y <-> beyond w sizes d side y.
Proof.
  intros d side y Hd. unfold halo_point, beyond, layer. rewrite (width_k d side Hd).
  split; intros (x & t & A & B & C); exists x, t; (split; [apply face_iff; auto | auto]).
Qed.
Lemma edge_iff : forall d side y, (d < n)%nat -> face_or_halo sizes bh d side y <-> edge w sizes d side y.
Proof. intros d side y Hd. unfold face_or_halo, edge. rewrite face_iff, beyond_iff by auto. tauto. Qed.
Lemma face_w : forall d (side : bool) y, (d < n)%nat -> around w sizes y -> face w sizes d side (BndSpec.at_index d (if side then n_ d - 1 else 0)%Z y).
Proof.
  intros d side y Hd [Ly Hy]. destruct (fb_wide _ _ _ _ _ FB d Hd) as [_ W]. split; [|apply at_index_nth; lia]. split; [rewrite at_index_length; auto|].
  intros i Hi. destruct (Nat.eq_dec i d) as [-> | N]; [rewrite at_index_nth by lia; destruct side; lia | rewrite at_index_other by auto; apply Hy; auto].
Qed.
Lemma layers_iff : forall d side y, (d < n)%nat -> face_layers sizes bh d side y <-> edge w sizes d side y.
Proof.
  intros d side y Hd. destruct (fb_wide _ _ _ _ _ FB d Hd) as [_ W]. destruct (Hbh d Hd) as [E1 E2].
  unfold face_layers. rewrite E1, E2. split.
  - intros (L & Hs & H).
    assert (Ny : around w sizes y).
    { split; auto. intros i Hi. destruct (Nat.eq_dec i d) as [-> | N]; [destruct side; lia|]. specialize (H i Hi N).
      destruct (Hbh i Hi) as [X1 X2]. rewrite X1, X2 in H. lia. }
    destruct (Z.eq_dec (nth d y 0%Z) (if side then n_ d - 1 else 0)%Z) as [E | N]; [left; split; auto|].
    right. exists (BndSpec.at_index d (if side then n_ d - 1 else 0)%Z y), (if side then nth d y 0 - (n_ d - 1) else - nth d y 0)%Z.
    split; [apply face_w; auto|]. split; [unfold layer; destruct side; lia|].
    unfold outwards. rewrite move_at_index. replace (_ + _)%Z with (nth d y 0%Z) by (destruct side; lia). symmetry. apply at_index_self.
  - intros [[[L H] E] | (x & t & [[L H] E] & Ht & ->)].
    + split; auto. split; [rewrite E; destruct side; lia|]. intros i Hi N. destruct (Hbh i Hi) as [-> ->]. apply H. auto.
    + unfold outwards, layer in *. rewrite move_length. split; auto. rewrite move_nth by lia. rewrite E. split; [destruct side; lia|].
      intros i Hi N. rewrite move_nth_other by auto. destruct (Hbh i Hi) as [-> ->]. apply H. auto.
Qed.
Lemma sweeps_of : forall bk P, (forall x, bk_points bk x = true <-> P x) -> sweeps (points bk) P.
Proof. intros bk P H. destruct (Hp bk) as [A B]. split; auto. intros x. rewrite B. apply H. Qed.


Lemma condition_ok : forall d (side : bool) (c l r : bcond) fk, (d < n)%nat -> nth_error types d = Some (l, r) -> c = (if side then r else l) -> c <> Central Periodic ->
  apply_condition shock ord sizes bh (arrays_of n fs) g d side c = Ok fk ->
  exists bk, fk = Other (Wall bk) /\ forall M, imposes J w shock sizes fs g c d side M (run_kernel J (bk_eqs bk) (points bk) M).
Proof.
  intros d side c l r fk Hd Et Ec Np Ea. pose proof (f_reals _ HF) as HJ. pose proof len_bh as Lh.
  destruct (fb_names _ _ _ _ _ FB) as [ND NE]. pose proof (fb_vectors _ _ _ _ _ FB) as LV.
  assert (Adm : admissible n fs g d c) by (destruct (fb_data _ _ _ _ _ FB d l r Et); destruct side; subst c; auto).
  assert (Gas : uses_gas c -> NoDup (gas_names g) /\ incl (gas_names g) names /\ List.length (g_momentum g) = n /\ (n <= 10)%nat).
  { intros U. apply (fb_gas _ _ _ _ _ FB l r); [eapply nth_error_In; eauto|]. destruct side; subst c; auto. }
  assert (WK : forall side, halo_width bh side = Z.of_nat (w side)) by (intros s; apply (width_k d s Hd)).
  pose proof (fun s x => face_iff d s x Hd) as FI. pose proof (fun s x => beyond_iff d s x Hd) as BI.
  pose proof (fun s x => edge_iff d s x Hd) as EI. pose proof (fun s x => layers_iff d s x Hd) as LI.
  assert (LT : forall s t, t = 0%Z \/ layer w s t -> (0 <= t <= Z.of_nat (w s))%Z) by (unfold layer; intros s t [-> | H]; lia).
  clear l r Et Ec. unfold gas_names in *.
  destruct c as [b | ps s | order s | s | s | s | x0 e s | s | md e1 e2 s | s | s]; cbn [apply_condition] in Ea.
  - cbn in Adm. destruct b as [| row | row |]; [congruence| | |]; cbn [apply_bc_direction] in Ea.
    + destruct (Adm row (or_introl eq_refl)) as [Lr Pr].
      destruct (C44_symmetry J ord sizes bh d side row fs HJ Hord Lh Hd ND NE Pr Lr LV) as (bk & E & P & X).
      rewrite E in Ea. cbn [bind] in Ea. injection Ea as <-. exists bk. split; auto. intros M.
      destruct (X _ M (sweeps_of bk _ P)) as [A Fr]. rewrite WK in A. split.
      * intros x t Hx Ht. apply FI in Hx. exact (A x t Hx Ht).
      * intros b y H. apply Fr. rewrite BI. exact H.
    + destruct (Adm row (or_introl eq_refl)) as [Lr Pr].
      destruct (C44_inviscid_wall J ord sizes bh d side row fs HJ Hord Lh Hd ND NE Pr Lr LV) as (bk & E & P & X).
      rewrite E in Ea. cbn [bind] in Ea. injection Ea as <-. exists bk. split; auto. intros M.
      destruct (X _ M (sweeps_of bk _ P)) as (A & B & Fr). rewrite WK in A. split; [|split].
      * intros x t Hx Ht. apply FI in Hx. exact (A x t Hx Ht).
      * intros x Hx. apply FI in Hx. exact (B x Hx).
      * intros b y H. apply Fr. rewrite BI, FI. unfold edge in H. tauto.
    + destruct (C68_zero_gradient R J ord sizes bh d side fs Hord Lh Hd ND NE) as (bk & E & P & X).
      rewrite E in Ea. cbn [bind] in Ea. injection Ea as <-. exists bk. split; auto. intros M.
      destruct (X _ M (sweeps_of bk _ P)) as (A & Fr). rewrite WK in A. split; [|split].
      * intros x b Hx Hb. apply FI in Hx. apply (A x b Hx Hb).
      * intros x t b Hx Ht Hb. apply FI in Hx. apply (A x b Hx Hb). exact Ht.
      * intros b y H. apply Fr. rewrite EI. exact H.
  - destruct Adm as (N1 & Inc & Pl & Rd).
    destruct (C67_dirichlet R J sizes bh d side ps Lh Hd N1 Pl Rd) as (bk & E & P & X).
    unfold here in E. rewrite E in Ea. cbn [bind] in Ea. injection Ea as <-. exists bk. split; auto. intros M.
    destruct (X _ M (sweeps_of bk _ P)) as (A & Fr). split.
    + intros y b e Hy Hb. apply A; auto. apply LI. auto.
    + intros b y H. apply Fr. rewrite LI. tauto.
  - destruct (Z.eq_dec order 0) as [-> | N0]; [|destruct (Z.eq_dec order 1) as [-> | N1]].
    + destruct (C45_constant R J ord sizes bh d side fs Hord Lh Hd ND NE) as (bk & E & P & X).
      rewrite E in Ea. cbn [bind] in Ea. injection Ea as <-. exists bk. split; auto. intros M.
      destruct (X _ M (sweeps_of bk _ P)) as (A & Fr). rewrite WK in A. left. split; auto. split.
      * intros x t b Hx Ht Hb. apply FI in Hx. apply A; auto.
      * intros b y H. apply Fr. rewrite BI, FI. unfold edge in H. tauto.
    + destruct (C45_linear J ord sizes bh d side fs HJ Hord Lh Hd ND) as (bk & E & P & X).
      rewrite E in Ea. cbn [bind] in Ea. injection Ea as <-. exists bk. split; auto. intros M.
      destruct (X _ M (sweeps_of bk _ P)) as (A & Fr). rewrite WK in A. right. split; auto. split.
      * intros x t b Hx Ht Hb. apply FI in Hx. apply A; auto.
      * intros b y H. apply Fr. rewrite BI. exact H.
    + rewrite C45_other_orders in Ea by auto. discriminate.
  - destruct (C68_inlet_transfer R J ord sizes bh d fs Hord Lh Hd ND NE) as (Up & bk & E & P & X).
    destruct side; [rewrite Up in Ea; discriminate|].
    rewrite E in Ea. cbn [bind] in Ea. injection Ea as <-. exists bk. split; auto. intros M.
    destruct (X _ M (sweeps_of bk _ P)) as (A & Fr). split; auto. split.
    + intros x b Hx Hb. apply FI in Hx. apply A; auto.
    + intros b y H. apply Fr. rewrite FI. exact H.
  - destruct (Gas I) as (NG & _ & LM & L10).
    destruct (C69_pressure_outlet J ord sizes bh d (g_density g) (g_momentum g) (g_energy g) HJ Hord Lh Hd NG) as (Lo & bk & E & P & X).
    change (ns_arrays n (g_density g) (g_momentum g) (g_energy g)) with (gas_vars n g) in *.
    destruct side; [|rewrite Lo in Ea; discriminate].
    rewrite E in Ea. cbn [bind] in Ea. injection Ea as <-. exists bk. split; auto. intros M.
    destruct (X _ M (sweeps_of bk _ P)) as (A & Fr). rewrite WK in A. split; auto. split.
    + intros x t Hx Ht. apply FI in Hx. apply A; auto.
    + intros b y H. apply Fr. rewrite EI. exact H.
  - destruct (Gas I) as (NG & _ & LM & L10).
    destruct (C46_adiabatic J ord sizes bh d side (g_density g) (g_momentum g) (g_energy g) HJ Hord Lh Hd NG) as (bk & E & P & X).
    change (ns_arrays n (g_density g) (g_momentum g) (g_energy g)) with (gas_vars n g) in *.
    rewrite E in Ea. cbn [bind] in Ea. injection Ea as <-. exists bk. split; auto. intros M.
    destruct (X _ M (sweeps_of bk _ P)) as (A & Fr). rewrite WK in A. split; [|split].
    + intros x Hx. apply FI in Hx. destruct (A x Hx) as (A1 & A2 & A3 & _). split; auto. split; auto. intros (Q1 & Q2 & Q3) Q4. exact (A3 Q1 Q2 Q3 Q4).
    + intros x t Hx Ht. apply FI in Hx. destruct (A x Hx) as (_ & _ & _ & A4). exact (A4 t Ht).
    + intros b y H. apply Fr. rewrite EI. exact H.
  - destruct (Gas I) as (NG & _ & LM & L10). destruct (Adm x0 (or_introl eq_refl)) as [Px Rx]. destruct (Adm e (or_intror eq_refl)) as [Pe Re].
    destruct (C46_isothermal J ord sizes bh d side (g_density g) (g_momentum g) (g_energy g) x0 e HJ Hord Lh Hd NG ltac:(lia) Px Rx Pe Re) as (bk & E & P & X).
    change (ns_arrays n (g_density g) (g_momentum g) (g_energy g)) with (gas_vars n g) in *. unfold here in E.
    rewrite E in Ea. cbn [bind] in Ea. injection Ea as <-. exists bk. split; auto. intros M.
    destruct (X _ M (sweeps_of bk _ P)) as (A & Fr). rewrite WK in A. split; [|split].
    + intros x Hx. apply FI in Hx. destruct (A x Hx) as (A1 & A2 & A3 & _). auto.
    + intros x t Hx Ht. apply FI in Hx. destruct (A x Hx) as (_ & _ & _ & A4). destruct (A4 t Ht) as (B1 & B2 & B3).
      split; [exact B1|]. split; [exact B2|]. intros (Q1 & Q2 & Q3). exact (B3 Q1 Q2 Q3).
    + intros b y H. apply Fr. rewrite EI. exact H.
  - destruct (Gas I) as (NG & _ & LM & L10). cbn in Adm. rewrite Adm in Ea.
    destruct (C76_carpenter_wall J ord sizes bh d side (g_density g) (g_momentum g) (g_energy g) HF Hord Lh Hd NG) as (bk & E & P & X).
    change (ns_arrays n (g_density g) (g_momentum g) (g_energy g)) with (gas_vars n g) in *.
    rewrite E in Ea. cbn [bind] in Ea. injection Ea as <-. exists bk. split; auto. intros M.
    destruct (X _ M (sweeps_of bk _ P)) as (A & Fr). split.
    + intros x Hx. apply FI in Hx. destruct (A x Hx) as (A1 & A2 & A3). split; auto. split; auto. intros (Q1 & Q2 & Q3) Q4. exact (proj1 (A3 Q1 Q2 Q3 Q4)).
    + intros b y H. apply Fr. rewrite FI. exact H.
  - destruct (Gas I) as (NG & _ & LM & L10). destruct Adm as (Emd & Adm).
    destruct (Adm e1 (or_introl eq_refl)) as [Px Rx]. destruct (Adm e2 (or_intror eq_refl)) as [Pe Re].
    destruct (C76_forcing_strip J ord sizes bh d side shock (g_density g) (g_momentum g) (g_energy g) md e1 e2 HJ Hord Lh Hd NG ltac:(lia) Emd Px Rx Pe Re) as (bk & E & P & X).
    change (ns_arrays n (g_density g) (g_momentum g) (g_energy g)) with (gas_vars n g) in *. unfold here in E.
    rewrite E in Ea. cbn [bind] in Ea. injection Ea as <-. exists bk. split; auto. intros M.
    destruct (X _ M (sweeps_of bk _ P)) as (A & Fr1 & Fr). rewrite WK in A. split.
    + intros x Hx. apply FI in Hx. destruct (A x Hx) as (A1 & A2 & A3 & A4 & _). auto.
    + destruct shock; [split|].
      * intros x t Hx Ht. apply FI in Hx. destruct (A x Hx) as (_ & _ & _ & _ & A5). destruct (A5 eq_refl t Ht) as (B1 & B2 & B3).
        split; [exact B1|]. split; [exact B2|]. intros (Q1 & Q2 & Q3). exact (B3 Q1 Q2 Q3).
      * intros b y H. apply (Fr1 eq_refl). rewrite EI. exact H.
      * intros b y H. apply (Fr eq_refl). rewrite FI. exact H.
  - destruct (Gas I) as (NG & _ & LM & L10).
    destruct (C76_lawal_inlet J ord sizes bh d (g_density g) (g_momentum g) (g_energy g) HF Hord Lh Hd NG) as (Up & bk & E & P & X).
    change (ns_arrays n (g_density g) (g_momentum g) (g_energy g)) with (gas_vars n g) in *.
    destruct side; [rewrite Up in Ea; discriminate|].
    rewrite E in Ea. cbn [bind] in Ea. injection Ea as <-. exists bk. split; auto. intros M.
    destruct (X _ M (sweeps_of bk _ P)) as (A & Fr). rewrite WK in A. split; auto. split.
    + intros x t Hx Ht. apply FI in Hx. apply A; auto.
    + intros b y H. apply Fr. rewrite EI. exact H.
  - destruct (Gas I) as (NG & _ & LM & L10). cbn in Adm.
    destruct (nth_error (g_momentum g) d) as [md|] eqn:Emd; [|exfalso; apply nth_error_None in Emd; lia].
    assert (FA : flat_arrays (arrays_of n fs) = map (fun v => EDat v (here n)) (g_density g :: g_momentum g) ++ [EDat (g_energy g) (here n)]).
    { rewrite flat_arrays_of, Adm. unfold field_names. cbn [flat_map app]. rewrite app_nil_r || idtac. cbn [map app]. rewrite map_app. reflexivity. }
    destruct (C76_pressure_inlet J ord sizes bh d (arrays_of n fs) _ (g_density g) (g_momentum g) (g_energy g) md HF Hord Lh Hd NG LM Emd FA) as (Up & bk & E & P & X).
    change (ns_arrays n (g_density g) (g_momentum g) (g_energy g)) with (gas_vars n g) in *.
    destruct side; [rewrite Up in Ea; discriminate|].
    rewrite E in Ea. cbn [bind] in Ea. injection Ea as <-. exists bk. split; auto. intros M.
    destruct (X _ M (sweeps_of bk _ P)) as (A & Fr). split; auto. split; [|split].
    + intros x md' Hx Emd' G1 G2 G3. rewrite Emd in Emd'. injection Emd' as <-. apply FI in Hx. destruct (A x Hx G1 G2 G3) as [A1 A2]. rewrite WK in A1, A2. split.
      * intros Q. exact (A1 Q).
      * intros Q. destruct (A2 Q) as [B1 B2]. split; auto. intros t Ht. apply (B2 t Ht).
    + intros b y Nb Ny. apply Fr; [rewrite FI; tauto | tauto].
    + intros b y H. apply Fr; [rewrite FI; unfold edge in H; tauto|]. rewrite BI. intros [-> Hb]. apply H. split; [|right; auto].
      right. apply in_app_iff. right. left. auto.
Qed.

(* ---- all directions ---- *)
Variables (K : Type) (run : memory -> K -> option Z -> memory) (inj : fkernel -> K).
Hypothesis Hrun : forall M x st, run M (inj x) st = run_fkernel J k sizes dt ab points M x st.
Definition run_all (st : option Z) (ks : list K) (M : memory) : memory := fold_left (fun M x => run M x st) ks M.
Lemma direction_imposed : forall d l r kl kr, (d < n)%nat -> nth_error types d = Some (l, r) ->
  apply_condition shock ord sizes bh (arrays_of n fs) g d false l = Ok kl -> apply_condition shock ord sizes bh (arrays_of n fs) g d true r = Ok kr ->
  forall st M, imposed_on J w shock sizes fs g d l r M (run_all st (map inj [kl; kr]) M).
Proof.
  intros d l r kl kr Hd Et El Er st M. pose proof (fb_matched _ _ _ _ _ FB l r (nth_error_In _ _ Et)) as Hm.
  assert (Pd : l = Central Periodic \/ l <> Central Periodic) by (destruct l as [[]| | | | | | | | | |]; auto; right; discriminate).
  destruct Pd as [-> | Nl].
  - assert (r = Central Periodic) by (apply Hm; auto). subst r. left. split; auto. split; auto.
    cbn in El, Er. injection El as <-. injection Er as <-. unfold run_all. cbn [map fold_left]. rewrite !Hrun. cbn [run_fkernel run_xkernel run_pkernel]. rewrite exchanged_names. split.
    + destruct (Hbh 0) as [B1 B2]; [lia|]. intros b y Hb Hy Yd. apply (exchange_pair sizes bh w); auto. intros i Hi. apply (fb_wide _ _ _ _ _ FB i Hi).
    + intros b y Hb. rewrite !transfer_frame; auto; unfold periodic_apply, get_transfers; cbn [ex_arrays]; auto.
  - assert (Nr : r <> Central Periodic) by (intros C; apply Nl, Hm; auto).
    destruct (condition_ok d false l l r kl Hd Et eq_refl Nl El) as (bl & -> & Xl).
    destruct (condition_ok d true r l r kr Hd Et eq_refl Nr Er) as (br & -> & Xr).
    right. exists (run_kernel J (bk_eqs bl) (points bl) M). split; [apply Xl|]. unfold run_all. cbn [map fold_left]. rewrite !Hrun. apply Xr.
Qed.
Lemma all_imposed : forall tl d ks, (forall i p, nth_error tl i = Some p -> nth_error types (d + i) = Some p) ->
  apply_conditions shock ord sizes bh (arrays_of n fs) g d tl = Ok ks ->
  forall st M, imposed_from J w shock sizes fs g d tl M (run_all st (map inj ks) M).
Proof.
  induction tl as [|[l r] tl IH]; intros d ks Ht Ek st M; cbn [apply_conditions] in Ek; [injection Ek as <-; reflexivity|].
  destruct (apply_condition shock ord sizes bh (arrays_of n fs) g d false l) as [kl|] eqn:El; [|discriminate]. cbn [bind] in Ek.
  destruct (apply_condition shock ord sizes bh (arrays_of n fs) g d true r) as [kr|] eqn:Er; [|discriminate]. cbn [bind] in Ek.
  destruct (apply_conditions shock ord sizes bh (arrays_of n fs) g (S d) tl) as [ks'|] eqn:Es; [|discriminate]. cbn [bind] in Ek. injection Ek as <-.
  assert (Et : nth_error types d = Some (l, r)) by (specialize (Ht 0%nat (l, r) eq_refl); rewrite Nat.add_0_r in Ht; auto).
  assert (Hd : (d < n)%nat) by (rewrite <- (fb_count _ _ _ _ _ FB); apply nth_error_Some; congruence).
  exists (run_all st (map inj [kl; kr]) M). split; [eapply direction_imposed; eauto|].
  change (run_all st (map inj (kl :: kr :: ks')) M) with (run_all st (map inj ks') (run_all st (map inj [kl; kr]) M)). apply IH; auto.
  intros i p Hi. replace (S d + i)%nat with (d + S i)%nat by lia. apply Ht. auto.
Qed.
Lemma conditions_imposed : forall ks, apply_conditions shock ord sizes bh (arrays_of n fs) g 0 types = Ok ks ->
  forall st M, imposed_from J w shock sizes fs g 0 types M (run_all st (map inj ks) M).
Proof. intros ks E. apply all_imposed; auto. Qed.
End kern.

(* ---- what the conditions leave alone ---- *)
Section frame.
Variables (J : interp R) (w : bool -> nat) (shock : bool) (sizes : list Z) (fs : list field) (g : gas).
Notation n := (List.length sizes).
Notation names := (field_names fs).
Lemma imposes_changes : forall c d side M M', admissible n fs g d c -> (uses_gas c -> incl (gas_names g) names) ->
  imposes J w shock sizes fs g c d side M M' -> changes_only names (edge w sizes d side) M M'.
Proof.
  intros c d side M M' Ad Ga H.
  assert (W : forall l (P : list Z -> Prop), incl l names -> (forall y, P y -> edge w sizes d side y) -> changes_only l P M M' -> changes_only names (edge w sizes d side) M M').
  { intros l P Hl HP F b y Nb. apply F. intros [A B]. apply Nb. split; auto. }
  assert (I1 : incl names names) by (intros a; auto).
  assert (I2 : incl (gas_names g) names -> incl (g_momentum g ++ [g_energy g]) names) by (intros I b Hb; apply I; right; auto).
  destruct c as [b | ps s | order s | s | s | s | x0 e s | s | md e1 e2 s | s | s]; cbn [imposes] in H; [destruct b; [tauto| | |]| | | | | | | | | |].
  - eapply W; [exact I1| |apply H]. intros y Hy. right. auto.
  - apply H.
  - apply H.
  - destruct Ad as (_ & I & _). eapply W; [exact I| |apply H]. auto.
  - destruct H as [(_ & _ & H) | (_ & _ & H)]; [exact H|]. eapply W; [exact I1| |exact H]. intros y Hy. right. auto.
  - destruct H as (_ & _ & H). eapply W; [exact I1| |exact H]. intros y Hy. left. auto.
  - destruct H as (_ & _ & H). eapply W; [apply Ga; exact I| |exact H]. auto.
  - destruct H as (_ & _ & H). eapply W; [apply Ga; exact I| |exact H]. auto.
  - destruct H as (_ & _ & H). eapply W; [apply Ga; exact I| |exact H]. auto.
  - destruct H as (_ & H). eapply W; [apply I2, Ga; exact I| |exact H]. intros y Hy. left. auto.
  - destruct H as (_ & H). destruct shock.
    + destruct H as (_ & H). eapply W; [apply Ga; exact I| |exact H]. auto.
    + eapply W; [apply I2, Ga; exact I| |exact H]. intros y Hy. left. auto.
  - destruct H as (_ & _ & H). eapply W; [apply Ga; exact I| |exact H]. auto.
  - destruct H as (_ & _ & _ & H). eapply W; [apply Ga; exact I| |exact H]. auto.
Qed.
Lemma edge_coord : forall d side y, (d < n)%nat -> edge w sizes d side y -> (if side then nth d sizes 0 - 1 <= nth d y 0 else nth d y 0 <= 0)%Z.
Proof.
  intros d side y Hd [[_ E] | (x & t & [[L _] E] & Ht & ->)]; [rewrite E; destruct side; lia|].
  unfold outwards, layer in *. rewrite move_nth by lia. rewrite E. destruct side; lia.
Qed.
Variable types : list (bcond * bcond).
Hypothesis FB : face_boundaries w sizes fs g types.
Lemma admissible_at : forall d l r, nth_error types d = Some (l, r) -> admissible n fs g d l /\ admissible n fs g d r /\
  (uses_gas l -> incl (gas_names g) names) /\ (uses_gas r -> incl (gas_names g) names) /\ (d < n)%nat.
Proof.
  intros d l r E. destruct (fb_data _ _ _ _ _ FB d l r E) as [A B]. split; auto. split; auto.
  pose proof (fb_gas _ _ _ _ _ FB l r (nth_error_In _ _ E)) as G. split; [intros U; apply G; auto|]. split; [intros U; apply G; auto|].
  rewrite <- (fb_count _ _ _ _ _ FB). apply nth_error_Some. congruence.
Qed.
(* a direction leaves other arrays and points strictly inside alone *)
Lemma imposed_on_keeps : forall d l r M M' b y, nth_error types d = Some (l, r) -> imposed_on J w shock sizes fs g d l r M M' ->
  ~ In b names \/ (around w sizes y /\ (0 < nth d y 0 < nth d sizes 0 - 1)%Z) -> M' b y = M b y.
Proof.
  intros d l r M M' b y Et H K. destruct (admissible_at d l r Et) as (Al & Ar & Gl & Gr & Hd).
  destruct H as [(_ & _ & H1 & H2) | (M1 & Hl & Hr)].
  - destruct (in_dec string_dec b names) as [I | N]; [|apply H2; auto]. destruct K as [K | [K1 K2]]; [contradiction|].
    rewrite H1 by (auto; lia). rewrite Z.mod_small by lia. rewrite at_index_self. reflexivity.
  - apply imposes_changes in Hl; auto. apply imposes_changes in Hr; auto.
    rewrite Hr, Hl; auto; intros [I E]; destruct K as [K | [_ K]]; try contradiction; apply edge_coord in E; auto; cbn in E; lia.
Qed.
Lemma imposed_from_keeps : forall tl d M M' b y, (forall i p, nth_error tl i = Some p -> nth_error types (d + i) = Some p) ->
  imposed_from J w shock sizes fs g d tl M M' ->
  ~ In b names \/ (around w sizes y /\ forall i, (d <= i < n)%nat -> (0 < nth i y 0 < nth i sizes 0 - 1)%Z) -> M' b y = M b y.
Proof.
  induction tl as [|[l r] tl IH]; intros d M M' b y Ht H K; cbn [imposed_from] in H; [subst; reflexivity|].
  destruct H as (M1 & H1 & H2).
  assert (Et : nth_error types d = Some (l, r)) by (specialize (Ht 0%nat (l, r) eq_refl); rewrite Nat.add_0_r in Ht; auto).
  assert (Hd : (d < n)%nat) by apply (admissible_at d l r Et).
  rewrite (IH (S d) M1 M' b y); auto.
  - apply (imposed_on_keeps d l r M M1 b y Et H1). destruct K as [K | [K1 K2]]; [left; exact K|]. right. split; [exact K1|]. apply K2. lia.
  - intros i p Hi. replace (S d + i)%nat with (d + S i)%nat by lia. apply Ht. auto.
  - destruct K as [K | [K1 K2]]; auto. right. split; auto. intros i Hi. apply K2. lia.
Qed.
End frame.
