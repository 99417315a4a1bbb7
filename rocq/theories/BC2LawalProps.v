(* C76: the inlet with fixed stagnation state. *)
From Verif Require Import Base BaseProofs Expr ExprProofs KernelModel ShiftModel ShiftSpec ShiftProofs BCModel BCSpec BCGasSpec BCProofs BCKern BCMirror BCOrder BCVec BCStm BCGas BCIso BC2Model BC2Spec BC2Proofs.
From Coq Require Import QArith ZArith Reals Qreals Lia Lra.
Local Close Scope Q_scope.
Local Open Scope R_scope.

Lemma Rpower_Ropp1 : forall a b, Rpower (/ a) b = Rpower a (- b).
Proof.
  intros a b. unfold Rpower. destruct (Rlt_dec 0 a) as [H | H].
  - rewrite ln_Rinv by auto. f_equal. ring.
  - unfold ln. destruct (Rlt_dec 0 a); [contradiction|]. destruct (Rlt_dec 0 (/ a)) as [H2 | H2]; [|rewrite !Rmult_0_r; reflexivity].
    exfalso. apply H. destruct (Req_dec a 0) as [-> | N]; [rewrite Rinv_0 in H2; lra|]. rewrite <- (Rinv_inv a). apply Rinv_0_lt_compat. auto.
Qed.
Section items.
  Variables (n d : nat) (from : Z) (w : nat) (rho : string) (moms : list string) (E : string).
  Local Notation dat b k := (EDat b (move d k (here n))).
  Definition law_sq : expr := eadd (map (fun c => epow (u1var (fst c)) 2) (enum moms)).
  Definition law_g1 : expr := esub gama (eint 1).
  Definition law_T : expr := esub (eint 1) (emul [ENum (1 # 2); law_g1; law_sq]).
  Definition law_rho : expr := epow2 (eadd [eint 1; emul [ENum (1 # 2); law_g1; ediv law_sq law_T]]) (ediv (eint (-1)) law_g1).
  Definition law_E : expr := eadd [ediv (emul [law_rho; law_T]) (emul [gama; law_g1]); emul [ENum (1 # 2); law_rho; law_sq]].
  Definition law1 : list item :=
    Lo "local_rhoE" (EDat E (here n)) :: map (fun c => Lo (digits_name "u" (fst c)) (ediv (dat (snd c) 1) (dat rho 1))) (enum moms).
  Definition law2 : list item :=
    map (fun i => Da rho (from * i) law_rho) (0%Z :: upto w) ++
    flat_map (fun i => map (fun c => Da (snd c) (from * i) (emul [law_rho; u1var (fst c)])) (enum moms)) (0%Z :: upto w) ++
    map (fun i => Da E (from * i) law_E) (0%Z :: upto w).

  Lemma in_law1 : forall a, In a law1 <-> a = Lo "local_rhoE" (EDat E (here n)) \/
    exists c m, nth_error moms c = Some m /\ a = Lo (digits_name "u" c) (ediv (dat m 1) (dat rho 1)).
  Proof.
    intros a. unfold law1. cbn [In]. rewrite in_map_iff. split.
    - intros [<- | ([c m] & <- & H)]; auto. right. exists c, m. split; auto. apply in_enum. auto.
    - intros [-> | (c & m & H & ->)]; auto. right. exists (c, m). split; auto. apply in_enum. auto.
  Qed.
  Lemma in_zero_upto : forall i, In i (0%Z :: upto w) <-> (0 <= i <= Z.of_nat w)%Z.
  Proof. intros i. cbn [In]. rewrite in_upto. lia. Qed.
  Lemma in_law2 : forall a, In a law2 <-> exists i, (0 <= i <= Z.of_nat w)%Z /\
    (a = Da rho (from * i) law_rho \/ (exists c m, nth_error moms c = Some m /\ a = Da m (from * i) (emul [law_rho; u1var c])) \/ a = Da E (from * i) law_E).
  Proof.
    intros a. unfold law2. rewrite !in_app_iff, !in_map_iff, in_flat_map. split.
    - intros [(i & <- & H) | [(i & H & K) | (i & <- & H)]]; apply in_zero_upto in H; exists i; split; auto.
      apply in_map_iff in K. destruct K as ([c m] & <- & K). right. left. exists c, m. split; auto. apply in_enum. auto.
    - intros (i & Hi & [-> | [(c & m & Hm & ->) | ->]]); apply in_zero_upto in Hi.
      + left. eauto.
      + right. left. exists i. split; auto. apply in_map_iff. exists (c, m). split; auto. apply in_enum. auto.
      + right. right. eauto.
  Qed.
  Definition law_vel (g : string) : Prop := exists c m, nth_error moms c = Some m /\ g = digits_name "u" c.
  Local Notation ok := (uses (fun _ => False) law_vel).
  Lemma law_sq_uses : ok law_sq.
  Proof.
    apply uses_app. intros e He. apply in_map_iff in He. destruct He as ([c m] & <- & H). apply in_enum in H. unfold epow, u1var.
    repeat uses_tac. exists c, m. auto.
  Qed.
  Lemma law_rho_uses : ok law_rho.
  Proof. pose proof law_sq_uses. unfold law_rho, law_T, law_g1, epow2, eadd, emul, esub, ediv, epow, eint, gama. repeat uses_tac. Qed.
  Lemma law_E_uses : ok law_E.
  Proof. pose proof law_sq_uses. pose proof law_rho_uses. unfold law_E, law_T, law_g1, eadd, emul, esub, ediv, epow, eint, gama. repeat uses_tac. Qed.
  Lemma law2_uses : forall a, In a law2 -> ok (rhs_of a).
  Proof.
    intros a H. apply in_law2 in H. destruct H as (i & _ & [-> | [(c & m & H & ->) | ->]]); cbn [rhs_of]; [apply law_rho_uses | | apply law_E_uses].
    pose proof law_rho_uses. unfold emul, u1var. repeat uses_tac. exists c, m. auto.
  Qed.
  Lemma law2_names : names_of law2 = [].
  Proof.
    unfold names_of. rewrite flat_map_concat_map. apply concat_nil_Forall. apply Forall_map, Forall_forall. intros a H. apply in_law2 in H.
    destruct H as (i & _ & [-> | [(c & m & H & ->) | ->]]); auto.
  Qed.
  Lemma law1_sane : sane law1.
  Proof.
    unfold law1. cbn [sane rhs_of name_of]. split; [intros g []|]. 
    assert (Nl : forall s, ~ In "local_rhoE"%string (names_of (map (fun c : nat * string => Lo (digits_name "u" (fst c)) (ediv (dat (snd c) 1) (dat rho 1))) (combine (seq s (List.length moms)) moms)))).
    { clear. induction moms as [|m l IH]; intros s; cbn; [intros []|]. intros [H | H]; [discriminate | apply (IH (S s)); auto]. }
    split; [intros g [<- | []]; apply Nl|].
    unfold enum. generalize 0%nat. clear. induction moms as [|m l IH]; intros s; cbn [combine seq List.length map sane]; auto.
    split; [intros g []|]. split; [|apply IH]. cbn [name_of fst]. intros g [<- | []] H.
    assert (G : forall a k, In (digits_name "u" k) (names_of (map (fun c : nat * string => Lo (digits_name "u" (fst c)) (ediv (dat (snd c) 1) (dat rho 1))) (combine (seq a (List.length l)) l))) -> (a <= k)%nat).
    { clear. induction l as [|m l IH]; intros a k; cbn; [intros []|]. intros [H | H]; [apply (digits_inj "u" a k) in H; lia | apply IH in H; lia]. }
    apply G in H. lia.
  Qed.
End items.

Lemma lawal_eqs : forall ord np bh d rho moms E, good_order ord -> List.length bh = List.length np -> (d < List.length np)%nat ->
  let n := List.length np in
  lawal_apply ord np bh d false (ns_arrays n rho moms E) =
  Ok {| bk_ranges := set_nth d (0, 1)%Z (block_ranges np); bk_halos := set_nth d ([], []) bh;
        bk_eqs := map (tkeq n d) (law1 n d rho moms E ++ law2 (-1) (Z.to_nat (halo_width bh false)) rho moms E) |}.
Proof.
  intros ord np bh d rho moms E Go Lb Hd n. unfold lawal_apply. rewrite bc_plane_ok by auto. cbn [bind fst snd set_side_factor ns_arrays ns_mom ns_rho ns_rhoE].
  assert (I : forall b k, inc ord d k (EDat b (here n)) = Ok (EDat b (move d k (here n)))).
  { intros b k. rewrite (inc_placed ord n) by (auto; apply placed_dat). reflexivity. }
  rewrite n_halos_width by (rewrite Lb; auto). set (w := Z.to_nat (halo_width bh false)). rewrite enum_map.
  set (ms := map (fun c : nat * string => (fst c, EDat (snd c) (here n))) (enum moms)).
  assert (Sq : eadd (map (fun c => epow (u1var (fst c)) 2) ms) = law_sq moms) by (unfold ms, law_sq; rewrite map_map; reflexivity).
  rewrite !Sq. fold law_g1. fold (law_T moms). fold (law_rho moms). fold (law_E moms).
  rewrite (map_result_ok _ _ _ (fun c => KEq (u1var (fst c)) (match snd c with EDat b _ => ediv (EDat b (move d 1 (here n))) (EDat rho (move d 1 (here n))) | e => e end))).
  2:{ intros c Hc. unfold ms in Hc. apply in_map_iff in Hc. destruct Hc as ([c0 m] & <- & _). cbn [fst snd]. rewrite !I. reflexivity. }
  cbn [bind].
  rewrite (map_result_ok _ _ _ (fun i => KEq (EDat rho (move d (-1 * i) (here n))) (law_rho moms))) by (intros i _; rewrite I; reflexivity).
  cbn [bind].
  rewrite (map_result_ok _ _ _ (fun i => map (fun c => KEq (EDat (snd c) (move d (-1 * i) (here n))) (emul [law_rho moms; u1var (fst c)])) (enum moms))).
  2:{ intros i _. unfold ms. rewrite (map_result_ok _ _ _ (fun c => KEq (match snd c with EDat b _ => EDat b (move d (-1 * i) (here n)) | e => e end) (emul [law_rho moms; u1var (fst c)]))).
      - f_equal. rewrite map_map. reflexivity.
      - intros c Hc. apply in_map_iff in Hc. destruct Hc as ([c0 m] & <- & _). cbn [fst snd]. rewrite I. reflexivity. }
  cbn [bind].
  rewrite (map_result_ok _ _ _ (fun i => KEq (EDat E (move d (-1 * i) (here n))) (law_E moms))) by (intros i _; rewrite I; reflexivity).
  cbn [bind]. do 2 f_equal. unfold law1, law2. generalize (0%Z :: upto w). intros zs. cbn [app]. cbn [map tkeq]. f_equal. rewrite !map_app. f_equal; [|f_equal; [|f_equal]].
  all: unfold ms; rewrite ?map_map; try reflexivity.
  rewrite flat_map_concat_map, concat_map. f_equal. rewrite !map_map. apply map_ext. intros i. rewrite map_map. reflexivity.
Qed.

Local Open Scope R_scope.
(* The upper side is rejected.  On the lower side the face and all halo points receive the
   velocity of the first point inside, together with the density and pressure for which the
   total temperature g p / rho + (g - 1)/2 |u|^2 is 1 and the gas has the entropy of the state
   rho = 1, g p = 1: the stagnation state is fixed.  This needs |u|^2 < 2 / (g - 1). *)
Theorem C76_lawal_inlet :
  forall J ord np bh d rho moms E,
    functions J -> good_order ord -> List.length bh = List.length np -> (d < List.length np)%nat ->
    NoDup (rho :: moms ++ [E]) ->
  lawal_apply ord np bh d true (ns_arrays (List.length np) rho moms E) = Err ValueError /\
  exists k, lawal_apply ord np bh d false (ns_arrays (List.length np) rho moms E) = Ok k /\
    (forall x, bk_points k x = true <-> on_face np bh d false x) /\
    forall pts M, sweeps pts (on_face np bh d false) ->
      let M' := run_kernel J (bk_eqs k) pts M in let g := const J "gama" in
      (forall x t, on_face np bh d false x -> (0 <= t <= halo_width bh false)%Z ->
         let y := outwards d false t x in let z := inwards d false 1 x in
         let speed2 := norm2 (map (fun m => velocity_at M rho m z) moms) in
         1 < g -> (g - 1) / 2 * speed2 < 1 ->
         0 < M' rho y /\
         (forall m, In m moms -> velocity_at M' rho m y = velocity_at M rho m z) /\
         g * p_at J M' rho moms E y / M' rho y + (g - 1) / 2 * speed2 = 1 /\
         g * p_at J M' rho moms E y = Rpower (M' rho y) g) /\
      (forall b y, ~ (In b (rho :: moms ++ [E]) /\ face_or_halo np bh d false y) -> M' b y = M b y).
Proof.
  intros J ord np bh d rho moms E F Go Lb Hd ND. pose proof (f_reals J F) as HJ. split; [reflexivity|]. rewrite lawal_eqs by auto.
  eexists. split; [reflexivity|]. split; [intros x; apply (bk_points_face np bh d false); auto|].
  intros pts M Sw. cbn [bk_eqs]. set (n := List.length np) in *. set (w := Z.to_nat (halo_width bh false)).
  assert (W0 : (0 <= halo_width bh false)%Z) by (unfold halo_width; lia).
  destruct (nodup3 _ _ _ ND) as (N1 & N2 & N3 & NDm).
  set (l1 := law1 n d rho moms E). set (l2 := law2 (-1) w rho moms E).
  assert (P1 : forall b k, ~ puts l1 b k).
  { intros b k [r H]. apply in_law1 in H. destruct H as [H | (c & m & _ & H)]; discriminate. }
  assert (P2 : forall b k, puts l2 b k -> exists i, (0 <= i <= halo_width bh false)%Z /\ k = (-1 * i)%Z /\ In b (rho :: moms ++ [E])).
  { intros b k [r H]. apply in_law2 in H. destruct H as (i & Hi & H). exists i. split; [lia|].
    destruct H as [H | [(c & m & Hm & H) | H]]; injection H as -> -> _; (split; [reflexivity|]); [left; auto | right; apply in_app_iff; left; eapply nth_error_In; eauto | right; apply in_app_iff; right; left; auto]. }
  assert (D1 : forall i b ix, In i l1 -> In (b, ix) (dsets (rhs_of i)) -> exists k, ix = move d k (here n)).
  { intros i b ix Hi Hb. apply in_law1 in Hi. destruct Hi as [-> | (c & m & _ & ->)]; cbn in Hb.
    - destruct Hb as [H | []]. injection H as <- <-. exists 0%Z. rewrite move_0. reflexivity.
    - repeat (destruct Hb as [H | Hb]; [injection H as <- <-; eexists; reflexivity|]). destruct Hb. }
  assert (D2 : forall i b ix, In i l2 -> ~ In (b, ix) (dsets (rhs_of i))).
  { intros i b ix Hi Hb. apply law2_uses in Hi. destruct Hi as [A _]. apply (A _ Hb). }
  destruct (face_two R J np bh d false l1 l2 pts M Hd Sw) as [Val Fr].
  { intros b k r r' H. exfalso. apply (P1 b k). exists r. auto. }
  { intros b k r r' H H'. apply in_law2 in H, H'. destruct H as (i & _ & H), H' as (i' & _ & H').
    destruct H as [H | [(c & m & Hm & H) | H]]; destruct H' as [H' | [(c' & m' & Hm' & H') | H']]; inversion H; inversion H'; clear H H'; subst; auto;
      try (exfalso; apply N1; eapply nth_error_In; eauto; fail); try (exfalso; apply N3; eapply nth_error_In; eauto; fail); try congruence.
    assert (c = c'); [|subst; auto]. apply (proj1 (NoDup_nth_error moms) NDm); [apply nth_error_Some; congruence | congruence]. }
  { intros i b ix Hi Hb. destruct (D1 i b ix Hi Hb) as [k ->]. split; [rewrite move_length; apply repeat_length | apply P1]. }
  { intros i b ix Hi Hb. exfalso. apply (D2 i b ix); auto. }
  { intros i b ix Hi Hb. apply in_app_iff in Hi. destruct Hi as [Hi | Hi]; [left; apply (D1 i b); auto | exfalso; apply (D2 i b ix); auto]. }
  { apply law1_sane. }
  { apply sane_data, law2_names. }
  fold n in Val, Fr. cbv zeta. set (M' := run_kernel J (map (tkeq n d) (l1 ++ l2)) pts M) in *.
  assert (Out : forall i x, move d (-1 * i) x = outwards d false i x) by (intros; rewrite outwards_factor; reflexivity).
  split.
  - intros x t Hx Ht G1 Slow. assert (Lx : List.length x = n) by apply Hx.
    destruct (Val x Hx) as (M1 & L1 & L2 & A1 & B1 & C1 & A2 & C2 & B2 & K2). clear A2 B1 K2.
    set (z := inwards d false 1 x) in *. set (y := outwards d false t x). set (g := const J "gama") in *.
    assert (U : forall c m, nth_error moms c = Some m -> L2 (digits_name "u" c) = velocity_at M rho m z).
    { intros c m Hc. rewrite C2 by (unfold l2; rewrite law2_names; intros []).
      rewrite (A1 _ (ediv (EDat m (move d 1 (here n))) (EDat rho (move d 1 (here n))))) by (apply in_law1; right; exists c, m; auto).
      rewrite (ap_div J HJ). unfold at_point. cbn [eval]. unfold here. rewrite !(vadd_along n) by auto. reflexivity. }
    assert (Var : forall s, at_point J M1 L2 x (evar s) = L2 s) by reflexivity.
    set (q := norm2 (map (fun m => velocity_at M rho m z) moms)) in *.
    assert (Sq : at_point J M1 L2 x (law_sq moms) = q).
    { unfold law_sq. rewrite (ap_add J HJ), map_map.
      rewrite (map_ext_in _ (fun c => (fun u => u * u) (velocity_at M rho (snd c) z))).
      - unfold q, enum, norm2. generalize 0%nat. clear. induction moms as [|m l IH]; intros s; cbn; auto. rewrite IH. reflexivity.
      - intros [c m] Hc. apply in_enum in Hc. cbn [fst snd]. rewrite (ap_sqr J HJ). unfold u1var. rewrite Var, (U c m Hc). reflexivity. }
    assert (Q0 : 0 <= q). { unfold q, norm2. clear. induction moms as [|m l IH]; cbn; [lra|]. pose proof (Rle_0_sqr (velocity_at M rho m z)). unfold Rsqr in *. lra. }
    assert (Hg1 : at_point J M1 L2 x law_g1 = g - 1) by (unfold law_g1; rewrite (ap_sub J HJ), (ap_int J HJ); reflexivity).
    set (T := 1 - (g - 1) / 2 * q). assert (T0 : 0 < T) by (unfold T; lra).
    assert (HT : at_point J M1 L2 x (law_T moms) = T).
    { unfold law_T. rewrite (ap_sub J HJ), (ap_mul J HJ). cbn [map fold_right]. rewrite (ap_int J HJ), (ap_num J HJ), Hg1, Sq. unfold T, Q2R. cbn [Qnum Qden]. field. }
    set (r := Rpower T (1 / (g - 1))).
    assert (r0 : 0 < r) by (unfold r, Rpower; apply exp_pos).
    assert (HR : at_point J M1 L2 x (law_rho moms) = r).
    { unfold law_rho, epow2.
      transitivity (iapp J HPow [at_point J M1 L2 x (eadd [eint 1; emul [ENum (1 # 2); law_g1; ediv (law_sq moms) (law_T moms)]]); at_point J M1 L2 x (ediv (eint (-1)) law_g1)]); [reflexivity|].
      rewrite (ap_add J HJ). cbn [map fold_right]. rewrite (ap_mul J HJ). cbn [map fold_right]. rewrite !(ap_div J HJ), !(ap_int J HJ), (ap_num J HJ), Hg1, HT, Sq.
      replace (1 + (Q2R (1 # 2) * ((g - 1) * (q / T * 1)) + 0)) with (/ T) by (unfold T, Q2R; cbn [Qnum Qden]; field; unfold T in T0; lra).
      rewrite (f_power J F) by (apply Rinv_0_lt_compat; auto). unfold r. rewrite Rpower_Ropp1. f_equal. field. lra. }
    assert (Hi : (0 <= t <= Z.of_nat w)%Z) by (unfold w; lia).
    assert (RY : M' rho y = r).
    { unfold y. rewrite <- Out. rewrite (B2 _ _ (law_rho moms)); auto. apply in_law2. exists t. auto. }
    assert (MY : forall m, In m moms -> M' m y = r * velocity_at M rho m z).
    { intros m Hm. destruct (In_nth_error _ _ Hm) as [c Hc]. unfold y. rewrite <- Out.
      rewrite (B2 _ _ (emul [law_rho moms; u1var c])) by (apply in_law2; exists t; split; auto; right; left; exists c, m; auto).
      rewrite (ap_mul J HJ). cbn [map fold_right]. rewrite HR. unfold u1var. rewrite Var, (U c m Hc). ring. }
    assert (EY : M' E y = r * T / (g * (g - 1)) + / 2 * r * q).
    { unfold y. rewrite <- Out. rewrite (B2 _ _ (law_E moms)) by (apply in_law2; exists t; auto).
      unfold law_E. rewrite (ap_add J HJ). cbn [map fold_right]. rewrite (ap_div J HJ), !(ap_mul J HJ). cbn [map fold_right].
      rewrite (ap_num J HJ), HR, HT, Sq, Hg1. unfold gama. rewrite ap_const. fold g. unfold Q2R. cbn [Qnum Qden]. field. lra. }
    assert (NY : norm2 (map (fun m => M' m y) moms) = r * r * q).
    { rewrite (map_ext_in _ _ moms MY). unfold q, norm2. generalize r. intros a. clear. induction moms as [|m l IH]; cbn; [ring|]. rewrite IH. ring. }
    assert (PY : p_at J M' rho moms E y = r * T / g).
    { unfold p_at, pressure_of. fold g. rewrite NY, EY, RY. field. lra. }
    rewrite RY, PY. split; auto. split; [|split].
    + intros m Hm. unfold velocity_at at 1. rewrite RY, MY by auto. field. lra.
    + unfold T. field. lra.
    + unfold r at 2. rewrite Rpower_mult. replace (1 / (g - 1) * g) with (1 / (g - 1) + 1) by (field; lra).
      rewrite Rpower_plus, Rpower_1 by auto. fold r. field. lra.
  - intros b y H. apply Fr. intros k x [r Hk] Hx Ey. apply in_app_iff in Hk. destruct Hk as [Hk | Hk]; [apply (P1 b k); exists r; auto|].
    destruct (P2 b k) as (i & Hi & -> & Hb); [exists r; auto|]. apply H. split; auto. destruct (Z.eq_dec i 0) as [-> | N].
    + right. rewrite Z.mul_0_r, move_0 in Ey. subst. auto.
    + left. exists x, i. split; auto. split; [lia|]. rewrite <- Out. exact Ey.
Qed.
Print Assumptions C76_lawal_inlet.
