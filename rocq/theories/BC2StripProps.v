(* C76: the wall with a forcing strip. *)
From Verif Require Import Base BaseProofs Expr ExprProofs KernelModel ShiftModel ShiftSpec ShiftProofs BCModel BCSpec BCGasSpec BCProofs BCKern BCMirror BCOrder BCVec BCStm BCGas BCIso BC2Model BC2Spec BC2Proofs.
From Coq Require Import QArith ZArith Reals Qreals Lia Lra.
Local Close Scope Q_scope.
Local Open Scope R_scope.

Lemma drop_in : forall A (l : list A) d a m, nth_error l d = Some a -> In m l -> m = a \/ In m (drop_nth d l).
Proof.
  intros A l d a m H Hm. rewrite <- (firstn_skipn d l) in Hm. apply in_app_iff in Hm. unfold drop_nth. rewrite in_app_iff.
  destruct Hm as [Hm | Hm]; auto.
  assert (Sk : skipn d l = a :: skipn (S d) l).
  { clear Hm. revert l H. induction d; intros [|b l] H; cbn in *; try discriminate; [congruence | auto]. }
  rewrite Sk in Hm. destruct Hm as [-> | Hm]; auto.
Qed.
Lemma drop_incl : forall A (l : list A) d m, In m (drop_nth d l) -> In m l.
Proof.
  intros A l d m H. unfold drop_nth in H. apply in_app_iff in H. destruct H as [H | H].
  - rewrite <- (firstn_skipn d l). apply in_app_iff. auto.
  - rewrite <- (firstn_skipn (S d) l). apply in_app_iff. auto.
Qed.
Lemma drop_not : forall A (l : list A) d a, NoDup l -> nth_error l d = Some a -> ~ In a (drop_nth d l).
Proof.
  intros A l d a ND H. revert l ND H. induction d; intros [|b l] ND H; cbn in *; try discriminate; inversion ND; subst.
  - congruence.
  - intros [-> | I]; [apply nth_error_In in H; contradiction | apply (IHd l); auto].
Qed.
Lemma drop_map : forall A B (f : A -> B) l d, drop_nth d (map f l) = map f (drop_nth d l).
Proof. intros. unfold drop_nth. rewrite map_app, firstn_map, skipn_map. reflexivity. Qed.
Lemma sane_fresh : forall l, NoDup (names_of l) -> (forall i g, In i l -> In g (syms KGridVar (rhs_of i)) -> ~ In g (names_of l)) -> sane l.
Proof.
  induction l as [|i l IH]; intros ND H; cbn [sane]; auto. split; [|split].
  - intros g Hg. apply (H i); auto. left; auto.
  - intros g Hg Hl. cbn [names_of flat_map] in ND. destruct i as [s r|b k r]; cbn in *; [|destruct Hg].
    destruct Hg as [<- | []]. inversion ND; contradiction.
  - apply IH.
    + cbn [names_of flat_map] in ND. destruct i; cbn in ND; auto. inversion ND; auto.
    + intros i' g Hi Hg Hn. apply (H i' g); auto; [right; auto|]. cbn [names_of flat_map]. apply in_app_iff. auto.
Qed.

Section items.
  Variables (n d : nat) (from to : Z) (w : nat) (rho : string) (moms : list string) (E md : string) (e1 e2 : expr).
  Hypothesis H10 : (List.length moms <= 10)%nat.
  Local Notation dat b k := (EDat b (move d k (here n))).
  Local Notation v := (ns_arrays n rho moms E).
  Definition rh (i : nat) : string := digits_name "rho_halo_" i.
  Definition fs1 : list item := Da md 0 e1 :: map (fun m => Da m 0 (ENum 0)) (drop_nth d moms) ++ [Da E 0 e2].
  Definition fs_vel : list item := flat_map (fun c => map (fun i => Lo (uname (fst c) i) (ediv (dat (snd c) (to * Z.of_nat i)) (dat rho (to * Z.of_nat i)))) (seq 1 w)) (enum moms).
  Definition fs_T (i : nat) : expr := esub (emul [eint (Z.of_nat i + 1); econst "Twall"]) (emul [eint (Z.of_nat i); evar "T_above"]).
  Definition fs_rho (i : nat) : expr := ediv (emul [evar "Pwall"; gama; Minf; Minf]) (Tvar i).
  Definition fs_E (i : nat) : expr :=
    eadd [ediv (evar "Pwall") (esub gama (eint 1)); emul [ENum (1 # 2); rho_halo i; eadd (map (fun c => epow (uvar (fst c) i) 2) (enum moms))]].
  Definition fs_den : list item := flat_map (fun i => [Lo (rh i) (fs_rho i); Da rho (from * Z.of_nat i) (rho_halo i)]) (seq 1 w).
  Definition fs_data : list item :=
    flat_map (fun i => map (fun c => Da (snd c) (from * Z.of_nat i) (emul [eint (-1); rho_halo i; uvar (fst c) i])) (enum moms)) (seq 1 w) ++
    map (fun i => Da E (from * Z.of_nat i) (fs_E i)) (seq 1 w).
  Definition fs2 : list item :=
    (Lo "Pwall" (put n d 0 (pressure_cons v)) :: fs_vel) ++
    (Lo "T_above" (put n d to (temperature_cons v)) :: []) ++ map (fun i => Lo (digits_name "T" i) (fs_T i)) (seq 1 w) ++ fs_den ++ fs_data.

  Inductive fs_item : item -> Prop :=
  | FP : fs_item (Lo "Pwall" (put n d 0 (pressure_cons v)))
  | FU c m i : nth_error moms c = Some m -> (1 <= i <= w)%nat -> fs_item (Lo (uname c i) (ediv (dat m (to * Z.of_nat i)) (dat rho (to * Z.of_nat i))))
  | FT : fs_item (Lo "T_above" (put n d to (temperature_cons v)))
  | FTi i : (1 <= i <= w)%nat -> fs_item (Lo (digits_name "T" i) (fs_T i))
  | FRh i : (1 <= i <= w)%nat -> fs_item (Lo (rh i) (fs_rho i))
  | FR i : (1 <= i <= w)%nat -> fs_item (Da rho (from * Z.of_nat i) (rho_halo i))
  | FM c m i : nth_error moms c = Some m -> (1 <= i <= w)%nat -> fs_item (Da m (from * Z.of_nat i) (emul [eint (-1); rho_halo i; uvar c i]))
  | FE i : (1 <= i <= w)%nat -> fs_item (Da E (from * Z.of_nat i) (fs_E i)).
  Lemma in_vel : forall a, In a fs_vel <-> exists c m i, nth_error moms c = Some m /\ (1 <= i <= w)%nat /\ a = Lo (uname c i) (ediv (dat m (to * Z.of_nat i)) (dat rho (to * Z.of_nat i))).
  Proof. clear H10.
    intros a. unfold fs_vel. rewrite in_flat_map. split.
    - intros ([c m] & Hc & H). apply in_map_iff in H. destruct H as (i & <- & Hi). apply in_seq in Hi. apply in_enum in Hc. exists c, m, i. repeat split; auto; lia.
    - intros (c & m & i & Hc & Hi & ->). exists (c, m). split; [apply in_enum; auto|]. apply in_map_iff. exists i. split; auto. apply in_seq. lia.
  Qed.
  Lemma in_den : forall a, In a fs_den <-> exists i, (1 <= i <= w)%nat /\ (a = Lo (rh i) (fs_rho i) \/ a = Da rho (from * Z.of_nat i) (rho_halo i)).
  Proof. clear H10.
    intros a. unfold fs_den. rewrite in_flat_map. split.
    - intros (i & Hi & H). apply in_seq in Hi. exists i. split; [lia|]. destruct H as [<- | [<- | []]]; auto.
    - intros (i & Hi & H). exists i. split; [apply in_seq; lia|]. destruct H as [-> | ->]; [left | right; left]; auto.
  Qed.
  Lemma in_fs2 : forall a, In a fs2 <-> fs_item a.
  Proof. clear H10.
    intros a. unfold fs2, fs_data. rewrite !in_app_iff. cbn [In]. rewrite in_vel, in_den, !in_map_iff, in_flat_map. split.
    - intros [[<- | (c & m & i & Hc & Hi & ->)] | [[<- | []] | [(i & <- & Hi) | [(i & Hi & [-> | ->]) | [(i & Hi & H) | (i & <- & Hi)]]]]];
        try (apply in_seq in Hi); try constructor; auto; try lia.
      apply in_map_iff in H. destruct H as ([c m] & <- & Hc). apply in_enum in Hc. cbn [fst snd]. constructor; auto. lia.
    - intros H. destruct H.
      + left. auto.
      + left. right. exists c, m, i. auto.
      + right. left. auto.
      + right. right. left. exists i. split; auto. apply in_seq. lia.
      + do 3 right. left. exists i. auto.
      + do 3 right. left. exists i. auto.
      + do 4 right. left. exists i. split; [apply in_seq; lia|]. apply in_map_iff. exists (c, m). split; auto. apply in_enum. auto.
      + do 5 right. exists i. split; auto. apply in_seq. lia.
  Qed.
  Lemma name_in : forall l g, In g (names_of l) <-> exists r, In (Lo g r) l.
  Proof. clear H10.
    intros l g. unfold names_of. rewrite in_flat_map. split.
    - intros ([g' r|b k r] & Hi & H); cbn in H; [destruct H as [<- | []]; eauto | destruct H].
    - intros [r Hr]. exists (Lo g r). split; auto. left. auto.
  Qed.
  Lemma den_sane : sane fs_den.
  Proof. clear H10.
    unfold fs_den. assert (G : forall k s, sane (flat_map (fun i => [Lo (rh i) (fs_rho i); Da rho (from * Z.of_nat i) (rho_halo i)]) (seq s k))); [|apply G].
    assert (Nm : forall k s g, In g (names_of (flat_map (fun i => [Lo (rh i) (fs_rho i); Da rho (from * Z.of_nat i) (rho_halo i)]) (seq s k))) -> exists i, (s <= i)%nat /\ g = rh i).
    { intros k s g H. apply name_in in H. destruct H as [r H]. apply in_flat_map in H. destruct H as (i & Hi & [H | [H | []]]); [|discriminate].
      injection H as <- _. exists i. apply in_seq in Hi. split; auto. lia. }
    induction k; intros s; cbn [seq flat_map app sane]; auto. split; [|split; [|split; [|split]]]; auto.
    - intros g Hg H. assert (R : exists i, g = rh i). { cbn [names_of flat_map name_of app] in H. destruct H as [<- | H]; [exists s; auto|]. apply (Nm k (S s)) in H. destruct H as (i & _ & ->). eauto. }
      destruct R as (i & ->). cbn in Hg. destruct Hg as [Hg | [Hg | []]]; discriminate.
    - cbn [name_of]. intros g [<- | []] H. cbn [names_of flat_map name_of app] in H. apply (Nm k (S s)) in H. destruct H as (i & Hi & H). apply digits_inj in H. lia.
    - cbn [rhs_of]. intros g Hg H. cbn in Hg. destruct Hg as [<- | []]. cbn [names_of flat_map name_of app] in H. apply (Nm k (S s)) in H. destruct H as (i & Hi & H).
      apply (digits_inj "rho_halo_" s i) in H. lia.
  Qed.
  Lemma nth_lt : forall c m, nth_error moms c = Some m -> (c < 10)%nat.
  Proof. intros c m H. assert (c < List.length moms)%nat by (apply nth_error_Some; congruence). lia. Qed.
  Lemma vel_nodup : NoDup (names_of fs_vel).
  Proof.
    unfold fs_vel, enum. assert (G : forall l s, (s + List.length l <= 10)%nat -> NoDup (names_of (flat_map (fun c => map (fun i => Lo (uname (fst c) i) (ediv (dat (snd c) (to * Z.of_nat i)) (dat rho (to * Z.of_nat i)))) (seq 1 w)) (combine (seq s (List.length l)) l)))); [|apply G; auto].
    induction l as [|m l IH]; intros s Hs; cbn [List.length seq combine flat_map]; [constructor|]. rewrite names_app.
    assert (Nm : forall k a, names_of (map (fun i => Lo (uname (fst (s, m)) i) (ediv (dat (snd (s, m)) (to * Z.of_nat i)) (dat rho (to * Z.of_nat i)))) (seq a k)) = map (uname s) (seq a k)).
    { induction k; intros a; cbn; auto. f_equal. apply IHk. }
    rewrite Nm. cbn [List.length] in Hs. apply nodup_app; [| apply IH; lia |].
    - apply FinFun.Injective_map_NoDup; [|apply seq_NoDup]. intros i j H. apply uname_inj in H; lia.
    - intros g Hg H. apply in_map_iff in Hg. destruct Hg as (i & <- & _). apply name_in in H. destruct H as [r H]. apply in_flat_map in H.
      destruct H as ([c m'] & Hc & H). apply in_map_iff in H. destruct H as (j & H & _). apply (f_equal (fun a => match a with Lo g _ => g | _ => uname s i end)) in H. apply in_combine_l in Hc. apply in_seq in Hc. cbv beta iota in H. cbn [fst] in H.
      apply uname_inj in H; lia.
  Qed.
  Lemma data_names : names_of fs_data = [].
  Proof. clear H10.
    destruct (names_of fs_data) as [|g l] eqn:N; auto. assert (H : In g (names_of fs_data)) by (rewrite N; left; auto).
    apply name_in in H. destruct H as [r H]. unfold fs_data in H. rewrite in_app_iff, in_flat_map, in_map_iff in H.
    destruct H as [(i & _ & H) | (i & H & _)]; [apply in_map_iff in H; destruct H as (c & H & _) |]; discriminate.
  Qed.
  Lemma data_item : forall a, In a fs_data -> name_of a = [].
  Proof. clear H10.
    intros a H. unfold fs_data in H. rewrite in_app_iff, in_flat_map, in_map_iff in H.
    destruct H as [(i & _ & H) | (i & <- & _)]; [apply in_map_iff in H; destruct H as (c & <- & _)|]; auto.
  Qed.
  Lemma den_names : forall g, In g (names_of (fs_den ++ fs_data)) -> exists i, g = rh i.
  Proof. clear H10.
    intros g H. rewrite names_app, data_names, app_nil_r in H. apply name_in in H. destruct H as [r H]. apply in_den in H.
    destruct H as (i & _ & [H | H]); [|discriminate]. injection H as -> _. eauto.
  Qed.
  Lemma Ti_names : forall g, In g (names_of (map (fun i => Lo (digits_name "T" i) (fs_T i)) (seq 1 w))) -> exists i, g = digits_name "T" i.
  Proof. clear H10. intros g H. apply name_in in H. destruct H as [r H]. apply in_map_iff in H. destruct H as (i & H & _). injection H as <- _. eauto. Qed.
  Lemma vel_names : forall g, In g (names_of fs_vel) -> exists c i, g = uname c i.
  Proof. clear H10. intros g H. apply name_in in H. destruct H as [r H]. apply in_vel in H. destruct H as (c & m & i & _ & _ & H). apply (f_equal (fun a => match a with Lo g _ => g | _ => g end)) in H. cbv beta iota in H. eauto. Qed.
  Lemma fs2_sane : sane fs2.
  Proof.
    assert (PT : syms KGridVar (temperature_cons v) = []) by apply (placed_temperature n rho moms E).
    assert (PP : syms KGridVar (pressure_cons v) = []) by apply (placed_pressure n rho moms E).
    assert (Rest : forall g, In g (names_of ([Lo "T_above" (put n d to (temperature_cons v))] ++ map (fun i => Lo (digits_name "T" i) (fs_T i)) (seq 1 w) ++ fs_den ++ fs_data)) ->
       g = "T_above"%string \/ (exists i, g = digits_name "T" i) \/ exists i, g = rh i).
    { intros g H. rewrite names_app, in_app_iff in H. destruct H as [[<- | []] | H]; auto. rewrite names_app, in_app_iff in H.
      destruct H as [H | H]; [right; left; apply Ti_names; auto | right; right; apply den_names; auto]. }
    assert (NoR : forall i, In i (Lo "Pwall" (put n d 0 (pressure_cons v)) :: fs_vel) -> syms KGridVar (rhs_of i) = []).
    { intros i [<- | H]; [cbn [rhs_of]; rewrite put_syms; auto|]. apply in_vel in H. destruct H as (c & m & j & _ & _ & ->). reflexivity. }
    unfold fs2. apply sane_app.
    - apply sane_fresh.
      + cbn [names_of flat_map name_of app]. constructor; [|apply vel_nodup]. intros H. apply vel_names in H. destruct H as (c & i & H). discriminate.
      + intros i g Hi Hg. rewrite (NoR i Hi) in Hg. destruct Hg.
    - cbn [app sane]. split; [|split].
      + cbn [rhs_of]. rewrite put_syms, PT. intros g [].
      + cbn [name_of]. intros g [<- | []] H. rewrite names_app, in_app_iff in H. destruct H as [H | H].
        * apply Ti_names in H. destruct H as [i H]. symmetry in H. apply T_not_above in H. auto.
        * apply den_names in H. destruct H as [i H]. discriminate.
      + apply sane_app; [| apply sane_app | |].
        * apply sane_fresh.
          -- assert (G : forall k a, names_of (map (fun i => Lo (digits_name "T" i) (fs_T i)) (seq a k)) = map (digits_name "T") (seq a k)).
             { induction k; intros a; cbn; auto. f_equal. apply IHk. }
             rewrite G. apply FinFun.Injective_map_NoDup; [|apply seq_NoDup]. intros i j H. apply digits_inj in H. auto.
          -- intros i g Hi Hg H. apply in_map_iff in Hi. destruct Hi as (j & <- & _). cbn in Hg. destruct Hg as [<- | []].
             apply Ti_names in H. destruct H as [i H]. symmetry in H. apply T_not_above in H. auto.
        * apply den_sane.
        * apply sane_data, data_names.
        * rewrite data_names. intros g _ [].
        * rewrite data_names. intros i g _ _ [].
        * intros g H H2. apply Ti_names in H. apply den_names in H2. destruct H as [i ->], H2 as [j H]. discriminate.
        * intros i g Hi Hg H. apply in_map_iff in Hi. destruct Hi as (j & <- & _). cbn in Hg. destruct Hg as [<- | []].
          apply den_names in H. destruct H as [i H]. discriminate.
    - intros g H H2. apply Rest in H2. cbn [names_of flat_map name_of app] in H. destruct H as [<- | H].
      + destruct H2 as [H2 | [[i H2] | [i H2]]]; discriminate.
      + apply vel_names in H. destruct H as (c & i & ->). destruct H2 as [H2 | [[j H2] | [j H2]]]; discriminate.
    - intros i g Hi Hg. rewrite (NoR i Hi) in Hg. destruct Hg.
  Qed.
  Lemma fs1_names : names_of fs1 = [].
  Proof. clear H10. unfold fs1. cbn [names_of flat_map name_of app]. change (names_of (map (fun m => Da m 0 (ENum 0)) (drop_nth d moms) ++ [Da E 0 e2]) = []). rewrite names_app. cbn. rewrite app_nil_r. induction (drop_nth d moms); auto. Qed.
  Lemma in_fs1 : forall a, In a fs1 <-> a = Da md 0 e1 \/ (exists m, In m (drop_nth d moms) /\ a = Da m 0 (ENum 0)) \/ a = Da E 0 e2.
  Proof. clear H10.
    intros a. unfold fs1. cbn [In]. rewrite in_app_iff, in_map_iff. cbn [In]. split.
    - intros [<- | [(m & <- & H) | [<- | []]]]; eauto.
    - intros [-> | [(m & H & ->) | ->]]; eauto.
  Qed.
End items.

Lemma strip_eqs : forall ord np bh d side shock rho moms E md e1 e2, good_order ord -> List.length bh = List.length np -> (d < List.length np)%nat -> nth_error moms d = Some md ->
  let n := List.length np in let w := Z.to_nat (halo_width bh side) in
  forcing_strip_apply ord np bh d side shock (ns_arrays n rho moms E) (KEq (EDat md (here n)) e1) [KEq (EDat E (here n)) e2] =
  Ok {| bk_ranges := set_nth d (if side then (nth d np 0 - 1, nth d np 0) else (0, 1))%Z (block_ranges np);
        bk_halos := set_nth d ([], []) bh;
        bk_eqs := map (tkeq n d) (fs1 d moms E md e1 e2 ++ if shock then fs2 n d (fst (set_side_factor side)) (snd (set_side_factor side)) w rho moms E else []) |}.
Proof.
  intros ord np bh d side shock rho moms E md e1 e2 Go Lb Hd Hm n w. unfold forcing_strip_apply. rewrite bc_plane_ok by auto.
  cbn [bind fst snd ns_arrays ns_mom ns_rho ns_rhoE]. destruct (set_side_factor side) as [from to]. cbn [fst snd].
  rewrite n_halos_width by (rewrite Lb; auto). fold w. rewrite map_length.
  assert (Hl : (d < List.length moms)%nat) by (apply nth_error_Some; congruence). apply Nat.ltb_lt in Hl. rewrite Hl.
  assert (W : KEq (EDat md (here n)) e1 :: drop_nth d (map (fun m => KEq m (ENum 0)) (map (fun m => EDat m (here n)) moms)) ++ [KEq (EDat E (here n)) e2] = map (tkeq n d) (fs1 d moms E md e1 e2)).
  { unfold fs1. cbn [map tkeq]. rewrite move_0, map_app. cbn [map tkeq]. rewrite move_0, map_map, drop_map, map_map. do 2 f_equal. apply map_ext. intros m. cbn [tkeq]. rewrite move_0. reflexivity. }
  rewrite W. destruct shock; [|rewrite app_nil_r; reflexivity].
  assert (I : forall b k, inc ord d k (EDat b (here n)) = Ok (EDat b (move d k (here n)))).
  { intros b k. rewrite (inc_placed ord n) by (auto; apply placed_dat). reflexivity. }
  rewrite (inc_placed ord n) by (auto; apply (placed_pressure n rho moms E)). cbn [bind]. rewrite enum_map.
  set (ms := map (fun c : nat * string => (fst c, EDat (snd c) (here n))) (enum moms)).
  rewrite (map_result_ok _ _ _ (fun c => map (fun i => KEq (uvar (fst c) i) (match snd c with EDat b _ => ediv (EDat b (move d (to * Z.of_nat i) (here n))) (EDat rho (move d (to * Z.of_nat i) (here n))) | e => e end)) (seq 1 w))).
  2:{ intros c Hc. unfold ms in Hc. apply in_map_iff in Hc. destruct Hc as ([c0 m] & <- & _). cbn [fst snd].
      apply (map_result_ok _ _ _ (fun i => KEq (uvar c0 i) (ediv (EDat m (move d (to * Z.of_nat i) (here n))) (EDat rho (move d (to * Z.of_nat i) (here n)))))).
      intros i _. rewrite !I. reflexivity. }
  cbn [bind]. rewrite (inc_placed ord n) by (auto; apply (placed_temperature n rho moms E)). cbn [bind].
  rewrite (map_result_ok _ _ _ (fun i => [KEq (rho_halo i) (fs_rho i); KEq (EDat rho (move d (from * Z.of_nat i) (here n))) (rho_halo i)])) by (intros i _; rewrite I; reflexivity).
  cbn [bind].
  rewrite (map_result_ok _ _ _ (fun i => map (fun c => KEq (EDat (snd c) (move d (from * Z.of_nat i) (here n))) (emul [eint (-1); rho_halo i; uvar (fst c) i])) (enum moms))).
  2:{ intros i _. unfold ms. rewrite (map_result_ok _ _ _ (fun c => KEq (match snd c with EDat b _ => EDat b (move d (from * Z.of_nat i) (here n)) | e => e end) (emul [eint (-1); rho_halo i; uvar (fst c) i]))).
      - f_equal. rewrite map_map. reflexivity.
      - intros c Hc. apply in_map_iff in Hc. destruct Hc as ([c0 m] & <- & _). cbn [fst snd]. rewrite I. reflexivity. }
  cbn [bind].
  rewrite (map_result_ok _ _ _ (fun i => KEq (EDat E (move d (from * Z.of_nat i) (here n))) (fs_E moms i))).
  2:{ intros i _. rewrite I. cbn [bind]. unfold fs_E, ms. rewrite map_map. reflexivity. }
  cbn [bind]. do 2 f_equal. rewrite map_app. f_equal. unfold fs2, fs_vel, fs_den, fs_data. cbn [app]. cbn [map tkeq]. f_equal.
  rewrite !map_app. cbn [map tkeq]. rewrite !flat_map_concat_map, !concat_map. unfold ms. rewrite !map_map. cbn [fst snd tkeq].
  f_equal; [f_equal; apply map_ext; intros c; rewrite map_map; reflexivity|].
  f_equal. rewrite !map_app, !concat_map, !map_map. cbn [fst snd tkeq]. f_equal. f_equal.
  f_equal. f_equal. apply map_ext. intros i. rewrite map_map. reflexivity.
Qed.

(* The user supplies the wall-normal momentum e1 and the energy e2.  Afterwards the normal
   momentum and the energy are as prescribed, the other momenta are 0 and the density is
   unchanged.  Nothing else changes unless a scheme of the block is shock capturing; then the
   halos are filled as at an isothermal wall. *)
Theorem C76_forcing_strip :
  forall J ord np bh d side shock rho moms E md e1 e2,
    reals J -> good_order ord -> List.length bh = List.length np -> (d < List.length np)%nat ->
    NoDup (rho :: moms ++ [E]) -> (List.length moms <= 10)%nat -> nth_error moms d = Some md ->
    placed (List.length np) e1 -> (forall b ix, In (b, ix) (dsets e1) -> ~ In b (moms ++ [E])) ->
    placed (List.length np) e2 -> (forall b ix, In (b, ix) (dsets e2) -> ~ In b (moms ++ [E])) ->
  exists k, forcing_strip_apply ord np bh d side shock (ns_arrays (List.length np) rho moms E)
              (KEq (EDat md (here (List.length np))) e1) [KEq (EDat E (here (List.length np))) e2] = Ok k /\
    (forall x, bk_points k x = true <-> on_face np bh d side x) /\
    forall pts M, sweeps pts (on_face np bh d side) ->
      let M' := run_kernel J (bk_eqs k) pts M in
      let g := const J "gama" in let ma := const J "Minf" in
      (forall x, on_face np bh d side x ->
         M' md x = value J M x e1 /\ (forall m, In m moms -> m <> md -> M' m x = 0) /\ M' rho x = M rho x /\ M' E x = value J M x e2 /\
         (shock = true -> forall t, (1 <= t <= halo_width bh side)%Z ->
           let y := outwards d side t x in let z := inwards d side t x in
           let p := p_at J M' rho moms E x in
           let T := (IZR t + 1) * const J "Twall" - IZR t * T_at J M rho moms E (inwards d side 1 x) in
           M' rho y = p * g * ma * ma / T /\
           (forall m, In m moms -> M' m y = - M' rho y * (M m z / M rho z)) /\
           (g <> 1 -> g <> 0 -> ma <> 0 -> T <> 0 -> p <> 0 -> p_at J M' rho moms E y = p /\ T_at J M' rho moms E y = T))) /\
      (shock = true -> forall b y, ~ (In b (rho :: moms ++ [E]) /\ face_or_halo np bh d side y) -> M' b y = M b y) /\
      (shock = false -> forall b y, ~ (In b (moms ++ [E]) /\ on_face np bh d side y) -> M' b y = M b y).
Proof.
  intros J ord np bh d side shock rho moms E md e1 e2 HJ Go Lb Hd ND H10 Hmd P1 N1e P2 N2e.
  rewrite strip_eqs by auto. eexists. split; [reflexivity|]. split; [intros x; apply bk_points_face; auto|].
  intros pts M Sw. cbn [bk_eqs]. set (n := List.length np) in *. set (w := Z.to_nat (halo_width bh side)).
  destruct (set_side_factor side) as [from to] eqn:Es. cbn [fst snd].
  assert (W0 : (0 <= halo_width bh side)%Z) by (unfold halo_width; lia).
  assert (Hs : (from = 1 /\ to = -1 \/ from = -1 /\ to = 1)%Z) by (destruct side; injection Es as <- <-; auto).
  destruct (nodup3 _ _ _ ND) as (N1 & N2 & N3 & NDm).
  assert (Imd : In md moms) by (eapply nth_error_In; eauto).
  set (l1 := fs1 d moms E md e1 e2). set (l2 := if shock then fs2 n d from to w rho moms E else []).
  assert (U1 : forall b k, puts l1 b k -> k = 0%Z /\ In b (moms ++ [E])).
  { intros b k [r H]. apply in_fs1 in H. rewrite in_app_iff. destruct H as [H | [(m & Hm & H) | H]]; inversion H; subst; auto.
    - split; auto. left. eapply drop_incl; eauto.
    - split; auto. right. left. auto. }
  assert (U2 : forall b k, puts l2 b k -> shock = true /\ exists i, (1 <= i <= halo_width bh side)%Z /\ k = (from * i)%Z /\ In b (rho :: moms ++ [E])).
  { intros b k [r H]. unfold l2 in H. destruct shock; [|destruct H]. split; auto. apply in_fs2 in H.
    inversion H; subst; exists (Z.of_nat i); (split; [lia|]); (split; [reflexivity|]); cbn [In]; rewrite in_app_iff; cbn [In]; auto. 
    all: match goal with Ha : nth_error ?l ?c = Some ?m |- _ = ?m \/ _ => apply nth_error_In in Ha; auto | _ => auto end. }
  assert (D1 : forall i b ix, In i l1 -> In (b, ix) (dsets (rhs_of i)) -> ix = here n /\ ~ In b (moms ++ [E])).
  { intros i b ix Hi Hb. apply in_fs1 in Hi. destruct Hi as [-> | [(m & _ & ->) | ->]]; cbn [rhs_of] in Hb.
    - split; [apply (proj1 P1 b ix Hb) | apply (N1e b ix Hb)].
    - destruct Hb.
    - split; [apply (proj1 P2 b ix Hb) | apply (N2e b ix Hb)]. }
  assert (D2 : forall i b ix, In i l2 -> In (b, ix) (dsets (rhs_of i)) -> exists k, ix = move d k (here n) /\ (k = 0 \/ exists j, 1 <= j /\ k = to * j)%Z).
  { intros i b ix Hi Hb. unfold l2 in Hi. destruct shock; [|destruct Hi]. apply in_fs2 in Hi. inversion Hi; subst; cbn [rhs_of] in Hb.
    - apply dsets_put_at in Hb. subst. exists 0%Z. auto.
    - cbn in Hb. repeat (destruct Hb as [Hb | Hb]; [injection Hb as <- <-; eexists; split; [reflexivity|]; right; exists (Z.of_nat i0); split; [lia | reflexivity]|]). destruct Hb.
    - apply dsets_put_at in Hb. subst. exists to. split; auto. right. exists 1%Z. lia.
    - destruct Hb.
    - destruct Hb.
    - destruct Hb.
    - destruct Hb.
    - exfalso. assert (U : uses (fun _ => False) (fun _ => True) (fs_E moms i0)).
      { unfold fs_E. apply uses_app; uses_args; [unfold ediv, epow, emul, esub, eadd, eint, gama; repeat uses_tac; auto|].
        apply uses_app; uses_args; [apply uses_num | apply uses_var; auto|]. apply uses_app. intros e He. apply in_map_iff in He. destruct He as (c & <- & _).
        unfold epow, uvar. repeat uses_tac. auto. }
      exact (proj1 U _ Hb). }
  destruct (face_two R J np bh d side l1 l2 pts M Hd Sw) as [Val Fr].
  { intros b k r r' H H'. apply in_fs1 in H, H'. pose proof (drop_not _ moms d md NDm Hmd) as Dn.
    destruct H as [H | [(m & Hm & H) | H]]; destruct H' as [H' | [(m' & Hm' & H') | H']]; inversion H; inversion H'; clear H H'; subst; auto; try contradiction;
      exfalso; apply N3; first [exact Imd | eapply drop_incl; eauto]. }
  { intros b k r r' H H'. unfold l2 in H, H'. destruct shock; [|destruct H]. apply in_fs2 in H, H'.
    inversion H; subst; inversion H'; subst; try (apply nth_error_In in H2; contradiction); try (apply nth_error_In in H3; contradiction); try congruence.
    all: match goal with Hk : (?f * Z.of_nat ?a = ?f * Z.of_nat ?b)%Z |- _ => assert (a = b) by lia; subst; auto | _ => idtac end.
    all: try (match goal with Nd : NoDup ?l, Ha : nth_error ?l ?a = Some ?m, Hb : nth_error ?l ?b = Some ?m |- _ =>
        assert (a = b) by (apply (proj1 (NoDup_nth_error l) Nd); [apply nth_error_Some; congruence | congruence]); subst; reflexivity end).
    all: exfalso; match goal with Ha : nth_error _ _ = Some _ |- _ => apply nth_error_In in Ha; contradiction end. }
  { intros i b ix Hi Hb. destruct (D1 i b ix Hi Hb) as [-> Nb]. split; [apply repeat_length|]. intros Pu. apply U1 in Pu. tauto. }
  { intros i b ix Hi Hb. destruct (D2 i b ix Hi Hb) as (k & -> & Hk). split; [rewrite move_length; apply repeat_length|]. intros Pu. apply U2 in Pu.
    destruct Pu as (_ & j & Hj & Ej & _). unfold here in Ej. rewrite move_nth in Ej by (rewrite repeat_length; auto). rewrite nth_repeat in Ej.
    destruct Hk as [-> | (j' & Hj' & ->)]; lia. }
  { intros i b ix Hi Hb. left. apply in_app_iff in Hi. destruct Hi as [Hi | Hi].
    - exists 0%Z. rewrite move_0. apply (D1 i b ix Hi Hb).
    - destruct (D2 i b ix Hi Hb) as (k & -> & _). eauto. }
  { apply sane_data, fs1_names. }
  { unfold l2. destruct shock; [apply fs2_sane; auto | exact I]. }
  fold n in Val, Fr. cbv zeta. set (M' := run_kernel J (map (tkeq n d) (l1 ++ l2)) pts M) in *.
  assert (Out : forall i x, move d (from * i) x = outwards d side i x) by (intros; rewrite outwards_factor, Es; reflexivity).
  assert (Inn : forall i x, move d (to * i) x = inwards d side i x) by (intros; rewrite inwards_factor, Es; reflexivity).
  assert (Pu : forall b k, puts (l1 ++ l2) b k -> puts l1 b k \/ puts l2 b k).
  { intros b k [r H]. apply in_app_iff in H. destruct H as [H | H]; [left | right]; exists r; auto. }
  split; [|split].
  - intros x Hx. assert (Lx : List.length x = n) by apply Hx.
    destruct (Val x Hx) as (M1 & L1 & L2 & A1 & B1 & C1 & A2 & C2 & B2 & K2). clear A1 C2.
    assert (W : forall b, M' b x = M1 b x).
    { intros b. rewrite <- (move_0 d x) at 1. rewrite K2; [rewrite move_0; reflexivity|]. intros H. apply U2 in H. destruct H as (_ & i & Hi & E0 & _). lia. }
    assert (B0 : forall b r, In (Da b 0 r) l1 -> M' b x = at_point J M L1 x r).
    { intros b r H. rewrite W. rewrite <- (move_0 d x) at 1. apply B1. auto. }
    assert (Keep1 : forall b i, (i <> 0)%Z -> M1 b (move d i x) = M b (move d i x)).
    { intros b i Hi. apply C1. intros k Hk E0. apply U1 in Hk. destruct Hk as [-> _]. apply move_inj in E0; [contradiction|]. rewrite Lx; auto. }
    assert (Rw : M' rho x = M rho x).
    { rewrite W. apply C1. intros k Hk E0. apply U1 in Hk. destruct Hk as [_ H]. apply in_app_iff in H. destruct H as [H | [H | []]]; auto. }
    split. { rewrite (B0 md e1) by (apply in_fs1; auto). apply at_point_value. apply P1. }
    split. { intros m Hm Nm. rewrite (B0 m (ENum 0)). { rewrite (ap_num J HJ). unfold Q2R. cbn. lra. }
      apply in_fs1. right. left. exists m. split; auto. destruct (drop_in _ moms d md m Hmd Hm); [contradiction | auto]. }
    split; auto. split. { rewrite (B0 E e2) by (apply in_fs1; auto). apply at_point_value. apply P2. }
    intros -> t Ht. cbn [l2] in *. set (i := Z.to_nat t). assert (Hi : (1 <= i <= w)%nat) by (unfold i, w; lia). assert (Ti : Z.of_nat i = t) by (unfold i; lia).
    set (p := p_at J M' rho moms E x) in *. set (z := inwards d side t x). set (y := outwards d side t x).
    set (T := (IZR t + 1) * const J "Twall" - IZR t * T_at J M rho moms E (inwards d side 1 x)).
    assert (In2 : forall a, fs_item n d from to w rho moms E a -> In a l2) by (intros a Ha; apply in_fs2; auto).
    assert (Var : forall s, at_point J M1 L2 x (evar s) = L2 s) by reflexivity.
    assert (Cst : forall s, at_point J M1 L2 x (econst s) = const J s) by reflexivity.
    assert (Dat : forall b k, at_point J M1 L2 x (EDat b (move d k (here n))) = M1 b (move d k x)).
    { intros b k. unfold at_point. cbn [eval]. unfold here. rewrite (vadd_along n) by auto. reflexivity. }
    assert (LP : L2 "Pwall"%string = p).
    { rewrite (A2 _ _ (In2 _ (FP n d from to w rho moms E))). rewrite at_point_put; auto; [|apply (placed_pressure n rho moms E)]. rewrite move_0. rewrite ap_pressure by auto.
      unfold p, p_at. rewrite !W. f_equal. apply map_ext. intros m. symmetry. apply W. }
    assert (LT : L2 "T_above"%string = T_at J M rho moms E (inwards d side 1 x)).
    { rewrite (A2 _ _ (In2 _ (FT n d from to w rho moms E))). rewrite at_point_put; auto; [|apply (placed_temperature n rho moms E)].
      rewrite <- Inn, Z.mul_1_r. rewrite ap_temperature; auto; [|rewrite move_length; auto].
      unfold T_at. rewrite !Keep1 by lia. f_equal. apply map_ext. intros m. apply Keep1; lia. }
    assert (LTi : L2 (digits_name "T" i) = T).
    { rewrite (A2 _ _ (In2 _ (FTi n d from to w rho moms E i Hi))). unfold fs_T. rewrite (ap_sub J HJ), !(ap_mul J HJ). cbn [map fold_right].
      rewrite !(ap_int J HJ), Var, Cst, LT, Ti. unfold T. rewrite plus_IZR. ring. }
    assert (LR : L2 (digits_name "rho_halo_" i) = p * const J "gama" * const J "Minf" * const J "Minf" / T).
    { fold (rh i). rewrite (A2 _ _ (In2 _ (FRh n d from to w rho moms E i Hi))). unfold fs_rho. rewrite (ap_div J HJ), (ap_mul J HJ). cbn [map fold_right].
      unfold Tvar, gama, Minf. rewrite !Var, !Cst, LTi, LP. unfold Rdiv. ring. }
    assert (LU : forall c m, nth_error moms c = Some m -> L2 (uname c i) = M m z / M rho z).
    { intros c m Hc. rewrite (A2 _ _ (In2 _ (FU n d from to w rho moms E c m i Hc Hi))). rewrite (ap_div J HJ), !Dat, Ti, !Keep1 by lia. rewrite Inn. reflexivity. }
    assert (RY : M' rho y = p * const J "gama" * const J "Minf" * const J "Minf" / T).
    { unfold y. rewrite <- Out, <- Ti. rewrite (B2 _ _ _ (In2 _ (FR n d from to w rho moms E i Hi))). unfold rho_halo. rewrite Var. exact LR. }
    assert (MY : forall c m, nth_error moms c = Some m -> M' m y = - M' rho y * (M m z / M rho z)).
    { intros c m Hc. rewrite RY. unfold y. rewrite <- Out, <- Ti. rewrite (B2 _ _ _ (In2 _ (FM n d from to w rho moms E c m i Hc Hi))).
      rewrite (ap_mul J HJ). cbn [map fold_right]. unfold rho_halo, uvar. rewrite (ap_int J HJ), !Var, LR, (LU c m Hc). ring. }
    split; auto. split.
    { intros m Hm. destruct (In_nth_error _ _ Hm) as [c Hc]. apply (MY c m Hc). }
    intros G1 G0 Mi T0 Pn0.
    assert (EY : M' E y = p / (const J "gama" - 1) + / 2 * M' rho y * norm2 (map (fun m => M m z / M rho z) moms)).
    { rewrite RY, <- LR. unfold y. rewrite <- Out, <- Ti. rewrite (B2 _ _ _ (In2 _ (FE n d from to w rho moms E i Hi))). unfold fs_E. rewrite (ap_add J HJ). cbn [map fold_right].
      rewrite (ap_div J HJ), (ap_sub J HJ), (ap_int J HJ), (ap_mul J HJ). cbn [map fold_right]. unfold rho_halo, gama. rewrite (ap_num J HJ), !Var, Cst, LP.
      assert (Sq : at_point J M1 L2 x (eadd (map (fun c => epow (uvar (fst c) i) 2) (enum moms))) = norm2 (map (fun m => M m z / M rho z) moms)).
      { rewrite (ap_add J HJ), map_map. rewrite (map_ext_in _ (fun c => (fun u => u * u) (M (snd c) z / M rho z))).
        - unfold enum, norm2. generalize 0%nat. clear. induction moms as [|m l IH]; intros s; cbn; auto. rewrite IH. reflexivity.
        - intros [c m] Hc. apply in_enum in Hc. cbn [fst snd]. rewrite (ap_sqr J HJ). unfold uvar. rewrite Var, (LU c m Hc). reflexivity. }
      rewrite Sq. unfold Q2R. cbn [Qnum Qden]. field. intros Z. apply G1. lra. }
    assert (R0 : M' rho y <> 0).
    { rewrite RY. unfold Rdiv. clearbody p T. repeat (apply Rmult_integral_contrapositive_currified; auto). apply Rinv_neq_0_compat. auto. }
    assert (NY : norm2 (map (fun m => M' m y) moms) = M' rho y * M' rho y * norm2 (map (fun m => M m z / M rho z) moms)).
    { rewrite (map_ext_in _ (fun m => - M' rho y * (M m z / M rho z))).
      - generalize (M' rho y). intros r. unfold norm2. clear. induction moms as [|m l IH]; cbn; [ring|]. rewrite IH. ring.
      - intros m Hm. destruct (In_nth_error _ _ Hm) as [c Hc]. apply (MY c m Hc). }
    assert (PY : p_at J M' rho moms E y = p).
    { unfold p_at, pressure_of. rewrite NY, EY. field. split; auto. intros Z. apply G1. lra. }
    split; auto. unfold T_at, temperature_of. change (pressure_of _ _ _ _) with (p_at J M' rho moms E y). rewrite PY, RY. field. auto.
  - intros _ b y H. apply Fr. intros k x Hk Hx Ey. apply H. apply Pu in Hk. destruct Hk as [Hk | Hk].
    + apply U1 in Hk. destruct Hk as [-> Hb]. split; [right; auto|]. right. rewrite move_0 in Ey. subst. auto.
    + apply U2 in Hk. destruct Hk as (_ & i & Hi & -> & Hb). split; auto. left. exists x, i. split; auto. split; [lia|]. rewrite <- Out. exact Ey.
  - intros -> b y H. apply Fr. intros k x Hk Hx Ey. apply H. apply Pu in Hk. destruct Hk as [Hk | [r []]].
    apply U1 in Hk. destruct Hk as [-> Hb]. split; auto. rewrite move_0 in Ey. subst. auto.
Qed.
Print Assumptions C76_forcing_strip.
