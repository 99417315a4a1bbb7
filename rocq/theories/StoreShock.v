(* Ranges of the shock-capturing kernels (C16). *)
From Verif Require Import Base Expr ShiftSpec ShiftProofs KernelModel WenoModel TenoModel LLFModel LLFProofs StoreModel StoreSpec StoreProofs.
From Verif Require FDModel KernelProofs BCKern.
From Coq Require Import QArith ZArith Reals Lia.
Local Close Scope Q_scope.
Local Close Scope R_scope.
Local Open Scope list_scope.

Lemma set_halo_length : forall hr d s h, List.length (set_halo_range hr d s h) = List.length hr.
Proof. intros. unfold set_halo_range. rewrite map_length, combine_length, seq_length. lia. Qed.

(* what the registered halos of direction i are *)
Definition only (h : halo) (dirs : list nat) (i : nat) (p : list halo * list halo) : Prop :=
  (forall x, In x (fst p) <-> x = h /\ In i dirs) /\ (forall x, In x (snd p) <-> x = h /\ In i dirs).
Lemma extended_halos : forall h dirs done hr,
  (forall i, (i < List.length hr)%nat -> only h done i (nth i hr ([], []))) ->
  let hr' := fold_left (fun hr d => set_halo_range (set_halo_range hr d false h) d true h) dirs hr in
  List.length hr' = List.length hr /\ forall i, (i < List.length hr)%nat -> only h (done ++ dirs) i (nth i hr' ([], [])).
Proof.
  intros h. induction dirs as [|d dirs IH]; intros done hr H; cbn [fold_left].
  - rewrite app_nil_r. auto.
  - set (hr1 := set_halo_range (set_halo_range hr d false h) d true h).
    assert (L : List.length hr1 = List.length hr) by (unfold hr1; rewrite !set_halo_length; auto).
    destruct (IH (done ++ [d]) hr1) as [L' X].
    + rewrite L. intros i Hi. specialize (H i Hi).
      assert (N : nth_error hr i = Some (nth i hr ([], []))) by (apply nth_error_nth'; auto).
      destruct (nth i hr ([], [])) as [lo hi]. unfold only in H. cbn [fst snd] in H. destruct H as [H1 H2].
      destruct (KernelProofs.set_halo_spec _ d false h _ _ _ N) as (l1 & h1 & N1 & A1 & B1).
      destruct (KernelProofs.set_halo_spec _ d true h _ _ _ N1) as (l2 & h2 & N2 & A2 & B2).
      fold hr1 in N2. rewrite (nth_error_nth _ _ _ N2). unfold only. cbn [fst snd].
      split; intros x; [rewrite A2, A1, H1 | rewrite B2, B1, H2]; rewrite in_app_iff; cbn [In]; intuition congruence.
    + rewrite L in *. split; [exact L'|]. intros i Hi. specialize (X i Hi). rewrite <- app_assoc in X. exact X.
Qed.
Lemma only_min : forall h dirs i p, only h dirs i p ->
  halo_min (fst p) = (if in_dec Nat.eq_dec i dirs then fst h else 0)%Z /\ halo_max (snd p) = (if in_dec Nat.eq_dec i dirs then snd h else 0)%Z.
Proof.
  intros h dirs i [lo hi] [H1 H2]. cbn [fst snd] in *.
  assert (A : forall l, (forall x, In x l -> x = h) -> forall a, (a = fst h -> minl a (map fst l) = fst h)).
  { unfold minl. induction l as [|y l IH]; intros Hl a Ha; cbn [map fold_left]; auto. apply IH; [intros; apply Hl; right; auto|].
    rewrite (Hl y (or_introl eq_refl)), Ha. lia. }
  assert (B : forall l, (forall x, In x l -> x = h) -> forall a, (a = snd h -> maxl a (map snd l) = snd h)).
  { unfold maxl. induction l as [|y l IH]; intros Hl a Ha; cbn [map fold_left]; auto. apply IH; [intros; apply Hl; right; auto|].
    rewrite (Hl y (or_introl eq_refl)), Ha. lia. }
  destruct (in_dec Nat.eq_dec i dirs) as [I | I].
  - split.
    + destruct lo as [|y lo]; [exfalso; apply (proj2 (H1 h)); auto|]. cbn [halo_min]. apply A; [|f_equal; apply H1; left; auto].
      intros x Hx. apply (proj1 (H1 x)). right. auto.
    + destruct hi as [|y hi]; [exfalso; apply (proj2 (H2 h)); auto|]. cbn [halo_max]. apply B; [|f_equal; apply H2; left; auto].
      intros x Hx. apply (proj1 (H2 x)). right. auto.
  - split.
    + destruct lo as [|y lo]; auto. exfalso. apply I. apply (proj1 (H1 y)). left. auto.
    + destruct hi as [|y hi]; auto. exfalso. apply I. apply (proj1 (H2 y)). left. auto.
Qed.

Lemma in_extended : forall sizes h dirs x, in_ranges (extended_range sizes h dirs) x = true <->
  List.length x = List.length sizes /\ forall i, (i < List.length sizes)%nat ->
    ((if in_dec Nat.eq_dec i dirs then fst h else 0) <= nth i x 0 < nth i sizes 0 + (if in_dec Nat.eq_dec i dirs then snd h else 0))%Z.
Proof.
  intros sizes h dirs x. unfold extended_range.
  destruct (extended_halos h dirs [] (repeat ([], []) (List.length sizes))) as [L X].
  { rewrite repeat_length. intros i Hi. rewrite nth_repeat. split; cbn; intuition. }
  rewrite repeat_length in *. cbn [app] in X.
  set (hr := fold_left _ dirs _) in *. clearbody hr.
  assert (Lr : List.length (map (fun n => (0, n)%Z) sizes) = List.length hr) by (rewrite map_length; auto).
  unfold in_ranges. rewrite andb_true_iff, Nat.eqb_eq, BCKern.total_range_length, map_length by auto.
  split; intros [Lx H]; split; auto.
  - intros i Hi. rewrite (BCKern.forallb_combine _ _ _ _ _ 0%Z (0, 0)%Z) in H by (rewrite BCKern.total_range_length, map_length; auto).
    specialize (H i ltac:(lia)). rewrite BCKern.total_range_nth in H by (try rewrite map_length; auto).
    destruct (only_min _ _ _ _ (X i Hi)) as [E1 E2]. rewrite E1, E2 in H.
    change (0, 0)%Z with ((fun n => (0, n)%Z) 0%Z) in H. rewrite map_nth in H. cbn [fst snd] in H.
    rewrite andb_true_iff, Z.leb_le, Z.ltb_lt in H. lia.
  - rewrite (BCKern.forallb_combine _ _ _ _ _ 0%Z (0, 0)%Z) by (rewrite BCKern.total_range_length, map_length; auto).
    intros i Hi. rewrite Lx in Hi. specialize (H i Hi). rewrite BCKern.total_range_nth by (try rewrite map_length; auto).
    destruct (only_min _ _ _ _ (X i Hi)) as [E1 E2]. rewrite E1, E2.
    change (0, 0)%Z with ((fun n => (0, n)%Z) 0%Z). rewrite map_nth. cbn [fst snd].
    rewrite andb_true_iff, Z.leb_le, Z.ltb_lt. lia.
Qed.

(* ---- stencils ---- *)
Lemma weno_stencil : forall fm k eps p, (1 <= k)%nat -> In p (stencil_points (weno_scheme fm k eps)) <-> (1 - Z.of_nat k <= p <= Z.of_nat k)%Z.
Proof.
  intros fm k eps p Hk. rewrite in_stencil. cbn [weno_scheme sch_points]. unfold func_points. rewrite !in_flat_map. split.
  - intros [(r & Hr & Hp) | (r & Hr & Hp)]; apply in_seq in Hr; apply in_map_iff in Hp; destruct Hp as (j & <- & Hj); apply in_seq in Hj; cbn [point_shift]; lia.
  - intros Hp. destruct (Z_le_gt_dec p 0).
    + left. exists (Z.to_nat (- p)). split; [apply in_seq; lia|]. apply in_map_iff. exists 0%nat. split; [cbn [point_shift]; lia | apply in_seq; lia].
    + right. exists 0%nat. split; [apply in_seq; lia|]. apply in_map_iff. exists (Z.to_nat (p - 1)). split; [cbn [point_shift]; lia | apply in_seq; lia].
Qed.
Lemma teno_stencil : forall order eps CT p, order = 5%nat \/ order = 6%nat -> In p (stencil_points (teno_scheme order eps CT)) <-> (-2 <= p <= 3)%Z.
Proof.
  intros order eps CT p Ho. rewrite in_stencil. cbn [teno_scheme sch_points].
  destruct Ho as [-> | ->]; cbn [teno_points firstn Nat.sub all_points List.concat app In]; lia.
Qed.
Lemma nth_move : forall d p x i, (i < List.length x)%nat -> nth i (move d p x) 0%Z = (nth i x 0 + if Nat.eq_dec i d then p else 0)%Z.
Proof.
  induction d as [|d IH]; intros p [|a x] [|i] Hi; cbn [List.length] in Hi; try lia; cbn [move nth].
  - destruct (Nat.eq_dec 0 0); [lia | congruence].
  - destruct (Nat.eq_dec (S i) 0); lia.
  - destruct (Nat.eq_dec 0 (S d)); lia.
  - rewrite IH by lia. destruct (Nat.eq_dec i d), (Nat.eq_dec (S i) (S d)); lia.
Qed.
