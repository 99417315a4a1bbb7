From Verif Require Import Base Expr ExprProofs KernelModel ShiftModel ShiftSpec ShiftProofs AlgProofs BCModel BCSpec BCProofs.
From Coq Require Import QArith ZArith Reals Qreals Lia Lra Permutation.
Local Close Scope Q_scope.

Definition put (n d : nat) (k : Z) (e : expr) : expr := map_dsets (fun a => (fst a, move d k (here n))) e.

Lemma syms_map_dsets : forall k f e, syms k (map_dsets f e) = syms k e.
Proof.
  intros k f e. induction e as [q|kd s|b ix|h args IH] using expr_ind'; auto.
  - cbn. destruct (f (b, ix)). reflexivity.
  - cbn [map_dsets]. rewrite !syms_app. rewrite flat_map_concat_map, map_map, <- flat_map_concat_map.
    rewrite !flat_map_concat_map. f_equal. apply map_ext_in. rewrite Forall_forall in IH. auto.
Qed.

Definition rstep (ix : list Z) (a x : dset) : dset := if dset_eq_dec x a then (fst a, ix) else x.
Lemma relocate_any : forall ord ix e, good_order ord -> relocate ord ix e = map_dsets (fun a => (fst a, ix)) e.
Proof.
  intros ord ix e Go. unfold relocate. destruct (Go e) as [_ En].
  assert (G : forall l e, fold_left (fun e a => replace1 a (EDat (fst a) ix) e) l e =
     map_dsets (fun x => fold_left (fun x a => rstep ix a x) l x) e).
  { induction l as [|a l IH]; intros e0; cbn [fold_left].
    - rewrite map_dsets_id. reflexivity.
    - rewrite replace1_map_dsets, IH, map_dsets_map_dsets. reflexivity. }
  rewrite G. apply map_dsets_ext. intros a Ha.
  assert (Fst : forall l x, fst (fold_left (fun x a => rstep ix a x) l x) = fst x).
  { induction l as [|c l IH]; intros x; cbn [fold_left]; auto. rewrite IH. unfold rstep. destruct (dset_eq_dec x c); subst; auto. }
  assert (Fix : forall l b, fold_left (fun x a => rstep ix a x) l (b, ix) = (b, ix)).
  { induction l as [|c l IH]; intros b; cbn [fold_left]; auto. unfold rstep at 2.
    destruct (dset_eq_dec (b, ix) c) as [<- | N]; apply IH. }
  apply En in Ha. revert Ha. generalize (ord e). induction l as [|c l IH]; intros Ha; [destruct Ha|]; destruct Ha as [Ha | Ha].
  - subst c. cbn [fold_left]. unfold rstep at 2. destruct (dset_eq_dec a a); [|congruence]. apply Fix.
  - cbn [fold_left]. unfold rstep at 2. destruct (dset_eq_dec a c) as [-> | N]; [apply Fix | auto].
Qed.

Lemma inc_local : forall ord n d k e, good_order ord -> (d < n)%nat -> local n e -> syms KObj e = [] ->
  inc ord d k e = Ok (put n d k e).
Proof.
  intros ord n d k e Go Hd Lo Ko. unfold inc, increment_dataset. rewrite Ko.
  destruct (Go e) as [ND En].
  rewrite shift_loop_steps.
  - f_equal. unfold put. apply map_dsets_ext. intros a Ha. rewrite steps_good.
    + rewrite shift_dset_move. destruct a as [b ix]. cbn. rewrite (Lo b ix Ha). reflexivity.
    + auto.
    + apply (one_location_no_collision n e); auto.
      * intros b ix Hb. rewrite (Lo b ix Hb). apply repeat_length.
      * intros b ix b' ix' Hb Hb'. rewrite (Lo _ _ Hb), (Lo _ _ Hb'). reflexivity.
    + apply En. auto.
  - intros [b ix] Ha. apply En in Ha. cbn. rewrite (Lo b ix Ha). unfold here. rewrite repeat_length. auto.
Qed.

Lemma at_point_put : forall V (J : interp V) M L n d k x e, List.length x = n -> local n e ->
  at_point J M L x (put n d k e) = at_point J M L (move d k x) e.
Proof.
  intros V J M L n d k x e Lx Lo. unfold at_point, put. rewrite eval_map_dsets. apply eval_ext.
  intros b ix Hb. cbn. rewrite (Lo b ix Hb), (vadd_along n); auto. unfold here. rewrite vadd_here; auto. rewrite move_length. auto.
Qed.
Lemma dsets_put : forall n d k e b ix, In (b, ix) (dsets (put n d k e)) -> ix = move d k (here n) /\ In b (map fst (dsets e)).
Proof.
  intros n d k e b ix H. unfold put in H. rewrite dsets_map_dsets in H. apply in_map_iff in H.
  destruct H as (a & E & Ha). injection E as <- <-. split; auto. apply in_map. auto.
Qed.
Lemma put_dat : forall n d k b ix, put n d k (EDat b ix) = EDat b (move d k (here n)).
Proof. reflexivity. Qed.

(* ---- boundary planes ---- *)
Lemma set_nth_length : forall A d (v : A) l, List.length (set_nth d v l) = List.length l.
Proof. induction d; intros v [|x l]; cbn; auto. Qed.
Lemma nth_set_nth : forall A d (v : A) l i df, (d < List.length l)%nat -> nth i (set_nth d v l) df = if Nat.eq_dec i d then v else nth i l df.
Proof.
  induction d; intros v [|x l] [|i] df H; cbn [List.length] in H; try lia; cbn [set_nth nth].
  - destruct (Nat.eq_dec 0 0); [auto | lia].
  - destruct (Nat.eq_dec (S i) 0); [lia | auto].
  - destruct (Nat.eq_dec 0 (S d)); [lia | auto].
  - rewrite IHd by lia. destruct (Nat.eq_dec i d), (Nat.eq_dec (S i) (S d)); auto; lia.
Qed.

Lemma forallb_combine : forall A B (f : A * B -> bool) (l : list A) (m : list B) da db,
  List.length l = List.length m ->
  (forallb f (combine l m) = true <-> forall i, (i < List.length l)%nat -> f (nth i l da, nth i m db) = true).
Proof.
  induction l as [|a l IH]; intros [|b m] da db L; cbn in *; try lia.
  - split; auto. intros; lia.
  - rewrite andb_true_iff, (IH m da db) by lia. split.
    + intros [A0 H] [|i] Hi; auto. apply H. lia.
    + intros H. split; [apply (H 0%nat); lia | intros i Hi; apply (H (S i)); lia].
Qed.

Lemma total_range_nth : forall ranges hr i, List.length ranges = List.length hr -> (i < List.length ranges)%nat ->
  nth i (total_range ranges hr) (0, 0)%Z =
    (fst (nth i ranges (0, 0)%Z) + halo_min (fst (nth i hr ([], []))), snd (nth i ranges (0, 0)%Z) + halo_max (snd (nth i hr ([], []))))%Z.
Proof.
  intros ranges hr i L Hi. unfold total_range, get_min_max_halo_values. cbn [fst snd].
  revert hr i L Hi. induction ranges as [|[a b] ranges IH]; intros [|h hr] i L Hi; cbn in *; try lia.
  destruct i; cbn; auto. apply IH; lia.
Qed.
Lemma total_range_length : forall ranges hr, List.length ranges = List.length hr -> List.length (total_range ranges hr) = List.length ranges.
Proof.
  intros. unfold total_range, get_min_max_halo_values. cbn. rewrite map_length, combine_length, combine_length, !map_length. lia.
Qed.

Lemma set_kernel_range_ok : forall np d (side : bool), (d < List.length np)%nat ->
  set_kernel_range np d side = Ok (set_nth d (if side then (nth d np 0 - 1, nth d np 0) else (0, 1))%Z (block_ranges np)).
Proof.
  intros np d side H. unfold set_kernel_range, block_ranges.
  rewrite nth_error_map, (nth_error_nth' np 0%Z) by auto. cbn [option_map].
  destruct side; do 3 f_equal; lia.
Qed.

Lemma bk_points_face : forall np bh d (side : bool) eqs, List.length bh = List.length np -> (d < List.length np)%nat ->
  forall x, bk_points {| bk_ranges := set_nth d (if side then (nth d np 0 - 1, nth d np 0) else (0, 1))%Z (block_ranges np);
                         bk_halos := set_nth d ([], []) bh; bk_eqs := eqs |} x = true <-> on_face np bh d side x.
Proof.
  intros np bh d side eqs Lb Hd x. unfold bk_points, on_face. cbn [bk_ranges bk_halos].
  set (r := set_nth d _ (block_ranges np)).
  assert (Lr : List.length r = List.length np) by (unfold r, block_ranges; rewrite set_nth_length, map_length; auto).
  assert (Lt : List.length (total_range r (set_nth d ([], []) bh)) = List.length np).
  { rewrite total_range_length; auto. rewrite set_nth_length. congruence. }
  rewrite andb_true_iff, Nat.eqb_eq, Lt. split.
  - intros [Lx H]. split; auto.
    rewrite (forallb_combine _ _ _ _ _ 0%Z (0, 0)%Z) in H by congruence.
    assert (G : forall i, (i < List.length np)%nat -> nth i r (0, 0)%Z = if Nat.eq_dec i d then (if side then (nth d np 0 - 1, nth d np 0) else (0, 1))%Z else (0, nth i np 0)%Z).
    { intros i Hi. unfold r. rewrite nth_set_nth by (unfold block_ranges; rewrite map_length; auto).
      destruct (Nat.eq_dec i d); auto. unfold block_ranges. apply (map_nth (fun n : Z => (0, n)%Z) np 0%Z). }
    split.
    + specialize (H d ltac:(rewrite Lx; auto)). rewrite total_range_nth in H; [|rewrite set_nth_length; congruence|rewrite Lr; auto].
      rewrite (G d Hd), nth_set_nth in H by (rewrite Lb; auto).
      destruct (Nat.eq_dec d d); [|congruence]. cbn in H. rewrite andb_true_iff, Z.leb_le, Z.ltb_lt in H.
      destruct side; cbn in H; lia.
    + intros i Hi N. specialize (H i ltac:(rewrite Lx; auto)). rewrite total_range_nth in H; [|rewrite set_nth_length; congruence|rewrite Lr; auto].
      rewrite (G i Hi), nth_set_nth in H by (rewrite Lb; auto).
      destruct (Nat.eq_dec i d); [congruence|]. cbn in H. rewrite andb_true_iff, Z.leb_le, Z.ltb_lt in H.
      unfold lower_halo, upper_halo. lia.
  - intros (Lx & Hx & H). split; auto.
    rewrite (forallb_combine _ _ _ _ _ 0%Z (0, 0)%Z) by congruence. intros i Hi. rewrite Lx in Hi.
    rewrite total_range_nth; [|rewrite set_nth_length; congruence|rewrite Lr; auto].
    unfold r. rewrite nth_set_nth by (unfold block_ranges; rewrite map_length; auto). rewrite nth_set_nth by (rewrite Lb; auto).
    destruct (Nat.eq_dec i d) as [-> | N].
    + destruct side; cbn; rewrite andb_true_iff, Z.leb_le, Z.ltb_lt; lia.
    + unfold block_ranges. rewrite (map_nth (fun n : Z => (0, n)%Z) np 0%Z).
      cbn. rewrite andb_true_iff, Z.leb_le, Z.ltb_lt. specialize (H i Hi N). unfold lower_halo, upper_halo in H. lia.
Qed.

(* ---- kernels that copy from offset r to offset l ---- *)
Definition ceqs (n d : nat) (names : list string) (T : list (Z * Z * list expr)) : kernel_eqs :=
  flat_map (fun t => map (fun p => KEq (EDat (fst p) (move d (fst (fst t)) (here n))) (put n d (snd (fst t)) (snd p)))
                         (combine names (snd t))) T.

Lemma create_eqs : forall ord n d names rights indices, good_order ord -> names <> [] ->
  create_boundary_equations ord d (map (fun b => EDat b (here n)) names) rights indices =
  Ok (ceqs n d names (map (fun i => (fst i, snd i, rights)) indices)).
Proof.
  intros ord n d [|b0 names] rights indices Go N; [congruence|]. unfold create_boundary_equations. cbn [map]. f_equal.
  unfold ceqs. rewrite flat_map_concat_map, (flat_map_concat_map _ (map _ _)), map_map. f_equal.
  apply map_ext. intros [l r]. cbn [fst snd]. unfold boundary_equations_at.
  change (EDat b0 (here n) :: map (fun b => EDat b (here n)) names) with (map (fun b => EDat b (here n)) (b0 :: names)).
  rewrite !shift_move. clear N. generalize (b0 :: names). intros ns. revert rights.
  induction ns as [|b ns IH]; intros [|e rights]; cbn; auto.
  rewrite IH. f_equal. rewrite !relocate_any by auto. reflexivity.
Qed.

Lemma in_ceqs : forall n d names T q, In q (ceqs n d names T) ->
  exists t b e, In t T /\ In (b, e) (combine names (snd t)) /\
    q = KEq (EDat b (move d (fst (fst t)) (here n))) (put n d (snd (fst t)) e).
Proof.
  intros n d names T q H. unfold ceqs in H. apply in_flat_map in H. destruct H as (t & Ht & H).
  apply in_map_iff in H. destruct H as ([b e] & E & He). exists t, b, e. auto.
Qed.
Lemma ceqs_in : forall n d names T t b e, In t T -> In (b, e) (combine names (snd t)) ->
  In (KEq (EDat b (move d (fst (fst t)) (here n))) (put n d (snd (fst t)) e)) (ceqs n d names T).
Proof.
  intros. unfold ceqs. apply in_flat_map. exists t. split; auto. apply in_map_iff. exists (b, e). auto.
Qed.
Lemma in_reads_inl : forall l r b ix, In (inl (b, ix)) (reads (KEq l r)) -> In (b, ix) (dsets r).
Proof.
  intros l r b ix H. cbn in H. apply in_app_iff in H. destruct H as [H | H]; apply in_map_iff in H; destruct H as (a & E & Ha); [|discriminate].
  injection E as ->. auto.
Qed.
Lemma ceqs_along : forall n d names T, along n d (ceqs n d names T).
Proof.
  intros n d names T q b ix Hq Hb. apply in_ceqs in Hq. destruct Hq as (t & b' & e & _ & _ & ->).
  apply in_app_iff in Hb. destruct Hb as [[E | []] | Hb].
  - injection E as <- <-. eexists. reflexivity.
  - apply in_reads_inl in Hb. apply dsets_put in Hb. destruct Hb as [-> _]. eexists. reflexivity.
Qed.
Lemma nodup_app : forall A (l m : list A), NoDup l -> NoDup m -> (forall x, In x l -> ~ In x m) -> NoDup (l ++ m).
Proof.
  induction l as [|a l IH]; intros m Hl Hm H; cbn; auto. apply NoDup_cons_iff in Hl. destruct Hl as [N Hl].
  constructor.
  - rewrite in_app_iff. intros [C | C]; auto. apply (H a); auto. left; auto.
  - apply IH; auto. intros x Hx. apply H. right; auto.
Qed.
Lemma here_inj : forall n d k j, (d < n)%nat -> move d k (here n) = move d j (here n) -> k = j.
Proof. intros n d k j Hd E. apply (move_inj d k j (here n)); auto. unfold here. rewrite repeat_length. auto. Qed.
Lemma ceqs_targets : forall n d names T, (d < n)%nat -> NoDup names -> NoDup (map (fun t => fst (fst t)) T) ->
  NoDup (flat_map target (ceqs n d names T)).
Proof.
  intros n d names T Hd ND. induction T as [|t T IH]; intros NT; [constructor|].
  cbn [map] in NT. apply NoDup_cons_iff in NT. destruct NT as [N NT].
  unfold ceqs. cbn [flat_map]. rewrite flat_map_app. apply nodup_app; [|apply IH; auto|].
  - clear IH. revert ND. generalize (snd t). induction names as [|b names IHn]; intros [|e l] ND; cbn; try constructor.
    + apply NoDup_cons_iff in ND. destruct ND as [Nb ND]. intros C. apply in_flat_map in C. destruct C as (q & Hq & Ht).
      apply in_map_iff in Hq. destruct Hq as ([b' e'] & <- & Hc). cbn in Ht. destruct Ht as [Ht | []]. injection Ht as ->.
      apply Nb. apply (in_combine_l _ _ _ _ Hc).
    + apply IHn. apply NoDup_cons_iff in ND. tauto.
  - intros z Hz C. apply in_flat_map in Hz. destruct Hz as (q & Hq & Hz). apply in_map_iff in Hq. destruct Hq as ([b e] & <- & _).
    destruct Hz as [<- | []]. apply in_flat_map in C. destruct C as (q' & Hq' & Hz').
    apply in_ceqs in Hq'. destruct Hq' as (t' & b' & e' & Ht' & _ & ->). destruct Hz' as [E | []]. injection E as E1 E2.
    apply here_inj in E2; auto. apply N. rewrite <- E2. apply in_map_iff. eauto.
Qed.
Lemma ceqs_ordered : forall n d names T, (d < n)%nat -> NoDup names -> NoDup (map (fun t => fst (fst t)) T) ->
  (forall t t', In t T -> In t' T -> fst (fst t) <> snd (fst t')) -> ordered [] (ceqs n d names T).
Proof.
  intros n d names T Hd ND NT D. apply ordered_disjoint; cbn [app].
  - apply ceqs_targets; auto.
  - intros q q' z Hq Hq' Hz C. apply in_ceqs in Hq. destruct Hq as (t & b & e & Ht & _ & ->).
    destruct Hz as [<- | []]. apply in_ceqs in Hq'. destruct Hq' as (t' & b' & e' & Ht' & _ & ->).
    apply in_reads_inl in C. apply dsets_put in C. destruct C as [C _]. apply here_inj in C; auto. apply (D t t'); auto.
Qed.

Lemma face_plane : forall np bh d side x, on_face np bh d side x ->
  List.length x = List.length np /\ nth d x 0%Z = (if side then nth d np 0 - 1 else 0)%Z.
Proof. intros np bh d side x (A & B & _). auto. Qed.

(* what such a kernel leaves in the arrays *)
Lemma copy_plane : forall V (J : interp V) n d names T pts M c,
  (d < n)%nat -> NoDup names -> NoDup (map (fun t => fst (fst t)) T) ->
  (forall t t', In t T -> In t' T -> fst (fst t) <> snd (fst t')) ->
  NoDup pts -> (forall y, In y pts -> List.length y = n /\ nth d y 0%Z = c) ->
  (forall t b e L, In t T -> In (b, e) (combine names (snd t)) -> local n e -> syms KGridVar e = [] ->
     forall x, In x pts ->
     run_kernel J (ceqs n d names T) pts M b (move d (fst (fst t)) x) = at_point J M L (move d (snd (fst t)) x) e) /\
  (forall b y, (forall t x, In t T -> In x pts -> In b names -> y <> move d (fst (fst t)) x) ->
     run_kernel J (ceqs n d names T) pts M b y = M b y).
Proof.
  intros V J n d names T pts M c Hd ND NT D NP HP.
  assert (Fr : forall b y, (forall t x, In t T -> In x pts -> In b names -> y <> move d (fst (fst t)) x) ->
     run_kernel J (ceqs n d names T) pts M b y = M b y).
  { intros b y H. apply (plane_frame J (ceqs n d names T)). intros x q ix Hx Hq Ht E.
    apply in_ceqs in Hq. destruct Hq as (t & b' & e & HtT & Hc & ->). destruct Ht as [Ht | []]. injection Ht as <- <-.
    destruct (HP x Hx) as [Lx _]. unfold here in E. rewrite (vadd_along n) in E by auto. apply (H t x); auto.
    apply (in_combine_l _ _ _ _ Hc). }
  split; auto.
  intros t b e L Ht Hc Lo Gv x Hx.
  destruct (HP x Hx) as [Lx Cx].
  destruct (plane_holds J n d (ceqs n d names T) Hd (ceqs_along n d names T) c pts M x NP Hx HP
              (ceqs_ordered n d names T Hd ND NT D)) as [L' H].
  specialize (H _ (ceqs_in n d names T t b e Ht Hc)). cbn [holds fst snd] in H.
  unfold here in H at 1. rewrite (vadd_along n) in H by auto. rewrite H, at_point_put by auto.
  apply at_point_ext; [|rewrite Gv; intros ? []].
  intros b' ix Hb. rewrite (Lo b' ix Hb). unfold here. rewrite vadd_here by (rewrite move_length; auto).
  apply Fr. intros t' x' Ht' Hx' Hn E. destruct (HP x' Hx') as [Lx' Cx'].
  assert (x = x') by (apply (lines_disjoint d (snd (fst t)) (fst (fst t'))); auto; try congruence; rewrite Lx; auto).
  subst x'. apply move_inj in E; [|rewrite Lx; auto]. apply (D t' t); auto.
Qed.
