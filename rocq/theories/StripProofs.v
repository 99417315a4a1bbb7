(* Proofs for C90. *)
From Verif Require Import Base BaseProofs AlgModel StripModel StripSpec StoreSpec StoreProofs.
Local Open Scope list_scope.

Definition kept (a : axis) : nat := (points a + upper_halo a - lower_halo a)%nat.
Definition range_of (a : axis) : nat * Z := (lower_halo a, Z.of_nat (extent a) - Z.of_nat (lower_halo a))%Z.

Lemma pyslice_eq : forall {B} a (l : list B),
  pyslice (lower_halo a) (Z.of_nat (extent a) - Z.of_nat (lower_halo a)) l =
  skipn (lower_halo a) (firstn (points a + upper_halo a) l).
Proof.
  intros B a l. unfold pyslice, extent.
  destruct (Z.ltb_spec (Z.of_nat (lower_halo a + points a + upper_halo a) - Z.of_nat (lower_halo a)) 0) as [H|H]; [lia|].
  f_equal. f_equal. lia.
Qed.
Lemma pyslice_len : forall {B} a (l : list B), List.length l = extent a ->
  List.length (skipn (lower_halo a) (firstn (points a + upper_halo a) l)) = kept a.
Proof. intros B a l H. rewrite skipn_length, firstn_length. unfold kept, extent in *. lia. Qed.
Lemma in_skipn_firstn : forall {B} (x : B) m n l, In x (skipn m (firstn n l)) -> In x l.
Proof.
  intros B x m n l H. rewrite <- (firstn_skipn n l). apply in_app_iff. left.
  rewrite <- (firstn_skipn m (firstn n l)). apply in_app_iff. right. exact H.
Qed.
Lemma nth_skipn : forall {B} m i (l : list B), nth_error (skipn m l) i = nth_error l (m + i).
Proof. induction m; intros i l; cbn; auto. destruct l; [destruct i; reflexivity | apply IHm]. Qed.
Lemma nth_firstn : forall {B} n i (l : list B), (i < n)%nat -> nth_error (firstn n l) i = nth_error l i.
Proof.
  induction n; intros i l H; [lia|]. destruct l; [destruct i; reflexivity|].
  destruct i; cbn; auto. apply IHn. lia.
Qed.

Lemma slice_shape : forall A axes (x : nd A), has_shape (map extent axes) x ->
  has_shape (map kept axes) (nd_slice (map range_of axes) x).
Proof.
  intros A. induction axes as [|a axes IH]; intros x H; [exact H|].
  cbn [map has_shape] in H. destruct x as [v|l]; [contradiction|]. destruct H as [Hl Hs].
  cbn [map nd_slice range_of]. rewrite pyslice_eq. cbn [has_shape]. split.
  - rewrite map_length. apply pyslice_len, Hl.
  - intros y Hy. apply in_map_iff in Hy. destruct Hy as (z & <- & Hz). apply IH, Hs.
    exact (in_skipn_firstn _ _ _ _ Hz).
Qed.
Lemma kept_same : forall a, same_halos a -> kept a = points a.
Proof. unfold kept, same_halos. intros a H. lia. Qed.
Lemma slice_elem : forall A axes (x : nd A), Forall same_halos axes -> has_shape (map extent axes) x ->
  forall ix, Forall2 (fun i a => (i < points a)%nat) ix axes ->
    elem (nd_slice (map range_of axes) x) ix =
    elem x (map (fun p => fst p + lower_halo (snd p))%nat (combine ix axes)).
Proof.
  intros A. induction axes as [|a axes IH]; intros x Hh H ix Hi.
  - inversion Hi; subst. reflexivity.
  - inversion Hi as [|i ? ix' ? Hlt Hi']; subst. inversion Hh as [|? ? Ha Hh']; subst.
    cbn [map has_shape] in H. destruct x as [v|l]; [contradiction|]. destruct H as [Hl Hs].
    cbn [map nd_slice range_of combine fst snd elem]. rewrite pyslice_eq.
    rewrite nth_error_map, nth_skipn, nth_firstn by (unfold same_halos in Ha; lia).
    rewrite (Nat.add_comm i). destruct (nth_error l (lower_halo a + i)) as [y|] eqn:E; [|reflexivity].
    cbn [option_map]. apply IH; auto. apply Hs. exact (nth_error_In _ _ E).
Qed.
Lemma slice_interior : forall A axes (x : nd A), Forall same_halos axes -> has_shape (map extent axes) x ->
  interior axes x (nd_slice (map range_of axes) x).
Proof.
  intros A axes x Hh H. split; [|apply slice_elem; auto].
  replace (map points axes) with (map kept axes); [apply slice_shape, H|].
  clear - Hh. induction Hh; cbn; f_equal; auto. apply kept_same; auto.
Qed.
Lemma slice_wrong : forall A axes (x : nd A), Forall (fun a => 0 < points a)%nat axes ->
  has_shape (map extent axes) x -> has_shape (map points axes) (nd_slice (map range_of axes) x) ->
  Forall same_halos axes.
Proof.
  intros A. induction axes as [|a axes IH]; intros x Hp H Hs; constructor.
  - inversion Hp; subst. cbn [map has_shape] in H. destruct x as [v|l]; [contradiction|]. destruct H as [Hl _].
    cbn [map nd_slice range_of has_shape] in Hs. rewrite pyslice_eq in Hs. destruct Hs as [Hs _].
    rewrite map_length, pyslice_len in Hs by exact Hl. unfold kept, same_halos in *. lia.
  - inversion Hp as [|? ? Ha Hp']; subst. cbn [map has_shape] in H. destruct x as [v|l]; [contradiction|].
    destruct H as [Hl Hx]. cbn [map nd_slice range_of has_shape] in Hs. rewrite pyslice_eq in Hs. destruct Hs as [Hn Hs].
    destruct (skipn (lower_halo a) (firstn (points a + upper_halo a) l)) as [|y ys] eqn:E.
    + cbn in Hn. lia.
    + apply (IH y Hp').
      * apply Hx. apply (in_skipn_firstn y (lower_halo a) (points a + upper_halo a)). rewrite E. left. reflexivity.
      * apply Hs. left. reflexivity.
Qed.

Lemma ranges_eq : forall dm axes, Forall2 (fun d a => Z.abs_nat d = lower_halo a) dm axes ->
  combine (map Z.abs_nat dm) (map (fun p => Z.of_nat (snd p) - Z.abs (fst p))%Z (combine dm (map extent axes))) =
  map range_of axes /\
  List.length (map (fun p => Z.of_nat (snd p) - Z.abs (fst p))%Z (combine dm (map extent axes))) = List.length axes.
Proof.
  induction 1 as [|d a dm axes H1 H2 [IH1 IH2]]; [split; reflexivity|].
  cbn [map combine fst snd List.length]. split; [|f_equal; exact IH2]. rewrite IH1. f_equal.
  unfold range_of. rewrite H1. f_equal. lia.
Qed.
Lemma read_dataset_eq : forall A dm axes (x : nd A), Forall2 (fun d a => Z.abs_nat d = lower_halo a) dm axes ->
  (List.length axes = 2 \/ List.length axes = 3)%nat ->
  read_dataset dm (map extent axes) x = SOk (nd_slice (map range_of axes) x).
Proof.
  intros A dm axes x H Hn. unfold read_dataset. destruct (ranges_eq dm axes H) as [-> ->].
  destruct Hn as [-> | ->]; reflexivity.
Qed.

Lemma strip_all_eq : forall A (f : sdata A -> nd A) l,
  (forall k x, In (k, x) l -> read_dataset (s_dm x) (s_shape x) (s_data x) = SOk (f x)) ->
  strip_all l = SOk (map (fun p => (fst p, f (snd p))) l).
Proof.
  intros A f. induction l as [|[k x] l IH]; intros H; [reflexivity|].
  cbn [strip_all map fst snd]. rewrite (H k x (or_introl eq_refl)), IH; [reflexivity|].
  intros k' x' Hi. apply (H k'). right. exact Hi.
Qed.

(* ---- names ---- *)
Lemma split_ne : forall c s, pysplit c s <> [].
Proof. intros c. destruct s as [|d s]; cbn; [discriminate|]. destruct (ascii_dec d c); [discriminate|]. destruct (pysplit c s); discriminate. Qed.
Lemma split_app : forall c a b, pysplit c (a ++ String c b) = pysplit c a ++ pysplit c b.
Proof.
  intros c. induction a as [|d a IH]; intros b; cbn.
  - destruct (ascii_dec c c); [reflexivity | congruence].
  - rewrite IH. destruct (ascii_dec d c); [reflexivity|].
    destruct (pysplit c a) as [|p ps] eqn:E; [exfalso; exact (split_ne _ _ E) | reflexivity].
Qed.
Lemma split_none : forall c s, has_char c s = false -> pysplit c s = [s].
Proof.
  intros c. induction s as [|d s IH]; cbn; intros H; [reflexivity|].
  apply orb_false_iff in H. destruct H as [H1 H2]. destruct (ascii_dec d c) as [->|N].
  - rewrite Ascii.eqb_refl in H1. discriminate.
  - rewrite (IH H2). reflexivity.
Qed.
Lemma join_split : forall c s x, pyjoin (String c "") (pysplit c s ++ [x]) = (s ++ String c x)%string.
Proof.
  intros c. induction s as [|d s IH]; intros x; cbn [pysplit].
  - reflexivity.
  - specialize (IH x). destruct (ascii_dec d c) as [->|N].
    + cbn [app pyjoin]. destruct (pysplit c s ++ [x]) as [|y ys] eqn:E; [destruct (pysplit c s); discriminate E|].
      rewrite IH. reflexivity.
    + destruct (pysplit c s) as [|p ps] eqn:E; [exfalso; exact (split_ne _ _ E)|].
      cbn [app] in *. destruct (ps ++ [x]) as [|y ys] eqn:E2; [destruct ps; discriminate E2|].
      cbn [pyjoin append] in *. rewrite IH. reflexivity.
Qed.

(* A path dir/name or name, where name contains .h5 *)
Lemma path_dir : forall dir name, has_char "/" name = false -> contains name ".h5" ->
  output_path (dir ++ "/" ++ name) = Some (dir ++ "/" ++ hd EmptyString (pysplit "." name) ++ "_pp.h5")%string.
Proof.
  intros dir name Hs Hc. unfold output_path. change ("/" ++ name)%string with (String "/" name).
  rewrite split_app, (split_none _ _ Hs), last_last, removelast_last.
  rewrite (proj2 (substring_contains _ _) Hc), join_split. reflexivity.
Qed.
Lemma path_plain : forall name, has_char "/" name = false -> contains name ".h5" ->
  output_path name = Some (hd EmptyString (pysplit "." name) ++ "_pp.h5")%string.
Proof.
  intros name Hs Hc. unfold output_path. rewrite (split_none _ _ Hs). cbn [last removelast app pyjoin].
  rewrite (proj2 (substring_contains _ _) Hc). reflexivity.
Qed.
Lemma hd_dot : forall a b, has_char "." a = false -> hd EmptyString (pysplit "." (a ++ String "." b)) = a.
Proof. intros a b H. rewrite split_app, (split_none _ _ H). reflexivity. Qed.
Lemma free_char : forall c s, ~ contains s (String c "") -> has_char c s = false.
Proof.
  intros c. induction s as [|d s IH]; intros H; [reflexivity|]. cbn [has_char].
  apply orb_false_iff. split.
  - destruct (Ascii.eqb c d) eqn:E; [|reflexivity]. apply Ascii.eqb_eq in E. subst. exfalso. apply H. exists EmptyString, s. reflexivity.
  - apply IH. intros (p & q & ->). apply H. exists (String d p), q. reflexivity.
Qed.
