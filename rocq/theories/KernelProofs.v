From Coq Require Import FinFun Permutation.
From Verif Require Import Base BaseProofs Expr ExprProofs KernelModel KernelSpec.

(* ---- names ---- *)
Lemma blockname_inj a b : blockname a = blockname b -> a = b.
Proof. unfold blockname; intros H. apply append_cancel_l in H. now apply decpad_inj in H. Qed.

Lemma kernelname_inj b n c m : kernelname b n = kernelname c m -> b = c /\ n = m.
Proof.
  unfold kernelname, blockname. rewrite !append_assoc. intros H.
  apply append_cancel_l in H. cbn in H.
  apply digits_sep in H; try reflexivity; try apply all_digits_decpad.
  destruct H as (H1 & _ & H2). apply decpad_inj in H1. repeat (injection H2 as H2).
  apply decpad_inj in H2. auto.
Qed.

Lemma iter_name_inj b n c m : iter_name b n = iter_name c m -> b = c /\ n = m.
Proof.
  unfold iter_name. intros H. apply append_cancel_l in H. cbn in H.
  apply digits_sep in H; try reflexivity; try apply all_digits_dec.
  destruct H as (H1 & _ & H2). apply dec_inj in H1. repeat (injection H2 as H2).
  apply dec_inj in H2. auto.
Qed.

Lemma create_kernels_form bs : forall c n i,
  In (n, i) (create_kernels c bs) ->
  exists b k, n = kernelname b k /\ i = iter_name b k /\ c b <= k.
Proof.
  induction bs as [|b bs IH]; intros c n i H; cbn in *; [easy|].
  destruct H as [H|H].
  - inversion H; subst. exists b, (c b). auto.
  - apply IH in H as (b' & k & -> & -> & Hk). exists b', k. repeat split; auto.
    destruct (Nat.eqb_spec b' b); lia.
Qed.

Lemma create_kernels_nodup bs : forall c,
  NoDup (map fst (create_kernels c bs)) /\ NoDup (map snd (create_kernels c bs)).
Proof.
  induction bs as [|b bs IH]; intros c; cbn; [split; constructor|].
  destruct (IH (fun x => if (x =? b)%nat then c x + 1 else c x)) as [H1 H2].
  split; constructor; auto; intros H; apply in_map_iff in H as ((n & i) & Hn & Hin); cbn in Hn;
    apply create_kernels_form in Hin as (b' & k & -> & -> & Hk).
  - apply kernelname_inj in Hn as [-> ->]. rewrite Nat.eqb_refl in Hk. lia.
  - apply iter_name_inj in Hn as [-> ->]. rewrite Nat.eqb_refl in Hk. lia.
Qed.

(* Data set names determine label and block. *)
Lemma append_length_eq a b c d :
  String.length a = String.length c -> append a b = append c d -> a = c /\ b = d.
Proof.
  revert c; induction a as [|x a IH]; intros [|y c]; cbn; intros Hl H; try discriminate; auto.
  inversion H. destruct (IH c) as [-> ->]; auto.
Qed.

Fixpoint rev_string (s : string) : string :=
  match s with EmptyString => EmptyString | String c s => append (rev_string s) (String c EmptyString) end.

Lemma rev_append a b : rev_string (append a b) = append (rev_string b) (rev_string a).
Proof.
  induction a as [|c a IH]; cbn; [now rewrite append_nil_r|]. now rewrite IH, append_assoc.
Qed.

Lemma rev_string_invol s : rev_string (rev_string s) = s.
Proof.
  induction s as [|c s IH]; cbn; [easy|]. rewrite rev_append. cbn. now rewrite IH.
Qed.

Lemma all_digits_rev s : all_digits (rev_string s) = all_digits s.
Proof.
  induction s as [|c s IH]; cbn; [easy|]. rewrite all_digits_app, IH. cbn.
  now rewrite andb_true_r, andb_comm.
Qed.

Lemma dsetbase_name_inj l b m c : dsetbase_name l b = dsetbase_name m c -> l = m /\ b = c.
Proof.
  unfold dsetbase_name. intros H. apply (f_equal rev_string) in H.
  rewrite !rev_append in H. cbn [rev_string append] in H.
  rewrite !append_assoc in H. cbn [append] in H.
  change (append (rev_string (dec b)) (String "B"%char (String "_"%char (rev_string l))) =
          append (rev_string (dec c)) (String "B"%char (String "_"%char (rev_string m)))) in H.
  apply digits_sep in H; try reflexivity;
    try (rewrite all_digits_rev; apply all_digits_dec).
  destruct H as (H1 & _ & H2). inversion H2 as [H3].
  apply (f_equal rev_string) in H1, H3. rewrite !rev_string_invol in H1, H3.
  apply dec_inj in H1. auto.
Qed.

(* ---- access sets ---- *)
Lemma in_set_of x l : In x (set_of l) <-> In x l.
Proof. apply nodup_In. Qed.

Lemma inset_spec x l : inset x l = true <-> In x l.
Proof. unfold inset. destruct (in_dec string_dec x l); split; auto; discriminate. Qed.

Lemma in_bases d e : In d (bases e) <-> exists o, In (d, o) (dsets e).
Proof.
  unfold bases. rewrite in_map_iff. split.
  - intros ((b & o) & <- & H). eauto.
  - intros (o & H). exists (d, o). auto.
Qed.

Lemma lhs_spec k d : In d (lhs_datasetbases k) <-> writes k d.
Proof.
  unfold lhs_datasetbases, writes, writes_at. rewrite in_set_of, in_flat_map. split.
  - intros (q & Hq & H). destruct q as [l r|bs]; cbn in H.
    + apply in_bases in H as (o & Ho). exists o, (KEq l r), l, r. cbn; auto.
    + apply in_flat_map in H as (b & Hb & H). apply in_flat_map in H as ((l & r) & He & H).
      apply in_bases in H as (o & Ho). exists o, (KGroup bs), l, r. repeat split; auto.
      cbn. apply in_flat_map. eauto.
  - intros (o & q & l & r & Hq & Ha & Hd). exists q. split; auto.
    destruct q as [l' r'|bs]; cbn in *.
    + destruct Ha as [Ha|[]]. inversion Ha; subst. apply in_bases; eauto.
    + apply in_flat_map in Ha as (b & Hb & Ha). apply in_flat_map. exists b; split; auto.
      apply in_flat_map. exists (l, r); split; auto. apply in_bases; eauto.
Qed.

Lemma rhs_spec k d : In d (rhs_datasetbases k) <-> reads k d.
Proof.
  unfold rhs_datasetbases, reads, reads_at. rewrite in_set_of, in_flat_map. split.
  - intros (q & Hq & H). destruct q as [l r|bs]; cbn in H.
    + apply in_bases in H as (o & Ho). exists o, (KEq l r). split; auto. left. exists l, r. cbn; auto.
    + apply in_flat_map in H as (b & Hb & H). apply in_app_or in H as [H|H].
      * apply in_flat_map in H as ((l & r) & He & H). apply in_bases in H as (o & Ho).
        exists o, (KGroup bs). split; auto. left. exists l, r. split; auto.
        cbn. apply in_flat_map. eauto.
      * destruct (snd b) as [c|] eqn:Ec; [|destruct H]. cbn in H.
        apply in_bases in H as (o & Ho). exists o, (KGroup bs). split; auto. right.
        exists c. split; auto. cbn. apply in_flat_map. exists b. split; auto. rewrite Ec. now left.
  - intros (o & q & Hq & [(l & r & Ha & Hd)|(c & Hc & Hd)]); exists q; split; auto;
      destruct q as [l' r'|bs]; cbn in *.
    + destruct Ha as [Ha|[]]. inversion Ha; subst. apply in_bases; eauto.
    + apply in_flat_map in Ha as (b & Hb & Ha). apply in_flat_map. exists b; split; auto.
      apply in_or_app; left. apply in_flat_map. exists (l, r); split; auto. apply in_bases; eauto.
    + destruct Hc.
    + apply in_flat_map in Hc as (b & Hb & Hc). apply in_flat_map. exists b; split; auto.
      apply in_or_app; right. destruct (snd b) as [c'|]; [|destruct Hc].
      destruct Hc as [ -> |[]]. cbn. apply in_bases; eauto.
Qed.

Lemma kernel_dsets_spec k d o : In (d, o) (kernel_dsets k) <-> accesses k d o.
Proof.
  unfold kernel_dsets, accesses, writes_at, reads_at. rewrite in_flat_map. split.
  - intros (q & Hq & H). destruct q as [l r|bs]; cbn in H.
    + apply in_app_or in H as [H|H]; [left; exists (KEq l r), l, r; cbn; auto|].
      right. exists (KEq l r). split; auto. left. exists l, r. cbn; auto.
    + apply in_flat_map in H as (b & Hb & H). apply in_app_or in H as [H|H].
      * apply in_flat_map in H as ((l & r) & He & H). cbn in H.
        assert (Ha : In (l, r) (assignments (KGroup bs))) by (cbn; apply in_flat_map; eauto).
        apply in_app_or in H as [H|H]; [left; exists (KGroup bs), l, r; auto|].
        right. exists (KGroup bs). split; auto. left. eauto.
      * destruct (snd b) as [c|] eqn:Ec; [|destruct H]. cbn in H.
        right. exists (KGroup bs). split; auto. right. exists c. split; auto.
        cbn. apply in_flat_map. exists b. split; auto. rewrite Ec. now left.
  - intros [(q & l & r & Hq & Ha & Hd)|(q & Hq & [(l & r & Ha & Hd)|(c & Hc & Hd)])];
      exists q; split; auto; destruct q as [l' r'|bs]; cbn in *.
    + destruct Ha as [Ha|[]]. inversion Ha; subst. apply in_or_app; now left.
    + apply in_flat_map in Ha as (b & Hb & Ha). apply in_flat_map. exists b; split; auto.
      apply in_or_app; left. apply in_flat_map. exists (l, r); split; auto. apply in_or_app; now left.
    + destruct Ha as [Ha|[]]. inversion Ha; subst. apply in_or_app; now right.
    + apply in_flat_map in Ha as (b & Hb & Ha). apply in_flat_map. exists b; split; auto.
      apply in_or_app; left. apply in_flat_map. exists (l, r); split; auto. apply in_or_app; now right.
    + destruct Hc.
    + apply in_flat_map in Hc as (b & Hb & Hc). apply in_flat_map. exists b; split; auto.
      apply in_or_app; right. destruct (snd b) as [c'|]; [|destruct Hc]. destruct Hc as [ -> |[]]. auto.
Qed.

Lemma inouts_spec k d : In d (k_inouts k) <-> reads k d /\ writes k d.
Proof. unfold k_inouts. now rewrite filter_In, inset_spec, lhs_spec, rhs_spec. Qed.

Lemma ins_spec k d : In d (k_ins k) <-> reads k d /\ ~ writes k d.
Proof.
  unfold k_ins. rewrite filter_In, negb_true_iff, <- not_true_iff_false, inset_spec, inouts_spec, rhs_spec.
  tauto.
Qed.

Lemma outs_spec k d : In d (k_outs k) <-> writes k d /\ ~ reads k d.
Proof.
  unfold k_outs. rewrite filter_In, negb_true_iff, <- not_true_iff_false, inset_spec, inouts_spec, lhs_spec.
  tauto.
Qed.

(* ---- call and signature ---- *)
Lemma Forall2_map_same {A B C} (R : B -> C -> Prop) (f : A -> B) (g : A -> C) l :
  (forall x, R (f x) (g x)) -> Forall2 R (map f l) (map g l).
Proof. intros H; induction l; cbn; constructor; auto. Qed.

Lemma call_header_agree ord stn k args :
  ord [] = [] ->
  IndexedConstants k = [] \/ fst (global_variables k) = [] ->
  call_args ord stn k = Ok args ->
  Forall2 same_object args (header_args ord k).
Proof.
  intros Ho Hor H. unfold call_args in H. destruct k as [|q k]; [discriminate|].
  set (kk := q :: k) in *. unfold header_args.
  destruct (global_variables kk) as [gi go] eqn:Eg. inversion H; subst args. clear H.
  assert (go = []) as -> by (unfold global_variables in Eg; congruence).
  repeat (apply Forall2_app; [apply Forall2_map_same; cbn; auto|]).
  rewrite Ho. cbn [map app].
  destruct Hor as [Hc|Hg].
  - rewrite Hc, Ho. cbn [map app].
    apply Forall2_app; [apply Forall2_map_same; cbn; auto|].
    destruct (grid_indices_used kk); repeat constructor.
  - cbn in Hg. subst gi. rewrite Ho. cbn [map app].
    apply Forall2_app; [apply Forall2_map_same; cbn; auto|].
    destruct (grid_indices_used kk); repeat constructor.
Qed.

Lemma call_header_lengths ord stn k args :
  call_args ord stn k = Ok args -> List.length args = List.length (header_args ord k).
Proof.
  intros H. unfold call_args in H. destruct k as [|q k]; [discriminate|].
  set (kk := q :: k) in *. unfold header_args.
  destruct (global_variables kk) as [gi go]. inversion H; subst args.
  repeat rewrite app_length. rewrite !map_length. destruct (grid_indices_used kk); cbn; lia.
Qed.

Lemma call_modes ord stn k args d s m :
  (forall l, Permutation (ord l) l) ->
  call_args ord stn k = Ok args -> In (ADat d s m) args ->
  match m with
  | OPS_READ => reads k d /\ ~ writes k d
  | OPS_WRITE => writes k d /\ ~ reads k d
  | OPS_RW => reads k d /\ writes k d
  end.
Proof.
  intros Hp H Hin. unfold call_args in H. destruct k as [|q k]; [discriminate|].
  set (kk := q :: k) in *. destruct (global_variables kk) as [gi go]. inversion H; subst args. clear H.
  assert (Hord : forall x l, In x (ord l) -> In x l)
    by (intros x l; apply Permutation_in, Hp).
  repeat (apply in_app_or in Hin as [Hin|Hin]);
    try (apply in_map_iff in Hin as (x & Hx & Hi); try discriminate; inversion Hx; subst;
         apply Hord in Hi).
  - now apply ins_spec.
  - now apply outs_spec.
  - now apply inouts_spec in Hi.
  - destruct (grid_indices_used kk); [|destruct Hin]. destruct Hin as [Hin|[]]; discriminate.
Qed.

Lemma call_complete ord stn k args d :
  (forall l, Permutation (ord l) l) ->
  call_args ord stn k = Ok args -> reads k d \/ writes k d ->
  exists m, In (ADat d (stn d) m) args.
Proof.
  intros Hp H Hd. unfold call_args in H. destruct k as [|q k]; [discriminate|].
  set (kk := q :: k) in *. destruct (global_variables kk) as [gi go]. inversion H; subst args. clear H.
  assert (Hord : forall x l, In x l -> In x (ord l))
    by (intros x l; apply Permutation_in, Permutation_sym, Hp).
  destruct (in_dec string_dec d (k_ins kk)) as [Hi|Hi].
  { exists OPS_READ. apply in_or_app; left. apply in_map_iff. eauto. }
  destruct (in_dec string_dec d (k_outs kk)) as [Ho|Ho].
  { exists OPS_WRITE. apply in_or_app; right. apply in_or_app; left. apply in_map_iff. eauto. }
  exists OPS_RW. apply in_or_app; right. apply in_or_app; right. apply in_or_app; left.
  apply in_map_iff. exists d; split; auto. apply Hord.
  destruct (in_dec string_dec d (k_inouts kk)) as [Hio|Hio]; auto.
  exfalso. rewrite ins_spec in Hi. rewrite outs_spec in Ho. rewrite inouts_spec in Hio.
  assert (reads kk d \/ ~ reads kk d) as [?|?].
  { rewrite <- rhs_spec. destruct (in_dec string_dec d (rhs_datasetbases kk)); auto. }
  - assert (~ writes kk d) by tauto. tauto.
  - assert (writes kk d) by tauto. tauto.
Qed.

(* ---- argument numbers ---- *)
Lemma acc_from_None n l d : ~ In d l -> acc_number_from n l d = None.
Proof.
  revert n; induction l as [|x l IH]; intros n H; cbn in *; [easy|].
  rewrite IH by tauto. destruct (string_dec x d); tauto.
Qed.

Lemma acc_from_Some n l d m :
  acc_number_from n l d = Some m -> n <= m /\ nth_error l (m - n) = Some d.
Proof.
  revert n; induction l as [|x l IH]; intros n H; cbn in *; [discriminate|].
  destruct (acc_number_from (S n) l d) as [m'|] eqn:E.
  - inversion H; subst m'. apply IH in E as [H1 H2]. split; [lia|].
    replace (m - n) with (S (m - S n)) by lia. exact H2.
  - destruct (string_dec x d); [|discriminate]. inversion H; subst.
    rewrite Nat.sub_diag. auto.
Qed.

Lemma acc_from_In n l d : In d l -> exists m, acc_number_from n l d = Some m.
Proof.
  revert n; induction l as [|x l IH]; intros n H; cbn in *; [easy|].
  destruct H as [ -> |H].
  - destruct (acc_number_from (S n) l d); eauto. destruct (string_dec d d); eauto. tauto.
  - destruct (IH (S n) H) as [m ->]. eauto.
Qed.

Definition formal_name (f : formal) : option string :=
  match f with FDat n _ => Some n | FGbl n _ => Some n | _ => None end.

Lemma header_prefix ord k i d :
  nth_error (all_dataset_inps ord k) i = Some d ->
  exists f, nth_error (header_args ord k) i = Some f /\ formal_name f = Some d.
Proof.
  unfold all_dataset_inps, header_args. destruct (global_variables k) as [gi go].
  intros H.
  set (tail := map (fun c => FConst (ix_base c)) (ord (IndexedConstants k)) ++
               (if grid_indices_used k then [FIdx] else [])).
  set (hd := map (fun d => FDat d true) (ord (k_ins k)) ++ map (fun d => FDat d false) (ord (k_outs k))
    ++ map (fun d => FDat d false) (ord (k_inouts k)) ++ map (fun g => FGbl g true) (ord gi)
    ++ map (fun g => FGbl g false) (ord go)).
  assert (E : map formal_name hd = map Some (ord (k_ins k) ++ ord (k_outs k) ++ ord (k_inouts k) ++ ord gi ++ ord go)).
  { unfold hd. rewrite !map_app, !map_map. reflexivity. }
  assert (Hn : nth_error (map formal_name hd) i = Some (Some d))
    by (rewrite E; now apply map_nth_error).
  rewrite nth_error_map in Hn. destruct (nth_error hd i) as [f|] eqn:Ef; [|discriminate].
  exists f. split; [|now inversion Hn].
  replace (map _ _ ++ _) with (hd ++ tail) by (unfold hd, tail; now rewrite <- !app_assoc).
  rewrite nth_error_app1; auto. apply nth_error_Some. congruence.
Qed.

Lemma ops_acc_correct ord k d :
  (forall l, Permutation (ord l) l) ->
  reads k d \/ writes k d ->
  exists n f, ops_acc ord k d = Some n /\
              nth_error (header_args ord k) n = Some f /\ formal_name f = Some d.
Proof.
  intros Hp Hd. unfold ops_acc.
  destruct (acc_from_In 0 (all_dataset_inps ord k) d) as [n Hn].
  - unfold all_dataset_inps. destruct (global_variables k) as [gi go].
    assert (Hord : forall x l, In x l -> In x (ord l))
      by (intros x l; apply Permutation_in, Permutation_sym, Hp).
    destruct (in_dec string_dec d (k_ins k)) as [Hi|Hi]; [apply in_or_app; left; auto|].
    destruct (in_dec string_dec d (k_outs k)) as [Ho|Ho].
    { apply in_or_app; right; apply in_or_app; left; auto. }
    apply in_or_app; right; apply in_or_app; right; apply in_or_app; left. apply Hord.
    apply inouts_spec. rewrite ins_spec in Hi. rewrite outs_spec in Ho.
    assert (reads k d \/ ~ reads k d) as [?|?].
    { rewrite <- rhs_spec. destruct (in_dec string_dec d (rhs_datasetbases k)); auto. }
    + assert (writes k d \/ ~ writes k d) as [?|?].
      { rewrite <- lhs_spec. destruct (in_dec string_dec d (lhs_datasetbases k)); auto. }
      all: tauto.
    + assert (writes k d) by tauto. tauto.
  - apply acc_from_Some in Hn as Hn'. destruct Hn' as [_ H]. rewrite Nat.sub_0_r in H.
    apply header_prefix in H as (f & Hf & Hf'). eauto.
Qed.

(* ---- registration ---- *)
Lemma subset_b_spec a b : subset_b a b = true <-> (forall x, In x a -> In x b).
Proof.
  unfold subset_b. rewrite forallb_forall. split; intros H x Hx; specialize (H x Hx);
    destruct (in_dec offset_dec x b); auto; discriminate.
Qed.

Lemma same_set_spec a b : same_set a b = true <-> (forall x, In x a <-> In x b).
Proof.
  unfold same_set. rewrite andb_true_iff, !subset_b_spec. split.
  - intros [H1 H2] x; split; auto.
  - intros H; split; intros x; apply H.
Qed.

Definition stencils_ok (num : nat) (l : list (list offset * string)) : Prop :=
  (forall i p, nth_error l i = Some p -> snd p = stencil_name num i) /\
  (forall i j p q, nth_error l i = Some p -> nth_error l j = Some q ->
                   same_set (fst p) (fst q) = true -> i = j).

Lemma stencil_name_inj a i j : stencil_name a i = stencil_name a j -> i = j.
Proof.
  unfold stencil_name; intros H. apply append_cancel_l in H. apply append_cancel_l in H.
  apply append_cancel_l in H. now apply decpad_inj in H.
Qed.

Lemma stencils_names_nodup num l : stencils_ok num l -> NoDup (map snd l).
Proof.
  intros [H _]. apply NoDup_nth_error. intros i j Hi E.
  rewrite !nth_error_map in E. rewrite map_length in Hi.
  destruct (nth_error l i) as [p|] eqn:Ei; [|apply nth_error_None in Ei; lia].
  destruct (nth_error l j) as [q|] eqn:Ej; [|discriminate].
  cbn in E. inversion E as [E']. rewrite (H _ _ Ei), (H _ _ Ej) in E'. now apply stencil_name_inj in E'.
Qed.

Lemma add_stencil_ok b st b' n :
  stencils_ok (b_num b) (b_stencils b) -> add_stencil b st = (b', n) ->
  b_num b' = b_num b /\ b_dsets b' = b_dsets b /\
  stencils_ok (b_num b') (b_stencils b') /\
  (exists ext, b_stencils b' = b_stencils b ++ ext) /\
  exists st', In (st', n) (b_stencils b') /\ same_set st' st = true.
Proof.
  intros Hok H. unfold add_stencil, find_stencil in H.
  destruct (find _ (b_stencils b)) as [p|] eqn:Ef.
  - inversion H; subst. apply find_some in Ef as [Hin Hs]. repeat split; auto; try apply Hok.
    + exists []. now rewrite app_nil_r.
    + exists (fst p). split; auto. now rewrite <- surjective_pairing.
  - inversion H; subst; clear H. cbn. repeat split; auto.
    + intros i p Hi. destruct (Nat.lt_ge_cases i (List.length (b_stencils b))) as [Hlt|Hge].
      * rewrite nth_error_app1 in Hi by auto. now apply Hok.
      * rewrite nth_error_app2 in Hi by auto.
        destruct (i - List.length (b_stencils b)) as [|m] eqn:E; cbn in Hi.
        -- inversion Hi; subst. cbn [snd]. replace i with (List.length (b_stencils b)) by lia. reflexivity.
        -- destruct m; discriminate.
    + intros i j p q Hi Hj Hs.
      assert (Hnone : forall m r, nth_error (b_stencils b) m = Some r -> same_set (fst r) st = false).
      { intros m r Hm. apply (find_none _ _ Ef). eapply nth_error_In; eauto. }
      assert (Hsym : forall x y, same_set x y = true -> same_set y x = true).
      { intros x y Hxy. apply same_set_spec. intros z. symmetry. now apply same_set_spec. }
      destruct (Nat.lt_ge_cases i (List.length (b_stencils b))) as [Hli|Hgi];
      destruct (Nat.lt_ge_cases j (List.length (b_stencils b))) as [Hlj|Hgj].
      * rewrite nth_error_app1 in Hi, Hj by auto. eapply Hok; eauto.
      * rewrite nth_error_app1 in Hi by auto. rewrite nth_error_app2 in Hj by auto.
        destruct (j - List.length (b_stencils b)) as [|m] eqn:E; cbn in Hj; [|destruct m; discriminate].
        inversion Hj; subst. cbn in Hs. rewrite (Hnone _ _ Hi) in Hs. discriminate.
      * rewrite nth_error_app2 in Hi by auto. rewrite nth_error_app1 in Hj by auto.
        destruct (i - List.length (b_stencils b)) as [|m] eqn:E; cbn in Hi; [|destruct m; discriminate].
        inversion Hi; subst. cbn in Hs. apply Hsym in Hs. rewrite (Hnone _ _ Hj) in Hs. discriminate.
      * rewrite nth_error_app2 in Hi, Hj by auto.
        destruct (i - List.length (b_stencils b)) as [|m] eqn:E; cbn in Hi; [|destruct m; discriminate].
        destruct (j - List.length (b_stencils b)) as [|m] eqn:E'; cbn in Hj; [|destruct m; discriminate].
        lia.
    + exists [(st, stencil_name (b_num b) (List.length (b_stencils b)))]. reflexivity.
    + exists st. split; [apply in_or_app; right; now left|]. apply same_set_spec. tauto.
Qed.

Lemma add_stencils_ok l : forall b b' ns,
  stencils_ok (b_num b) (b_stencils b) -> add_stencils b l = (b', ns) ->
  b_num b' = b_num b /\ b_dsets b' = b_dsets b /\
  stencils_ok (b_num b') (b_stencils b') /\
  (exists ext, b_stencils b' = b_stencils b ++ ext) /\
  map fst ns = map fst l /\
  (forall d n, In (d, n) ns -> exists st st', In (d, st) l /\ In (st', n) (b_stencils b') /\
                                              same_set st' st = true).
Proof.
  induction l as [|(d & st) l IH]; intros b b' ns Hok H; cbn in H.
  - inversion H; subst. repeat split; auto; try apply Hok.
    + exists []. now rewrite app_nil_r.
    + intros d n [].
  - destruct (add_stencil b st) as [b1 n] eqn:E1. destruct (add_stencils b1 l) as [b2 ns'] eqn:E2.
    inversion H; subst. destruct (add_stencil_ok _ _ _ _ Hok E1) as (H1 & H2 & H3 & (e1 & H4) & st' & H5 & H6).
    destruct (IH _ _ _ H3 E2) as (K1 & K2 & K3 & (e2 & K4) & K5 & K6).
    repeat split; try congruence; try apply K3.
    + exists (e1 ++ e2). rewrite K4, H4. now rewrite app_assoc.
    + cbn. now rewrite K5.
    + intros d' n' [Heq|Hin].
      * inversion Heq; subst. exists st, st'. repeat split; auto; [now left|].
        rewrite K4. apply in_or_app; now left.
      * destruct (K6 _ _ Hin) as (s1 & s2 & ? & ? & ?). exists s1, s2. cbn; auto.
Qed.

Lemma add_dset_fold ds : forall b,
  b_num (fold_left add_dset ds b) = b_num b /\
  b_stencils (fold_left add_dset ds b) = b_stencils b /\
  (NoDup (b_dsets b) -> NoDup (b_dsets (fold_left add_dset ds b))) /\
  (forall x, In x (b_dsets (fold_left add_dset ds b)) <-> In x (b_dsets b) \/ In x ds).
Proof.
  induction ds as [|d ds IH]; intros b; cbn [fold_left].
  - repeat split; auto; cbn; tauto.
  - destruct (IH (add_dset b d)) as (H1 & H2 & H3 & H4).
    assert (Hnum : b_num (add_dset b d) = b_num b) by (unfold add_dset; destruct (inset d (b_dsets b)); auto).
    assert (Hst : b_stencils (add_dset b d) = b_stencils b) by (unfold add_dset; destruct (inset d (b_dsets b)); auto).
    assert (Hin : forall x, In x (b_dsets (add_dset b d)) <-> In x (b_dsets b) \/ x = d).
    { intros x. unfold add_dset. destruct (inset d (b_dsets b)) eqn:E; cbn.
      - apply inset_spec in E. split; [tauto|]. intros [?| -> ]; auto.
      - rewrite in_app_iff. cbn. intuition. }
    repeat split; try congruence.
    + intros Hnd. apply H3. unfold add_dset. destruct (inset d (b_dsets b)) eqn:E; auto. cbn.
      apply nodup_snoc; auto. intros Hx. apply inset_spec in Hx. congruence.
    + intros Hx. apply H4 in Hx as [Hx|Hx]; [|right; now right].
      apply Hin in Hx as [Hx| ->]; [now left|right; now left].
    + intros [Hx|[ -> |Hx]]; apply H4; [left; apply Hin; now left|left; apply Hin; now right|now right].
Qed.

Lemma register_ok h : forall b b' recs,
  wf_history h -> stencils_ok (b_num b) (b_stencils b) -> NoDup (b_dsets b) ->
  register_all b h = (b', recs) ->
  b_num b' = b_num b /\ stencils_ok (b_num b') (b_stencils b') /\ NoDup (b_dsets b') /\
  (exists ext, b_stencils b' = b_stencils b ++ ext) /\
  (forall x, In x (b_dsets b') <->
     In x (b_dsets b) \/ exists k ns, In (k, ns) recs /\ (reads k x \/ writes k x)) /\
  map fst recs = map r_eqs h /\
  (forall k ns, In (k, ns) recs ->
     NoDup (map fst ns) /\
     (forall d, In d (map fst ns) <-> exists o, accesses k d o) /\
     (forall d n, In (d, n) ns -> exists st, In (st, n) (b_stencils b') /\
                                             forall o, In o st <-> accesses k d o)).
Proof.
  induction h as [|r h IH]; intros b b' recs Hwf Hok Hnd H; cbn in H.
  - inversion H; subst. refine (conj eq_refl (conj Hok (conj Hnd (conj _ (conj _ (conj eq_refl _)))))).
    + exists []. now rewrite app_nil_r.
    + intros x. split; [auto|]. intros [Hx|(k & ns & [] & _)]; auto.
    + intros k ns [].
  - destruct (update_block_datasets b (r_ds r) (r_sts r)) as [b1 names] eqn:E1.
    destruct (register_all b1 h) as [b2 rest] eqn:E2. inversion H; subst; clear H.
    unfold update_block_datasets in E1.
    destruct (add_dset_fold (r_ds r) b) as (F1 & F2 & F3 & F4).
    assert (Hok1 : stencils_ok (b_num (fold_left add_dset (r_ds r) b)) (b_stencils (fold_left add_dset (r_ds r) b)))
      by (rewrite F1, F2; exact Hok).
    destruct (add_stencils_ok _ _ _ _ Hok1 E1) as (G1 & G2 & G3 & (e1 & G4) & G5 & G6).
    assert (Hr : enumerates (r_eqs r) (r_ds r) (r_sts r)) by (apply Hwf; now left).
    destruct Hr as ((R1 & R2) & R3 & R4 & R5).
    destruct (IH b1 b' rest) as (K1 & K2 & K3 & (e2 & K4) & K5 & K6 & K7); auto.
    { intros r' Hr'. apply Hwf; now right. }
    { rewrite G2. auto. }
    refine (conj _ (conj K2 (conj K3 (conj _ (conj _ (conj _ _)))))).
    + congruence.
    + exists (e1 ++ e2). rewrite K4, G4, F2. now rewrite app_assoc.
    + intros x. rewrite K5, G2, F4. split.
      * intros [[Hx|Hx]|(k & ns & Hk & Hx)]; [now left| |].
        -- right. exists (r_eqs r), names. split; [now left|]. apply R2 in Hx.
           rewrite lhs_spec, rhs_spec in Hx. tauto.
        -- right. exists k, ns. split; auto. now right.
      * intros [Hx|(k & ns & [Hk|Hk] & Hx)]; [now left;left| |].
        -- inversion Hk; subst. left. right. apply R2. rewrite lhs_spec, rhs_spec. tauto.
        -- right. eauto.
    + cbn. now rewrite K6.
    + intros k ns [Hk|Hk]; [|now apply K7]. inversion Hk; subst. clear Hk. split; [|split].
      * now rewrite G5.
      * intros d. rewrite G5, R4. split; intros (o & Ho); exists o; now apply kernel_dsets_spec.
      * intros d n Hd. destruct (G6 _ _ Hd) as (st & st' & Hst & Hst' & Hsame).
        exists st'. split.
        -- rewrite K4. apply in_or_app; now left.
        -- intros o. rewrite <- kernel_dsets_spec, <- (R5 _ _ Hst o). now apply same_set_spec.
Qed.

Lemma stencils_ok_init n : stencils_ok n [].
Proof. split; intros i; destruct i; discriminate. Qed.

Lemma stencils_distinct num l i j p q :
  stencils_ok num l -> nth_error l i = Some p -> nth_error l j = Some q -> i <> j ->
  snd p <> snd q /\ ~ (forall o, In o (fst p) <-> In o (fst q)).
Proof.
  intros [H1 H2] Hi Hj Hne. split.
  - rewrite (H1 _ _ Hi), (H1 _ _ Hj). intros E. apply stencil_name_inj in E. auto.
  - intros E. apply Hne. apply (H2 _ _ _ _ Hi Hj). now apply same_set_spec.
Qed.

Lemma register_from_empty num h b recs :
  wf_history h -> register_all (blk_init num) h = (b, recs) ->
  map fst recs = map r_eqs h /\
  (* stencils *)
  (forall k ns, In (k, ns) recs -> forall d o, accesses k d o ->
     exists n st, In (d, n) ns /\ (forall n', In (d, n') ns -> n' = n) /\
                  In (st, n) (b_stencils b) /\ forall o', In o' st <-> accesses k d o') /\
  (forall i j p q, nth_error (b_stencils b) i = Some p -> nth_error (b_stencils b) j = Some q ->
     i <> j -> snd p <> snd q /\ ~ (forall o, In o (fst p) <-> In o (fst q))).
Proof.
  intros Hwf H.
  destruct (register_ok h (blk_init num) b recs Hwf) as (K1 & K2 & K3 & K4 & K5 & K6 & K7); auto.
  { apply stencils_ok_init. } { constructor. }
  split; [exact K6|split].
  - intros k ns Hk d o Ho. destruct (K7 _ _ Hk) as (L1 & L2 & L3).
    assert (Hd : In d (map fst ns)) by (apply L2; eauto).
    apply in_map_iff in Hd as ((d' & n) & Hd' & Hin). cbn in Hd'. subst d'.
    destruct (L3 _ _ Hin) as (st & Hst & Hst').
    exists n, st. repeat split; auto; try apply Hst'.
    intros n' Hn'. revert L1 Hin Hn'. clear. induction ns as [|(a & m) ns IH]; cbn; [easy|].
    intros Hnd. inversion Hnd as [|? ? Ha Hl]; subst. intros [E|Hi] [E'|Hi'].
    + congruence.
    + inversion E; subst. exfalso. apply Ha. apply in_map_iff. exists (d, n'). auto.
    + inversion E'; subst. exfalso. apply Ha. apply in_map_iff. exists (d, n). auto.
    + auto.
  - intros i j p q. eapply stencils_distinct; eauto.
Qed.

Lemma register_dsets_from_empty num h b recs :
  wf_history h -> register_all (blk_init num) h = (b, recs) ->
  NoDup (b_dsets b) /\
  forall x, In x (b_dsets b) <-> exists r, In r h /\ (reads (r_eqs r) x \/ writes (r_eqs r) x).
Proof.
  intros Hwf H.
  destruct (register_ok h (blk_init num) b recs Hwf) as (K1 & K2 & K3 & K4 & K5 & K6 & K7); auto.
  { apply stencils_ok_init. } { constructor. }
  split; auto. intros x. rewrite K5. cbn. split.
  - intros [[]|(k & ns & Hk & Hx)]. assert (Hm : In k (map fst recs)) by (apply in_map_iff; exists (k, ns); auto).
    rewrite K6 in Hm. apply in_map_iff in Hm as (r & <- & Hr). eauto.
  - intros (r & Hr & Hx). right. assert (Hm : In (r_eqs r) (map fst recs)) by (rewrite K6; now apply in_map).
    apply in_map_iff in Hm as ((k & ns) & Hk & Hin). cbn in Hk. subst. eauto.
Qed.

(* Every kernel has an enumeration. *)
Definition enum_of (k : kernel_eqs) : registration :=
  {| r_eqs := k;
     r_ds := nodup string_dec (lhs_datasetbases k ++ rhs_datasetbases k);
     r_sts := map (fun b => (b, stencil_of k b)) (nodup string_dec (map fst (kernel_dsets k))) |}.

Lemma enum_of_enumerates k : enumerates k (r_ds (enum_of k)) (r_sts (enum_of k)).
Proof.
  unfold enumerates, enum_of; cbn [r_eqs r_ds r_sts].
  assert (E : map fst (map (fun b => (b, stencil_of k b)) (nodup string_dec (map fst (kernel_dsets k))))
              = nodup string_dec (map fst (kernel_dsets k))).
  { rewrite map_map. cbn [fst]. apply map_id. }
  split; [split|split; [|split]].
  - apply NoDup_nodup.
  - intros x. rewrite nodup_In, in_app_iff. tauto.
  - rewrite E. apply NoDup_nodup.
  - intros b. rewrite E, nodup_In, in_map_iff. split.
    + intros ((x & o) & <- & H). eauto.
    + intros (o & H). exists (b, o). auto.
  - intros b st H o. apply in_map_iff in H as (x & Hx & _). inversion Hx; subst. unfold stencil_of.
    rewrite nodup_In, in_map_iff. split.
    + intros ((c & o') & <- & Hc). apply filter_In in Hc as [Hc Ec].
      cbn [fst snd] in *. destruct (string_dec c b); [subst; auto|discriminate].
    + intros Ho. exists (b, o). split; auto. apply filter_In. split; auto.
      cbn [fst]. destruct (string_dec b b); tauto.
Qed.

(* ---- ranges ---- *)
Lemma minl_le l : forall x, (minl x l <= x)%Z /\ forall y, In y l -> (minl x l <= y)%Z.
Proof.
  induction l as [|a l IH]; intros x; cbn; [split; [lia|easy]|].
  destruct (IH (Z.min x a)) as [H1 H2]. split; [lia|]. intros y [<-|Hy]; [lia|auto].
Qed.
Lemma minl_in l : forall x, minl x l = x \/ In (minl x l) l.
Proof.
  induction l as [|a l IH]; intros x; cbn; [now left|].
  destruct (IH (Z.min x a)) as [H|H]; [|auto].
  rewrite H. destruct (Z.min_spec x a) as [[_ ->]|[_ ->]]; auto.
Qed.
Lemma maxl_ge l : forall x, (x <= maxl x l)%Z /\ forall y, In y l -> (y <= maxl x l)%Z.
Proof.
  induction l as [|a l IH]; intros x; cbn; [split; [lia|easy]|].
  destruct (IH (Z.max x a)) as [H1 H2]. split; [lia|]. intros y [<-|Hy]; [lia|auto].
Qed.
Lemma maxl_in l : forall x, maxl x l = x \/ In (maxl x l) l.
Proof.
  induction l as [|a l IH]; intros x; cbn; [now left|].
  destruct (IH (Z.max x a)) as [H|H]; [|auto].
  rewrite H. destruct (Z.max_spec x a) as [[_ ->]|[_ ->]]; auto.
Qed.

Lemma halo_min_spec hs :
  (forall h, In h hs -> (halo_min hs <= fst h)%Z) /\
  (hs = [] -> halo_min hs = 0%Z) /\ (hs <> [] -> exists h, In h hs /\ halo_min hs = fst h).
Proof.
  destruct hs as [|h0 hs]; cbn; [repeat split; try easy|].
  split; [|split; [easy|]].
  - intros h [<-|H]; [apply (proj1 (minl_le _ _))|apply (proj2 (minl_le _ _)); now apply in_map].
  - intros _. destruct (minl_in (map fst hs) (fst h0)) as [ -> |H]; [exists h0; auto|].
    apply in_map_iff in H as (h & <- & H). eauto.
Qed.
Lemma halo_max_spec hs :
  (forall h, In h hs -> (snd h <= halo_max hs)%Z) /\
  (hs = [] -> halo_max hs = 0%Z) /\ (hs <> [] -> exists h, In h hs /\ halo_max hs = snd h).
Proof.
  destruct hs as [|h0 hs]; cbn; [repeat split; try easy|].
  split; [|split; [easy|]].
  - intros h [<-|H]; [apply (proj1 (maxl_ge _ _))|apply (proj2 (maxl_ge _ _)); now apply in_map].
  - intros _. destruct (maxl_in (map snd hs) (snd h0)) as [ -> |H]; [exists h0; auto|].
    apply in_map_iff in H as (h & <- & H). eauto.
Qed.

Lemma nth_error_combine {A B} (l : list A) (m : list B) i a b :
  nth_error (combine l m) i = Some (a, b) <-> nth_error l i = Some a /\ nth_error m i = Some b.
Proof.
  revert m i; induction l as [|x l IH]; intros m i; cbn.
  - destruct i; cbn; split; try easy; intros [H _]; discriminate.
  - destruct m as [|y m]; cbn.
    + destruct i; cbn; split; try easy; intros [_ H]; discriminate.
    + destruct i; cbn; [split; [intros H; inversion H; auto|intros [H1 H2]; congruence]|apply IH].
Qed.

Lemma total_range_nth ranges hr d lo hi hl hh :
  nth_error ranges d = Some (lo, hi) -> nth_error hr d = Some (hl, hh) ->
  nth_error (total_range ranges hr) d = Some ((lo + halo_min hl)%Z, (hi + halo_max hh)%Z).
Proof.
  intros H1 H2. unfold total_range, get_min_max_halo_values. cbn [fst snd].
  rewrite nth_error_map.
  assert (E : nth_error (combine ranges (combine (map (fun p => halo_min (fst p)) hr) (map (fun p => halo_max (snd p)) hr))) d
              = Some ((lo, hi), (halo_min hl, halo_max hh))).
  { apply nth_error_combine. split; auto. apply nth_error_combine.
    rewrite !nth_error_map, H2. auto. }
  now rewrite E.
Qed.

Lemma in_set_add x h l : In x (set_add h l) <-> x = h \/ In x l.
Proof.
  unfold set_add. destruct (in_dec halo_dec h l) as [Hi|Hi].
  - split; [auto|]. intros [ -> |]; auto.
  - rewrite in_app_iff. cbn. intuition.
Qed.

Lemma in_set_add_fold x a b : In x (fold_right set_add a b) <-> In x a \/ In x b.
Proof.
  induction b as [|h b IH]; cbn; [tauto|]. rewrite in_set_add, IH. intuition.
Qed.

Lemma merge_nth a b d al ah bl bh :
  nth_error a d = Some (al, ah) -> nth_error b d = Some (bl, bh) ->
  exists ml mh, nth_error (merge_halo_range a b) d = Some (ml, mh) /\
    (forall h, In h ml <-> In h al \/ In h bl) /\ (forall h, In h mh <-> In h ah \/ In h bh).
Proof.
  intros Ha Hb. unfold merge_halo_range. rewrite nth_error_map.
  assert (E : nth_error (combine a b) d = Some ((al, ah), (bl, bh))) by (now apply nth_error_combine).
  rewrite E. cbn. eexists _, _. split; [reflexivity|]. split; intros h; apply in_set_add_fold.
Qed.

Lemma nth_error_seq n i : i < n -> nth_error (seq 0 n) i = Some i.
Proof.
  intros H. rewrite nth_error_nth' with (d := 0) by now rewrite seq_length.
  now rewrite seq_nth.
Qed.

Lemma set_halo_nth hr dir side h d hl hh :
  nth_error hr d = Some (hl, hh) ->
  nth_error (set_halo_range hr dir side h) d =
  Some (if (d =? dir)%nat then (if side then (hl, set_add h hh) else (set_add h hl, hh)) else (hl, hh)).
Proof.
  intros H. unfold set_halo_range. rewrite nth_error_map.
  assert (E : nth_error (combine (seq 0 (List.length hr)) hr) d = Some (d, (hl, hh))).
  { apply nth_error_combine. split; auto. apply nth_error_seq. apply nth_error_Some. congruence. }
  rewrite E. cbn. destruct (d =? dir)%nat; destruct side; auto.
Qed.


Lemma total_range_spec ranges hr d lo hi hl hh :
  nth_error ranges d = Some (lo, hi) -> nth_error hr d = Some (hl, hh) ->
  exists a b, nth_error (total_range ranges hr) d = Some (a, b) /\
    (forall h, In h hl -> (a <= lo + fst h)%Z) /\ (forall h, In h hh -> (hi + snd h <= b)%Z) /\
    (hl = [] -> a = lo) /\ (hh = [] -> b = hi) /\
    (hl <> [] -> exists h, In h hl /\ a = (lo + fst h)%Z) /\
    (hh <> [] -> exists h, In h hh /\ b = (hi + snd h)%Z).
Proof.
  intros H1 H2. eexists _, _. split; [exact (total_range_nth _ _ _ _ _ _ _ H1 H2)|].
  destruct (halo_min_spec hl) as (A1 & A2 & A3). destruct (halo_max_spec hh) as (B1 & B2 & B3).
  split; [|split; [|split; [|split; [|split]]]].
  - intros h Hh. specialize (A1 h Hh). lia.
  - intros h Hh. specialize (B1 h Hh). lia.
  - intros E. rewrite (A2 E). lia.
  - intros E. rewrite (B2 E). lia.
  - intros E. destruct (A3 E) as (h & Hh & ->). eauto.
  - intros E. destruct (B3 E) as (h & Hh & ->). eauto.
Qed.

Lemma set_halo_spec hr dir side h d hl hh :
  nth_error hr d = Some (hl, hh) ->
  exists hl' hh', nth_error (set_halo_range hr dir side h) d = Some (hl', hh') /\
    (forall x, In x hl' <-> In x hl \/ (d = dir /\ side = false /\ x = h)) /\
    (forall x, In x hh' <-> In x hh \/ (d = dir /\ side = true /\ x = h)).
Proof.
  intros H. rewrite (set_halo_nth _ dir side h _ _ _ H).
  destruct (Nat.eqb_spec d dir); [destruct side|]; eexists _, _; split; try reflexivity;
    split; intros x; rewrite ?in_set_add; intuition congruence.
Qed.

Lemma call_header_mismatch :
  exists k, forall ord stn args,
    (forall l, Permutation (ord l) l) ->
    call_args ord stn k = Ok args ->
    ~ Forall2 same_object args (header_args ord k).
Proof.
  exists [KEq (EDat "u_B0" [0%Z]) (EApp HMul [ESym KConstIx "rknew[stage]"; ESym KGlobal "g"])].
  intros ord stn args Hp H F.
  assert (E0 : ord [] = []) by apply (Permutation_nil (Permutation_sym (Hp []))).
  assert (E1 : forall x, ord [x] = [x]) by (intros x; apply Permutation_length_1_inv, Permutation_sym, Hp).
  cbn in H. rewrite !E0, !E1 in H. cbn in H. inversion H; subst args.
  cbn in F. rewrite !E0, !E1 in F. cbn in F.
  inversion F as [|? ? ? ? F1 F2]; subst. inversion F2 as [|? ? ? ? F3 F4]; subst. exact F3.
Qed.

Lemma header_duplicate :
  exists k, forall ord, (forall l, Permutation (ord l) l) ->
    header_args ord k = [FDat "u_B0" false; FConst "c"; FConst "c"].
Proof.
  exists [KEq (EDat "u_B0" [0%Z]) (EApp HMul [ESym KConstIx "c[0]"; ESym KConstIx "c[1]"])].
  intros ord Hp.
  assert (E0 : ord [] = []) by apply (Permutation_nil (Permutation_sym (Hp []))).
  assert (E1 : forall x, ord [x] = [x]) by (intros x; apply Permutation_length_1_inv, Permutation_sym, Hp).
  cbn. rewrite !E0, !E1. cbn.
  destruct (Permutation_length_2_inv (Permutation_sym (Hp ["c[0]"; "c[1]"]%string))) as [E|E];
    cbn in E; rewrite E; reflexivity.
Qed.

Lemma global_mode_wrong :
  exists k g, assigns_global k g /\
    forall ord stn args, (forall l, Permutation (ord l) l) ->
      call_args ord stn k = Ok args -> In (AGbl g OPS_READ) args.
Proof.
  exists [KEq (ESym KGlobal "g") (EDat "u_B0" [0%Z])], "g"%string. split.
  - exists (KEq (ESym KGlobal "g") (EDat "u_B0" [0%Z])), (ESym KGlobal "g"), (EDat "u_B0" [0%Z]).
    cbn. auto.
  - intros ord stn args Hp H.
    assert (E0 : ord [] = []) by apply (Permutation_nil (Permutation_sym (Hp []))).
    assert (E1 : forall x, ord [x] = [x]) by (intros x; apply Permutation_length_1_inv, Permutation_sym, Hp).
    cbn in H. rewrite !E0, !E1 in H. cbn in H. inversion H; subst. right. now left.
Qed.
