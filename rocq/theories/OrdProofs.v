(* Proofs about the orderings. *)
From Coq Require Import Permutation.
From Verif Require Import Base BaseProofs OrdModel OrdSpec.
Local Open Scope list_scope.

Lemma mem_in : forall k l, mem k l = true <-> In k l.
Proof. intros. unfold mem. destruct (in_dec Nat.eq_dec k l); split; auto; discriminate. Qed.
Lemma mem_out : forall k l, mem k l = false <-> ~ In k l.
Proof. intros. unfold mem. destruct (in_dec Nat.eq_dec k l); split; auto; try discriminate. contradiction. Qed.

Lemma in_remaining : forall d order k reqs,
  In (k, reqs) (remaining d order) <-> In (k, reqs) d /\ ~ In k order.
Proof.
  intros. unfold remaining. rewrite filter_In, negb_true_iff. cbn [fst]. rewrite mem_out. reflexivity.
Qed.

Lemma in_ready : forall z order k,
  In k (ready z order) <-> exists reqs, In (k, reqs) z /\ forall r, In r reqs -> In r order.
Proof.
  intros. unfold ready. rewrite in_map_iff. split.
  - intros ((k', reqs) & <- & H). apply filter_In in H. destruct H as [H1 H2]. cbn [fst snd] in *.
    exists reqs. split; auto. intros r Hr. rewrite forallb_forall in H2. apply mem_in. auto.
  - intros (reqs & H1 & H2). exists (k, reqs). split; auto. apply filter_In. split; auto.
    cbn [snd]. apply forallb_forall. intros r Hr. apply mem_in. auto.
Qed.

Lemma sort_loop_unfold : forall more d order,
  sort_loop more d order =
  match remaining d order with
  | [] => Ok order
  | zipped =>
      let order := order ++ ready zipped order in
      match more with
      | 0 => match remaining d order with [] => Err IndexErr | _ => Err ValueError end
      | S more => sort_loop more d order
      end
  end.
Proof. intros [|more] d order; reflexivity. Qed.

Lemma nodup_filter_fst : forall (f : key * list key -> bool) d,
  NoDup (map fst d) -> NoDup (map fst (filter f d)).
Proof.
  induction d as [|p d IH]; cbn; intros N; auto. inversion N; subst.
  destruct (f p); cbn; auto. constructor; auto.
  intros Hin. apply H1. apply in_map_iff in Hin. destruct Hin as (q & E & Hq).
  apply filter_In in Hq. rewrite <- E. apply in_map. tauto.
Qed.

Lemma nodup_app : forall A (a b : list A), NoDup a -> NoDup b -> (forall x, In x a -> ~ In x b) -> NoDup (a ++ b).
Proof.
  induction a as [|x a IH]; cbn; intros b Na Nb H; auto. inversion Na; subst. constructor.
  - rewrite in_app_iff. intros [?|?]; [auto | eapply H; eauto].
  - apply IH; auto.
Qed.

Lemma dict_unique : forall (d : dictionary) k r1 r2,
  NoDup (map fst d) -> In (k, r1) d -> In (k, r2) d -> r1 = r2.
Proof.
  induction d as [|p d IHd]; intros k r1 r2 ND H1 H2; [destruct H1|].
  cbn in ND. inversion ND as [|? ? Hx Hy]; subst.
  destruct H1 as [-> | H1]; destruct H2 as [E | H2].
  - injection E; auto.
  - exfalso. apply Hx. apply in_map_iff. exists (k, r2). auto.
  - subst p. exfalso. apply Hx. apply in_map_iff. exists (k, r1). auto.
  - eauto.
Qed.

(* ---- soundness of the result ---- *)
Lemma sort_loop_sound : forall more d order final,
  NoDup (map fst d) -> sort_loop more d order = Ok final ->
  exists new, final = order ++ new /\ evaluation_order order d new.
Proof.
  induction more as [|more IH]; intros d order final ND H; rewrite sort_loop_unfold in H;
    destruct (remaining d order) as [|z zs] eqn:E.
  1, 3: injection H as <-; exists []; rewrite app_nil_r; split; [reflexivity|];
    split; [constructor|]; split; [|intros [|] ? ? ? F; discriminate];
    intros k; split; [intros [] |]; intros [H1 H2]; apply in_map_iff in H1;
    destruct H1 as ((k', reqs) & Ek & H1); cbn in Ek; subst k';
    assert (F : In (k, reqs) (remaining d order)) by (apply in_remaining; auto);
    rewrite E in F; exact F.
  - cbn zeta in H. destruct (remaining d (order ++ ready (z :: zs) order)); discriminate.
  - cbn zeta in H. apply IH in H; auto. destruct H as (new & -> & N & P & Q).
    rewrite <- E in *. set (rd := ready (remaining d order) order) in *.
    assert (Hrd : forall k, In k rd <-> (exists reqs, In (k, reqs) d /\ (forall r, In r reqs -> In r order)) /\ ~ In k order).
    { intros k. unfold rd. rewrite in_ready. split.
      - intros (reqs & H1 & H2). apply in_remaining in H1. destruct H1. split; eauto.
      - intros ((reqs & H1 & H2) & H3). exists reqs. split; auto. apply in_remaining. auto. }
    exists (rd ++ new). rewrite app_assoc. split; [reflexivity|]. split; [|split].
    + apply nodup_app; auto.
      * unfold rd, ready. apply nodup_filter_fst. unfold remaining. apply nodup_filter_fst. auto.
      * intros k Hk Hn. apply P in Hn. destruct Hn as [_ Hn]. apply Hn. apply in_app_iff. auto.
    + intros k. rewrite in_app_iff, P, in_app_iff, Hrd. split.
      * intros [((reqs & H1 & _) & H2)|[H1 H2]]; [|tauto]. split; auto.
        apply in_map_iff. exists (k, reqs). auto.
      * intros [H1 H2]. destruct (in_dec Nat.eq_dec k rd) as [Hk|Hk].
        -- left. apply Hrd in Hk. auto.
        -- right. split; [exact H1|]. intros [G|G]; [auto|]. apply Hk. apply Hrd. exact G.
    + intros a k b reqs Heq Hd r Hr.
      destruct (in_dec Nat.eq_dec k rd) as [Hk|Hk].
      * apply Hrd in Hk. destruct Hk as ((reqs' & H1 & H2) & _).
        assert (reqs' = reqs) by (eapply dict_unique; eauto).
        subst reqs'. auto.
      * assert (S : exists a', a = rd ++ a').
        { clear - Heq Hk. revert a Heq. induction rd as [|x rd IHr]; intros a Heq; [exists a; auto|].
          destruct a as [|y a]; cbn in Heq; injection Heq as Ex Heq; subst.
          - exfalso. apply Hk. left. auto.
          - destruct (IHr (fun H => Hk (or_intror H)) a Heq) as [a' ->]. exists a'. auto. }
        destruct S as [a' ->]. rewrite <- app_assoc in Heq. apply app_inv_head in Heq.
        destruct (Q a' k b reqs Heq Hd r Hr) as [H1|H1].
        -- apply in_app_iff in H1. rewrite in_app_iff. tauto.
        -- rewrite in_app_iff. auto.
Qed.

Lemma sort_loop_rounds : forall more d order final,
  NoDup (map fst d) -> sort_loop more d order = Ok final -> rounds more order d.
Proof.
  induction more as [|more IH]; intros d order final ND H; rewrite sort_loop_unfold in H;
    destruct (remaining d order) as [|z zs] eqn:E.
  1, 3: exists (fun _ => 0); intros k reqs Hd Hn; exfalso;
    assert (F : In (k, reqs) (remaining d order)) by (apply in_remaining; auto);
    rewrite E in F; exact F.
  - cbn zeta in H. destruct (remaining d (order ++ ready (z :: zs) order)); discriminate.
  - cbn zeta in H. apply IH in H; auto. destruct H as (rank & R). rewrite <- E in *.
    set (rd := ready (remaining d order) order) in *.
    exists (fun k => if mem k rd then 1 else S (rank k)). intros k reqs Hd Hn.
    destruct (mem k rd) eqn:Ek.
    + split; [lia|]. intros r Hr. left. apply mem_in in Ek. apply in_ready in Ek.
      destruct Ek as (reqs' & H1 & H2). apply in_remaining in H1. destruct H1 as [H1 _].
      rewrite (dict_unique d k reqs reqs' ND Hd H1) in Hr. auto.
    + apply mem_out in Ek. destruct (R k reqs Hd) as (A & B).
      { rewrite in_app_iff. tauto. }
      split; [lia|]. intros r Hr. destruct (mem r rd) eqn:Er.
      * apply mem_in in Er. right. split; [|lia]. apply in_ready in Er. destruct Er as (q & H1 & _).
        apply in_remaining in H1. apply in_map_iff. exists (r, q). tauto.
      * apply mem_out in Er. destruct (B r Hr) as [H1|[H1 H2]].
        -- apply in_app_iff in H1. tauto.
        -- right. split; [auto|lia].
Qed.

Lemma sort_loop_complete : forall more d order,
  NoDup (map fst d) -> rounds more order d -> exists final, sort_loop more d order = Ok final.
Proof.
  induction more as [|more IH]; intros d order ND (rank & R); rewrite sort_loop_unfold;
    destruct (remaining d order) as [|[k q] zs] eqn:E; try (eexists; reflexivity).
  - exfalso. assert (F : In (k, q) (remaining d order)) by (rewrite E; left; auto).
    apply in_remaining in F. destruct F as [F1 F2]. destruct (R k q F1 F2). lia.
  - cbn zeta. apply IH; auto. rewrite <- E. exists (fun k => rank k - 1). intros k' q' Hd Hn.
    rewrite in_app_iff in Hn. destruct (R k' q' Hd) as [A B]; [tauto|].
    assert (C : forall r q, In (r, q) d -> rank r = 1 -> In r order \/ In r (ready (remaining d order) order)).
    { intros r q0 Hrd Hr. destruct (in_dec Nat.eq_dec r order) as [|Hro]; [auto|right].
      apply in_ready. exists q0. split; [apply in_remaining; auto|]. intros x Hx.
      destruct (R r q0 Hrd Hro) as [_ D]. destruct (D x Hx) as [|[D1 D2]]; [auto|].
      destruct (in_dec Nat.eq_dec x order) as [|Hxo]; [auto|].
      exfalso. apply in_map_iff in D1. destruct D1 as ((x' & qx) & Ex & D1). cbn in Ex. subst x'.
      destruct (R x qx D1 Hxo). lia. }
    split.
    + destruct (Nat.eq_dec (rank k') 1) as [E1|E1]; [|lia]. exfalso.
      destruct (C k' q' Hd E1); tauto.
    + intros r Hr. destruct (B r Hr) as [B1|[B1 B2]]; [left; apply in_app_iff; auto|].
      destruct (in_dec Nat.eq_dec r order) as [|Hro]; [left; apply in_app_iff; auto|].
      apply in_map_iff in B1. destruct B1 as ((r' & qr) & Er & B1). cbn in Er. subst r'.
      destruct (R r qr B1 Hro) as [D _].
      destruct (Nat.eq_dec (rank r) 1) as [E1|E1].
      * left. apply in_app_iff. exact (C r qr B1 E1).
      * right. split; [apply in_map_iff; exists (r, qr); auto | lia].
Qed.

Lemma skipn_app_len : forall A (a b : list A), skipn (List.length a) (a ++ b) = b.
Proof. induction a; cbn; auto. Qed.

Lemma sort_dictionary_sound : forall limit start d l,
  NoDup (map fst d) -> sort_dictionary limit start d = Ok l -> evaluation_order start d l.
Proof.
  intros limit start d l ND H. unfold sort_dictionary in H.
  destruct (sort_loop limit d start) as [o|] eqn:E; [|discriminate]. cbn in H. injection H as <-.
  apply sort_loop_sound in E; auto. destruct E as (new & -> & E). rewrite skipn_app_len. exact E.
Qed.

Lemma sort_dictionary_exact : forall limit start d,
  NoDup (map fst d) -> (exists l, sort_dictionary limit start d = Ok l) <-> rounds limit start d.
Proof.
  intros limit start d ND. unfold sort_dictionary. split.
  - intros [l H]. destruct (sort_loop limit d start) as [o|] eqn:E; [|discriminate].
    eapply sort_loop_rounds; eauto.
  - intros R. destruct (sort_loop_complete limit d start ND R) as [o ->]. cbn. eexists; reflexivity.
Qed.

(* a chain 0 <- 1 <- ... <- n-1 *)
Definition chain (n : nat) : dictionary :=
  map (fun k => (k, match k with 0 => [] | S j => [j] end)) (seq 0 n).

Lemma chain_keys : forall n, map fst (chain n) = seq 0 n.
Proof. intros. unfold chain. rewrite map_map. cbn [fst]. apply map_id. Qed.

Lemma chain_rounds : forall n m, rounds m [] (chain n) -> n <= m.
Proof.
  intros n m (rank & R).
  assert (L : forall k, k < n -> k < rank k).
  { induction k as [|k IH]; intros Hk.
    - destruct (R 0 []) as [A _]; [|intros []|lia]. unfold chain. apply in_map_iff. exists 0.
      split; auto. apply in_seq. lia.
    - destruct (R (S k) [k]) as [_ A]; [|intros []|].
      + unfold chain. apply in_map_iff. exists (S k). split; auto. apply in_seq. lia.
      + destruct (A k (or_introl eq_refl)) as [[]|[_ A2]]. specialize (IH ltac:(lia)). lia. }
  destruct n as [|n]; [lia|]. specialize (L n ltac:(lia)).
  destruct (R n (match n with 0 => [] | S j => [j] end)) as [A _]; [|intros []|lia].
  unfold chain. apply in_map_iff. exists n. split; auto. apply in_seq. lia.
Qed.

(* ---- equation classes ---- *)
Section classes.
  Variable A : Type.
  Variable is_cr : A -> bool.
  Notation crs := (filter is_cr).
  Notation others := (filter (fun x => negb (is_cr x))).

  Lemma remove_nth_app : forall (a : list A) x b, remove_nth A (List.length a) (a ++ x :: b) = a ++ b.
  Proof. induction a; cbn; intros; [reflexivity|]. f_equal. auto. Qed.

  Lemma sort_step_inv : forall (done todo : list A) x,
    sort_step A is_cr (done ++ x :: todo) (List.length done) =
    if is_cr x then x :: done ++ todo else done ++ x :: todo.
  Proof.
    intros. unfold sort_step. rewrite nth_error_app2 by lia. rewrite Nat.sub_diag. cbn.
    destruct (is_cr x); auto. rewrite remove_nth_app. reflexivity.
  Qed.

  Lemma sort_loop_classes : forall todo done,
    fold_left (sort_step A is_cr) (seq (List.length done) (List.length todo)) (done ++ todo) =
    rev (crs todo) ++ done ++ others todo.
  Proof.
    induction todo as [|x todo IH]; intros done; [reflexivity|].
    cbn [List.length seq fold_left]. rewrite sort_step_inv. cbn [filter].
    destruct (is_cr x); cbn [negb rev].
    - change (x :: done ++ todo) with ((x :: done) ++ todo).
      change (S (List.length done)) with (List.length (x :: done)).
      rewrite IH. rewrite <- app_assoc. reflexivity.
    - replace (done ++ x :: todo) with ((done ++ [x]) ++ todo) by (rewrite <- app_assoc; reflexivity).
      replace (S (List.length done)) with (List.length (done ++ [x])) by (rewrite app_length; cbn; lia).
      rewrite IH, <- app_assoc. reflexivity.
  Qed.

  Lemma sort_classes_eq : forall l,
    sort_equation_classes A is_cr l = rev (crs l) ++ others l.
  Proof. intros. exact (sort_loop_classes l []). Qed.

  Lemma filter_perm : forall l : list A, Permutation l (crs l ++ others l).
  Proof.
    induction l as [|x l IH]; cbn; auto. destruct (is_cr x); cbn; [constructor; auto|].
    apply Permutation_cons_app. auto.
  Qed.

  Lemma filter_rev_ : forall f (l : list A), filter f (rev l) = rev (filter f l).
  Proof.
    induction l; cbn; auto. rewrite filter_app, IHl. cbn. destruct (f a); cbn; [reflexivity|apply app_nil_r].
  Qed.

  Lemma others_crs : forall l : list A, others (crs l) = [].
  Proof. induction l; cbn; auto. destruct (is_cr a) eqn:E; cbn; auto. rewrite E. auto. Qed.
  Lemma others_others : forall l : list A, others (others l) = others l.
  Proof. induction l; cbn; auto. destruct (is_cr a) eqn:E; cbn; auto. rewrite E. cbn. f_equal. auto. Qed.
  Lemma crs_all : forall l x, In x (crs l) -> is_cr x = true.
  Proof. intros l x H. apply filter_In in H. tauto. Qed.

  (* any number of calls of set_equations *)
  Lemma set_equations_history : forall (calls : list (list A)),
    let final := fold_left (set_equations A is_cr) calls [] in
    exists front, final = front ++ others (List.concat calls) /\
      (forall x, In x front -> is_cr x = true) /\ Permutation final (List.concat calls).
  Proof.
    intros calls. cbn zeta.
    assert (G : forall calls l0 front0, l0 = front0 ++ others l0 ->
      (forall x, In x front0 -> is_cr x = true) ->
      exists front, fold_left (set_equations A is_cr) calls l0 = front ++ others (l0 ++ List.concat calls) /\
        (forall x, In x front -> is_cr x = true) /\
        Permutation (fold_left (set_equations A is_cr) calls l0) (l0 ++ List.concat calls)).
    { clear. induction calls as [|c calls IH]; intros l0 front0 E F.
      - cbn. rewrite app_nil_r. exists front0. auto.
      - cbn [fold_left List.concat]. unfold set_equations at 2 4. rewrite sort_classes_eq.
        destruct (IH (rev (crs (l0 ++ c)) ++ others (l0 ++ c)) (rev (crs (l0 ++ c)))) as (front & A1 & A2 & A3).
        + rewrite (filter_app _ (rev _)). rewrite filter_rev_, others_crs, others_others. reflexivity.
        + intros x Hx. apply in_rev in Hx. eapply crs_all; eauto.
        + exists front. rewrite A1. split; [|split; auto].
          * f_equal. rewrite app_assoc, (filter_app _ (l0 ++ c)), (filter_app _ (rev _ ++ _)),
              (filter_app _ (rev _)), filter_rev_, others_crs, others_others. reflexivity.
          * rewrite <- A1. eapply perm_trans; [exact A3|]. rewrite app_assoc. apply Permutation_app_tail.
            apply Permutation_sym. eapply perm_trans; [apply filter_perm|].
            apply Permutation_app_tail. apply Permutation_rev. }
    destruct (G calls [] []) as (front & A1 & A2 & A3); auto.
    exists front. cbn in A1, A3. auto.
  Qed.
End classes.

(* ---- nesting ---- *)
Section convert.
  Variables A B : Type.
  Variable conv : A -> B.

  Lemma leaves : forall l : list (nested A), (forall x, In x l -> exists a, x = NLeaf a) ->
    exists as_, l = map NLeaf as_.
  Proof.
    induction l as [|x l IH]; intros H; [exists []; auto|].
    destruct (H x (or_introl eq_refl)) as [a ->]. destruct IH as [as_ ->]; [intros; apply H; right; auto|].
    exists (a :: as_). auto.
  Qed.

  Lemma flatten_leaves : forall as_ : list A, flat_map (flatten A) (map NLeaf as_) = as_.
  Proof. induction as_; cbn; f_equal; auto. Qed.

  Lemma renest_shallow : forall eqs pre,
    (forall e, In e eqs -> shallow e) ->
    exists out, renest A B (pre ++ map conv (flat_map (flatten A) eqs)) (List.length pre) eqs = Ok out /\
      map as_nested out = map (map_nested conv) eqs.
  Proof.
    induction eqs as [|e eqs IH]; intros pre H; [exists []; auto|].
    assert (He : shallow e) by (apply H; left; auto).
    assert (Hr : forall e, In e eqs -> shallow e) by (intros; apply H; right; auto).
    destruct e as [a|l].
    - cbn [renest flat_map flatten map app].
      rewrite nth_error_app2 by lia. rewrite Nat.sub_diag. cbn [nth_error].
      destruct (IH (pre ++ [conv a]) Hr) as (out & E1 & E2).
      rewrite <- app_assoc in E1. cbn [app] in E1. rewrite app_length in E1. cbn in E1.
      rewrite Nat.add_1_r in E1. rewrite E1. cbn. eexists. split; [reflexivity|]. cbn. rewrite E2. reflexivity.
    - cbn in He. destruct (leaves l He) as [as_ ->].
      cbn [renest flat_map flatten]. rewrite flatten_leaves, map_app, map_length.
      destruct (IH (pre ++ map conv as_) Hr) as (out & E1 & E2).
      rewrite <- app_assoc in E1. rewrite app_length, map_length in E1. rewrite E1. cbn [bind].
      eexists. split; [reflexivity|]. cbn [map as_nested map_nested]. rewrite E2. f_equal. f_equal.
      rewrite skipn_app_len. rewrite firstn_app, map_length, Nat.sub_diag. cbn [firstn]. rewrite app_nil_r.
      replace (List.length as_) with (List.length (map conv as_)) by apply map_length.
      rewrite firstn_all, !map_map. reflexivity.
  Qed.
End convert.

(* ---- constituents ---- *)
Section constituents.
  Variable K : Type.
  Notation dict := (list (key * (list key * K))).

  Lemma dict_set_new : forall (d : dict) k v, ~ In k (map fst d) -> dict_set K d k v = d ++ [(k, v)].
  Proof.
    induction d as [|[k' v'] d IH]; cbn [dict_set map fst]; intros k v H; [reflexivity|].
    destruct (Nat.eq_dec k k') as [-> | ]; [exfalso; apply H; left; auto|].
    cbn. f_equal. apply IH. intros G. apply H. right. auto.
  Qed.

  Lemma by_base_nodup : forall ks : list (crkernel K), NoDup (map ck_base ks) ->
    by_base K ks = map (fun c => (ck_base c, (ck_requires c, ck_kernel c))) ks.
  Proof.
    intros ks. unfold by_base.
    assert (G : forall ks d, NoDup (map fst d ++ map ck_base ks) ->
      fold_left (fun d c => dict_set K d (ck_base c) (ck_requires c, ck_kernel c)) ks d =
      d ++ map (fun c => (ck_base c, (ck_requires c, ck_kernel c))) ks).
    { clear. induction ks as [|c ks IH]; intros d N; cbn [fold_left map]; [rewrite app_nil_r; auto|].
      rewrite dict_set_new.
      - rewrite IH; [rewrite <- app_assoc; reflexivity|]. rewrite map_app. cbn [map fst].
        rewrite <- app_assoc. exact N.
      - cbn in N. apply NoDup_remove_2 in N. intros H. apply N. apply in_app_iff. auto. }
    intros N. rewrite (G ks [] N). reflexivity.
  Qed.

  Lemma get_all_ok : forall ks l, NoDup (map ck_base ks) -> (forall k, In k l -> In k (map ck_base ks)) ->
    exists cs, get_all K (map (fun c => (ck_base c, (ck_requires c, ck_kernel c))) ks) l = Ok (map ck_kernel cs) /\
      map ck_base cs = l /\ (forall c, In c cs -> In c ks).
  Proof.
    intros ks l N. induction l as [|k l IH]; intros H; cbn [get_all].
    - exists []. cbn. split; auto. split; auto. intros c [].
    - destruct IH as (cs & E1 & E2 & E3); [intros; apply H; right; auto|].
      assert (G : exists c, In c ks /\ ck_base c = k /\
        dict_get K (map (fun c => (ck_base c, (ck_requires c, ck_kernel c))) ks) k = Ok (ck_kernel c)).
      { specialize (H k (or_introl eq_refl)). clear - H N. induction ks as [|c ks IH]; [destruct H|].
        cbn [map dict_get snd]. destruct (Nat.eq_dec k (ck_base c)) as [-> | n].
        - exists c. cbn. auto.
        - cbn in N, H. inversion N; subst. destruct H as [H|H]; [congruence|].
          destruct (IH H3 H) as (c' & I1 & I2 & I3). exists c'. cbn. auto. }
      destruct G as (c & G1 & G2 & G3). exists (c :: cs). rewrite G3, E1. cbn.
      rewrite G2, E2. split; auto. split; auto. intros x [<- | Hx]; auto.
  Qed.

  Lemma sort_constituents_ok : forall limit start ks l,
    NoDup (map ck_base ks) -> sort_constituents K limit start ks = Ok l ->
    exists cs, l = map ck_kernel cs /\
      evaluation_order start (map (fun c => (ck_base c, ck_requires c)) ks) (map ck_base cs) /\
      (forall c, In c cs <-> In c ks /\ ~ In (ck_base c) start).
  Proof.
    intros limit start ks l N H. unfold sort_constituents in H. rewrite by_base_nodup in H by auto.
    rewrite map_map in H. cbn [fst snd] in H.
    destruct (sort_dictionary limit start (map (fun c => (ck_base c, ck_requires c)) ks)) as [o|] eqn:E; [|discriminate].
    cbn [bind] in H. apply sort_dictionary_sound in E; [|rewrite map_map; exact N].
    assert (E' := E). destruct E as (E1 & E2 & E3). rewrite map_map in E2. cbn [fst] in E2.
    destruct (get_all_ok ks o N) as (cs & G1 & G2 & G3).
    { intros k Hk. apply E2 in Hk. tauto. }
    rewrite G1 in H. injection H as <-. exists cs. rewrite G2. split; auto. split; auto.
    intros c. split.
    - intros Hc. split; [auto|]. assert (I : In (ck_base c) o) by (rewrite <- G2; apply in_map; auto).
      apply E2 in I. tauto.
    - intros [Hc Hn]. assert (I : In (ck_base c) o) by (apply E2; split; auto; apply in_map; auto).
      rewrite <- G2 in I. apply in_map_iff in I. destruct I as (c' & Eb & I).
      assert (c' = c); [|subst; auto]. apply G3 in I. clear - N Hc I Eb.
      induction ks as [|x ks IH]; [destruct Hc|]. cbn in N. inversion N as [|? ? Nx Ny]; subst.
      destruct Hc as [-> | Hc]; destruct I as [-> | I]; auto.
      + exfalso. apply Nx. rewrite <- Eb. apply in_map. auto.
      + exfalso. apply Nx. rewrite Eb. apply in_map. auto.
  Qed.
End constituents.
