(* Proofs about the construction of the program. *)
From Coq Require Import Permutation Sorted.
From Verif Require Import Base BaseProofs AlgModel AlgSpec.
Local Open Scope list_scope.

Lemma bind_ok : forall A B (r : result A) (f : A -> result B) b,
  bind r f = Ok b -> exists a, r = Ok a /\ f a = Ok b.
Proof. intros A B [a|e] f b H; cbn in H; [exists a; auto | discriminate]. Qed.

Lemma rem_mod_zero : forall x f : Z, (Z.rem x f =? 0)%Z = (x mod f =? 0)%Z.
Proof.
  intros x f. destruct (Z.eq_dec f 0) as [-> | Hf].
  - rewrite Zmod_0_r. destruct x; reflexivity.
  - destruct (Z.eqb_spec (Z.rem x f) 0) as [H|H]; destruct (Z.eqb_spec (x mod f) 0) as [G|G]; auto; exfalso.
    + apply G. apply Z.mod_divide; auto. apply Z.rem_divide in H; auto.
    + apply H. apply Z.rem_divide; auto. apply Z.mod_divide in G; auto.
Qed.

Lemma lookup_none : forall k d, ~ In k (map fst d) -> lookup k d = None.
Proof.
  induction d as [|[k' v] d IH]; cbn [lookup map fst]; intros H; auto.
  rewrite IH by (intro G; apply H; right; auto).
  destruct (string_dec k k') as [-> | ]; auto. exfalso. apply H. left. auto.
Qed.

Lemma lookup_option : forall key kw,
  NoDup (map (fun p => lower (fst p)) kw) ->
  lookup key (map (fun p => (lower (fst p), lower (snd p))) kw) = option_value key kw.
Proof.
  intros key. unfold option_value.
  induction kw as [|[k v] kw IH]; intros ND; cbn [map lookup find fst snd] in *; auto.
  inversion ND as [|? ? Hn ND']; subst. specialize (IH ND').
  destruct (String.eqb_spec (lower k) key) as [Hk|Hk].
  - rewrite lookup_none.
    + destruct (string_dec key (lower k)) as [e|e]; [reflexivity | exfalso; apply e; auto].
    + rewrite map_map. cbn [fst]. intros Hin. rewrite <- Hk in Hin. exact (Hn Hin).
  - rewrite IH. destruct (find _ kw) as [p|]; auto.
    destruct (string_dec key (lower k)) as [e|e]; auto. exfalso; apply Hk; auto.
Qed.

Definition made (r : request) (i : io) : Prop :=
  exists j, iohdf5 (rq_arrays r) (rq_every r) (rq_kwargs r) = Ok j /\
    io_kw i = io_kw j /\ io_places i = io_places j /\ io_arrays i = io_arrays j.

Definition write_places (f : Z) : list place :=
  (if (f =? 0)%Z then [] else [PIn f]) ++ [PAfter].

Lemma made_spec : forall r i, distinct_options r -> made r i ->
  io_arrays i = rq_arrays r /\
  lookup "name" (io_kw i) = option_value "name" (rq_kwargs r) /\
  ((is_write r = true /\ io_places i = write_places (rq_every r) /\
    lookup "iotype" (io_kw i) = Some "write"%string) \/
   (is_write r = false /\ io_places i = [PBefore] /\
    lookup "iotype" (io_kw i) = Some "read"%string)).
Proof.
  intros r i D (j & H & Hk & Hp & Ha). rewrite Hk, Hp, Ha. clear Hk Hp Ha i.
  unfold iohdf5 in H. apply bind_ok in H. destruct H as (ps & H1 & H2).
  injection H2 as <-. cbn [io_arrays io_kw io_places]. split; [reflexivity|].
  unfold is_write. unfold distinct_options in D.
  destruct (rq_kwargs r) as [|kv kw] eqn:E.
  - cbn in H1. injection H1 as <-. split; [reflexivity|]. left. repeat split.
  - cbv iota beta in *. set (l := kv :: kw) in *. clearbody l. clear E.
    split; [apply lookup_option; auto|].
    unfold get_algorithm_location in H1. rewrite lookup_option in * by auto.
    destruct (option_value "iotype" l) as [t|]; [|discriminate].
    destruct (string_dec t "write") as [-> | n1].
    + injection H1 as <-. left. auto.
    + destruct (string_dec t "read") as [-> | n2]; [|discriminate].
      injection H1 as <-. right. auto.
Qed.

Section proofs.
  Variable K : Type.
  Notation env0 := {| e_iter := None; e_stage := None |}.
  Notation enviter it := {| e_iter := Some it; e_stage := None |}.

  Lemma run_kernels : forall niter e (ks : list K),
    flat_map (run K niter e) (kernels K ks) = at_ (e_iter e) (e_stage e) ks.
  Proof. induction ks; cbn; [reflexivity | f_equal; auto]. Qed.

  Lemma zrange_upto : forall n, zrange (n - 1) = upto n.
  Proof. intros n. unfold zrange, upto. replace (n - 1 + 1)%Z with n by lia. reflexivity. Qed.

  Lemma in_upto : forall n z, In z (upto n) <-> (0 <= z < n)%Z.
  Proof.
    intros n z. unfold upto. rewrite in_map_iff. split.
    - intros (k & <- & H). apply in_seq in H. lia.
    - intros H. exists (Z.to_nat z). split; [lia|]. apply in_seq. lia.
  Qed.

  Lemma flat_map_ext_in : forall A B (f g : A -> list B) l,
    (forall x, In x l -> f x = g x) -> flat_map f l = flat_map g l.
  Proof. induction l; cbn; intros H; [reflexivity|]. rewrite H by (left; auto). f_equal. auto. Qed.

  (* ---- the sort ---- *)
  Lemma insert_perm : forall x l, Permutation (x :: l) (insert_ns K x l).
  Proof.
    induction l as [|y l IH]; cbn; auto.
    destruct (Z.leb (ns_order x) (ns_order y)); auto.
    eapply perm_trans; [apply perm_swap|]. constructor. exact IH.
  Qed.
  Lemma sort_perm : forall l, Permutation l (sort_ns K l).
  Proof.
    induction l as [|x l IH]; cbn; auto.
    eapply perm_trans; [|apply insert_perm]. constructor. exact IH.
  Qed.
  Lemma insert_sorted : forall x l,
    StronglySorted (fun x y => (ns_order x <= ns_order y)%Z) l ->
    StronglySorted (fun x y => (ns_order x <= ns_order y)%Z) (insert_ns K x l).
  Proof.
    induction l as [|y l IH]; intros H; cbn.
    - constructor; constructor.
    - inversion H as [|? ? Hs Hf]; subst. destruct (Z.leb_spec (ns_order x) (ns_order y)).
      + constructor; auto. constructor; auto.
        eapply Forall_impl; [|exact Hf]. cbn. intros. lia.
      + constructor; auto.
        eapply Permutation_Forall; [apply insert_perm|]. constructor; [lia|]. auto.
  Qed.
  Lemma sort_sorted : forall l, StronglySorted (fun x y => (ns_order x <= ns_order y)%Z) (sort_ns K l).
  Proof. induction l; cbn; [constructor | apply insert_sorted; auto]. Qed.
  Lemma insert_filter : forall o x l,
    StronglySorted (fun x y => (ns_order x <= ns_order y)%Z) l ->
    filter (fun x => (ns_order x =? o)%Z) (insert_ns K x l) = filter (fun x => (ns_order x =? o)%Z) (x :: l).
  Proof.
    induction l as [|y l IH]; intros H; [reflexivity|]. cbn [insert_ns].
    inversion H as [|? ? Hs Hf]; subst. destruct (Z.leb_spec (ns_order x) (ns_order y)); [reflexivity|].
    cbn [filter] in *. rewrite IH by auto.
    destruct (Z.eqb_spec (ns_order y) o); destruct (Z.eqb_spec (ns_order x) o); auto. lia.
  Qed.
  Lemma sort_filter : forall o l,
    filter (fun x => (ns_order x =? o)%Z) (sort_ns K l) = filter (fun x => (ns_order x =? o)%Z) l.
  Proof.
    induction l as [|x l IH]; [reflexivity|]. cbn [sort_ns fold_right]. fold (sort_ns K l).
    rewrite insert_filter by apply sort_sorted. cbn [filter]. rewrite IH. reflexivity.
  Qed.
  Lemma sort_ok : forall l, sorted_by_order l (sort_ns K l).
  Proof. intros l. split; [apply sort_perm|]. split; [apply sort_sorted|]. intros o. apply sort_filter. Qed.

  (* ---- gathering ---- *)
  Lemma gather_app : forall g a es1 es2,
    gather K g a (es1 ++ es2) = bind (gather K g a es1) (fun a => gather K g a es2).
  Proof.
    intros g a es1. revert a. induction es1 as [|e es1 IH]; intros a es2; cbn; auto.
    destruct (g a e); cbn; auto.
  Qed.

  Lemma gather_single : forall es a a',
    gather K (gather1 K) a es = Ok a' ->
    (forall e, In e es -> e <> EqOther) /\
    a_start a' = a_start a ++ flat_map sq_start (sims es) /\
    a_end a' = a_end a ++ flat_map sq_end (sims es) /\
    a_adv a' = a_adv a ++ flat_map sq_advance (sims es) /\
    a_bc a' = last (map sq_bc (sims es)) (a_bc a) /\
    a_spatial a' = last (map sq_spatial (sims es)) (a_spatial a) /\
    a_ns a' = a_ns a ++ nonsims es.
  Proof.
    induction es as [|e es IH]; intros a a' H.
    - cbn in H. injection H as <-. cbn. rewrite !app_nil_r. repeat split; auto.
    - cbn [gather] in H. apply bind_ok in H. destruct H as (b & H1 & H2).
      apply IH in H2. destruct H2 as (N & A1 & A2 & A3 & A4 & A5 & A6).
      assert (L0 : forall B (l : list B) x d, last l x = last (x :: l) d).
      { induction l as [|y l IHl]; intros x d; [reflexivity|].
        change (last (x :: y :: l) d) with (last (y :: l) d).
        rewrite <- (IHl y x), <- (IHl y d). reflexivity. }
      assert (L : forall B (f : simeq K -> B) s d l, last (map f l) (f s) = last (map f (s :: l)) d).
      { intros. apply L0. }
      destruct e; cbn in H1; try discriminate; injection H1 as <-;
        cbn [a_start a_end a_adv a_bc a_spatial a_ns] in *; rewrite A1, A2, A3, A4, A5, A6.
      + split. { intros x [<- | Hx]; [discriminate | auto]. }
        cbn [sims flat_map nonsims]. rewrite <- !app_assoc. cbn [app].
        split; [reflexivity|]. split; [reflexivity|]. split; [reflexivity|].
        split; [apply L|]. split; [apply L|]. reflexivity.
      + split. { intros x [<- | Hx]; [discriminate | auto]. }
        cbn. rewrite <- !app_assoc. repeat split; auto.
      + split. { intros x [<- | Hx]; [discriminate | auto]. }
        cbn. rewrite <- !app_assoc. repeat split; auto.
      + split. { intros x [<- | Hx]; [discriminate | auto]. }
        repeat split; auto.
  Qed.

  Lemma gather_mb : forall es a a',
    gather K (gather1_mb K) a es = Ok a' ->
    a_start a' = a_start a ++ flat_map sq_start (sims es) /\
    a_end a' = a_end a ++ flat_map sq_end (sims es) /\
    a_adv a' = a_adv a ++ flat_map sq_advance (sims es) /\
    a_bc a' = a_bc a ++ flat_map sq_bc (sims es) /\
    a_spatial a' = a_spatial a ++ flat_map sq_spatial (sims es) /\
    a_ns a' = a_ns a ++ only_nonsims es /\
    a_metrics a' = a_metrics a ++ metrics es.
  Proof.
    induction es as [|e es IH]; intros a a' H.
    - cbn in H. injection H as <-. cbn. rewrite !app_nil_r. repeat split; auto.
    - cbn [gather] in H. apply bind_ok in H. destruct H as (b & H1 & H2).
      apply IH in H2. destruct H2 as (A1 & A2 & A3 & A4 & A5 & A6 & A7).
      destruct e; cbn in H1; try discriminate; injection H1 as <-;
        cbn [a_start a_end a_adv a_bc a_spatial a_ns a_metrics] in *; rewrite A1, A2, A3, A4, A5, A6, A7;
        cbn [sims only_nonsims metrics flat_map app]; rewrite <- ?app_assoc; cbn [app]; repeat split; auto.
  Qed.

  Lemma gather_blocks_flat : forall bs a,
    gather_blocks K a bs = gather K (gather1_mb K) a (flat_map sc_solution (all_schemes K bs)).
  Proof.
    induction bs as [|b bs IH]; intros a; [reflexivity|].
    cbn [gather_blocks]. unfold all_schemes. cbn [flat_map]. rewrite flat_map_app, gather_app.
    assert (E : forall l a, (fix over (a : acc K) (l : list (scheme K)) : result (acc K) :=
                 match l with
                 | [] => Ok a
                 | sc :: l => bind (gather K (gather1_mb K) a (sc_solution sc)) (fun a => over a l)
                 end) a l = gather K (gather1_mb K) a (flat_map sc_solution l)).
    { induction l as [|sc l IHl]; intros a0; [reflexivity|]. cbn [flat_map]. rewrite gather_app.
      destruct (gather K (gather1_mb K) a0 (sc_solution sc)); cbn [bind]; auto. }
    rewrite E. destruct (gather K (gather1_mb K) a (flat_map sc_solution (bk_schemes b))); cbn [bind]; auto.
  Qed.

  (* ---- placing ---- *)
  Lemma kernels_app : forall a b : list K, kernels K (a ++ b) = kernels K a ++ kernels K b.
  Proof. intros. apply map_app. Qed.

  Definition placed (ks : list K) (p : place) (ps : list place) : list K :=
    flat_map (fun q => if same_place p q then ks else []) ps.

  Lemma place_ns_ok : forall ks ps t t', place_ns K ks ps t = Ok t' ->
    t_before t' = t_before t ++ kernels K (placed ks PBefore ps) /\
    t_in t' = t_in t ++ kernels K (placed ks (PIn 0) ps) /\
    t_after t' = t_after t ++ kernels K (placed ks PAfter ps) /\
    (forall f, In (PIn f) ps -> f = 0%Z).
  Proof.
    induction ps as [|p ps IH]; intros t t' H.
    - cbn in H. injection H as <-. cbn. rewrite !app_nil_r.
      split; [auto|]. split; [auto|]. split; [auto|]. intros f [].
    - destruct p as [| |f]; cbn [place_ns] in H.
      + apply IH in H. destruct H as (A & B & C & D). rewrite A, B, C.
        cbn [add_before add_in add_after t_before t_in t_after placed flat_map same_place].
        change (0 =? 0)%Z with true. cbv iota. cbn [app]. rewrite <- app_assoc, <- ?kernels_app.
        split; [reflexivity|]. split; [reflexivity|]. split; [reflexivity|].
        intros g [E | G]; [discriminate | auto].
      + apply IH in H. destruct H as (A & B & C & D). rewrite A, B, C.
        cbn [add_before add_in add_after t_before t_in t_after placed flat_map same_place].
        change (0 =? 0)%Z with true. cbv iota. cbn [app]. rewrite <- app_assoc, <- ?kernels_app.
        split; [reflexivity|]. split; [reflexivity|]. split; [reflexivity|].
        intros g [E | G]; [discriminate | auto].
      + destruct (Z.eqb_spec f 0) as [-> | ]; [|discriminate].
        apply IH in H. destruct H as (A & B & C & D). rewrite A, B, C.
        cbn [add_before add_in add_after t_before t_in t_after placed flat_map same_place].
        change (0 =? 0)%Z with true. cbv iota. cbn [app]. rewrite <- app_assoc, <- ?kernels_app.
        split; [reflexivity|]. split; [reflexivity|]. split; [reflexivity|].
        intros g [E | G]; [injection E; auto | auto].
  Qed.

  Lemma place_all_ns_ok : forall l t t', place_all_ns K l t = Ok t' ->
    t_before t' = t_before t ++ kernels K (kernels_at PBefore l) /\
    t_in t' = t_in t ++ kernels K (kernels_at (PIn 0) l) /\
    t_after t' = t_after t ++ kernels K (kernels_at PAfter l) /\
    (forall n f, In n l -> In (PIn f) (ns_places n) -> f = 0%Z).
  Proof.
    induction l as [|n l IH]; intros t t' H.
    - cbn in H. injection H as <-. cbn. rewrite !app_nil_r.
      split; [auto|]. split; [auto|]. split; [auto|]. intros n f [].
    - cbn [place_all_ns] in H. apply bind_ok in H. destruct H as (u & H1 & H2).
      apply place_ns_ok in H1. destruct H1 as (A & B & C & D).
      apply IH in H2. destruct H2 as (A' & B' & C' & D').
      rewrite A', B', C', A, B, C, <- !app_assoc, <- !kernels_app.
      split; [reflexivity|]. split; [reflexivity|]. split; [reflexivity|].
      intros m f [<- | Hm]; eauto.
  Qed.

  Lemma place_ns_total : forall ks ps t, (forall f, In (PIn f) ps -> f = 0%Z) ->
    exists t', place_ns K ks ps t = Ok t'.
  Proof.
    induction ps as [|p ps IH]; intros t H; [eexists; reflexivity|].
    destruct p as [| |f]; cbn [place_ns].
    - apply IH. intros; apply H; right; auto.
    - apply IH. intros; apply H; right; auto.
    - rewrite (H f (or_introl eq_refl)). cbn. apply IH. intros; apply H; right; auto.
  Qed.
  Lemma place_all_ns_total : forall l t,
    (forall n f, In n l -> In (PIn f) (ns_places n) -> f = 0%Z) ->
    exists t', place_all_ns K l t = Ok t'.
  Proof.
    induction l as [|n l IH]; intros t H; [eexists; reflexivity|].
    cbn [place_all_ns]. destruct (place_ns_total (ns_kernels n) (ns_places n) t) as (u & ->).
    { intros f. apply H. left; auto. }
    cbn. apply IH. intros; eapply H; eauto. right; auto.
  Qed.

  (* the statements an output object adds inside and after the loop *)
  Lemma io_code_write : forall d r i os, distinct_options r -> made r i -> is_write r = true ->
    io_code d i = Ok os ->
    rq_arrays r <> [] /\
    (d = true -> option_value "name" (rq_kwargs r) = None) /\
    exists v, os = [{| o_var := v;
                       o_file := if d then FDyn else FStatic (final_file r);
                       o_arrays := rq_arrays r |}].
  Proof.
    intros d r i os D M W H. destruct (made_spec r i D M) as (Ha & Hn & [(_ & _ & Ht)|(Hw & _)]);
      [|congruence].
    unfold io_code in H. rewrite Ht, Hn, Ha in H.
    destruct (string_dec "write" "read") as [e|_]; [discriminate|].
    destruct (string_dec "write" "write") as [_|n]; [|exfalso; apply n; auto].
    apply bind_ok in H. destruct H as ([v f] & H1 & H2).
    destruct (rq_arrays r) as [|a l] eqn:Er; [discriminate|]. injection H2 as <-.
    split; [discriminate|]. unfold final_file.
    destruct (option_value "name" (rq_kwargs r)) as [n|] eqn:En.
    - apply bind_ok in H1. destruct H1 as (n' & H1 & H3).
      destruct d; [discriminate|]. injection H3 as <- <-. split; [discriminate|].
      exists None. destruct (substring_in ".h5" n) eqn:E1; [injection H1 as <-; reflexivity|].
      destruct (substring_in "." n) eqn:E2; [discriminate|]. injection H1 as <-. reflexivity.
    - injection H1 as <- <-. split; [auto|]. exists (Some ("name" ++ dec (io_block i))%string).
      destruct d; reflexivity.
  Qed.

  Lemma place_io_ok : forall r i t t', distinct_options r -> made r i ->
    place_io K i (io_places i) t = Ok t' ->
    exists ins outs,
      t_before t' = t_before t /\ t_in t' = t_in t ++ ins /\ t_after t' = t_after t ++ outs /\
      (forall niter it, (0 <= it)%Z -> flat_map (run K niter (enviter it)) ins = written_in it r) /\
      (forall niter, flat_map (run K niter env0) outs = written_at_end r).
  Proof.
    intros r i t t' D M H.
    destruct (made_spec r i D M) as (Ha & Hn & [(Hw & Hp & Ht)|(Hw & Hp & Ht)]).
    - rewrite Hp in H. unfold write_places in H.
      destruct (Z.eqb_spec (rq_every r) 0) as [E|E].
      + cbn [app place_io] in H. apply bind_ok in H. destruct H as (u & H1 & H2).
        apply bind_ok in H1. destruct H1 as (os & H1 & H3). injection H3 as <-. injection H2 as <-.
        destruct (io_code_write _ _ _ _ D M Hw H1) as (_ & _ & v & ->).
        exists [], (map SWrite [{| o_var := v; o_file := FStatic (final_file r); o_arrays := rq_arrays r |}]).
        cbn [add_after t_before t_in t_after]. rewrite app_nil_r.
        split; [auto|]. split; [auto|]. split; [auto|]. split.
        * intros. unfold written_in. rewrite E, Z.eqb_refl. cbn. rewrite andb_false_r. reflexivity.
        * intros. unfold written_at_end. rewrite Hw. reflexivity.
      + cbn [app place_io] in H. apply bind_ok in H. destruct H as (u & H1 & H2).
        apply bind_ok in H1. destruct H1 as (os & H1 & H3). injection H3 as <-.
        destruct (io_code_write _ _ _ _ D M Hw H1) as (_ & _ & v & ->).
        apply bind_ok in H2. destruct H2 as (u & H2 & H4). injection H4 as <-.
        apply bind_ok in H2. destruct H2 as (os' & H2 & H5). injection H5 as <-.
        destruct (io_code_write _ _ _ _ D M Hw H2) as (_ & _ & v' & ->).
        eexists [SIf (CEvery (rq_every r)) (map SWrite [{| o_var := v; o_file := FDyn; o_arrays := rq_arrays r |}])], _.
        cbn [add_after add_in t_before t_in t_after].
        split; [auto|]. split; [auto|]. split; [reflexivity|]. split.
        * intros niter it Hit. unfold written_in. rewrite Hw. cbn [negb andb].
          destruct (Z.eqb_spec (rq_every r) 0); [contradiction|]. cbn [negb andb].
          cbn. unfold multiple. rewrite rem_mod_zero.
          destruct ((it + 1) mod rq_every r =? 0)%Z; reflexivity.
        * intros. unfold written_at_end. rewrite Hw. reflexivity.
    - rewrite Hp in H. cbn [place_io] in H. apply bind_ok in H. destruct H as (u & H1 & H2).
      apply bind_ok in H1. destruct H1 as (os & H1 & H3). injection H3 as <-. injection H2 as <-.
      unfold io_code in H1. rewrite Ht in H1.
      destruct (string_dec "read" "read") as [_|n]; [|exfalso; apply n; auto]. injection H1 as <-.
      exists [], []. cbn. rewrite !app_nil_r.
      split; [auto|]. split; [auto|]. split; [auto|]. split.
      * intros. unfold written_in. rewrite Hw. reflexivity.
      * intros. unfold written_at_end. rewrite Hw. reflexivity.
  Qed.

  Lemma place_all_io_ok : forall known rs is t t',
    Forall distinct_options rs -> Forall2 made rs is ->
    place_all_io K known is t = Ok t' ->
    exists ins outs,
      t_before t' = t_before t /\ t_in t' = t_in t ++ ins /\ t_after t' = t_after t ++ outs /\
      (forall niter it, (0 <= it)%Z ->
         flat_map (run K niter (enviter it)) ins = flat_map (written_in it) rs) /\
      (forall niter, flat_map (run K niter env0) outs = flat_map written_at_end rs) /\
      (forall r a, In r rs -> In a (rq_arrays r) -> In a known).
  Proof.
    intros known rs is t t' D M. revert t t' D.
    induction M as [|r i rs is M1 M IH]; intros t t' D H.
    - cbn in H. injection H as <-. exists [], []. rewrite !app_nil_r.
      split; [auto|]. split; [auto|]. split; [auto|]. split; [reflexivity|]. split; [reflexivity|].
      intros r a [].
    - cbn [place_all_io] in H. destruct (check_datasets known i) eqn:C; [|discriminate].
      apply bind_ok in H. destruct H as (u & H1 & H2).
      inversion D as [|? ? D1 D2]; subst.
      destruct (place_io_ok r i t u D1 M1 H1) as (in1 & out1 & A1 & A2 & A3 & A4 & A5).
      destruct (IH u t' D2 H2) as (in2 & out2 & B1 & B2 & B3 & B4 & B5 & B6).
      exists (in1 ++ in2), (out1 ++ out2). rewrite B1, B2, B3, A1, A2, A3, <- !app_assoc.
      split; [auto|]. split; [auto|]. split; [auto|]. split.
      { intros niter it Hit. rewrite flat_map_app, A4, B4 by auto. reflexivity. }
      split. { intros niter. rewrite flat_map_app, A5, B5. reflexivity. }
      intros r0 a [<- | Hr] Ha; [|eauto].
      unfold check_datasets in C. rewrite forallb_forall in C.
      destruct (made_spec r i D1 M1) as (E & _). rewrite E in C. specialize (C a Ha).
      destruct (in_dec string_dec a known); [auto | discriminate].
  Qed.

  Lemma run_assemble : forall niter a t stage iter,
    execute niter (assemble K a t stage iter) =
    flat_map (run K niter env0) (t_before t) ++
    flat_map (fun it =>
      at_ (Some it) None (a_bc a ++ a_start a) ++
      flat_map (fun st => at_ (Some it) (Some st) (a_spatial a ++ a_adv a ++ a_bc a))
               (zrange (upper niter stage)) ++
      flat_map (run K niter (enviter it)) (t_in t) ++
      at_ (Some it) None (a_end a)) (zrange (upper niter iter)) ++
    flat_map (run K niter env0) (t_after t).
  Proof.
    intros. unfold execute, assemble. rewrite flat_map_app. f_equal.
    cbn [app flat_map]. f_equal. cbn [run flat_map]. rewrite !app_nil_r.
    apply flat_map_ext. intros it. cbn [set_var e_stage].
    rewrite !flat_map_app, !run_kernels. cbn [e_iter e_stage flat_map run].
    f_equal. f_equal; [|rewrite flat_map_app, run_kernels; reflexivity].
    apply flat_map_ext. intros st. rewrite run_kernels. reflexivity.
  Qed.

  (* ---- C17 ---- *)
  Lemma single_block_trace : forall (b : block K) sc s mon rqs prg nst niter,
    bk_schemes b = [sc] -> sc_iter sc = SNiter -> sc_stage sc = SNum nst ->
    sims (sc_solution sc) = [s] ->
    Forall distinct_options rqs -> Forall2 made rqs (bk_io b) ->
    generate_solution b mon = Ok prg ->
    exists ns, sorted_by_order (nonsims (sc_solution sc)) ns /\
    execute niter prg =
    program_trace (Build_phases (kernels_at PBefore ns) (sq_bc s) (sq_start s) (sq_spatial s)
                     (sq_advance s) (kernels_at (PIn 0) ns) (sq_end s) (kernels_at PAfter ns))
                  nst niter mon rqs.
  Proof.
    intros b sc s mon rqs prg nst niter Hsc Hi Hst Hs D M H.
    unfold generate_solution in H. rewrite Hsc in H.
    apply bind_ok in H. destruct H as (a & G & H).
    apply bind_ok in H. destruct H as (t & P & H).
    apply bind_ok in H. destruct H as (t' & Q & H). injection H as <-.
    apply gather_single in G. destruct G as (_ & G1 & G2 & G3 & G4 & G5 & G6).
    cbn in G1, G2, G3, G4, G5, G6. rewrite Hs in *. cbn in G1, G2, G3, G4, G5.
    rewrite app_nil_r in *.
    apply place_all_ns_ok in P. cbn in P. destruct P as (P1 & P2 & P3 & _).
    exists (sort_ns K (a_ns a)). rewrite <- G6. split; [apply sort_ok|].
    destruct (place_all_io_ok _ _ _ _ _ D M Q) as (ins & outs & Q1 & Q2 & Q3 & Q4 & Q5 & _).
    rewrite run_assemble, Hi, Hst. cbn [upper]. rewrite !zrange_upto.
    unfold program_trace. cbn [p_before p_after].
    assert (EM : t_before (match mon with Some f => add_in K t [SIf (COr (CEvery f) CFirst) [SMonitor]] | None => t end) = t_before t /\
                 t_after (match mon with Some f => add_in K t [SIf (COr (CEvery f) CFirst) [SMonitor]] | None => t end) = t_after t /\
                 t_in (match mon with Some f => add_in K t [SIf (COr (CEvery f) CFirst) [SMonitor]] | None => t end) =
                 t_in t ++ match mon with Some f => [SIf (COr (CEvery f) CFirst) [SMonitor]] | None => [] end).
    { destruct mon; cbn; rewrite ?app_nil_r; auto. }
    destruct EM as (E1 & E2 & E3). rewrite Q1, Q2, Q3, E1, E2, E3, P1, P2, P3.
    rewrite !flat_map_app, !run_kernels, Q5. cbn [e_iter e_stage]. f_equal. f_equal.
    apply flat_map_ext_in. intros it Hit. apply in_upto in Hit.
    unfold step. cbn [p_bc p_start p_spatial p_advance p_in p_end].
    rewrite G1, G2, G3, G4, G5. f_equal. f_equal.
    rewrite !flat_map_app, run_kernels, Q4 by lia. cbn [e_iter e_stage]. rewrite <- !app_assoc.
    f_equal. f_equal. unfold monitored. destruct mon as [f|]; [|reflexivity].
    cbn. unfold multiple. rewrite rem_mod_zero, orb_comm.
    destruct ((it =? 0)%Z || ((it + 1) mod f =? 0)%Z); reflexivity.
  Qed.

  (* ---- C59 ---- *)
  Lemma forall2_app_inv : forall A B (R : A -> B -> Prop) l x y,
    Forall2 R l (x ++ y) -> exists l1 l2, l = l1 ++ l2 /\ Forall2 R l1 x /\ Forall2 R l2 y.
  Proof. intros A B R l x y H. apply Forall2_app_inv_r in H. destruct H as (l1 & l2 & H1 & H2 & ->). exists l1, l2. auto. Qed.

  Lemma place_blocks_io_ok : forall bs n rs t t',
    Forall distinct_options rs -> Forall2 made rs (flat_map bk_io bs) ->
    place_blocks_io K n bs t = Ok t' ->
    exists ins outs,
      t_before t' = t_before t /\ t_in t' = t_in t ++ ins /\ t_after t' = t_after t ++ outs /\
      (forall niter it, (0 <= it)%Z ->
         flat_map (run K niter (enviter it)) ins = flat_map (written_in it) rs) /\
      (forall niter, flat_map (run K niter env0) outs = flat_map written_at_end rs).
  Proof.
    induction bs as [|b bs IH]; intros n rs t t' D M H.
    - cbn in M. inversion M; subst. cbn in H. injection H as <-. exists [], []. rewrite !app_nil_r.
      split; [auto|]. split; [auto|]. split; [auto|]. split; reflexivity.
    - cbn [flat_map] in M. apply forall2_app_inv in M. destruct M as (r1 & r2 & -> & M1 & M2).
      apply Forall_app in D. destruct D as [D1 D2].
      cbn [place_blocks_io] in H. apply bind_ok in H. destruct H as (u & H1 & H2).
      assert (M1' : Forall2 made r1 (map (fun i => {| io_kw := io_kw i; io_places := io_places i;
                                  io_arrays := io_arrays i; io_block := n |}) (bk_io b))).
      { clear - M1. induction M1 as [|r i rs is (j & E) M1 IH]; cbn; constructor; auto.
        exists j. exact E. }
      destruct (place_all_io_ok _ _ _ _ _ D1 M1' H1) as (in1 & out1 & A1 & A2 & A3 & A4 & A5 & _).
      destruct (IH _ _ _ _ D2 M2 H2) as (in2 & out2 & B1 & B2 & B3 & B4 & B5).
      exists (in1 ++ in2), (out1 ++ out2). rewrite B1, B2, B3, A1, A2, A3, <- !app_assoc.
      split; [auto|]. split; [auto|]. split; [auto|]. split.
      { intros niter it Hit. rewrite !flat_map_app, A4, B4 by auto. reflexivity. }
      intros niter. rewrite !flat_map_app, A5, B5. reflexivity.
  Qed.

  Lemma size_eqb_eq : forall a b, size_eqb a b = true -> a = b.
  Proof. intros [|x] [|y]; cbn; intros H; try discriminate; auto. apply Z.eqb_eq in H. congruence. Qed.

  Lemma multi_block_trace : forall (bs : list (block K)) rqs prg nst niter,
    Forall distinct_options rqs -> Forall2 made rqs (flat_map bk_io bs) ->
    (forall b sc, In b bs -> In sc (bk_schemes b) -> sc_iter sc = SNiter /\ sc_stage sc = SNum nst) ->
    spatial_solution bs = Ok prg ->
    exists ns,
      let es := flat_map sc_solution (flat_map bk_schemes bs) in
      sorted_by_order (only_nonsims es) ns /\
      execute niter prg =
      program_trace
        (Build_phases (kernels_at PBefore ns ++ flat_map mt_fd (metrics es) ++ flat_map mt_sd (metrics es))
           (flat_map sq_bc (sims es)) (flat_map sq_start (sims es)) (flat_map sq_spatial (sims es))
           (flat_map sq_advance (sims es)) (kernels_at (PIn 0) ns) (flat_map sq_end (sims es))
           (kernels_at PAfter ns))
        nst niter None rqs.
  Proof.
    intros bs rqs prg nst niter D M Hall H. cbn zeta.
    unfold spatial_solution in H. destruct (all_same _ (map sc_class _)); [|discriminate].
    apply bind_ok in H. destruct H as (a & G & H). rewrite gather_blocks_flat in G.
    apply gather_mb in G. cbn in G. destruct G as (G1 & G2 & G3 & G4 & G5 & G6 & G7).
    apply bind_ok in H. destruct H as (t & P & H).
    apply place_all_ns_ok in P. cbn in P. destruct P as (P1 & P2 & P3 & _).
    destruct (all_same _ (map sc_iter _) && _); [|discriminate].
    destruct (all_schemes K bs) as [|sc scs] eqn:E; [discriminate|].
    apply bind_ok in H. destruct H as (t' & Q & H). injection H as <-.
    assert (Hsc : sc_iter sc = SNiter /\ sc_stage sc = SNum nst).
    { assert (I : In sc (all_schemes K bs)) by (rewrite E; left; auto).
      unfold all_schemes in I. apply in_flat_map in I. destruct I as (b & I1 & I2). eauto. }
    destruct Hsc as [Hi Hst].
    exists (sort_ns K (a_ns a)).
    change (flat_map bk_schemes bs) with (all_schemes K bs). rewrite E.
    rewrite <- G6. split; [apply sort_ok|].
    destruct (place_blocks_io_ok _ _ _ _ _ D M Q) as (ins & outs & Q1 & Q2 & Q3 & Q4 & Q5).
    rewrite run_assemble, Hi, Hst. cbn [upper]. rewrite !zrange_upto.
    unfold program_trace. cbn [p_before p_after].
    rewrite Q1, Q2, Q3. cbn [add_before t_before t_in t_after]. rewrite P1, P2, P3.
    rewrite <- !app_assoc, <- !kernels_app, !flat_map_app, !run_kernels, Q5, G7. cbn [e_iter e_stage].
    f_equal. f_equal.
    apply flat_map_ext_in. intros it Hit. apply in_upto in Hit.
    unfold step. cbn [p_bc p_start p_spatial p_advance p_in p_end monitored app].
    rewrite G1, G2, G3, G4, G5. f_equal. f_equal.
    rewrite !flat_map_app, run_kernels, Q4 by lia. cbn [e_iter e_stage]. rewrite <- !app_assoc. reflexivity.
  Qed.


  (* ---- C56: which programs are accepted ---- *)
  Lemma io_code_total : forall d r i, distinct_options r -> made r i -> is_write r = true ->
    rq_arrays r <> [] ->
    match option_value "name" (rq_kwargs r) with
    | None => True
    | Some n => d = false /\ (substring_in "." n = true -> substring_in ".h5" n = true)
    end -> exists os, io_code d i = Ok os.
  Proof.
    intros d r i D M W Hne Hn. destruct (made_spec r i D M) as (Ha & En & [(_ & _ & Ht)|(Hw & _)]);
      [|congruence].
    unfold io_code. rewrite Ht, En, Ha.
    destruct (string_dec "write" "read") as [e|_]; [discriminate|].
    destruct (string_dec "write" "write") as [_|n]; [|exfalso; apply n; auto].
    destruct (rq_arrays r) as [|a l]; [contradiction|].
    destruct (option_value "name" (rq_kwargs r)) as [n|]; [|cbn; eexists; reflexivity].
    destruct Hn as [-> Hn]. destruct (substring_in ".h5" n); [cbn; eexists; reflexivity|].
    destruct (substring_in "." n); [specialize (Hn eq_refl); discriminate | cbn; eexists; reflexivity].
  Qed.

  Lemma io_code_name : forall d r i os n, distinct_options r -> made r i -> is_write r = true ->
    io_code d i = Ok os -> option_value "name" (rq_kwargs r) = Some n ->
    substring_in "." n = true -> substring_in ".h5" n = true.
  Proof.
    intros d r i os n D M W H En Hd. destruct (made_spec r i D M) as (Ha & E & [(_ & _ & Ht)|(Hw & _)]);
      [|congruence].
    unfold io_code in H. rewrite Ht, E, En in H.
    destruct (string_dec "write" "read") as [e|_]; [discriminate|].
    destruct (string_dec "write" "write") as [_|m]; [|exfalso; apply m; auto].
    rewrite Hd in H. destruct (substring_in ".h5" n); [auto | cbn in H; discriminate].
  Qed.

  Lemma place_io_valid : forall r i t, distinct_options r -> made r i ->
    (exists t', place_io K i (io_places i) t = Ok t') <->
    (is_write r = true -> rq_arrays r <> [] /\
     match option_value "name" (rq_kwargs r) with
     | None => True
     | Some n => rq_every r = 0%Z /\ (substring_in "." n = true -> substring_in ".h5" n = true)
     end).
  Proof.
    intros r i t D M. destruct (made_spec r i D M) as (Ha & En & [(W & Hp & Ht)|(W & Hp & Ht)]).
    - rewrite Hp. split.
      + intros [t' H] _. unfold write_places in H. rewrite <- app_nil_l in H at 1.
        destruct (Z.eqb_spec (rq_every r) 0) as [E|E]; cbn [app place_io] in H.
        * apply bind_ok in H. destruct H as (u & H1 & _). apply bind_ok in H1. destruct H1 as (os & H1 & _).
          destruct (io_code_write _ _ _ _ D M W H1) as (A & _ & _). split; auto.
          destruct (option_value "name" (rq_kwargs r)) eqn:E2; auto. split; auto.
          exact (io_code_name _ _ _ _ _ D M W H1 E2).
        * apply bind_ok in H. destruct H as (u & H1 & _). apply bind_ok in H1. destruct H1 as (os & H1 & _).
          destruct (io_code_write _ _ _ _ D M W H1) as (A & B & _). rewrite (B eq_refl). auto.
      + intros H. destruct (H W) as [Hne Hn]. unfold write_places.
        assert (F : exists os, io_code false i = Ok os).
        { apply (io_code_total false r i D M W Hne). destruct (option_value "name" (rq_kwargs r)); intuition auto. }
        destruct F as [os F].
        destruct (Z.eqb_spec (rq_every r) 0) as [E|E]; cbn [app place_io].
        * rewrite F. cbn. eexists; reflexivity.
        * destruct (option_value "name" (rq_kwargs r)) eqn:E2; [destruct Hn; contradiction|].
          destruct (io_code_total true r i D M W Hne) as [os' F']; [rewrite E2; auto|].
          rewrite F'. cbn [bind]. rewrite F. cbn. eexists; reflexivity.
    - rewrite Hp. split; [congruence|]. intros _. cbn [place_io]. unfold io_code. rewrite Ht.
      destruct (string_dec "read" "read") as [_|n]; [|exfalso; apply n; auto]. cbn. eexists; reflexivity.
  Qed.

  Lemma place_all_io_valid : forall known rs is t,
    Forall distinct_options rs -> Forall2 made rs is ->
    (exists t', place_all_io K known is t = Ok t') <-> Forall (valid_request known) rs.
  Proof.
    intros known rs is t D M. revert t D. induction M as [|r i rs is M1 M IH]; intros t D.
    - split; [constructor|]. intros _. cbn. eexists; reflexivity.
    - inversion D as [|? ? D1 D2]; subst. cbn [place_all_io].
      assert (C : check_datasets known i = true <-> forall a, In a (rq_arrays r) -> In a known).
      { unfold check_datasets. destruct (made_spec r i D1 M1) as (-> & _). rewrite forallb_forall.
        split; intros G a Ha; specialize (G a Ha); destruct (in_dec string_dec a known); auto; discriminate. }
      split.
      + intros [t' H]. destruct (check_datasets known i) eqn:E; [|discriminate].
        apply bind_ok in H. destruct H as (u & H1 & H2). constructor.
        * split; [apply C; auto|]. apply (proj1 (place_io_valid r i t D1 M1)). eauto.
        * apply (proj1 (IH u D2)). eauto.
      + intros V. inversion V as [|? ? [V1 V2] V3]; subst.
        rewrite (proj2 C V1). destruct (proj2 (place_io_valid r i t D1 M1) V2) as [u ->].
        cbn [bind]. apply IH; auto.
  Qed.

  Lemma gather_total : forall es a, (forall e, In e es -> e <> EqOther) ->
    exists a', gather K (gather1 K) a es = Ok a'.
  Proof.
    induction es as [|e es IH]; intros a H; [eexists; reflexivity|].
    cbn [gather]. destruct e; cbn [gather1 bind]; try (apply IH; intros; apply H; right; auto).
    exfalso. apply (H EqOther); [left; auto | auto].
  Qed.

  Lemma accepted : forall (b : block K) sc mon rqs,
    bk_schemes b = [sc] -> Forall distinct_options rqs -> Forall2 made rqs (bk_io b) ->
    (exists prg, generate_solution b mon = Ok prg) <->
    (forall e, In e (sc_solution sc) -> e <> EqOther) /\
    (forall n f, In n (nonsims (sc_solution sc)) -> In (PIn f) (ns_places n) -> f = 0%Z) /\
    Forall (valid_request (bk_datasets b)) rqs.
  Proof.
    intros b sc mon rqs Hsc D M. unfold generate_solution. rewrite Hsc. split.
    - intros [prg H]. apply bind_ok in H. destruct H as (a & G & H).
      apply bind_ok in H. destruct H as (t & P & H). apply bind_ok in H. destruct H as (t' & Q & _).
      apply gather_single in G. destruct G as (N & _ & _ & _ & _ & _ & G). cbn in G.
      apply place_all_ns_ok in P. destruct P as (_ & _ & _ & P).
      split; [auto|]. split.
      + intros n f Hn. apply P. eapply Permutation_in; [apply sort_perm|]. rewrite G. auto.
      + eapply place_all_io_valid; eauto.
    - intros (N & P & V). destruct (gather_total (sc_solution sc) (acc0 K) N) as [a G]. rewrite G. cbn [bind].
      apply gather_single in G. destruct G as (_ & _ & _ & _ & _ & _ & G). cbn in G.
      destruct (place_all_ns_total (sort_ns K (a_ns a)) {| t_before := []; t_in := []; t_after := [] |}) as [t ->].
      { intros n f Hn. apply P. rewrite <- G. eapply Permutation_in; [apply Permutation_sym, sort_perm|]. auto. }
      cbn [bind].
      destruct (proj2 (place_all_io_valid (bk_datasets b) rqs (bk_io b)
        (match mon with Some f => add_in K t [SIf (COr (CEvery f) CFirst) [SMonitor]] | None => t end) D M) V) as [t' ->].
      cbn. eexists; reflexivity.
  Qed.

  (* ---- C18 ---- *)
  Lemma files_app : forall a b : list (event K), files (a ++ b) = files a ++ files b.
  Proof. intros. apply flat_map_app. Qed.
  Lemma files_at : forall it st (ks : list K), files (at_ it st ks) = [].
  Proof. induction ks; cbn; auto. Qed.
  Lemma files_flat : forall A (f : A -> list (event K)) l, files (flat_map f l) = flat_map (fun x => files (f x)) l.
  Proof. induction l; cbn [flat_map]; [reflexivity|]. rewrite files_app, IHl. reflexivity. Qed.
  Lemma files_mon : forall mon it, files (@monitored K mon it) = [].
  Proof. intros [f|] it; cbn; [destruct ((it =? 0)%Z || multiple f it)|]; reflexivity. Qed.

  Lemma flat_map_nil : forall A B (l : list A), flat_map (fun _ => @nil B) l = [].
  Proof. induction l; cbn; auto. Qed.

  Lemma files_trace : forall (p : phases K) nst niter mon rqs,
    files (program_trace p nst niter mon rqs) =
    flat_map (fun it => flat_map (fun r => files (@written_in K it r)) rqs) (upto niter)
    ++ flat_map (fun r => files (@written_at_end K r)) rqs.
  Proof.
    intros. unfold program_trace. rewrite !files_app, !files_at, !files_flat. cbn [app]. f_equal.
    apply flat_map_ext. intros it. unfold step. rewrite !files_app, !files_at, files_mon, !files_flat.
    cbn [app]. rewrite app_nil_r.
    rewrite (flat_map_ext _ (fun _ => [])); [rewrite flat_map_nil; reflexivity|].
    intros st. apply files_at.
  Qed.
End proofs.

Lemma numbered_inj : forall a b, (0 <= a)%Z -> (0 <= b)%Z -> numbered_file a = numbered_file b -> a = b.
Proof.
  intros a b Ha Hb H. unfold numbered_file in H.
  apply append_cancel_l in H. apply append_cancel_r in H. apply decpad_inj in H. lia.
Qed.

Lemma numbered_not_final : forall a, numbered_file a <> "opensbli_output.h5"%string.
Proof. intros a H. unfold numbered_file in H. cbn in H. discriminate. Qed.

Lemma upto_succ : forall n, map (fun k => k + 1)%Z (upto n) = map Z.of_nat (seq 1 (Z.to_nat n)).
Proof.
  intros n. unfold upto. rewrite map_map.
  rewrite <- seq_shift, map_map. apply map_ext. intros. lia.
Qed.

Lemma files_one : forall K r m niter,
  is_write r = true -> rq_every r = m -> m <> 0%Z -> option_value "name" (rq_kwargs r) = None ->
  flat_map (fun it => flat_map (fun r => files (@written_in K it r)) [r]) (upto niter)
  ++ flat_map (fun r => files (@written_at_end K r)) [r] =
  map (fun k => ("opensbli_output_" ++ decpad 6 (Z.to_nat k) ++ ".h5", rq_arrays r)%string)
      (filter (fun k => k mod m =? 0)%Z (map Z.of_nat (seq 1 (Z.to_nat niter))))
  ++ [("opensbli_output.h5"%string, rq_arrays r)].
Proof.
  intros K r m niter W E Hm Hn. f_equal.
  - rewrite <- upto_succ.
    rewrite (flat_map_ext _ (fun it => files (@written_in K it r))) by (intros; apply app_nil_r).
    induction (upto niter) as [|it l IH]; [reflexivity|].
    cbn [flat_map map filter]. rewrite IH.
    unfold written_in. rewrite W, E. destruct (Z.eqb_spec m 0); [contradiction|].
    unfold multiple. cbn [andb negb]. destruct ((it + 1) mod m =? 0)%Z; reflexivity.
  - cbn. unfold written_at_end. rewrite W. unfold final_file. rewrite Hn. reflexivity.
Qed.

Lemma files_one_distinct : forall m niter,
  NoDup (map (fun k => "opensbli_output_" ++ decpad 6 (Z.to_nat k) ++ ".h5")%string
           (filter (fun k => k mod m =? 0)%Z (map Z.of_nat (seq 1 (Z.to_nat niter))))
         ++ ["opensbli_output.h5"%string]).
Proof.
  intros m niter. apply nodup_snoc.
  - assert (N : NoDup (filter (fun k => k mod m =? 0)%Z (map Z.of_nat (seq 1 (Z.to_nat niter))))).
    { apply NoDup_filter. apply FinFun.Injective_map_NoDup; [|apply seq_NoDup].
      intros a b H. lia. }
    assert (P : forall k, In k (filter (fun k => k mod m =? 0)%Z (map Z.of_nat (seq 1 (Z.to_nat niter)))) -> (1 <= k)%Z).
    { intros k H. apply filter_In in H. destruct H as [H _]. apply in_map_iff in H.
      destruct H as (j & <- & H). apply in_seq in H. lia. }
    revert N P. generalize (filter (fun k => k mod m =? 0)%Z (map Z.of_nat (seq 1 (Z.to_nat niter)))).
    induction l as [|k l IH]; intros N P; cbn [map]; constructor; inversion N; subst.
    + intros Hin. apply in_map_iff in Hin. destruct Hin as (j & Hj & Hin).
      apply append_cancel_l in Hj. apply append_cancel_r in Hj. apply decpad_inj in Hj.
      assert (1 <= k)%Z by (apply P; left; auto). assert (1 <= j)%Z by (apply P; right; auto).
      assert (j = k) by lia. subst. contradiction.
    + apply IH; auto. intros; apply P; right; auto.
  - intros H. apply in_map_iff in H. destruct H as (k & H & _). cbn in H. discriminate.
Qed.

(* ---- C19 ---- *)
Section contributes.
  Variable K : Type.

  Lemma in_at : forall it st (ks : list K) k, In k ks -> In (EKernel k it st) (at_ it st ks).
  Proof. intros. apply in_map_iff. exists k. auto. Qed.

  Lemma in_kernels_at : forall p q (l : list (nonsim K)) n k,
    In n l -> In q (ns_places n) -> same_place p q = true -> In k (ns_kernels n) -> In k (kernels_at p l).
  Proof.
    intros p q l n k H1 H2 H3 H4. unfold kernels_at. apply in_flat_map. exists n. split; auto.
    apply in_flat_map. exists q. rewrite H3. auto.
  Qed.

  Lemma in_step : forall (p : phases K) nst niter mon rqs it e,
    (0 <= it < niter)%Z -> In e (step p nst mon rqs it) -> In e (program_trace p nst niter mon rqs).
  Proof.
    intros. unfold program_trace. apply in_or_app. right. apply in_or_app. left.
    apply in_flat_map. exists it. split; auto. apply in_upto. auto.
  Qed.

  Lemma in_stage : forall (p : phases K) nst mon rqs it st k,
    (0 <= st < nst)%Z -> In k (p_spatial p ++ p_advance p ++ p_bc p) ->
    In (EKernel k (Some it) (Some st)) (step p nst mon rqs it).
  Proof.
    intros. unfold step. apply in_or_app. right. apply in_or_app. left.
    apply in_flat_map. exists st. split; [apply in_upto; auto|]. apply in_at. auto.
  Qed.
End contributes.

(* ---- declarations ---- *)
Section declarations.
  Variable K : Type.
  Notation decls l := (flat_map (@declared K) l).

  Lemma decls_kernels : forall ks : list K, decls (kernels K ks) = [].
  Proof. induction ks; cbn; auto. Qed.
  Lemma decls_app : forall a b : list (stmt K), decls (a ++ b) = decls a ++ decls b.
  Proof. intros. apply flat_map_app. Qed.

  Lemma io_code_decl : forall d r i os, distinct_options r -> made r i -> io_code d i = Ok os ->
    decls (map SWrite os) = if unnamed_write r then [("name" ++ dec (io_block i))%string] else [].
  Proof.
    intros d r i os D M H. unfold unnamed_write.
    destruct (made_spec r i D M) as (Ha & Hn & [(W & _ & Ht)|(W & _ & Ht)]); rewrite W; cbn [andb].
    - unfold io_code in H. rewrite Ht, Hn, Ha in H.
      destruct (string_dec "write" "read") as [e|_]; [discriminate|].
      destruct (string_dec "write" "write") as [_|n]; [|exfalso; apply n; auto].
      apply bind_ok in H. destruct H as ([v f] & H1 & H2).
      destruct (rq_arrays r) as [|a l]; [discriminate|]. injection H2 as <-. cbn.
      destruct (option_value "name" (rq_kwargs r)) as [n|].
      + apply bind_ok in H1. destruct H1 as (n' & _ & H3). destruct d; [discriminate|].
        injection H3 as <- _. reflexivity.
      + injection H1 as <- _. reflexivity.
    - unfold io_code in H. rewrite Ht in H.
      destruct (string_dec "read" "read") as [_|n]; [|exfalso; apply n; auto]. injection H as <-. reflexivity.
  Qed.

  Lemma place_io_decl : forall r i t t', distinct_options r -> made r i ->
    place_io K i (io_places i) t = Ok t' ->
    decls (t_before t') = decls (t_before t) /\
    decls (t_after t') = decls (t_after t) ++
      if unnamed_write r then [("name" ++ dec (io_block i))%string] else [].
  Proof.
    intros r i t t' D M H.
    destruct (made_spec r i D M) as (_ & _ & [(W & Hp & _)|(W & Hp & Ht)]); rewrite Hp in H.
    - unfold write_places in H. destruct (rq_every r =? 0)%Z; cbn [app place_io] in H.
      + apply bind_ok in H. destruct H as (u & H1 & H2). injection H2 as <-.
        apply bind_ok in H1. destruct H1 as (os & H1 & H3). injection H3 as <-.
        cbn [add_after t_before t_after]. rewrite decls_app, (io_code_decl _ _ _ _ D M H1). auto.
      + apply bind_ok in H. destruct H as (u & H1 & H2).
        apply bind_ok in H1. destruct H1 as (os & H1 & H3). injection H3 as <-.
        apply bind_ok in H2. destruct H2 as (u & H2 & H4). injection H4 as <-.
        apply bind_ok in H2. destruct H2 as (os' & H2 & H5). injection H5 as <-.
        cbn [add_after add_in t_before t_after]. rewrite decls_app, (io_code_decl _ _ _ _ D M H2). auto.
    - cbn [place_io] in H. apply bind_ok in H. destruct H as (u & H1 & H2). injection H2 as <-.
      apply bind_ok in H1. destruct H1 as (os & H1 & H3). injection H3 as <-.
      cbn [add_before t_before t_after]. rewrite decls_app, (io_code_decl _ _ _ _ D M H1).
      unfold unnamed_write. rewrite W. cbn. rewrite !app_nil_r. auto.
  Qed.

  Lemma place_all_io_decl : forall known rs is t t' b,
    Forall distinct_options rs -> Forall2 made rs is -> Forall (fun i => io_block i = b) is ->
    place_all_io K known is t = Ok t' ->
    decls (t_before t') = decls (t_before t) /\
    decls (t_after t') = decls (t_after t) ++
      repeat ("name" ++ dec b)%string (List.length (filter unnamed_write rs)).
  Proof.
    intros known rs is t t' b D M B. revert t t' D B.
    induction M as [|r i rs is M1 M IH]; intros t t' D B H.
    - cbn in H. injection H as <-. cbn. rewrite app_nil_r. auto.
    - cbn [place_all_io] in H. destruct (check_datasets known i); [|discriminate].
      apply bind_ok in H. destruct H as (u & H1 & H2).
      inversion D as [|? ? D1 D2]; subst. inversion B as [|? ? B1 B2]; subst.
      destruct (place_io_decl r i t u D1 M1 H1) as (A1 & A2).
      destruct (IH u t' D2 B2 H2) as (A3 & A4). rewrite A3, A4, A1, A2, <- app_assoc.
      split; auto. f_equal. cbn [filter]. destruct (unnamed_write r); reflexivity.
  Qed.

  Lemma decls_assemble : forall a t stage iter,
    decls (assemble K a t stage iter) = decls (t_before t) ++ decls (t_after t).
  Proof. intros. unfold assemble. rewrite decls_app. reflexivity. Qed.

  Lemma made_block : forall rs is,
    Forall2 (fun r i => iohdf5 (rq_arrays r) (rq_every r) (rq_kwargs r) = Ok i) rs is ->
    Forall2 made rs is /\ Forall (fun i => io_block i = 0) is.
  Proof.
    induction 1 as [|r i rs is H _ [IH1 IH2]]; split; constructor; auto.
    - exists i. auto.
    - unfold iohdf5 in H. apply bind_ok in H. destruct H as (ps & _ & H). injection H as <-. reflexivity.
  Qed.

  Lemma single_decls : forall (b : block K) mon rqs prg,
    Forall distinct_options rqs ->
    Forall2 (fun r i => iohdf5 (rq_arrays r) (rq_every r) (rq_kwargs r) = Ok i) rqs (bk_io b) ->
    generate_solution b mon = Ok prg ->
    decls prg = repeat "name0"%string (List.length (filter unnamed_write rqs)).
  Proof.
    intros b mon rqs prg D M H. apply made_block in M. destruct M as [M B].
    unfold generate_solution in H. destruct (bk_schemes b) as [|sc [|]]; try discriminate.
    apply bind_ok in H. destruct H as (a & _ & H).
    apply bind_ok in H. destruct H as (t & P & H). apply bind_ok in H. destruct H as (t' & Q & H).
    injection H as <-. apply place_all_ns_ok in P. destruct P as (P1 & P2 & P3 & _).
    cbn in P1, P3. apply (place_all_io_decl _ _ _ _ _ 0 D M B) in Q. destruct Q as [Q1 Q2].
    rewrite decls_assemble, Q1, Q2.
    destruct mon; cbn [add_in t_before t_after]; rewrite P1, P3, !decls_kernels; reflexivity.
  Qed.
End declarations.
