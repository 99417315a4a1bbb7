(* Proofs for C71: kernels with local variables, executed point by point. *)
From Verif Require Import Base BaseProofs Expr ExprProofs KernelModel ShiftSpec ShiftModel DiscModel DiscSpec DiscProofs DiscRun SomeModel BCModel BCProofs BCMirror.
From Verif Require WorkProofs BCSpec StoreProofs.
From Coq Require Import QArith ZArith Reals Lia Permutation.
Local Close Scope Q_scope.
Local Open Scope list_scope.

(* ---- kernels that read the arrays they write at the point itself only ---- *)
Definition wr (qs : kernel_eqs) (b : string) : Prop := exists q ix, In q qs /\ In (inl (b, ix)) (target q).
Definition own (n : nat) (qs : kernel_eqs) : Prop :=
  (forall q b ix, In q qs -> In (inl (b, ix)) (target q) -> ix = repeat 0%Z n) /\
  (forall q b ix, In q qs -> In (inl (b, ix)) (reads q) -> wr qs b -> ix = repeat 0%Z n).
Section loop.
  Context {V : Type} (J : interp V) (n : nat) (qs : kernel_eqs).
  Hypothesis Own : own n qs.
  Hypothesis Wdec : forall b, wr qs b \/ ~ wr qs b.
  Definition alike (x : list Z) (s s' : (string -> list Z -> V) * (string -> V)) : Prop :=
    (forall b, fst s b x = fst s' b x) /\ (forall b y, ~ wr qs b -> fst s b y = fst s' b y) /\ (forall g, snd s g = snd s' g).
  Lemma alike_step : forall x q s s', List.length x = n -> In q qs -> alike x s s' -> alike x (exec1 J x s q) (exec1 J x s' q).
  Proof.
    intros x q s s' L Hq (A & B & C). destruct q as [l r|bs]; [|split; auto].
    assert (E : at_point J (fst s) (snd s) x r = at_point J (fst s') (snd s') x r).
    { apply at_point_ext; auto. intros b ix Hb. destruct (Wdec b) as [W | W]; auto.
      rewrite (proj2 Own _ b ix Hq) by (auto; apply in_app_iff; left; apply in_map; auto). rewrite vadd_here by auto. auto. }
    destruct l as [z|kd g|b0 ix0|h args]; try (split; auto; fail).
    - destruct kd; try (split; auto; fail). cbn [exec1]. split; [|split]; auto. intros g'. cbn [snd]. unfold updl. rewrite E. destruct (string_dec g g'); auto.
    - cbn [exec1]. split; [|split]; auto; cbn [fst]; intros; unfold upd; rewrite E.
      + destruct (string_dec b0 b); auto. destruct (list_eq_dec Z.eq_dec _ x); auto.
      + destruct (string_dec b0 b) as [-> | N]; auto. exfalso. apply H. exists (KEq (EDat b ix0) r), ix0. split; auto. left. auto.
  Qed.
  Lemma alike_run : forall x l s s', List.length x = n -> incl l qs -> alike x s s' -> alike x (fold_left (exec1 J x) l s) (fold_left (exec1 J x) l s').
  Proof.
    intros x. induction l as [|q l IH]; intros s s' L Hl H; cbn [fold_left]; auto. apply IH; auto; [intros q' Hq; apply Hl; right; auto|].
    apply alike_step; auto. apply Hl. left. auto.
  Qed.
  Lemma point_other : forall x y M b, List.length x = n -> x <> y -> fst (run_point J qs M x) b y = M b y.
  Proof.
    intros x y M b L N. unfold run_point. rewrite run_frame; auto. intros q ix Hq Ht.
    rewrite (proj1 Own q b ix Hq Ht). rewrite vadd_here by auto. auto.
  Qed.
  Lemma point_frame : forall x y M b, ~ wr qs b -> fst (run_point J qs M x) b y = M b y.
  Proof.
    intros x y M b N. unfold run_point. rewrite run_frame; auto. intros q ix Hq Ht. exfalso. apply N. exists q, ix. auto.
  Qed.
  Lemma loop_run : forall pts M x b, NoDup pts -> (forall y, In y pts -> List.length y = n) ->
    run_kernel J qs pts M b x = if in_dec (list_eq_dec Z.eq_dec) x pts then fst (run_point J qs M x) b x else M b x.
  Proof.
    unfold run_kernel. induction pts as [|p pts IH]; intros M x b ND HL; [reflexivity|]. cbn [fold_left].
    apply NoDup_cons_iff in ND. destruct ND as [Np ND]. rewrite IH by (auto; intros; apply HL; right; auto).
    assert (Lp : List.length p = n) by (apply HL; left; auto).
    destruct (in_dec (list_eq_dec Z.eq_dec) x pts) as [H | H]; destruct (in_dec (list_eq_dec Z.eq_dec) x (p :: pts)) as [H' | H'].
    - assert (N : p <> x) by (intros ->; auto). refine (proj1 (alike_run x qs (fst (run_point J qs M p), isym J KGridVar) (M, isym J KGridVar) _ _ _) b); [apply HL; right; auto | apply incl_refl |]. split; [|split]; cbn [fst snd]; auto; intros.
      + apply point_other; auto.
      + apply point_frame. auto.
    - exfalso. apply H'. right. auto.
    - destruct H' as [<- | H']; [auto | contradiction].
    - apply point_other; auto. intros ->. apply H'. left. auto.
  Qed.
  Lemma loop_frame : forall pts M x b, ~ wr qs b -> run_kernel J qs pts M b x = M b x.
  Proof.
    unfold run_kernel. induction pts as [|p pts IH]; intros M x b N; cbn [fold_left]; auto. rewrite IH by auto. apply point_frame. auto.
  Qed.
End loop.

(* ---- symbols ---- *)
Lemma syms_replace1 : forall kd old b ix e, syms kd (replace1 old (EDat b ix) e) = syms kd e.
Proof.
  intros kd old b ix. induction e as [q|k s|c jx|h args IH] using expr_ind'; auto.
  - cbn [replace1]. destruct (dset_eq_dec (c, jx) old); auto.
  - cbn [replace1]. rewrite !syms_app. rewrite flat_map_concat_map, map_map, <- flat_map_concat_map.
    induction IH as [|a l Ha Hl IHl]; auto. cbn [flat_map]. rewrite Ha, IHl. auto.
Qed.
Lemma syms_loop : forall kd d v order e e', shift_loop d v order e = Ok e' -> syms kd e' = syms kd e.
Proof.
  induction order as [|y order IH]; intros e e' H; cbn [shift_loop] in H; [congruence|].
  destruct (Nat.ltb d (List.length (snd y))); [|discriminate]. rewrite (IH _ _ H). apply syms_replace1.
Qed.
Lemma syms_terms : forall kd d orders e pw form e', disc_terms d orders e pw form = Ok e' ->
  syms kd e = [] -> syms kd form = [] -> syms kd e' = [].
Proof.
  induction pw as [|[p w] pw IH]; intros form e' H He Hf; cbn [disc_terms] in H; [congruence|].
  destruct (shift_loop d p (orders p) e) as [s|] eqn:Es; [|discriminate]. cbn [bind] in H. apply (IH _ _ H); auto.
  rewrite !syms_app. cbn [flat_map]. rewrite Hf. rewrite !syms_app. cbn [flat_map syms]. rewrite (syms_loop kd _ _ _ _ _ Es), He. reflexivity.
Qed.
Lemma syms_discretise : forall kd k dirof inv dord v r, discretise k dirof inv dord v = Ok r ->
  (forall d m, syms kd (inv d m) = []) -> syms kd (cd_arg v) = [] -> syms kd r = [].
Proof.
  intros kd k dirof inv dord v r H Hi Ha. unfold discretise in H. destruct (homogeneous dirof v); [|discriminate].
  unfold discretise_derivative in H. destruct (dsets (cd_arg v)) as [|x0 l] eqn:E0; [discriminate|].
  destruct (disc_terms _ _ _ _ _) as [form|] eqn:Ef; [|discriminate]. cbn [bind] in H. injection H as <-.
  rewrite syms_app. cbn [flat_map]. rewrite Hi, (syms_terms _ _ _ _ _ _ _ Ef) by auto. reflexivity.
Qed.
Lemma no_syms_arg : forall kd h args a, syms kd (EApp h args) = [] -> In a args -> syms kd a = [].
Proof.
  intros kd h args a H Ha. rewrite syms_app in H. destruct (syms kd a) as [|s l] eqn:E; auto.
  assert (In s (flat_map (syms kd) args)) by (apply in_flat_map; exists a; rewrite E; split; [auto | left; auto]). rewrite H in H0. destruct H0.
Qed.
Lemma local_name_inj : forall i j, local_name i = local_name j -> i = j.
Proof. intros i j H. unfold local_name in H. cbn in H. apply dec_inj. congruence. Qed.

(* ---- local variables for derivatives that contain no other derivative ---- *)
Section locals.
Variables (J : interp R) (k ndim : nat) (dirof : string -> nat) (h : nat -> R).
Notation SEM := (sem J k dirof h).
Notation loc_sem L := (sem (with_locals J L) k dirof h).

Lemma sem_locals : forall L M e x, syms KGridVar e = [] -> loc_sem L M e x = SEM M e x.
Proof.
  intros L M. induction e as [q|kd s|b ix|hd args IH] using expr_ind'; intros x H; auto.
  - destruct kd; try reflexivity. discriminate.
  - rewrite Forall_forall in IH.
    assert (A : forall a y, In a args -> loc_sem L M a y = SEM M a y) by (intros; apply IH; auto; eapply no_syms_arg; eauto).
    assert (E : map (fun a => loc_sem L M a x) args = map (fun a => SEM M a x) args) by (apply map_ext_in; auto).
    destruct hd; cbn [sem]; try (rewrite E; reflexivity).
    destruct args as [|a args]; [reflexivity|]. apply FDProofs.grid_ext. intros i. apply A. left. auto.
Qed.
Definition flat (e : expr) : Prop := forall v, In v (cds_post e) -> cds_post v = [v].
Lemma flat_arg : forall hd args a, flat (EApp hd args) -> In a args -> flat a.
Proof. intros hd args a H Ha v Hv. apply H. rewrite cds_post_app. apply in_app_iff. left. apply in_flat_map. eauto. Qed.
Lemma subst1_id : forall d new e, is_cd d = true -> ~ In d (cds_post e) -> subst1 d new e = e.
Proof.
  intros d new. induction e as [q|kd s|b ix|hd args IH] using expr_ind'; intros Hd N;
    try (cbn [subst1]; destruct (expr_eq_dec _ d) as [E | E]; [subst d; discriminate | reflexivity]).
  rewrite subst1_app. destruct (expr_eq_dec (EApp hd args) d) as [E | E].
  - exfalso. apply N. rewrite cds_post_app, E, Hd. apply in_app_iff. right. left. auto.
  - f_equal. rewrite <- (map_id args) at 2. apply map_ext_in. intros a Ha. rewrite Forall_forall in IH. apply IH; auto.
    intros Hin. apply N. rewrite cds_post_app. apply in_app_iff. left. apply in_flat_map. eauto.
Qed.
Lemma flat_cd_args : forall hd args, flat (EApp hd args) -> is_cd (EApp hd args) = true -> flat_map cds_post args = [].
Proof.
  intros hd args H C. specialize (H (EApp hd args)). rewrite cds_post_app, C in H.
  assert (E : flat_map cds_post args ++ [EApp hd args] = [EApp hd args]) by (apply H; apply in_app_iff; right; left; auto).
  destruct (flat_map cds_post args) as [|z l]; auto. apply (f_equal (@List.length expr)) in E. rewrite app_length in E. cbn in E. lia.
Qed.
Lemma subst_cd_args : forall d new hd args, is_cd d = true -> flat (EApp hd args) -> is_cd (EApp hd args) = true -> EApp hd args <> d ->
  subst1 d new (EApp hd args) = EApp hd args.
Proof.
  intros d new hd args Hd F C N. apply subst1_id; auto. rewrite cds_post_app, C, (flat_cd_args _ _ F C). intros [E | []]. auto.
Qed.
Lemma is_cd_map : forall f hd args, is_cd (EApp hd (map f args)) = is_cd (EApp hd args).
Proof. intros f hd args. destruct hd; auto. destruct args; auto. Qed.
Lemma cds_subst : forall d g e, is_cd d = true -> flat e ->
  forall v, In v (cds_post (subst1 d (ESym KGridVar g) e)) <-> In v (cds_post e) /\ v <> d.
Proof.
  intros d g. induction e as [q|kd s|b ix|hd args IH] using expr_ind'; intros Hd F v.
  1, 2, 3: rewrite subst1_id by auto; cbn [cds_post]; tauto.
  destruct (is_cd (EApp hd args)) eqn:C.
  - destruct (expr_eq_dec (EApp hd args) d) as [E | N].
    + rewrite subst1_app. destruct (expr_eq_dec (EApp hd args) d); [|contradiction]. rewrite cds_post_app, C, (flat_cd_args _ _ F C). cbn. subst d.
      split; [intros [] | intros [[E | []] N]; auto].
    + rewrite subst_cd_args by auto. rewrite cds_post_app, C, (flat_cd_args _ _ F C). cbn. split; [intros [<- | []]; auto | tauto].
  - rewrite subst1_app. destruct (expr_eq_dec (EApp hd args) d) as [E | N]; [congruence|].
    rewrite !cds_post_app, is_cd_map, C, !app_nil_r. rewrite !in_flat_map. rewrite Forall_forall in IH. split.
    + intros (a' & Ha & Hv). apply in_map_iff in Ha. destruct Ha as (a & <- & Ha). apply IH in Hv; auto; [|eapply flat_arg; eauto].
      split; [exists a; tauto | tauto].
    + intros ((a & Ha & Hv) & Nv). exists (subst1 d (ESym KGridVar g) a). split; [apply in_map; auto|]. apply IH; auto. eapply flat_arg; eauto.
Qed.
Lemma sem_subst : forall J' M d g e x, is_cd d = true -> flat e -> isym J' KGridVar g = sem J' k dirof h M d x ->
  sem J' k dirof h M (subst1 d (ESym KGridVar g) e) x = sem J' k dirof h M e x.
Proof.
  intros J' M d g e x Hd F Hg. revert F. induction e as [q|kd s|b ix|hd args IH] using expr_ind'; intros F.
  1, 2, 3: rewrite subst1_id by auto; reflexivity.
  rewrite subst1_app. destruct (expr_eq_dec (EApp hd args) d) as [E | N]; [rewrite E; exact Hg|].
  destruct (is_cd (EApp hd args)) eqn:C.
  - pose proof (subst_cd_args d (ESym KGridVar g) hd args Hd F C N) as X. rewrite subst1_app in X.
    destruct (expr_eq_dec (EApp hd args) d); [contradiction|]. rewrite X. reflexivity.
  - assert (E : map (fun a => sem J' k dirof h M a x) (map (subst1 d (ESym KGridVar g)) args) = map (fun a => sem J' k dirof h M a x) args).
    { rewrite map_map. apply map_ext_in. intros a Ha. rewrite Forall_forall in IH. apply IH; auto. eapply flat_arg; eauto. }
    destruct hd; cbn [sem]; try (rewrite E; reflexivity). destruct args; [reflexivity | discriminate].
Qed.
Definition replace_all (l : list (expr * expr)) (e : expr) : expr := fold_left (fun e dg => subst1 (fst dg) (snd dg) e) l e.
Lemma replace_all_ok : forall J' M x l e, flat e ->
  (forall d g, In (d, g) l -> is_cd d = true /\ exists s, g = ESym KGridVar s /\ isym J' KGridVar s = sem J' k dirof h M d x) ->
  sem J' k dirof h M (replace_all l e) x = sem J' k dirof h M e x /\
  (forall v, In v (cds_post (replace_all l e)) <-> In v (cds_post e) /\ ~ In v (map fst l)).
Proof.
  intros J' M x. unfold replace_all. induction l as [|[d g] l IH]; intros e F H; cbn [fold_left fst snd map].
  - split; auto. intros v. cbn. tauto.
  - destruct (H d g (or_introl eq_refl)) as (Hd & s & -> & Hs). pose proof (cds_subst d s e Hd F) as CS.
    destruct (IH (subst1 d (ESym KGridVar s) e)) as [A B].
    + intros v Hv. apply F. apply CS in Hv. tauto.
    + intros d' g' Hin. apply H. right. auto.
    + split; [rewrite A; apply sem_subst; auto|]. intros v. rewrite B, CS. cbn. split; intros; intuition congruence.
Qed.
Lemma dsets_replace_all : forall l e b, (forall d g, In (d, g) l -> dsets g = []) -> In b (dsets (replace_all l e)) -> In b (dsets e).
Proof.
  unfold replace_all. induction l as [|[d g] l IH]; intros e b H Hb; cbn [fold_left] in Hb; auto.
  apply IH in Hb; [|intros d' g' Hin; apply (H d' g'); right; auto]. cbn [fst snd] in Hb. apply StoreProofs.dsets_subst1 in Hb. destruct Hb as [Hb | Hb]; auto.
  rewrite (H d g (or_introl eq_refl)) in Hb. destruct Hb.
Qed.
End locals.

(* ---- the statements of a kernel at one point ---- *)
Lemma locals_run : forall (J : interp R) x M rs st L, (forall r, In r rs -> syms KGridVar r = []) ->
  exists L', fold_left (exec1 J x) (map (fun gr => KEq (fst gr) (snd gr)) (combine (map (fun i => ESym KGridVar (local_name i)) (seq st (List.length rs))) rs)) (M, L) = (M, L') /\
    (forall i r, nth_error rs i = Some r -> L' (local_name (st + i)) = value J M x r) /\
    (forall g, (forall i, (st <= i)%nat -> g <> local_name i) -> L' g = L g).
Proof.
  intros J x M. induction rs as [|r rs IH]; intros st L H.
  - exists L. split; [reflexivity|]. split; auto. intros i r. destruct i; discriminate.
  - cbn [List.length seq map combine fold_left fst snd exec1].
    destruct (IH (S st) (updl L (local_name st) (at_point J M L x r))) as (L' & E & A & B); [intros q Hq; apply H; right; auto|].
    exists L'. split; [exact E|]. split.
    + intros [|i] q Hq.
      * cbn in Hq. injection Hq as <-. rewrite Nat.add_0_r. rewrite B by (intros i Hi C; apply local_name_inj in C; lia).
        rewrite updl_same. apply at_point_value. apply H. left. auto.
      * cbn in Hq. rewrite Nat.add_succ_r. apply (A i q Hq).
    + intros g Hg. rewrite B by (intros i Hi; apply Hg; lia). apply updl_other. intros E2. apply (Hg st); auto.
Qed.
Lemma sets_run : forall (J : interp R) ndim x, List.length x = ndim -> forall qs M L,
  NoDup (map fst qs) ->
  (forall r e b ix, In (r, e) qs -> In (b, ix) (dsets e) -> ~ In b (map fst qs) \/ (b = r /\ ix = repeat 0%Z ndim)) ->
  forall r e, In (r, e) qs ->
  fst (fold_left (exec1 J x) (map (fun re => KEq (here ndim (fst re)) (snd re)) qs) (M, L)) r x = at_point J M L x e.
Proof.
  intros J ndim x Lx. induction qs as [|[r0 e0] qs IH]; intros M L ND H r e Hin; [destruct Hin|].
  cbn [map fst] in ND. apply NoDup_cons_iff in ND. destruct ND as [N0 ND]. cbn [map fold_left fst snd]. unfold here at 2. cbn [exec1 fst snd].
  rewrite vadd_here by auto. destruct Hin as [E | Hin].
  - injection E as -> ->. rewrite run_frame; [cbn [fst]; apply upd_same|].
    intros q ix Hq Ht. apply in_map_iff in Hq. destruct Hq as ([r1 e1] & <- & Hq). destruct Ht as [Ht | []]. cbn [fst] in Ht. injection Ht as -> _.
    exfalso. apply N0. change r with (fst (r, e1)). apply in_map. auto.
  - rewrite (IH _ L ND) with (e := e); auto.
    + apply at_point_ext; auto. intros b ix Hb. apply upd_other. 
      destruct (H r e b ix (or_intror Hin) Hb) as [Nb | [-> ->]]; left; intros ->.
      * apply Nb. left. auto.
      * apply N0. change r with (fst (r, e)). apply in_map. auto.
    + intros r1 e1 b ix H1 Hb. destruct (H r1 e1 b ix (or_intror H1) Hb) as [Nb | Q]; auto. left. intros C. apply Nb. right. auto.
Qed.
