(* From the conditions of the specification to the residual. *)
From Verif Require Import Base BaseProofs Expr ExprProofs FDSpec FDModel FDProofs WorkModel WorkProofs ShiftSpec ShiftModel ShiftProofs AdvProofs DiscSpec DiscModel DiscProofs DiscRun.
From Coq Require Import QArith ZArith Reals Lia Lra List Permutation FinFun.
Import ListNotations.
Local Close Scope Q_scope.
Local Open Scope list_scope.

Lemma is_cd_derivative : forall v, is_cd v = true <-> derivative v.
Proof.
  intros v. split.
  - destruct v as [| | |h args]; try discriminate. destruct h; try discriminate. destruct args; [discriminate|].
    intros _. eexists _, _. reflexivity.
  - intros (a & cs & ->). reflexivity.
Qed.
Lemma in_cds : forall e v, In v (cds_post e) <-> inside v e /\ derivative v.
Proof. intros. rewrite cds_inside, is_cd_derivative. tauto. Qed.
Lemma nderivs_len : forall e, nderivs e = List.length (cds_post e).
Proof.
  induction e as [q|kd n|b ix|h args IH] using expr_ind'; auto. rewrite cds_post_app, app_length.
  cbn [nderivs].
  assert (E : (fix go l := match l with [] => 0 | x :: l => nderivs x + go l end)%nat args = List.length (flat_map cds_post args)).
  { induction IH as [|a l Ha Hl IHl]; auto. cbn [flat_map]. rewrite app_length, Ha, IHl. auto. }
  rewrite E. destruct h; cbn [is_cd]; try (destruct args; cbn [List.length]; lia); cbn [List.length]; lia.
Qed.

Lemma has_re_spec : forall t, has_re t = true <-> viscous_term t.
Proof.
  intros t. unfold has_re, viscous_term. rewrite existsb_exists. split.
  - intros (x & Hx & E). apply String.eqb_eq in E. subst x. auto.
  - intros H. exists "Re"%string. auto.
Qed.

Lemma no_function_args : forall hd args a, no_function (EApp hd args) -> In a args -> no_function a.
Proof. intros hd args a H Ha f l Hi. apply (H f l). econstructor; eauto. Qed.
Lemma map_zero_id : forall l, (forall a, In a l -> no_function a) -> map zero_functions l = l.
Proof. intros l H. rewrite <- (map_id l) at 2. apply map_ext_in. intros a Ha. apply zero_functions_id. auto. Qed.
Lemma classify_form : forall rhs, (exists args, rhs = EApp HAdd args \/ rhs = EApp HMul args) -> no_function rhs ->
  (forall v, In v (cds_post (fst (classify rhs))) <-> exists t, In t (terms rhs) /\ has_re t = true /\ In v (cds_post t)) /\
  (forall v, In v (cds_post (snd (classify rhs))) <-> exists t, In t (terms rhs) /\ has_re t = false /\ In v (cds_post t)) /\
  (forall b, In b (dsets (fst (classify rhs))) -> In b (dsets rhs)) /\
  (forall b, In b (dsets (snd (classify rhs))) -> In b (dsets rhs)).
Proof.
  intros rhs (args & [-> | ->]) NF.
  - cbn [classify fst snd zero_functions terms].
    assert (Z : forall p, map zero_functions (filter p args) = filter p args).
    { intros p. apply map_zero_id. intros a Ha. apply filter_In in Ha. eapply no_function_args; [exact NF | tauto]. }
    rewrite !Z.
    assert (C : forall p v, In v (cds_post (EApp HAdd (filter p args))) <-> exists t, In t args /\ p t = true /\ In v (cds_post t)).
    { intros p v. rewrite cds_post_app. cbn [is_cd]. rewrite app_nil_r, in_flat_map. split.
      - intros (t & Ht & Hv). apply filter_In in Ht. exists t. tauto.
      - intros (t & Ht & Hp & Hv). exists t. split; auto. apply filter_In. auto. }
    assert (D : forall p b, In b (dsets (EApp HAdd (filter p args))) -> In b (dsets (EApp HAdd args))).
    { intros p b. rewrite !dsets_app, !in_flat_map. intros (t & Ht & Hb). apply filter_In in Ht. exists t. tauto. }
    split; [apply C|]. split; [|split; apply D].
    intros v. rewrite C. split; intros (t & A & B & E); exists t; (split; [auto | split; [|auto]]);
      destruct (has_re t); cbn in *; congruence.
  - unfold classify. cbn [terms]. destruct (has_re (EApp HMul args)) eqn:HR; cbn [fst snd];
      change (zero_functions (ENum 0)) with (ENum 0); rewrite (zero_functions_id _ NF).
    + split. { intros v. split; [intros H; exists (EApp HMul args); cbn; auto | intros (t & [<- | []] & _ & H); auto]. }
      split. { intros v. split; [intros [] | intros (t & [<- | []] & E & _); congruence]. }
      split; [auto | intros b []].
    + split. { intros v. split; [intros [] | intros (t & [<- | []] & E & _); congruence]. }
      split. { intros v. split; [intros H; exists (EApp HMul args); cbn; auto | intros (t & [<- | []] & _ & H); auto]. }
      split; [intros b [] | auto].
Qed.
Lemma keeps_id : forall rhs, (exists args, rhs = EApp HAdd args \/ rhs = EApp HMul args) -> no_function rhs -> keeps rhs = rhs.
Proof. intros rhs (args & [-> | ->]) NF; unfold keeps; apply zero_functions_id; auto. Qed.

Lemma inside_dsets : forall v e b, inside v e -> In b (dsets v) -> In b (dsets e).
Proof.
  intros v e b H. induction H; auto. intros Hb. rewrite dsets_app. apply in_flat_map. eauto.
Qed.
Lemma inside_syms : forall kd v e b, inside v e -> In b (syms kd v) -> In b (syms kd e).
Proof.
  intros kd v e b H. induction H; auto. intros Hb. rewrite syms_app. apply in_flat_map. eauto.
Qed.
Lemma fewer_coordinates : forall c v n, inside c v -> In n (syms KCoord v) -> ~ In n (syms KCoord c) ->
  (coordinates c < coordinates v)%nat.
Proof.
  intros c v n Hi Hv Hc. unfold coordinates.
  assert (H : (List.length (n :: nodup string_dec (syms KCoord c)) <= List.length (nodup string_dec (syms KCoord v)))%nat).
  { apply NoDup_incl_length.
    - constructor; [rewrite nodup_In; auto | apply NoDup_nodup].
    - intros x [<- | Hx]; apply nodup_In; auto. apply nodup_In in Hx. eapply inside_syms; eauto. }
  cbn in H. lia.
Qed.
Lemma terms_inside : forall rhs t, In t (terms rhs) -> inside t rhs.
Proof.
  intros rhs t H. destruct rhs as [| | |hd args]; try (destruct H as [<- | []]; constructor).
  destruct hd; try (destruct H as [<- | []]; constructor). cbn in H. econstructor; eauto. constructor.
Qed.

Lemma grid_point_range : forall k sizes x, grid_point sizes x <-> in_range k sizes [] x = true.
Proof.
  intros k sizes x. unfold in_range. rewrite andb_true_iff, Nat.eqb_eq, forallb_forall. split.
  - intros H. split; [clear - H; induction H; cbn; congruence|]. intros d Hd. apply in_seq in Hd. cbn [existsb].
    assert (G : forall d, (d < List.length sizes)%nat -> (0 <= nth d x 0 < nth d sizes 0)%Z).
    { clear d Hd. induction H; intros d Hd; cbn in Hd; [lia|]. destruct d; cbn [nth]; [auto|]. apply IHForall2. lia. }
    specialize (G d). rewrite andb_true_iff, Z.leb_le, Z.ltb_lt. lia.
  - intros (L & H).
    assert (G : forall d, (d < List.length sizes)%nat -> (0 <= nth d x 0 < nth d sizes 0)%Z).
    { intros d Hd. specialize (H d). rewrite in_seq in H. cbn [existsb] in H.
      rewrite andb_true_iff, Z.leb_le, Z.ltb_lt in H. lia. }
    clear H. revert x L G. unfold grid_point. induction sizes as [|s sizes IH]; intros x L G; destruct x as [|i x]; try discriminate; constructor.
    + apply (G 0%nat). cbn. lia.
    + apply IH; [cbn in L; lia|]. intros d Hd. apply (G (S d)). cbn. lia.
Qed.

Section main.
Variables (J : interp R) (k ndim : nat) (dirof : string -> nat) (inv : nat -> nat -> expr)
  (dord : expr -> list dset) (sord : list (expr * string) -> list (expr * string)) (h : nat -> R) (sizes : list Z).
Hypothesis HJ : real_arithmetic J.
Hypothesis Hinv : forall M x d m, value J M x (inv d m) = (/ h d ^ m)%R.
Hypothesis Hdord : forall e, enumerates (dord e) e.
Hypothesis Hsz : List.length sizes = ndim.
Hypothesis Hperm : forall l, Permutation l (sord l).
Hypothesis Hinner : forall l l', Permutation l l' -> inner_first l' -> inner_first (sord l).
Definition reserved (b : string) : Prop := exists i, b = wk_name i.
Variable eqs : list (string * expr).
Hypothesis WF : well_formed ndim dirof reserved eqs.
Variables ccds vcds : list expr.
Hypothesis HC : lists_derivatives eqs (fun t => ~ viscous_term t) ccds.
Hypothesis HV : lists_derivatives eqs viscous_term vcds.

Lemma notwork_reserved : forall b, ~ reserved b -> notwork b.
Proof. intros b H i E. apply H. exists i. auto. Qed.

Lemma wf_orig : forall r rhs v, In (r, rhs) eqs -> inside v rhs -> derivative v -> orig ndim dirof v.
Proof.
  intros r rhs v Hin Hi Hd. split; [eapply wf_derivative; eauto|]. split.
  - intros b ix Hb. eapply (wf_arrays _ _ _ _ WF r rhs b ix); auto. eapply inside_dsets; eauto.
  - intros b ix Hb. apply notwork_reserved. eapply (wf_arrays _ _ _ _ WF r rhs b ix); auto. eapply inside_dsets; eauto.
Qed.

Lemma ccds_ok : forall v, In v ccds -> orig ndim dirof v /\ cds_post v = [v].
Proof.
  intros v Hv. apply (proj2 HC) in Hv. destruct Hv as (Hd & r & rhs & t & Hin & Ht & Hnv & Hi).
  split. { eapply wf_orig; eauto. eapply inside_trans; eauto. apply terms_inside. auto. }
  pose proof (wf_convective _ _ _ _ WF r rhs t v Hin Ht Hnv Hi Hd) as L. rewrite nderivs_len in L.
  assert (Hs : In v (cds_post v)) by (apply in_cds; split; [constructor | auto]).
  destruct (cds_post v) as [|a [|b l]]; [destruct Hs | destruct Hs as [<- | []]; auto | cbn in L; lia].
Qed.
Lemma vcds_ok : forall v, In v vcds -> orig ndim dirof v /\ shallow vcds v.
Proof.
  intros v Hv. assert (Hv' := Hv). apply (proj2 HV) in Hv'. destruct Hv' as (Hd & r & rhs & t & Hin & Ht & Hnv & Hi).
  assert (Or : orig ndim dirof v). { eapply wf_orig; eauto. eapply inside_trans; eauto. apply terms_inside. auto. }
  split; auto.
  destruct (wf_viscous _ _ _ _ WF r rhs t v Hin Ht Hnv Hi Hd) as (L & Co). rewrite nderivs_len in L.
  destruct Or as ((a & n & m & Ev & Hdn & Hne) & _).
  assert (E : cds_post v = cds_post a ++ [v]) by (rewrite Ev; apply cds_cd).
  unfold shallow. rewrite E in L. rewrite app_length in L. cbn in L.
  destruct (cds_post a) as [|c [|c' l]] eqn:Ea; [left; auto | | cbn in L; lia].
  right. exists c. split; [auto|].
  assert (Hca : In c (cds_post a)) by (rewrite Ea; left; auto). apply in_cds in Hca. destruct Hca as (Hia & Hcd).
  assert (Hcv : inside c v) by (rewrite Ev; econstructor; [left; reflexivity | auto]).
  split.
  - apply (proj2 HV). split; auto. exists r, rhs, t. split; [auto|split; [auto|split; [auto|]]]. eapply inside_trans; eauto.
  - apply (fewer_coordinates c v n); auto.
    + rewrite Ev, syms_app. apply in_flat_map. exists (ESym KCoord n). split; [right; left; auto | left; auto].
    + apply (Co a n (repeat (ESym KCoord n) m)); auto.
Qed.

Lemma part_ok : forall (sel : expr -> expr) cds,
  (forall rhs b, (exists r, In (r, rhs) eqs) -> In b (dsets (sel rhs)) -> In b (dsets rhs)) ->
  (forall r rhs v, In (r, rhs) eqs -> In v (cds_post (sel rhs)) -> In v cds) ->
  eqs_ok cds (map (fun re => (fst re, sel (snd re))) eqs).
Proof.
  intros sel cds Hd Hcv. unfold eqs_ok.
  assert (F : map fst (map (fun re : string * expr => (fst re, sel (snd re))) eqs) = map fst eqs) by (rewrite map_map; reflexivity).
  rewrite F. split; [eapply wf_distinct; eauto|].
  intros r e Hin. apply in_map_iff in Hin. destruct Hin as ([r0 rhs] & E & Hin). cbn [fst snd] in E. injection E as -> <-.
  split; [apply notwork_reserved; eapply wf_residual; eauto|].
  assert (X : forall b ix, In (b, ix) (dsets (sel rhs)) -> ~ reserved b /\ ~ In b (map fst eqs)).
  { intros b ix Hb. apply Hd in Hb; [|eauto]. eapply (wf_arrays _ _ _ _ WF r rhs b ix) in Hb; auto. tauto. }
  split. { intros b ix Hb. apply notwork_reserved. apply (X b ix Hb). }
  split. { intros v Hv. eapply Hcv; eauto. }
  intros b ix Hb. apply (X b ix Hb).
Qed.

Theorem residual_ok : ccds <> [] ->
  (vcds = [] -> forall r rhs t, In (r, rhs) eqs -> In t (terms rhs) -> ~ viscous_term t) ->
  exists ks, sbli_rhs_discretisation k ndim dirof inv dord sord ccds vcds eqs = Ok ks /\
    forall M, (forall r rhs x, In (r, rhs) eqs -> grid_point sizes x ->
        exec J k sizes ks M r x = sem J k dirof h M rhs x) /\
      (forall b x, ~ reserved b -> ~ In b (map fst eqs) -> exec J k sizes ks M b x = M b x).
Proof.
  intros Hne Hnv. unfold sbli_rhs_discretisation.
  set (V := map (fun re : string * expr => (fst re, fst (classify (snd re)))) eqs).
  set (C := map (fun re : string * expr => (fst re, snd (classify (snd re)))) eqs).
  assert (CF : forall r rhs, In (r, rhs) eqs -> _) by
    (intros r rhs Hin; exact (classify_form rhs (wf_form _ _ _ _ WF r rhs Hin) (wf_function _ _ _ _ WF r rhs Hin))).
  destruct (convective_ok J k ndim dirof inv dord sord h sizes HJ Hinv Hdord Hsz ccds C Hne (proj1 HC) ccds_ok) as (kc & Ec & Xc).
  { apply (part_ok (fun rhs => snd (classify rhs))).
    - intros rhs b (r & Hin). apply (CF r rhs Hin).
    - intros r rhs v Hin Hv. apply (CF r rhs Hin) in Hv. destruct Hv as (t & Ht & HR & Hv). apply in_cds in Hv.
      apply (proj2 HC). split; [tauto|]. exists r, rhs, t. split; [auto|split; [auto|split; [|tauto]]].
      rewrite <- has_re_spec. congruence. }
  { exact Hperm. }
  rewrite Ec. cbn [bind].
  assert (FV : map fst V = map fst eqs) by (unfold V; rewrite map_map; reflexivity).
  assert (FC : map fst C = map fst eqs) by (unfold C; rewrite map_map; reflexivity).
  assert (InV : forall r rhs, In (r, rhs) eqs -> In (r, fst (classify rhs)) V).
  { intros r rhs Hin. unfold V. change (r, fst (classify rhs)) with ((fun re : string * expr => (fst re, fst (classify (snd re)))) (r, rhs)). apply in_map. auto. }
  assert (InC : forall r rhs, In (r, rhs) eqs -> In (r, snd (classify rhs)) C).
  { intros r rhs Hin. unfold C. change (r, snd (classify rhs)) with ((fun re : string * expr => (fst re, snd (classify (snd re)))) (r, rhs)). apply in_map. auto. }
  assert (Split : forall M r rhs x, In (r, rhs) eqs ->
    (sem J k dirof h M (snd (classify rhs)) x + sem J k dirof h M (fst (classify rhs)) x = sem J k dirof h M rhs x)%R).
  { intros M r rhs x Hin. rewrite Rplus_comm, classify_sum by auto. rewrite keeps_id; auto; [eapply wf_form | eapply wf_function]; eauto. }
  destruct vcds as [|v0 vc] eqn:Evc.
  - cbn [viscous_kernels bind]. eexists. split; [reflexivity|]. intros M. rewrite app_nil_r.
    destruct (Xc M) as (Fc & Xr). split; [|intros b x Nb Nr; apply Fc; [apply notwork_reserved; auto | rewrite FC; auto]].
    intros r rhs x Hin Hx. apply grid_point_range with (k := k) in Hx. rewrite (Xr r (snd (classify rhs)) x (InC _ _ Hin) Hx).
    rewrite <- (Split M r rhs x Hin).
    assert (Z : sem J k dirof h M (fst (classify rhs)) x = 0%R).
    { assert (NR : forall t, In t (terms rhs) -> has_re t = false).
      { intros t Ht. destruct (has_re t) eqn:HR; auto. exfalso. apply has_re_spec in HR. eapply Hnv; eauto. }
      destruct (wf_form _ _ _ _ WF r rhs Hin) as (args & [-> | ->]).
      - cbn [classify fst zero_functions]. rewrite sem_add by auto.
        replace (filter has_re args) with (@nil expr); [reflexivity|].
        symmetry. cbn [terms] in NR. clear - NR. induction args as [|a l IH]; cbn; auto.
        rewrite (NR a) by (left; auto). apply IH. intros; apply NR; right; auto.
      - unfold classify. rewrite (NR (EApp HMul args)) by (left; auto). cbn [fst zero_functions]. apply sem_num0. auto. }
    rewrite Z. lra.
  - rewrite <- Evc in *.
    destruct (viscous_ok J k ndim dirof inv dord sord h sizes HJ Hinv Hdord Hsz vcds (proj1 HV) vcds_ok V) as (kv & Ekv & Xv).
    { congruence. }
    { apply (part_ok (fun rhs => fst (classify rhs))).
      - intros rhs b (r & Hin). apply (CF r rhs Hin).
      - intros r rhs v Hin Hv. apply (CF r rhs Hin) in Hv. destruct Hv as (t & Ht & HR & Hv). apply in_cds in Hv.
        apply (proj2 HV). split; [tauto|]. exists r, rhs, t. split; [auto|split; [auto|split; [|tauto]]].
        rewrite <- has_re_spec. congruence. }
    { exact Hperm. }
    { eapply Hinner; [|apply (inner_first_sorted ndim dirof sizes Hsz vcds (proj1 HV) vcds_ok)]. apply Permutation_map. symmetry. apply csort_perm. }
    rewrite Ekv. cbn [bind]. eexists. split; [reflexivity|]. intros M. rewrite exec_app.
    destruct (Xc M) as (Fc & Xr). destruct (Xv (exec J k sizes kc M)) as (Fv & Xw).
    split; [|intros b x Nb Nr; rewrite Fv, Fc; auto; rewrite ?FC, ?FV; auto using notwork_reserved].
    intros r rhs x Hin Hx. apply grid_point_range with (k := k) in Hx.
    rewrite (Xw r (fst (classify rhs)) x (InV _ _ Hin) Hx). rewrite (Xr r (snd (classify rhs)) x (InC _ _ Hin) Hx).
    rewrite <- (Split M r rhs x Hin). f_equal.
    apply sem_agree. intros b ix Hb y. apply (CF r rhs Hin) in Hb. destruct (wf_arrays _ _ _ _ WF r rhs b ix Hin Hb) as (_ & Nb & Nr).
    apply Fc; [apply notwork_reserved; auto | rewrite FC; auto].
Qed.
End main.
