(* From the conditions of the specification to the residual, with one-sided formulas. *)
From Verif Require Import Base BaseProofs Expr ExprProofs FDSpec FDModel FDProofs WorkModel WorkProofs ShiftSpec ShiftModel ShiftProofs AdvProofs DiscSpec DiscModel DiscProofs DiscRun DiscMain.
From Verif Require Import OneModel SideModel SideSpec SideRun.
From Coq Require Import QArith ZArith Reals Lia Lra List Permutation FinFun.
Import ListNotations.
Local Close Scope Q_scope.
Local Open Scope list_scope.

Lemma sem1_add : forall J k dirof h sizes sd M l x, real_arithmetic J ->
  sem1 J k dirof h sizes sd M (EApp HAdd l) x = fold_right Rplus 0%R (map (fun a => sem1 J k dirof h sizes sd M a x) l).
Proof. intros J k dirof h sizes sd M l x (_ & Ja & _). cbn [sem1]. rewrite Ja. reflexivity. Qed.
Lemma sem1_num0 : forall J k dirof h sizes sd M x, real_arithmetic J -> sem1 J k dirof h sizes sd M (ENum 0) x = 0%R.
Proof. intros J k dirof h sizes sd M x (Jn & _). cbn [sem1]. rewrite Jn. apply RMicromega.Q2R_0. Qed.
Lemma classify_sum1 : forall J k dirof h sizes sd M rhs x, real_arithmetic J ->
  (sem1 J k dirof h sizes sd M (fst (classify rhs)) x + sem1 J k dirof h sizes sd M (snd (classify rhs)) x =
   sem1 J k dirof h sizes sd M (keeps rhs) x)%R.
Proof.
  intros J k dirof h sizes sd M rhs x HJ.
  destruct rhs as [q|kd n|b ix|hd args]; try (cbn [classify keeps zero_functions fst snd]; rewrite !sem1_num0 by auto; lra).
  destruct hd; try (cbn [classify keeps zero_functions fst snd]; rewrite !sem1_num0 by auto; lra).
  - cbn [classify keeps zero_functions fst snd]. rewrite !sem1_add by auto. rewrite !map_map. apply sum_filter.
  - unfold classify, keeps. destruct (has_re (EApp HMul args)); cbn [fst snd];
      rewrite (sem1_num0 J k dirof h sizes sd M x HJ : sem1 J k dirof h sizes sd M (zero_functions (ENum 0)) x = 0%R); lra.
Qed.

Section main.
Variables (J : interp R) (k ndim : nat) (dirof : string -> nat) (inv : nat -> nat -> expr)
  (dord : expr -> list dset) (sord : list (expr * string) -> list (expr * string)) (h : nat -> R) (sizes : list Z) (sd : sides).
Hypothesis HJ : real_arithmetic J.
Hypothesis Hinv : forall M x d m, value J M x (inv d m) = (/ h d ^ m)%R.
Hypothesis Hdord : forall e, enumerates (dord e) e.
Hypothesis Hsz : List.length sizes = ndim.
Hypothesis Hroom : room sd sizes.
Hypothesis Hperm : forall l, Permutation l (sord l).
Hypothesis Hinner : forall l l', Permutation l l' -> inner_first l' -> inner_first (sord l).
Variable eqs : list (string * expr).
Hypothesis WF : well_formed ndim dirof reserved eqs.
Hypothesis Low : low_orders sd dirof eqs.
Variables ccds vcds : list expr.
Hypothesis HC : lists_derivatives eqs (fun t => ~ viscous_term t) ccds.
Hypothesis HV : lists_derivatives eqs viscous_term vcds.

Lemma low_orig : forall r rhs v, In (r, rhs) eqs -> inside v rhs -> orig ndim dirof v -> orig1 ndim dirof sd v.
Proof.
  intros r rhs v Hin Hi Ho. split; auto. intros a n [|q] Ev Hs; [lia|]. subst v. cbn [repeat] in Hi.
  specialize (Low r rhs a n _ Hin Hi Hs). rewrite repeat_length in Low. lia.
Qed.
Lemma ccds_ok1 : forall v, In v ccds -> orig1 ndim dirof sd v /\ cds_post v = [v].
Proof.
  intros v Hv. destruct (ccds_ok ndim dirof sizes Hsz eqs WF ccds HC v Hv) as [A B]. split; auto.
  apply (proj2 HC) in Hv. destruct Hv as (Hd & r & rhs & t & Hin & Ht & Hnv & Hi).
  eapply low_orig; eauto. eapply inside_trans; eauto. apply terms_inside. auto.
Qed.
Lemma vcds_ok1 : forall v, In v vcds -> orig1 ndim dirof sd v /\ shallow vcds v.
Proof.
  intros v Hv. destruct (vcds_ok ndim dirof sizes Hsz eqs WF vcds HV v Hv) as [A B]. split; auto.
  apply (proj2 HV) in Hv. destruct Hv as (Hd & r & rhs & t & Hin & Ht & Hnv & Hi).
  eapply low_orig; eauto. eapply inside_trans; eauto. apply terms_inside. auto.
Qed.

Theorem residual_ok1 : ccds <> [] ->
  (vcds = [] -> forall r rhs t, In (r, rhs) eqs -> In t (terms rhs) -> ~ viscous_term t) ->
  exists ks, sbli_rhs_discretisation1 k ndim dirof inv dord sord sizes sd ccds vcds eqs = Ok ks /\
    forall M, (forall r rhs x, In (r, rhs) eqs -> grid_point sizes x ->
        exec1 J k sizes ks M r x = sem1 J k dirof h sizes sd M rhs x) /\
      (forall b x, ~ reserved b -> ~ In b (map fst eqs) -> exec1 J k sizes ks M b x = M b x).
Proof.
  intros Hne Hnv. unfold sbli_rhs_discretisation1.
  set (V := map (fun re : string * expr => (fst re, fst (classify (snd re)))) eqs).
  set (C := map (fun re : string * expr => (fst re, snd (classify (snd re)))) eqs).
  assert (CF : forall r rhs, In (r, rhs) eqs -> _) by
    (intros r rhs Hin; exact (classify_form rhs (wf_form _ _ _ _ WF r rhs Hin) (wf_function _ _ _ _ WF r rhs Hin))).
  destruct (convective_ok1 J k ndim dirof inv dord sord h sizes sd HJ Hinv Hdord Hsz Hroom ccds C Hne (proj1 HC) ccds_ok1) as (kc & Ec & Xc).
  { apply (part_ok ndim dirof eqs WF (fun rhs => snd (classify rhs))).
    - intros rhs b (r & Hin). apply (CF r rhs Hin).
    - intros r rhs v Hin Hv. apply (CF r rhs Hin) in Hv. destruct Hv as (t & Ht & HR & Hv). apply in_cds in Hv.
      apply (proj2 HC). split; [tauto|]. exists r, rhs, t. split; [auto|split; [auto|split; [|tauto]]].
      rewrite <- has_re_spec. congruence. }
  { exact Hperm. }
  rewrite Ec. cbn [bind].
  assert (FV : map fst V = map fst eqs) by (unfold V; rewrite map_map; reflexivity).
  assert (FC : map fst C = map fst eqs) by (unfold C; rewrite map_map; reflexivity).
  assert (InV : forall r rhs, In (r, rhs) eqs -> In (r, fst (classify rhs)) V).
  { intros r rhs Hin. unfold V. change (r, fst (classify rhs)) with ((fun re : string * expr => (fst re, fst (classify (snd re)))) (r, rhs)). apply in_map. auto. }
  assert (InC : forall r rhs, In (r, rhs) eqs -> In (r, snd (classify rhs)) C).
  { intros r rhs Hin. unfold C. change (r, snd (classify rhs)) with ((fun re : string * expr => (fst re, snd (classify (snd re)))) (r, rhs)). apply in_map. auto. }
  assert (Split : forall M r rhs x, In (r, rhs) eqs ->
    (sem1 J k dirof h sizes sd M (snd (classify rhs)) x + sem1 J k dirof h sizes sd M (fst (classify rhs)) x = sem1 J k dirof h sizes sd M rhs x)%R).
  { intros M r rhs x Hin. rewrite Rplus_comm, classify_sum1 by auto. rewrite keeps_id; auto; [eapply wf_form | eapply wf_function]; eauto. }
  destruct vcds as [|v0 vc] eqn:Evc.
  - cbn [viscous_kernels1 bind]. eexists. split; [reflexivity|]. intros M. rewrite app_nil_r.
    destruct (Xc M) as (Fc & Xr). split; [|intros b x Nb Nr; apply Fc; [apply notwork_reserved; auto | rewrite FC; auto]].
    intros r rhs x Hin Hx. apply grid_point_range with (k := k) in Hx. rewrite (Xr r (snd (classify rhs)) x (InC _ _ Hin) Hx).
    rewrite <- (Split M r rhs x Hin).
    assert (Z : sem1 J k dirof h sizes sd M (fst (classify rhs)) x = 0%R).
    { assert (NR : forall t, In t (terms rhs) -> has_re t = false).
      { intros t Ht. destruct (has_re t) eqn:HR; auto. exfalso. apply has_re_spec in HR. eapply Hnv; eauto. }
      destruct (wf_form _ _ _ _ WF r rhs Hin) as (args & [-> | ->]).
      - cbn [classify fst zero_functions]. rewrite sem1_add by auto.
        replace (filter has_re args) with (@nil expr); [reflexivity|].
        symmetry. cbn [terms] in NR. clear - NR. induction args as [|a l IH]; cbn; auto.
        rewrite (NR a) by (left; auto). apply IH. intros; apply NR; right; auto.
      - unfold classify. rewrite (NR (EApp HMul args)) by (left; auto). cbn [fst zero_functions]. apply sem1_num0. auto. }
    rewrite Z. lra.
  - rewrite <- Evc in *.
    destruct (viscous_ok1 J k ndim dirof inv dord sord h sizes sd HJ Hinv Hdord Hsz Hroom vcds (proj1 HV) vcds_ok1 V) as (kv & Ekv & Xv).
    { congruence. }
    { apply (part_ok ndim dirof eqs WF (fun rhs => fst (classify rhs))).
      - intros rhs b (r & Hin). apply (CF r rhs Hin).
      - intros r rhs v Hin Hv. apply (CF r rhs Hin) in Hv. destruct Hv as (t & Ht & HR & Hv). apply in_cds in Hv.
        apply (proj2 HV). split; [tauto|]. exists r, rhs, t. split; [auto|split; [auto|split; [|tauto]]].
        rewrite <- has_re_spec. congruence. }
    { exact Hperm. }
    { eapply Hinner; [|apply (inner_first_sorted1 ndim dirof sizes sd Hsz vcds (proj1 HV) vcds_ok1)]. apply Permutation_map. symmetry. apply csort_perm. }
    rewrite Ekv. cbn [bind]. eexists. split; [reflexivity|]. intros M. rewrite exec_app1.
    destruct (Xc M) as (Fc & Xr). destruct (Xv (exec1 J k sizes kc M)) as (Fv & Xw).
    split; [|intros b x Nb Nr; rewrite Fv, Fc; auto; rewrite ?FC, ?FV; auto using notwork_reserved].
    intros r rhs x Hin Hx. apply grid_point_range with (k := k) in Hx.
    rewrite (Xw r (fst (classify rhs)) x (InV _ _ Hin) Hx). rewrite (Xr r (snd (classify rhs)) x (InC _ _ Hin) Hx).
    rewrite <- (Split M r rhs x Hin). f_equal.
    apply sem1_agree. intros b ix Hb y. apply (CF r rhs Hin) in Hb. destruct (wf_arrays _ _ _ _ WF r rhs b ix Hin Hb) as (_ & Nb & Nr).
    apply Fc; [apply notwork_reserved; auto | rewrite FC; auto].
Qed.
End main.
