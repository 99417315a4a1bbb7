(* Third and higher derivatives in a direction with one-sided formulas are refused. *)
From Verif Require Import Base BaseProofs Expr ExprProofs FDModel FDProofs WorkModel WorkProofs ShiftModel ShiftSpec ShiftProofs DiscModel DiscSpec DiscProofs AdvProofs DiscRun DiscMain.
From Verif Require Import OneModel SideModel SideSpec SideRun SideMain.
From Coq Require Import QArith ZArith Reals Lia List Permutation.
Import ListNotations.
Local Close Scope Q_scope.
Local Open Scope list_scope.

Section refuse.
Variables (k ndim : nat) (dirof : string -> nat) (inv : nat -> nat -> expr)
  (dord : expr -> list dset) (sord : list (expr * string) -> list (expr * string)) (sizes : list Z) (sd : sides).
Hypothesis Hdord : forall e, enumerates (dord e) e.
Hypothesis Hsz : List.length sizes = ndim.
Notation placed := (placed ndim).
Notation DISC := (discretise1 k dirof inv dord sizes sd).
Definition high (v : expr) : Prop := exists a n m, v = EApp HCD (a :: repeat (ESym KCoord n) (S m)) /\ has_scheme sd (dirof n) /\ (2 < S m)%nat.
Definition decided {A} (r : result A) : Prop := (exists a, r = Ok a) \/ r = Err NotImplemented.

Lemma pairs_decided : forall b m side n, decided (pairs_of b (S m) side n) /\ (b <> None -> (2 < S m)%nat -> pairs_of b (S m) side n = Err NotImplemented).
Proof.
  intros [s|] m side n; cbn [pairs_of].
  - destruct m as [|[|m]].
    + split; [|lia]. left. destruct s, side; eexists; reflexivity.
    + split; [|lia]. left. destruct s, side; eexists; reflexivity.
    + split; [right|intros]; destruct s, side; reflexivity.
  - split; [left; eexists; reflexivity | congruence].
Qed.
Lemma conditions_decided : forall a m d b side, placed a -> dsets a <> [] -> (d < ndim)%nat ->
  decided (condition_pairs dord sizes a (S m) d b side) /\
  (b <> None -> (2 < S m)%nat -> condition_pairs dord sizes a (S m) d b side = Err NotImplemented).
Proof.
  intros a m d b side Hp Hne Hd. destruct (pairs_decided b m side (nth d sizes 0%Z)) as [A B]. unfold condition_pairs. split.
  - destruct A as [(prs & ->) | ->]; [|right; reflexivity]. cbn [bind]. left. clear B.
    induction prs as [|c prs (ps & IH)]; [eexists; reflexivity|]. cbn [mapM].
    assert (E : exists ts, formula_terms dord d a (fst c) = Ok ts).
    { unfold formula_terms. destruct (Hdord a) as [_ En]. destruct (dord a) as [|[b0 loc] o].
      - destruct (dsets a) as [|y l]; [congruence|]. exfalso. specialize (En y). cbn in En. apply En. left. auto.
      - eexists. reflexivity. }
    destruct E as (ts & ->). cbn [bind]. rewrite IH. eexists. reflexivity.
  - intros Nb Hm. rewrite B by auto. reflexivity.
Qed.
Lemma discretise_decided : forall a n m, (dirof n < ndim)%nat -> placed a -> dsets a <> [] ->
  decided (DISC (EApp HCD (a :: repeat (ESym KCoord n) (S m)))) /\
  (has_scheme sd (dirof n) -> (2 < S m)%nat -> DISC (EApp HCD (a :: repeat (ESym KCoord n) (S m))) = Err NotImplemented).
Proof.
  intros a n m Hd Hp Hne.
  assert (D : cd_dirs dirof (EApp HCD (a :: repeat (ESym KCoord n) (S m))) = repeat (dirof n) (S m)).
  { unfold cd_dirs, cd_coords. generalize (S m) as q. induction q; cbn; [auto | f_equal; auto]. }
  assert (Dd : cd_dir dirof (EApp HCD (a :: repeat (ESym KCoord n) (S m))) = dirof n).
  { unfold cd_dir. rewrite D. reflexivity. }
  unfold discretise1, homogeneous. rewrite Dd, D.
  replace (forallb (Nat.eqb (dirof n)) (repeat (dirof n) (S m))) with true.
  2: { symmetry. apply forallb_forall. intros z Hz. apply repeat_spec in Hz. subst. apply Nat.eqb_refl. }
  unfold cd_coords, cd_arg. rewrite repeat_length.
  assert (F : exists form, central_form k dord (S m) (dirof n) a = Ok form).
  { destruct (disc_terms_value ndim a (dirof n) (fun _ => dord a)) with (pw := combine (central_points (2 * Z.of_nat k)) (generate_weights (2 * Z.of_nat k) (S m)))
      (form := ENum 0) as (form & Ef & _); auto.
    - intros b ix Hin. rewrite (Hp b ix Hin). apply repeat_length.
    - intros p w Hin. eapply one_location_no_collision; eauto.
      + intros b ix Hb. rewrite (Hp b ix Hb). apply repeat_length.
      + intros b ix b' ix' H1 H2. rewrite (Hp b ix H1), (Hp b' ix' H2). reflexivity.
    - exists form. unfold central_form. destruct (dsets a); [congruence | exact Ef]. }
  destruct F as (form & ->). cbn [bind]. unfold has_scheme. 
  destruct (conditions_decided a m (dirof n) (fst (sd (dirof n))) false Hp Hne Hd) as [A1 B1].
  destruct (conditions_decided a m (dirof n) (snd (sd (dirof n))) true Hp Hne Hd) as [A2 B2].
  destruct (sd (dirof n)) as [l r]. cbn [fst snd] in *.
  assert (Cs : (l = None /\ r = None) \/ (l, r) <> (None, None)) by (destruct l, r; auto; right; discriminate).
  destruct Cs as [[-> ->] | Cs].
  - split; [left; eexists; reflexivity | congruence].
  - assert (Eq : match (l, r) with (None, None) => Ok (Plain (EApp HMul [form; inv (dirof n) (S m)]))
      | (l, r) => bind (condition_pairs dord sizes a (S m) (dirof n) l false) (fun ps =>
          bind (condition_pairs dord sizes a (S m) (dirof n) r true) (fun qs => Ok (Piecewise (ps ++ qs) form (inv (dirof n) (S m))))) end =
      bind (condition_pairs dord sizes a (S m) (dirof n) l false) (fun ps =>
          bind (condition_pairs dord sizes a (S m) (dirof n) r true) (fun qs => Ok (Piecewise (ps ++ qs) form (inv (dirof n) (S m)))))).
    { destruct l, r; try reflexivity. congruence. }
    rewrite Eq. split.
    + destruct A1 as [(ps & ->) | ->]; [|right; reflexivity]. cbn [bind].
      destruct A2 as [(qs & ->) | ->]; [left; eexists; reflexivity | right; reflexivity].
    + intros _ Hm. destruct l as [s|].
      * rewrite B1 by (auto; discriminate). reflexivity.
      * destruct A1 as [(ps & ->) | ->]; [|reflexivity]. cbn [bind].
        rewrite B2; [reflexivity | | auto]. intros ->. congruence.
Qed.

Lemma group_decided : forall works vs c, (forall v, In v vs -> orig ndim dirof v) ->
  decided (conv_group1 k ndim dirof inv dord sizes sd works c vs) /\
  ((exists v, In v vs /\ high v) -> conv_group1 k ndim dirof inv dord sizes sd works c vs = Err NotImplemented).
Proof.
  intros works. induction vs as [|v vs IH]; intros c Hv.
  { split; [left; eexists; reflexivity | intros (v & [] & _)]. }
  destruct (Hv v (or_introl eq_refl)) as ((a & n & m & Ev & Hd & Hne) & Pv & Cv).
  cbn [conv_group1]. set (v1 := if many_datasets v then EApp HCD (here ndim (wk_name c) :: cd_coords v) else v).
  assert (X : exists a', v1 = EApp HCD (a' :: repeat (ESym KCoord n) (S m)) /\ placed a' /\ dsets a' <> []).
  { unfold v1. destruct (many_datasets v).
    - eexists. split; [rewrite Ev; reflexivity|]. split; [|discriminate]. intros b ix [H | []]. injection H as <- <-. reflexivity.
    - exists a. split; [exact Ev|]. split; auto. intros b ix Hb. apply (Pv b ix). rewrite Ev, dsets_cd. auto. }
  destruct X as (a' & E1 & Pa & Na). rewrite E1. destruct (discretise_decided a' n m Hd Pa Na) as [A B].
  set (c1 := if many_datasets v then S c else c) in *.
  destruct (IH c1) as [C D]; [intros; apply Hv; right; auto|]. split.
  - destruct A as [(r & ->) | ->]; [|right; reflexivity]. cbn [bind].
    destruct C as [(p & ->) | ->]; [left; eexists; reflexivity | right; reflexivity].
  - intros (u & [<- | Hu] & Hh).
    + destruct Hh as (a2 & n2 & m2 & E2 & Hs & Hm). rewrite Ev in E2. cbn [repeat] in E2. injection E2 as _ <- E2.
      assert (m = m2). { apply (f_equal (@List.length expr)) in E2. rewrite !repeat_length in E2. auto. }
      subst m2. rewrite B by auto. reflexivity.
    + destruct A as [(r & ->) | ->]; [|reflexivity]. cbn [bind]. rewrite D by eauto. reflexivity.
Qed.
Lemma groups_decided : forall works c g, (forall v, In v (flat_map snd g) -> orig ndim dirof v) ->
  decided (conv_groups1 k ndim dirof inv dord sizes sd works c g) /\
  ((exists v, In v (flat_map snd g) /\ high v) -> conv_groups1 k ndim dirof inv dord sizes sd works c g = Err NotImplemented).
Proof.
  intros works c. induction g as [|[d vs] g IH]; intros Hv.
  { split; [left; eexists; reflexivity | intros (v & [] & _)]. }
  cbn [flat_map snd] in *. destruct (group_decided works vs c) as [A B]; [intros; apply Hv; apply in_app_iff; auto|].
  destruct IH as [C D]; [intros; apply Hv; apply in_app_iff; auto|]. cbn [conv_groups1]. split.
  - destruct A as [(r & ->) | ->]; [|right; reflexivity]. cbn [bind].
    destruct C as [(p & ->) | ->]; [left; eexists; reflexivity | right; reflexivity].
  - intros (u & Hu & Hh). apply in_app_iff in Hu. destruct Hu as [Hu | Hu].
    + rewrite B by eauto. reflexivity.
    + destruct A as [(r & ->) | ->]; [|reflexivity]. cbn [bind]. rewrite D by eauto. reflexivity.
Qed.
Lemma convective_decided : forall cds eqs, (forall v, In v cds -> orig ndim dirof v) ->
  decided (convective_kernels1 k ndim dirof inv dord sord sizes sd cds eqs) /\
  ((exists v, In v cds /\ high v) -> convective_kernels1 k ndim dirof inv dord sord sizes sd cds eqs = Err NotImplemented).
Proof.
  intros cds eqs Hc. pose proof (group_perm dirof cds) as GP. unfold convective_kernels1. cbv zeta.
  set (g := group_by_direction dirof cds) in *.
  destruct (groups_decided (assign_works 0 (flat_map snd g)) (List.length (assign_works 0 (flat_map snd g))) g) as [A B].
  { intros v Hv. apply Hc. eapply Permutation_in; eauto. }
  split.
  - destruct g as [|p g']; [left; eexists; reflexivity|].
    destruct A as [(r & ->) | ->]; [left; eexists; reflexivity | right; reflexivity].
  - intros (v & Hv & Hh). assert (Hg : In v (flat_map snd g)) by (eapply Permutation_in; [symmetry; exact GP | auto]).
    destruct g as [|p g']; [destruct Hg|]. rewrite B by eauto. reflexivity.
Qed.

Lemma traverse_shape : forall cds v, (forall v, In v cds -> orig ndim dirof v /\ shallow cds v) -> In v cds ->
  exists a n m a', v = EApp HCD (a :: repeat (ESym KCoord n) (S m)) /\ (dirof n < ndim)%nat /\
    traverse ndim (assign_works 0 cds) v = EApp HCD (a' :: repeat (ESym KCoord n) (S m)) /\ placed a' /\ dsets a' <> [].
Proof.
  intros cds v Hc Hv. destruct (Hc v Hv) as (((a & n & m & Ev & Hd & Hne) & Lv & Cv) & Sh).
  exists a, n, m. assert (La : placed a) by (intros b ix Hb; apply (Lv b ix); rewrite Ev, dsets_cd; auto).
  destruct Sh as [Sh | (c & Sh & Hcc & Lt)].
  - exists a. rewrite traverse_flat1 by auto. auto.
  - assert (Ncv : c <> v) by (intros ->; lia).
    rewrite (traverse_nested1 ndim) with (c := c); auto.
    exists (T ndim [(c, lookup c (assign_works 0 cds))] a). split; [auto|]. split; [auto|]. split; [|split].
    + rewrite Ev. rewrite T_eq. cbn [is_cd assoc]. destruct (expr_eq_dec (EApp HCD (a :: repeat (ESym KCoord n) (S m))) c) as [E | N].
      * exfalso. apply Ncv. rewrite Ev. auto.
      * rewrite map_cons, T_coords. reflexivity.
    + intros b ix Hb. apply dsets_T in Hb. destruct Hb as [Hb | (_ & ->)]; auto. eapply La. eauto.
    + apply dsets_T_nonempty. auto.
Qed.
Lemma viscous_decided : forall cds eqs, (forall v, In v cds -> orig ndim dirof v /\ shallow cds v) ->
  decided (viscous_kernels1 k ndim dirof inv dord sord sizes sd cds eqs) /\
  ((exists v, In v cds /\ high v) -> viscous_kernels1 k ndim dirof inv dord sord sizes sd cds eqs = Err NotImplemented).
Proof.
  intros cds eqs Hc. pose proof (csort_perm cds) as SP.
  assert (G : forall s, (forall v, In v s -> In v cds) ->
    let K := fun v => bind (DISC (traverse ndim (assign_works 0 cds) v)) (fun r =>
      Ok {| sk_eqs := [(lookup v (assign_works 0 cds), r)]; sk_ext := extended dirof cds v |}) in
    decided (mapM K s) /\ ((exists v, In v s /\ high v) -> mapM K s = Err NotImplemented)).
  { induction s as [|v s IH]; intros Hs K.
    { split; [left; eexists; reflexivity | intros (v & [] & _)]. }
    destruct IH as [C D]; [intros; apply Hs; right; auto|]. fold K in C, D. cbn [mapM].
    destruct (traverse_shape cds v Hc (Hs v (or_introl eq_refl))) as (a & n & m & a' & Ev & Hd & Et & Pa & Na).
    destruct (discretise_decided a' n m Hd Pa Na) as [A B]. rewrite <- Et in A, B.
    assert (A' : decided (K v)).
    { unfold K. destruct A as [(r & ->) | ->]; [left; eexists; reflexivity | right; reflexivity]. }
    split.
    - destruct A' as [(r & ->) | ->]; [|right; reflexivity]. cbn [bind].
      destruct C as [(p & ->) | ->]; [left; eexists; reflexivity | right; reflexivity].
    - intros (u & [<- | Hu] & Hh).
      + destruct Hh as (a2 & n2 & m2 & E2 & Hs2 & Hm). rewrite Ev in E2. cbn [repeat] in E2. injection E2 as _ <- E2.
        assert (m = m2). { apply (f_equal (@List.length expr)) in E2. rewrite !repeat_length in E2. auto. }
        subst m2. unfold K at 1. rewrite B by auto. reflexivity.
      + destruct A' as [(r & ->) | ->]; [|reflexivity]. cbn [bind]. rewrite D by eauto. reflexivity. }
  destruct (G (sort_by_coordinates cds)) as [A B]. { intros v. apply Permutation_in. auto. }
  unfold viscous_kernels1. cbv zeta. split.
  - destruct cds as [|v0 vc] eqn:Ec; [left; eexists; reflexivity|].
    destruct A as [(p & ->) | ->]; [left; eexists; reflexivity | right; reflexivity].
  - intros (v & Hv & Hh). destruct cds as [|v0 vc] eqn:Ec; [destruct Hv|]. rewrite B; [reflexivity|].
    exists v. split; auto. eapply Permutation_in; [symmetry; exact SP | auto].
Qed.

Lemma refused : forall eqs ccds vcds, well_formed ndim dirof reserved eqs ->
  lists_derivatives eqs (fun t => ~ viscous_term t) ccds -> lists_derivatives eqs viscous_term vcds ->
  (exists r rhs a n cs, In (r, rhs) eqs /\ inside (EApp HCD (a :: ESym KCoord n :: cs)) rhs /\
     has_scheme sd (dirof n) /\ (2 <= List.length cs)%nat) ->
  sbli_rhs_discretisation1 k ndim dirof inv dord sord sizes sd ccds vcds eqs = Err NotImplemented.
Proof.
  intros eqs ccds vcds WF HC HV (r & rhs & a & n & cs & Hin & Hi & Hs & Hl).
  set (v := EApp HCD (a :: ESym KCoord n :: cs)) in *.
  assert (Dv : derivative v) by (eexists _, _; reflexivity).
  assert (Hv : high v).
  { destruct (wf_derivative _ _ _ _ WF r rhs v Hin Hi Dv) as (a' & n' & m & E & _). exists a', n', m.
    split; [exact E|]. unfold v in E. cbn [repeat] in E. injection E as <- <- ->. rewrite repeat_length in Hl. split; [auto | lia]. }
  assert (Ht : exists t, In t (terms rhs) /\ inside v t).
  { destruct (wf_form _ _ _ _ WF r rhs Hin) as (args & [-> | ->]).
    - cbn [terms]. inversion Hi as [|? ? ? t Ht Hti]; subst. exists t. auto.
    - exists (EApp HMul args). cbn [terms]. split; [left; auto | auto]. }
  destruct Ht as (t & Ht & Hit).
  destruct (convective_decided ccds (map (fun re => (fst re, snd (classify (snd re)))) eqs)) as [A B].
  { intros u Hu. apply (ccds_ok ndim dirof sizes Hsz eqs WF ccds HC u Hu). }
  destruct (viscous_decided vcds (map (fun re => (fst re, fst (classify (snd re)))) eqs)) as [C D].
  { intros u Hu. apply (vcds_ok ndim dirof sizes Hsz eqs WF vcds HV u Hu). }
  unfold sbli_rhs_discretisation1. destruct (has_re t) eqn:Re.
  - assert (Hvv : In v vcds). { apply (proj2 HV). split; auto. exists r, rhs, t. rewrite <- has_re_spec. auto. }
    destruct A as [(p & ->) | ->]; [|reflexivity]. cbn [bind]. rewrite D by eauto. reflexivity.
  - assert (Hvv : In v ccds). { apply (proj2 HC). split; auto. exists r, rhs, t. rewrite <- has_re_spec. repeat split; auto. congruence. }
    rewrite B by eauto. reflexivity.
Qed.
End refuse.
