(* Kernels with one-sided formulas access stored elements only (C86). *)
From Verif Require Import Base BaseProofs Expr ExprProofs FDModel FDProofs WorkModel ShiftSpec ShiftModel ShiftProofs DiscModel DiscSpec DiscProofs DiscRun DiscMain KernelModel ProgModel ProgSpec ProgProofs
  OneModel SideModel FaceModel ShkModel StoreModel StoreSpec StoreProofs StoreRun Store2Spec.
From Verif Require BCModel BCKern BCSpec OrdModel OrdProps LLFModel Loop2Wall.
From Coq Require Import QArith ZArith Reals Lia Permutation.
Local Close Scope Q_scope.
Local Close Scope R_scope.
Local Open Scope list_scope.

(* ---- the points of the one-sided formulas ---- *)
Lemma enum_in : forall A (l : list A) c, In c (BCModel.enum l) -> (fst c < List.length l)%nat /\ nth_error l (fst c) = Some (snd c).
Proof.
  intros A l [i a] H. unfold BCModel.enum in H. cbn [fst snd].
  assert (G : forall (l : list A) s, In (i, a) (combine (seq s (List.length l)) l) -> (s <= i)%nat /\ nth_error l (i - s) = Some a).
  { clear l H. induction l as [|b l IH]; intros s H; [destruct H|]. cbn [List.length seq combine In] in H. destruct H as [E | H].
    - injection E as -> ->. rewrite Nat.sub_diag. auto.
    - destruct (IH (S s) H) as [L E]. split; [lia|]. replace (i - s)%nat with (S (i - S s)) by lia. exact E. }
  destruct (G l 0%nat H) as [_ E]. rewrite Nat.sub_0_r in E. split; auto. apply nth_error_Some. congruence.
Qed.
Lemma rows_in : forall (f : nat -> stencil) n i st, nth_error (map f (seq 0 n)) i = Some st -> (i < n)%nat /\ st = f i.
Proof.
  intros f n i st H. assert (L : (i < n)%nat).
  { rewrite <- (seq_length n 0). rewrite <- (map_length f). apply nth_error_Some. congruence. }
  split; auto. erewrite map_nth_error in H; [injection H as <-; reflexivity|].
  rewrite nth_error_nth' with (d := 0%nat) by (rewrite seq_length; auto). rewrite seq_nth by auto. reflexivity.
Qed.
Lemma pairs_bound : forall b m side n prs st loc w off, pairs_of b m side n = Ok prs -> (1 <= n)%Z -> In (st, loc) prs -> In (w, off) st -> (-5 <= loc + off < n + 5)%Z.
Proof.
  intros [s|] m side n prs st loc w off H Hn Hin Hw; cbn [pairs_of] in H; [|injection H as <-; destruct Hin].
  unfold expr_cond_pairs in H. destruct (rows s m side) as [rs|] eqn:Er; [|discriminate]. cbn [bind] in H. injection H as <-.
  apply in_map_iff in Hin. destruct Hin as ((i & st') & E & Hi). cbn [fst snd] in E. injection E as -> <-.
  apply enum_in in Hi. cbn [fst snd] in Hi. destruct Hi as [_ Hi].
  assert (C : forall (wt : nat -> nat -> R) rows cols, (cols <= 6)%nat -> rs = map (fun i => map (fun j => (wt i j, point side j i)) (seq 0 cols)) (seq 0 rows) ->
    (-5 <= (if side then n - 1 + -1 * Z.of_nat i else 0 + 1 * Z.of_nat i) + off < n + 5)%Z).
  { intros wt rws cols Hc ->. apply rows_in in Hi. destruct Hi as [_ ->]. apply in_map_iff in Hw. destruct Hw as (j & E & Hj). injection E as _ <-. apply in_seq in Hj.
    unfold point. destruct side; lia. }
  destruct s; cbn [rows] in Er.
  - unfold carpenter_rows in Er. destruct m as [|[|[|m]]]; try discriminate; injection Er as <-.
    + apply (C (fun i j => ((if side then -1 else 1) * entry bc4 i j)%R) 4%nat 6%nat); [lia | reflexivity].
    + apply (C (fun i j => (1 * entry bc4_2 i j)%R) 2%nat 5%nat); [lia | reflexivity].
  - unfold access_rows in Er. destruct m as [|[|[|m]]]; try discriminate; injection Er as <-.
    + apply (C (fun i j => entry first_der (if side then (2 + i)%nat else i) j) 2%nat 5%nat); [lia | reflexivity].
    + apply (C (fun i j => (1 * entry bc4_2 i j)%R) 2%nat 5%nat); [lia | reflexivity].
  - unfold order_rows in Er. destruct m as [|[|[|m]]]; try discriminate; apply Loop2Wall.ok_inj in Er; subst rs;
      (destruct i as [|[|i]]; cbn [map nth_error] in Hi; [| |destruct i; discriminate]); injection Hi as <-;
      apply (in_map snd) in Hw; cbn [snd] in Hw; destruct side; cbn in Hw; cbn [Z.of_nat Pos.of_succ_nat Z.mul Z.opp Pos.mul]; lia.
Qed.

Section kernels.
Variables (k ndim : nat) (dirof : string -> nat) (inv : nat -> nat -> expr) (dord : expr -> list dset)
  (sord : list (expr * string) -> list (expr * string)) (sizes : list Z) (sd : sides).
Hypothesis Hn : ndim = List.length sizes.
Hypothesis Hsz : forall d, (d < ndim)%nat -> (1 <= nth d sizes 0)%Z.
Hypothesis Hinv : forall d m, dsets (inv d m) = [].
Hypothesis Hdord : forall e, enumerates (dord e) e.
Notation zero := (repeat 0%Z ndim).
Notation OFF := (offset_ok k ndim).
Definition form_ok (ext : list nat) (f : rform) : Prop :=
  match f with
  | Plain e => forall b ix, In (b, ix) (dsets e) -> OFF ext b ix
  | Piecewise pairs last inv => dsets inv = [] /\ (forall b ix, In (b, ix) (dsets last) -> OFF ext b ix) /\
      forall ts d loc w t b ix, In (ts, (d, loc)) pairs -> In (w, t) ts -> In (b, ix) (dsets t) ->
        (d < ndim)%nat /\ plain b /\ exists j, ix = shift_ix d j zero /\ (-5 <= loc + j < nth d sizes 0 + 5)%Z
  end.
Definition skernel_ok (s : skernel) : Prop :=
  forall r f, In (r, f) (sk_eqs s) -> (sk_ext s = [] \/ plain r) /\ form_ok (sk_ext s) f.
Lemma plain_kernel_ok : forall kn, kernel_ok k ndim kn -> skernel_ok (plain_kernel kn).
Proof.
  intros kn H r f Hin. cbn [plain_kernel sk_eqs sk_ext] in *. apply in_map_iff in Hin. destruct Hin as ((r0 & e) & E & Hin). cbn [fst snd] in E. injection E as <- <-. apply (H r0 e Hin).
Qed.
Lemma central_ok : forall ext m d e form, (d < ndim)%nat -> ~ In d ext -> (forall b ix, In (b, ix) (dsets e) -> ix = zero /\ plain b) ->
  central_form k dord m d e = Ok form -> forall b ix, In (b, ix) (dsets form) -> OFF ext b ix.
Proof.
  intros ext m d e form Hd Ne Ha H b ix Hb. unfold central_form in H. destruct (dsets e) as [|x0 l] eqn:E0; [discriminate|]. rewrite <- E0 in *.
  destruct (dsets_terms _ _ _ _ _ _ H _ Hb) as [[] | [A | (p & w & [b0 ix0] & A & B & C)]].
  - destruct (Ha _ _ A) as [-> P]. left. auto.
  - injection C as -> ->. apply Hdord in B. destruct (Ha _ _ B) as [-> P]. right. exists d, p. split; auto. split; auto. split; auto.
    apply in_combine_l in A. rewrite central_points_even in A by lia. unfold zrange in A. apply in_map_iff in A. destruct A as (i & <- & A). apply in_seq in A. lia.
Qed.
Lemma condition_ok : forall e m d b side prs, (d < ndim)%nat -> (forall b ix, In (b, ix) (dsets e) -> ix = zero /\ plain b) ->
  condition_pairs dord sizes e m d b side = Ok prs ->
  forall ts d' loc w t c ix, In (ts, (d', loc)) prs -> In (w, t) ts -> In (c, ix) (dsets t) ->
    (d' < ndim)%nat /\ plain c /\ exists j, ix = shift_ix d' j zero /\ (-5 <= loc + j < nth d' sizes 0 + 5)%Z.
Proof.
  intros e m d b side prs Hd Ha H ts d' loc w t c ix Hin Ht Hc. unfold condition_pairs in H.
  destruct (pairs_of b m side (nth d sizes 0%Z)) as [q|] eqn:Eq; [|discriminate]. cbn [bind] in H.
  destruct (mapM_in _ _ _ _ _ H _ Hin) as ((st & l) & Hst & E). cbn [fst snd] in E.
  unfold formula_terms in E. destruct (dord e) as [|[b0 ix0] o] eqn:Eo; [discriminate|]. cbn [bind] in E. injection E as <- <- <-.
  apply in_map_iff in Ht. destruct Ht as ((w' & off) & E & Hw). cbn [fst snd] in E. injection E as <- <-.
  rewrite BCKern.relocate_any in Hc by exact Hdord. rewrite dsets_map_dsets in Hc. apply in_map_iff in Hc. destruct Hc as ([b1 ix1] & E & Hc). cbn [fst] in E. injection E as <- <-.
  destruct (Ha _ _ Hc) as [_ P]. assert (Z0 : ix0 = zero). { refine (proj1 (Ha b0 ix0 _)). apply Hdord. rewrite Eo. left. auto. }
  subst ix0. split; auto. split; auto. exists off. split; auto. apply (pairs_bound _ _ _ _ _ _ _ _ _ Eq (Hsz d Hd) Hst Hw).
Qed.
Lemma discretised1_ok : forall ext v f, arg_ok ndim dirof v -> ~ In (cd_dir dirof v) ext -> discretise1 k dirof inv dord sizes sd v = Ok f -> form_ok ext f.
Proof.
  intros ext v f [Hd Ha] Ne H. unfold discretise1 in H. cbv zeta in H. destruct (homogeneous dirof v); [|discriminate].
  destruct (central_form k dord _ _ _) as [form|] eqn:Ec in H; [|discriminate]. cbn [bind] in H.
  pose proof (central_ok ext _ _ _ _ Hd Ne Ha Ec) as CF.
  assert (G : forall l u, bind (condition_pairs dord sizes (cd_arg v) (List.length (cd_coords v)) (cd_dir dirof v) l false) (fun ps =>
      bind (condition_pairs dord sizes (cd_arg v) (List.length (cd_coords v)) (cd_dir dirof v) u true) (fun qs =>
      Ok (Piecewise (ps ++ qs) form (inv (cd_dir dirof v) (List.length (cd_coords v)))))) = Ok f -> form_ok ext f).
  { intros l u H1.
    destruct (condition_pairs dord sizes _ _ _ l false) as [ps|] eqn:Ep; [|discriminate]. cbn [bind] in H1.
    destruct (condition_pairs dord sizes _ _ _ u true) as [qs|] eqn:Eq; [|discriminate]. cbn [bind] in H1. injection H1 as <-.
    split; [apply Hinv|]. split; [exact CF|]. intros ts d loc w t b ix Hin. apply in_app_iff in Hin.
    destruct Hin as [Hin | Hin]; [eapply (condition_ok _ _ _ _ _ _ Hd Ha Ep); eauto | eapply (condition_ok _ _ _ _ _ _ Hd Ha Eq); eauto]. }
  destruct (sd (cd_dir dirof v)) as [[l|] [u|]]; try (apply (G _ _ H)). injection H as <-.
  intros b ix Hb. rewrite dsets_app in Hb. cbn [flat_map] in Hb. rewrite Hinv, app_nil_r in Hb. auto.
Qed.
Lemma conv_group_store1 : forall works vs c eqs ks, conv_group1 k ndim dirof inv dord sizes sd works c vs = Ok (eqs, ks) ->
  (forall v, In v vs -> arg_ok ndim dirof v) ->
  (forall r e, In (r, e) eqs -> plain r /\ forall b ix, In (b, ix) (dsets e) -> ix = zero /\ plain b) /\
  (forall kn, In kn ks -> skernel_ok kn).
Proof.
  induction vs as [|v vs IH]; intros c eqs ks H Hv; cbn [conv_group1] in H; [injection H as <- <-; split; intros; contradiction|].
  set (v1 := if many_datasets v then EApp HCD (here ndim (wk_name c) :: cd_coords v) else v) in *.
  destruct (discretise1 k dirof inv dord sizes sd v1) as [r|] eqn:Er; [|discriminate]. cbn [bind] in H.
  destruct (conv_group1 k ndim dirof inv dord sizes sd works (if many_datasets v then S c else c) vs) as [[eqs' ks']|] eqn:Eg; [|discriminate].
  cbn [bind fst snd] in H. injection H as <- <-. destruct (IH _ _ _ Eg) as [A B]; [intros u Hu; apply Hv; right; auto|].
  pose proof (Hv v (or_introl eq_refl)) as Av.
  assert (Av1 : arg_ok ndim dirof v1).
  { unfold v1. destruct (many_datasets v); auto. split; [exact (proj1 Av)|]. intros b ix [E | []]. injection E as <- <-. split; auto. apply wk_plain. }
  split.
  - intros r' e Hin. apply in_app_iff in Hin. destruct Hin as [Hin | Hin]; auto.
    destruct (many_datasets v); [|contradiction]. destruct Hin as [E | []]. injection E as <- <-. split; [apply wk_plain | exact (proj2 Av)].
  - intros kn [<- | Hk]; auto. intros r' f [E | []]. injection E as <- <-. cbn [sk_ext]. split; auto.
    apply (discretised1_ok [] v1 r Av1); auto.
Qed.
Lemma conv_groups_store1 : forall works c g ks, conv_groups1 k ndim dirof inv dord sizes sd works c g = Ok ks ->
  (forall d vs v, In (d, vs) g -> In v vs -> arg_ok ndim dirof v) -> forall kn, In kn ks -> skernel_ok kn.
Proof.
  induction g as [|[d vs] g IH]; intros ks H Hv kn Hk; cbn [conv_groups1] in H; [injection H as <-; contradiction|].
  destruct (conv_group1 k ndim dirof inv dord sizes sd works c vs) as [[eqs ks1]|] eqn:Eg; [|discriminate]. cbn [bind fst snd] in H.
  destruct (conv_groups1 k ndim dirof inv dord sizes sd works c g) as [rest|] eqn:Er; [|discriminate]. cbn [bind] in H. injection H as <-.
  destruct (conv_group_store1 _ _ _ _ _ Eg) as [A B]; [intros v Hin; apply (Hv d vs v); [left|]; auto|].
  apply in_app_iff in Hk. destruct Hk as [Hk | Hk]; [|apply in_app_iff in Hk; destruct Hk as [Hk | Hk]; auto].
  - destruct eqs as [|q eqs]; [contradiction|]. destruct Hk as [<- | []]. apply plain_kernel_ok. intros r e Hin. cbn [k_eqs k_ext] in *. destruct (A r e Hin) as [P Q].
    split; auto. intros b ix Hb. destruct (Q b ix Hb). left. auto.
  - apply (IH rest eq_refl); auto. intros d' vs' v Hin. apply (Hv d' vs'). right. auto.
Qed.
Lemma convective_store1 : forall cds eqs ks, convective_kernels1 k ndim dirof inv dord sord sizes sd cds eqs = Ok ks ->
  (forall v, In v cds -> arg_ok ndim dirof v) -> (forall r e b ix, In (r, e) eqs -> In (b, ix) (dsets e) -> ix = zero) ->
  forall kn, In kn ks -> skernel_ok kn.
Proof.
  intros cds eqs ks H Hv He kn Hk. unfold convective_kernels1 in H.
  pose proof (group_perm dirof cds) as GP. destruct (group_by_direction dirof cds) as [|gg g] eqn:Eg; [injection H as <-; contradiction|]. rewrite <- Eg in *.
  set (works := assign_works 0 (flat_map snd (group_by_direction dirof cds))) in *.
  destruct (conv_groups1 k ndim dirof inv dord sizes sd works (List.length works) (group_by_direction dirof cds)) as [ks1|] eqn:Ec; [|discriminate].
  cbn [bind] in H. injection H as <-. apply in_app_iff in Hk. destruct Hk as [Hk | [<- | []]].
  - eapply conv_groups_store1; eauto. intros d vs v Hin Hvs. apply Hv. eapply Permutation_in; [exact GP|]. apply in_flat_map. exists (d, vs). auto.
  - apply plain_kernel_ok. apply residual_store. apply subs_store. auto.
Qed.
Lemma viscous_store1 : forall cds eqs ks, viscous_kernels1 k ndim dirof inv dord sord sizes sd cds eqs = Ok ks ->
  (forall v, In v cds -> orig ndim dirof v /\ shallow cds v /\ arg_ok ndim dirof v /\ ~ In (cd_dir dirof v) (extended dirof cds v)) ->
  (forall r e b ix, In (r, e) eqs -> In (b, ix) (dsets e) -> ix = zero) ->
  forall kn, In kn ks -> skernel_ok kn.
Proof.
  intros cds eqs ks H Hv He kn Hk. unfold viscous_kernels1 in H. destruct cds as [|c0 l0] eqn:Ecd; [injection H as <-; contradiction|].
  rewrite <- Ecd in *. clear Ecd c0 l0. set (works := assign_works 0 cds) in *.
  destruct (mapM _ (sort_by_coordinates cds)) as [ks1|] eqn:Em in H; [|discriminate]. cbn [bind] in H. injection H as <-.
  apply in_app_iff in Hk. destruct Hk as [Hk | [<- | []]].
  - destruct (mapM_in _ _ _ _ _ Em kn Hk) as (v & Hin & Ev).
    assert (Hc : In v cds) by (eapply Permutation_in; [apply csort_perm | exact Hin]).
    destruct (discretise1 k dirof inv dord sizes sd (traverse ndim works v)) as [r|] eqn:Er; [|discriminate]. cbn [bind] in Ev. injection Ev as <-.
    destruct (Hv v Hc) as (Or & Sh & Av & Nx).
    intros r' f [E | []]. injection E as <- <-. cbn [sk_ext]. split; [right; apply (lookup_plain dirof sord)|].
    assert (Q : arg_ok ndim dirof (traverse ndim works v) /\ cd_dir dirof (traverse ndim works v) = cd_dir dirof v).
    { destruct Sh as [Sh | (c & Sh & Hcc & Lt)].
      - unfold works. rewrite traverse_flat by auto. auto.
      - unfold works. rewrite (traverse_nested ndim cds c v) by auto. fold works.
        destruct Or as ((a & n & m & Ea & _) & _). assert (Ncv : c <> v) by (intros ->; lia). subst v.
        rewrite T_eq. cbn [is_cd assoc]. destruct (expr_eq_dec (EApp HCD (a :: repeat (ESym KCoord n) (S m))) c) as [E | N]; [congruence|].
        rewrite map_cons, T_coords. split; [|reflexivity]. split; [exact (proj1 Av)|].
        intros b ix Hb. cbn [cd_arg] in Hb. apply dsets_T in Hb. destruct Hb as [Hb | ([E | []] & ->)]; [apply (proj2 Av); auto|].
        cbn [snd] in E. subst b. split; auto. apply (lookup_plain dirof sord). }
    destruct Q as [Q1 Q2]. apply (discretised1_ok (extended dirof cds v) (traverse ndim works v) r Q1); auto. rewrite Q2. auto.
  - apply plain_kernel_ok. apply residual_store. apply subs_store. auto.
Qed.
End kernels.

(* the elements accessed by a kernel *)
Lemma difference_stored : forall k sizes sch solution s, (k <= 5)%nat -> skernel_ok k (List.length sizes) sizes s ->
  forall b y, touched k sizes sch solution (Ordinary (Difference s)) b y -> stored sizes b y = true.
Proof.
  intros k sizes sch solution s Hk H b y (r & f & x & Hin & Hx & D). destruct (H r f Hin) as [A B].
  destruct D as [(-> & ->) | D].
  { destruct A as [E | P]; [rewrite E in Hx; apply (stored_grid k); auto | eapply (stored_range k); eauto]. }
  destruct f as [e | pairs last inv]; cbn [form_reads form_ok] in *.
  - destruct D as (ix & Hb & ->). eapply (offset_stored k); eauto.
  - destruct B as (I & L & P). destruct D as [(ix & Hb & ->) | D]; [rewrite I in Hb; destruct Hb|].
    destruct (find _ pairs) as [(ts & (d & loc))|] eqn:Ef; [|destruct D as (ix & Hb & ->); eapply (offset_stored k); eauto].
    apply find_some in Ef. cbn [fst snd] in Ef. destruct Ef as [Hp E]. apply Z.eqb_eq in E.
    destruct D as (w & t & Ht & ix & Hb & ->). destruct (P ts d loc w t b ix Hp Ht Hb) as (Hd & Pb & j & -> & Hj).
    assert (Lx : List.length x = List.length sizes) by (apply in_range_iff in Hx; tauto).
    rewrite (shift_zero_move 5 (le_n _)) by auto. apply in_range_iff in Hx. destruct Hx as [_ Hx].
    apply (stored_near 5 sizes (le_n _)); [rewrite move_len; auto | auto |]. intros e He. specialize (Hx e He).
    destruct (Nat.eq_dec e d) as [-> | N].
    + rewrite move_nth_at by lia. rewrite E. lia.
    + rewrite move_nth_off by auto. pose proof (ex_bound k (sk_ext s) e). lia.
Qed.
