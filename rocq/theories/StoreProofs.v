(* Proofs for C16. *)
From Verif Require Import Base BaseProofs Expr ExprProofs FDModel FDProofs WorkModel ShiftSpec ShiftModel ShiftProofs DiscModel DiscSpec DiscProofs DiscRun DiscMain KernelModel ProgModel ProgSpec ProgProofs StoreModel StoreSpec.
From Verif Require AdvModel AlgModel AlgSpec BCSpec BCKern BCMirror BCModel OrdModel OrdProofs PerProps.
From Coq Require Import QArith ZArith Reals Lia Permutation.
Local Close Scope Q_scope.
Local Open Scope list_scope.

(* ---- names ---- *)
Lemma prefix_app : forall p s, prefix p s = true <-> exists q, s = (p ++ q)%string.
Proof.
  induction p as [|c p IH]; intros s.
  - split; [intros _; exists s; auto | auto]. destruct s; reflexivity.
  - destruct s as [|d s]; cbn [prefix].
    + split; [discriminate | intros (q & E); discriminate].
    + destruct (Ascii.ascii_dec c d) as [-> | N].
      * rewrite IH. split; intros (q & E); exists q; [rewrite E; reflexivity | cbn in E; congruence].
      * split; [discriminate | intros (q & E); cbn in E; congruence].
Qed.
Lemma substring_contains : forall w b, AlgModel.substring_in w b = true <-> contains b w.
Proof.
  intros w. induction b as [|c b IH]; cbn [AlgModel.substring_in]; rewrite orb_true_iff, prefix_app.
  - split.
    + intros [(q & E) | H]; [|discriminate]. exists EmptyString, q. auto.
    + intros (p & q & E). left. destruct p; [|discriminate]. exists q. auto.
  - rewrite IH. split.
    + intros [(q & E) | (p & q & E)]; [exists EmptyString, q; auto | exists (String c p), q; rewrite E; reflexivity].
    + intros (p & q & E). destruct p as [|d p]; [left; exists q; auto|]. cbn in E. injection E as -> ->. right. exists p, q. auto.
Qed.
Lemma no_halo_spec : forall b, no_halo b = true <-> own_name b.
Proof.
  intros b. unfold no_halo, own_name. rewrite !orb_true_iff, !substring_contains. tauto.
Qed.
Definition plain (b : string) : Prop := no_halo b = false.
Lemma plain_spec : forall b, plain b <-> ~ own_name b.
Proof. intros b. unfold plain. rewrite <- no_halo_spec. destruct (no_halo b); intuition congruence. Qed.

Fixpoint has_char (c : Ascii.ascii) (s : string) : bool :=
  match s with EmptyString => false | String d s => Ascii.eqb c d || has_char c s end.
Lemma has_char_app : forall c s t, has_char c (s ++ t) = has_char c s || has_char c t.
Proof. induction s; intros t; cbn; auto. rewrite IHs, orb_assoc. auto. Qed.
Lemma contains_char : forall c w b, contains b w -> has_char c w = true -> has_char c b = true.
Proof. intros c w b (p & q & ->) H. rewrite !has_char_app, H. rewrite orb_true_l, orb_true_r. auto. Qed.
Lemma dec_no_R : forall i, has_char "R" (dec i) = false.
Proof.
  intros i. unfold dec. generalize (Nat.to_uint i). induction u; cbn; auto.
Qed.
Lemma wk_plain : forall i, plain (wk_name i).
Proof.
  intros i. apply plain_spec. intros H.
  assert (X : has_char "R" (wk_name i) = true) by (destruct H as [H | [H | H]]; apply (contains_char "R" _ _ H); reflexivity).
  unfold wk_name in X. rewrite has_char_app, dec_no_R in X. discriminate.
Qed.

(* ---- storage ---- *)
Lemma repeat_map : forall A B (f : A -> B) a n, map f (repeat a n) = repeat (f a) n.
Proof. induction n; cbn; auto. f_equal. auto. Qed.
Lemma nth_repeat0 : forall A (a b : A) n i, (i < n)%nat -> nth i (repeat a n) b = a.
Proof. induction n; intros [|i] H; cbn; try lia; auto. apply IHn. lia. Qed.
Lemma stored_iff : forall sizes b x, stored sizes b x = true <->
  List.length x = List.length sizes /\
  forall d, (d < List.length sizes)%nat ->
    if no_halo b then (0 <= nth d x 0 < nth d sizes 0)%Z else (-5 <= nth d x 0 < nth d sizes 0 + 5)%Z.
Proof.
  intros sizes b x. unfold stored, declared_halos, get_min_max_halo_values, dataset_halos. rewrite !repeat_map. cbn [fst snd].
  change (halo_min [(-5, 5)%Z]) with (-5)%Z. change (halo_max [(-5, 5)%Z]) with 5%Z.
  destruct (no_halo b); rewrite andb_true_iff, Nat.eqb_eq, forallb_forall; split; intros [L H]; (split; [auto|]); intros d Hd.
  - specialize (H d ltac:(apply in_seq; lia)). rewrite !nth_repeat0 in H by auto. lia.
  - apply in_seq in Hd. rewrite !nth_repeat0 by lia. specialize (H d ltac:(lia)). lia.
  - specialize (H d ltac:(apply in_seq; lia)). rewrite !nth_repeat0 in H by auto. lia.
  - apply in_seq in Hd. rewrite !nth_repeat0 by lia. specialize (H d ltac:(lia)). lia.
Qed.

Section kernels.
Variables (k ndim : nat) (dirof : string -> nat) (inv : nat -> nat -> expr) (dord : expr -> list dset)
  (sord : list (expr * string) -> list (expr * string)).
Hypothesis Hinv : forall d m, dsets (inv d m) = [].
Hypothesis Hdord : forall e, enumerates (dord e) e.
Notation zero := (repeat 0%Z ndim).

(* the offset of an access: none, or up to k points in a direction that is not extended *)
Definition offset_ok (ext : list nat) (b : string) (ix : list Z) : Prop :=
  (ix = zero /\ (ext = [] \/ plain b)) \/
  exists d i, (d < ndim)%nat /\ ~ In d ext /\ (- Z.of_nat k <= i <= Z.of_nat k)%Z /\ ix = shift_ix d i zero /\ plain b.
Definition kernel_ok (kn : kernel) : Prop :=
  forall r e, In (r, e) (k_eqs kn) -> (k_ext kn = [] \/ plain r) /\ forall b ix, In (b, ix) (dsets e) -> offset_ok (k_ext kn) b ix.

Lemma dsets_replace1 : forall old new e x, In x (dsets (replace1 old new e)) -> In x (dsets e) \/ In x (dsets new).
Proof.
  intros old new. induction e as [q|kd n|b ix|hd args IH] using expr_ind'; intros x H; auto.
  - cbn [replace1] in H. destruct (dset_eq_dec (b, ix) old); auto.
  - cbn [replace1] in H. rewrite dsets_app in *. apply in_flat_map in H. destruct H as (a' & Ha & Hx).
    apply in_map_iff in Ha. destruct Ha as (a & <- & Ha). rewrite Forall_forall in IH. destruct (IH a Ha x Hx); auto.
    left. apply in_flat_map. eauto.
Qed.
Lemma dsets_subst1 : forall old new e x, In x (dsets (subst1 old new e)) -> In x (dsets e) \/ In x (dsets new).
Proof.
  intros old new. induction e as [q|kd n|b ix|hd args IH] using expr_ind'; intros x H; cbn [subst1] in H;
    destruct (expr_eq_dec _ old); auto.
  rewrite dsets_app in *. apply in_flat_map in H. destruct H as (a' & Ha & Hx).
  apply in_map_iff in Ha. destruct Ha as (a & <- & Ha). rewrite Forall_forall in IH. destruct (IH a Ha x Hx); auto.
  left. apply in_flat_map. eauto.
Qed.
Lemma dsets_subs : forall l e x, In x (dsets (subs ndim l e)) -> In x (dsets e) \/ exists vw, In vw l /\ x = (snd vw, zero).
Proof.
  unfold subs. induction l as [|vw l IH]; intros e x H; cbn [fold_left] in H; auto.
  apply IH in H. destruct H as [H | (p & Hp & ->)].
  - apply dsets_subst1 in H. destruct H as [H | [<- | []]]; auto. right. exists vw. split; [left|]; auto.
  - right. exists p. split; [right|]; auto.
Qed.
Lemma dsets_loop : forall d v order e e', shift_loop d v order e = Ok e' ->
  forall x, In x (dsets e') -> In x (dsets e) \/ exists y, In y order /\ x = shift_dset d v y.
Proof.
  induction order as [|y order IH]; intros e e' H x Hx; cbn [shift_loop] in H; [injection H as <-; auto|].
  destruct (Nat.ltb d (List.length (snd y))); [|discriminate].
  destruct (IH _ _ H x Hx) as [A | (z & Hz & ->)].
  - apply dsets_replace1 in A. destruct A as [A | [<- | []]]; auto. right. exists y. split; [left|]; auto.
  - right. exists z. split; [right|]; auto.
Qed.
Lemma dsets_terms : forall d orders e pw form e', disc_terms d orders e pw form = Ok e' ->
  forall x, In x (dsets e') -> In x (dsets form) \/ In x (dsets e) \/
    exists p w y, In (p, w) pw /\ In y (orders p) /\ x = shift_dset d p y.
Proof.
  induction pw as [|[p w] pw IH]; intros form e' H x Hx; cbn [disc_terms] in H; [injection H as <-; auto|].
  destruct (shift_loop d p (orders p) e) as [s|] eqn:Es; [|discriminate]. cbn [bind] in H.
  destruct (IH _ _ H x Hx) as [A | [A | (p' & w' & y & A & B & C)]]; auto.
  - rewrite dsets_app in A. cbn [flat_map] in A. rewrite app_nil_r in A. apply in_app_iff in A. destruct A as [A | A]; auto.
    rewrite dsets_app in A. cbn [flat_map] in A. rewrite app_nil_r in A. cbn [dsets app] in A.
    destruct (dsets_loop _ _ _ _ _ Es x A) as [B | (y & B & C)]; auto. right. right. exists p, w, y. split; [left|]; auto.
  - right. right. exists p', w', y. split; [right|]; auto.
Qed.
Lemma dsets_discretise : forall v r, discretise k dirof inv dord v = Ok r ->
  forall b ix, In (b, ix) (dsets r) -> In (b, ix) (dsets (cd_arg v)) \/
    exists ix0 p, In (b, ix0) (dsets (cd_arg v)) /\ (- Z.of_nat k <= p <= Z.of_nat k)%Z /\ ix = shift_ix (cd_dir dirof v) p ix0.
Proof.
  intros v r H b ix Hx. unfold discretise in H. destruct (homogeneous dirof v); [|discriminate].
  unfold discretise_derivative in H. destruct (dsets (cd_arg v)) as [|x0 l] eqn:E0; [discriminate|]. rewrite <- E0.
  destruct (disc_terms _ _ _ _ _) as [form|] eqn:Ef; [|discriminate]. cbn [bind] in H. injection H as <-.
  rewrite dsets_app in Hx. cbn [flat_map] in Hx. rewrite Hinv, app_nil_r in Hx.
  destruct (dsets_terms _ _ _ _ _ _ Ef _ Hx) as [[] | [A | (p & w & [b0 ix0] & A & B & C)]]; auto.
  right. exists ix0, p. injection C as -> ->. split; [apply Hdord; auto|]. split; auto.
  apply in_combine_l in A. rewrite central_points_even in A by lia. unfold zrange in A. apply in_map_iff in A. destruct A as (i & <- & A). apply in_seq in A. lia.
Qed.

(* the argument of a derivative: arrays at the grid point, with halos *)
Definition arg_ok (v : expr) : Prop :=
  (cd_dir dirof v < ndim)%nat /\ forall b ix, In (b, ix) (dsets (cd_arg v)) -> ix = zero /\ plain b.
Lemma discretised_ok : forall ext v r, arg_ok v -> ~ In (cd_dir dirof v) ext -> discretise k dirof inv dord v = Ok r ->
  forall b ix, In (b, ix) (dsets r) -> offset_ok ext b ix.
Proof.
  intros ext v r [Hd Ha] Ne H b ix Hb. destruct (dsets_discretise v r H b ix Hb) as [A | (ix0 & p & A & Hp & ->)]; destruct (Ha _ _ A) as [-> Pb].
  - left. auto.
  - right. exists (cd_dir dirof v), p. auto.
Qed.
Lemma conv_group_store : forall works vs c eqs ks, conv_group k ndim dirof inv dord works c vs = Ok (eqs, ks) ->
  (forall v, In v vs -> arg_ok v) ->
  (forall r e, In (r, e) eqs -> plain r /\ forall b ix, In (b, ix) (dsets e) -> ix = zero /\ plain b) /\
  (forall kn, In kn ks -> kernel_ok kn).
Proof.
  induction vs as [|v vs IH]; intros c eqs ks H Hv; cbn [conv_group] in H; [injection H as <- <-; split; intros; contradiction|].
  set (v1 := if many_datasets v then EApp HCD (here ndim (wk_name c) :: cd_coords v) else v) in *.
  destruct (discretise k dirof inv dord v1) as [r|] eqn:Er; [|discriminate]. cbn [bind] in H.
  destruct (conv_group k ndim dirof inv dord works (if many_datasets v then S c else c) vs) as [[eqs' ks']|] eqn:Eg; [|discriminate].
  cbn [bind fst snd] in H. injection H as <- <-. destruct (IH _ _ _ Eg) as [A B]; [intros u Hu; apply Hv; right; auto|].
  pose proof (Hv v (or_introl eq_refl)) as Av.
  assert (Av1 : arg_ok v1).
  { unfold v1. destruct (many_datasets v); auto. split; [exact (proj1 Av)|]. intros b ix [E | []]. injection E as <- <-. split; auto. apply wk_plain. }
  split.
  - intros r' e Hin. apply in_app_iff in Hin. destruct Hin as [Hin | Hin]; auto.
    destruct (many_datasets v); [|contradiction]. destruct Hin as [E | []]. injection E as <- <-. split; [apply wk_plain | exact (proj2 Av)].
  - intros kn [<- | Hk]; auto. intros r' e [E | []]. injection E as <- <-. cbn [k_ext]. split; auto.
    intros b ix Hb. apply (discretised_ok [] v1 r Av1); auto.
Qed.
Lemma conv_groups_store : forall works c g ks, conv_groups k ndim dirof inv dord works c g = Ok ks ->
  (forall d vs v, In (d, vs) g -> In v vs -> arg_ok v) -> forall kn, In kn ks -> kernel_ok kn.
Proof.
  induction g as [|[d vs] g IH]; intros ks H Hv kn Hk; cbn [conv_groups] in H; [injection H as <-; contradiction|].
  destruct (conv_group k ndim dirof inv dord works c vs) as [[eqs ks1]|] eqn:Eg; [|discriminate]. cbn [bind fst snd] in H.
  destruct (conv_groups k ndim dirof inv dord works c g) as [rest|] eqn:Er; [|discriminate]. cbn [bind] in H. injection H as <-.
  destruct (conv_group_store _ _ _ _ _ Eg) as [A B]; [intros v Hin; apply (Hv d vs v); [left|]; auto|].
  apply in_app_iff in Hk. destruct Hk as [Hk | Hk]; [|apply in_app_iff in Hk; destruct Hk as [Hk | Hk]; auto].
  - destruct eqs as [|q eqs]; [contradiction|]. destruct Hk as [<- | []]. intros r e Hin. cbn [k_eqs k_ext] in *. destruct (A r e Hin) as [P Q].
    split; auto. intros b ix Hb. destruct (Q b ix Hb). left. auto.
  - apply (IH rest eq_refl); auto. intros d' vs' v Hin. apply (Hv d' vs'). right. auto.
Qed.
Lemma residual_store : forall conv eqs, (forall r e b ix, In (r, e) eqs -> In (b, ix) (dsets e) -> ix = zero) -> kernel_ok (residual_kernel ndim conv eqs).
Proof.
  intros conv eqs H r e Hin. cbn [residual_kernel k_ext k_eqs] in *. split; auto. intros b ix Hb. left. split; auto.
  apply in_map_iff in Hin. destruct Hin as ([r0 e0] & E & Hin). cbn [fst snd] in E. injection E as -> <-. destruct conv; [eapply H; eauto|].
  rewrite dsets_app in Hb. cbn [flat_map here dsets app] in Hb. rewrite app_nil_r in Hb. destruct Hb as [E | Hb]; [injection E as _ <-; auto | eapply H; eauto].
Qed.
Lemma subs_store : forall l (eqs : list (string * expr)), (forall r e b ix, In (r, e) eqs -> In (b, ix) (dsets e) -> ix = zero) ->
  forall r e b ix, In (r, e) (map (fun re => (fst re, subs ndim l (snd re))) eqs) -> In (b, ix) (dsets e) -> ix = zero.
Proof.
  intros l eqs H r e b ix Hin Hb. apply in_map_iff in Hin. destruct Hin as ([r0 e0] & E & Hin). cbn [fst snd] in E. injection E as -> <-.
  apply dsets_subs in Hb. destruct Hb as [Hb | (vw & _ & E)]; [eapply H; eauto | congruence].
Qed.
Lemma convective_store : forall cds eqs ks, convective_kernels k ndim dirof inv dord sord cds eqs = Ok ks ->
  (forall v, In v cds -> arg_ok v) -> (forall r e b ix, In (r, e) eqs -> In (b, ix) (dsets e) -> ix = zero) ->
  forall kn, In kn ks -> kernel_ok kn.
Proof.
  intros cds eqs ks H Hv He kn Hk. unfold convective_kernels in H.
  pose proof (group_perm dirof cds) as GP. destruct (group_by_direction dirof cds) as [|gg g] eqn:Eg; [injection H as <-; contradiction|]. rewrite <- Eg in *.
  set (works := assign_works 0 (flat_map snd (group_by_direction dirof cds))) in *.
  destruct (conv_groups k ndim dirof inv dord works (List.length works) (group_by_direction dirof cds)) as [ks1|] eqn:Ec; [|discriminate].
  cbn [bind] in H. injection H as <-. apply in_app_iff in Hk. destruct Hk as [Hk | [<- | []]].
  - eapply conv_groups_store; eauto. intros d vs v Hin Hvs. apply Hv. eapply Permutation_in; [exact GP|]. apply in_flat_map. exists (d, vs). auto.
  - apply residual_store. apply subs_store. auto.
Qed.
Lemma mapM_in : forall A B (f : A -> result B) l l', mapM f l = Ok l' -> forall y, In y l' -> exists x, In x l /\ f x = Ok y.
Proof.
  induction l as [|x l IH]; intros l' H y Hy; cbn in H; [injection H as <-; contradiction|].
  destruct (f x) as [z|] eqn:E; [|discriminate]. cbn [bind] in H. destruct (mapM f l) as [zs|]; [|discriminate]. cbn [bind] in H. injection H as <-.
  destruct Hy as [<- | Hy]; [exists x; split; [left|]; auto|]. destruct (IH zs eq_refl y Hy) as (u & Hu & Eu). exists u. split; [right|]; auto.
Qed.
Lemma lookup_plain : forall cds v, plain (lookup v (assign_works 0 cds)).
Proof.
  intros cds v. destruct (in_dec expr_eq_dec v cds) as [H | H].
  - destruct (assign_lookup 0 [] eq_refl cds v H) as (_ & i & -> & _). apply wk_plain.
  - rewrite <- (assign_fst 0 cds) in H. induction (assign_works 0 cds) as [|[u w] l IH]; [reflexivity|]. cbn [lookup]. cbn [map fst In] in H.
    destruct (expr_eq_dec v u) as [-> | N]; [exfalso; apply H; auto|]. apply IH. tauto.
Qed.
Lemma viscous_store : forall cds eqs ks, viscous_kernels k ndim dirof inv dord sord cds eqs = Ok ks ->
  (forall v, In v cds -> orig ndim dirof v /\ shallow cds v /\ arg_ok v /\ ~ In (cd_dir dirof v) (extended dirof cds v)) ->
  (forall r e b ix, In (r, e) eqs -> In (b, ix) (dsets e) -> ix = zero) ->
  forall kn, In kn ks -> kernel_ok kn.
Proof.
  intros cds eqs ks H Hv He kn Hk. unfold viscous_kernels in H. destruct cds as [|c0 l0] eqn:Ecd; [injection H as <-; contradiction|].
  rewrite <- Ecd in *. clear Ecd c0 l0. set (works := assign_works 0 cds) in *.
  destruct (mapM _ (sort_by_coordinates cds)) as [ks1|] eqn:Em in H; [|discriminate]. cbn [bind] in H. injection H as <-.
  apply in_app_iff in Hk. destruct Hk as [Hk | [<- | []]].
  - destruct (mapM_in _ _ _ _ _ Em kn Hk) as (v & Hin & Ev).
    assert (Hc : In v cds) by (eapply Permutation_in; [apply csort_perm | exact Hin]).
    destruct (discretise k dirof inv dord (traverse ndim works v)) as [r|] eqn:Er; [|discriminate]. cbn [bind] in Ev. injection Ev as <-.
    destruct (Hv v Hc) as (Or & Sh & Av & Nx).
    intros r' e [E | []]. injection E as <- <-. cbn [k_ext]. split; [right; apply lookup_plain|].
    assert (Q : arg_ok (traverse ndim works v) /\ cd_dir dirof (traverse ndim works v) = cd_dir dirof v).
    { destruct Sh as [Sh | (c & Sh & Hcc & Lt)].
      - unfold works. rewrite traverse_flat by auto. auto.
      - unfold works. rewrite (traverse_nested ndim cds c v) by auto. fold works.
        destruct Or as ((a & n & m & Ea & _) & _). assert (Ncv : c <> v) by (intros ->; lia). subst v.
        rewrite T_eq. cbn [is_cd assoc]. destruct (expr_eq_dec (EApp HCD (a :: repeat (ESym KCoord n) (S m))) c) as [E | N]; [congruence|].
        rewrite map_cons, T_coords. split; [|reflexivity]. split; [exact (proj1 Av)|].
        intros b ix Hb. cbn [cd_arg] in Hb. apply dsets_T in Hb. destruct Hb as [Hb | ([E | []] & ->)]; [apply (proj2 Av); auto|].
        cbn [snd] in E. subst b. split; auto. apply lookup_plain. }
    destruct Q as [Q1 Q2]. intros b ix Hb. apply (discretised_ok (extended dirof cds v) (traverse ndim works v) r Q1); auto. rewrite Q2. auto.
  - apply residual_store. apply subs_store. auto.
Qed.
End kernels.

(* ---- points ---- *)
Section points.
Variables (k : nat) (sizes : list Z).
Notation ndim := (List.length sizes).
Lemma stored_grid : forall b x, in_range k sizes [] x = true -> stored sizes b x = true.
Proof.
  intros b x H. apply in_range_iff in H. destruct H as [L H]. apply stored_iff. split; auto. intros d Hd. specialize (H d Hd).
  rewrite (ex_notin k [] d) in H by auto. destruct (no_halo b); lia.
Qed.
Hypothesis Hk : (k <= 5)%nat.
Lemma stored_near : forall b x, List.length x = ndim -> plain b ->
  (forall d, (d < ndim)%nat -> (- Z.of_nat k <= nth d x 0 < nth d sizes 0 + Z.of_nat k)%Z) -> stored sizes b x = true.
Proof.
  intros b x L P H. apply stored_iff. split; auto. intros d Hd. specialize (H d Hd). unfold plain in P. rewrite P. lia.
Qed.
Lemma stored_range : forall b ext x, plain b -> in_range k sizes ext x = true -> stored sizes b x = true.
Proof.
  intros b ext x P H. apply in_range_iff in H. destruct H as [L H]. apply stored_near; auto. intros d Hd. specialize (H d Hd).
  pose proof (ex_bound k ext d). lia.
Qed.
Lemma shift_zero_move : forall d i n x, List.length x = n -> vadd x (shift_ix d i (repeat 0%Z n)) = move d i x.
Proof.
  induction d; intros i n x L; destruct n as [|n]; destruct x as [|a x]; cbn in *; try lia; auto.
  - f_equal. apply vadd_0_r. lia.
  - f_equal; [lia|]. apply IHd. lia.
Qed.
Lemma offset_stored : forall ext b ix x, in_range k sizes ext x = true -> offset_ok k ndim ext b ix -> stored sizes b (vadd x ix) = true.
Proof.
  intros ext b ix x Hx H. assert (L : List.length x = ndim) by (apply in_range_iff in Hx; tauto).
  destruct H as [(-> & [-> | P]) | (d & i & Hd & Ne & Hi & -> & P)].
  - rewrite vadd_0_r by auto. apply stored_grid. auto.
  - rewrite vadd_0_r by auto. eapply stored_range; eauto.
  - rewrite shift_zero_move by auto. apply in_range_iff in Hx. destruct Hx as [_ Hx].
    apply stored_near; [rewrite move_len; auto | auto |]. intros e He. specialize (Hx e He).
    destruct (Nat.eq_dec e d) as [-> | N].
    + rewrite move_nth_at by lia. rewrite (ex_notin k ext d Ne) in Hx. lia.
    + rewrite move_nth_off by auto. pose proof (ex_bound k ext e). lia.
Qed.
Lemma spatial_stored : forall kn, kernel_ok k ndim kn -> forall b y, touches k sizes (Spatial kn) b y -> stored sizes b y = true.
Proof.
  intros kn H b y (r & e & x & Hin & Hx & [(-> & ->) | (ix & Hb & ->)]); destruct (H r e Hin) as [A B].
  - destruct A as [E | P]; [rewrite E in Hx; apply stored_grid; auto | eapply stored_range; eauto].
  - eapply offset_stored; eauto.
Qed.

(* ---- exchanges ---- *)
Lemma exchange_stored : forall arrays ex, (0 < ndim)%nat -> (forall b, In b arrays -> plain b) ->
  (forall d, (d < ndim)%nat -> (0 <= nth d sizes 0)%Z) ->
  In ex (BCModel.periodic_all sizes (block_halos k ndim) arrays) ->
  forall b y, touches k sizes (Exchange ex) b y -> stored sizes b y = true.
Proof.
  intros arrays ex Hnd Ha Hn Hex b y (Hb & Hy). unfold BCModel.periodic_all in Hex. apply in_flat_map in Hex. destruct Hex as (d & Hd & Hex).
  apply in_seq in Hd.
  assert (exists side, ex = BCModel.periodic_apply sizes (block_halos k ndim) d side arrays) as (side & ->) by (destruct Hex as [<- | [<- | []]]; eauto).
  clear Hex. unfold BCModel.periodic_apply, BCModel.get_transfers in *. cbn [BCModel.ex_arrays BCModel.ex_to BCModel.ex_from BCModel.ex_size] in *.
  assert (Lb : List.length (block_halos k ndim) = ndim) by apply repeat_length.
  pose proof (PerProps.halo_vals_length sizes (block_halos k ndim) Lb) as LH.
  assert (Hl : BCSpec.lower_halo (block_halos k ndim) 0 = (- Z.of_nat k)%Z).
  { unfold BCSpec.lower_halo, block_halos. destruct ndim; [lia|]. cbn. lia. }
  assert (Hu : BCSpec.upper_halo (block_halos k ndim) 0 = (Z.of_nat k)%Z).
  { unfold BCSpec.upper_halo, block_halos. destruct ndim; [lia|]. cbn. lia. }
  assert (HV : forall i, (i < ndim)%nat -> nth i (BCModel.get_halo_values (block_halos k ndim)) (0, 0)%Z = (- Z.of_nat k, Z.of_nat k)%Z).
  { intros i Hi. rewrite (PerProps.halo_vals sizes (block_halos k ndim) Lb i Hi). rewrite Hl, Hu. f_equal. lia. }
  assert (HF : forall i, (i < ndim)%nat -> nth i (map fst (BCModel.get_halo_values (block_halos k ndim))) 0%Z = (- Z.of_nat k)%Z).
  { intros i Hi. change 0%Z with (fst (0, 0)%Z). rewrite map_nth, HV by auto. reflexivity. }
  rewrite (HV d) in Hy by lia. cbn [fst snd] in Hy.
  assert (SZ : forall i, (i < ndim)%nat -> nth i (BCModel.map2 (fun n h => n + 0 + (Z.abs (fst h) + Z.abs (snd h)))%Z sizes (BCModel.get_halo_values (block_halos k ndim))) 0%Z = (nth i sizes 0 + 2 * Z.of_nat k)%Z).
  { intros i Hi. rewrite (PerProps.map2_nth _ _ _ _ _ _ _ 0%Z (0, 0)%Z) by (auto; lia). rewrite HV by auto. cbn [fst snd]. lia. }
  assert (LS : List.length (BCModel.map2 (fun n h => n + 0 + (Z.abs (fst h) + Z.abs (snd h)))%Z sizes (BCModel.get_halo_values (block_halos k ndim))) = ndim).
  { rewrite BCMirror.map2_length; auto; lia. }
  assert (SN : forall l d v i, (d < List.length l)%nat -> nth i (BCModel.set_nth d v l) 0%Z = if Nat.eqb i d then v else nth i l 0%Z).
  { clear. induction l as [|a l IH]; intros [|d] v [|i] H; cbn in *; try lia; auto. apply IH. lia. }
  assert (P : plain b) by auto.
  destruct Hy as [Hy | Hy]; apply PerProps.in_box_iff in Hy; try (rewrite !BCKern.set_nth_length, map_length; lia);
    destruct Hy as [L Hy]; rewrite !BCKern.set_nth_length, LS in L; apply stored_near; auto;
    intros e He; specialize (Hy e ltac:(lia)); rewrite !SN in Hy by (rewrite ?map_length; lia);
    rewrite HF, SZ in Hy by auto; specialize (Hn e He); destruct (Nat.eqb_spec e d) as [-> | N]; destruct side; lia.
Qed.
End points.
