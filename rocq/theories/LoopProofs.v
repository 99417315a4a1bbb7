(* Proofs for C70: the loops of a generated program may visit their points in any order. *)
From Verif Require Import Base BaseProofs Expr ExprProofs FDModel WorkModel ShiftSpec ShiftModel DiscModel DiscSpec DiscProofs DiscRun DiscMain KernelModel ProgModel ProgSpec ProgProofs StoreModel StoreSpec StoreProofs LoopModel.
From Verif Require WorkProofs AdvModel AlgModel BCSpec BCModel OrdModel OrdProps.
From Coq Require Import QArith ZArith Reals Lia Permutation.
Local Close Scope Q_scope.
Local Open Scope list_scope.

Lemma same_point_iff : forall x y, same_point x y = true <-> x = y.
Proof. intros x y. unfold same_point. destruct (list_eq_dec Z.eq_dec x y); split; congruence. Qed.
Lemma same_point_refl : forall x, same_point x x = true.
Proof. intros x. apply same_point_iff. auto. Qed.

(* ---- kernels that read the arrays they write at the point itself only ---- *)
Definition own_point (ndim : nat) (kn : kernel) : Prop :=
  forall r e b ix, In (r, e) (k_eqs kn) -> In (b, ix) (dsets e) -> In b (map fst (k_eqs kn)) -> ix = repeat 0%Z ndim.

Section loops.
Variables (J : interp R) (k : nat) (sizes : list Z).
Notation ndim := (List.length sizes).

Lemma visit_other : forall eqs M x b y, x <> y -> visit J eqs M x b y = M b y.
Proof.
  unfold visit. induction eqs as [|s eqs IH]; intros M x b y N; cbn [fold_left]; auto. rewrite IH by auto.
  unfold visit1. destruct (same_point x y) eqn:E; [apply same_point_iff in E; contradiction|]. rewrite andb_false_r. auto.
Qed.
Lemma visit_frame : forall eqs M x b y, ~ In b (map fst eqs) -> visit J eqs M x b y = M b y.
Proof.
  unfold visit. induction eqs as [|s eqs IH]; intros M x b y N; cbn [fold_left]; auto. cbn [map In] in N. rewrite IH by tauto.
  unfold visit1. destruct (String.eqb_spec b (fst s)); auto. subst. tauto.
Qed.
Section kernel.
Variable kn : kernel.
Hypothesis Own : own_point ndim kn.
(* the value computed at x depends on the written arrays at x only *)
Definition alike (x : list Z) (M M' : memory) : Prop :=
  (forall b, M b x = M' b x) /\ (forall b y, ~ In b (map fst (k_eqs kn)) -> M b y = M' b y).
Lemma alike_eval : forall x M M' r e, List.length x = ndim -> alike x M M' -> In (r, e) (k_eqs kn) ->
  eval J (fun b ix => M b (at_offset x ix)) e = eval J (fun b ix => M' b (at_offset x ix)) e.
Proof.
  intros x M M' r e L [A B] Hin. apply eval_ext. intros b ix Hb. rewrite !at_offset_vadd.
  destruct (in_dec string_dec b (map fst (k_eqs kn))) as [W | W]; auto.
  rewrite (Own r e b ix Hin Hb W). rewrite vadd_0_r by auto. auto.
Qed.
Lemma visit_alike : forall x, List.length x = ndim -> forall l, incl l (k_eqs kn) -> forall M M', alike x M M' ->
  alike x (visit J l M x) (visit J l M' x).
Proof.
  intros x L. unfold visit. induction l as [|[r e] l IH]; intros Hl M M' H; cbn [fold_left]; auto.
  apply IH; [intros q Hq; apply Hl; right; auto|]. pose proof (alike_eval x M M' r e L H (Hl _ (or_introl eq_refl))) as E. destruct H as [A B].
  split; [intros b | intros b y Nb]; unfold visit1; cbn [fst snd].
  - destruct (String.eqb b r && same_point x x); [exact E | apply A].
  - destruct (String.eqb b r && same_point x y); [exact E | auto].
Qed.
Lemma statements_alike : forall x, in_range k sizes (k_ext kn) x = true -> forall l, incl l (k_eqs kn) -> forall M M', alike x M M' ->
  alike x (fold_left (exec_eq J k sizes (k_ext kn)) l M) (visit J l M' x).
Proof.
  intros x Hx. assert (L : List.length x = ndim) by (apply in_range_iff in Hx; tauto).
  unfold visit. induction l as [|[r e] l IH]; intros Hl M M' H; cbn [fold_left]; auto.
  assert (Hr : In (r, e) (k_eqs kn)) by (apply Hl; left; auto).
  apply IH; [intros q Hq; apply Hl; right; auto|]. pose proof (alike_eval x M M' r e L H Hr) as E. destruct H as [A B].
  split; [intros b | intros b y Nb]; unfold exec_eq, visit1; cbn [fst snd].
  - rewrite Hx, same_point_refl. destruct (String.eqb b r); [exact E | apply A].
  - destruct (String.eqb_spec b r) as [-> | N]; [exfalso; apply Nb; change r with (fst (r, e)); apply in_map; auto|]. cbn [andb]. apply B. auto.
Qed.
Lemma statements_outside : forall x, in_range k sizes (k_ext kn) x = false -> forall l M b,
  fold_left (exec_eq J k sizes (k_ext kn)) l M b x = M b x.
Proof.
  intros x Hx. induction l as [|s l IH]; intros M b; cbn [fold_left]; auto. rewrite IH. unfold exec_eq. rewrite Hx, andb_false_r. auto.
Qed.
Lemma loop_points : forall pts M x b, NoDup pts -> (forall y, In y pts -> List.length y = ndim) ->
  fold_left (visit J (k_eqs kn)) pts M b x = if in_dec (list_eq_dec Z.eq_dec) x pts then visit J (k_eqs kn) M x b x else M b x.
Proof.
  induction pts as [|p pts IH]; intros M x b ND HL; [reflexivity|]. cbn [fold_left].
  apply NoDup_cons_iff in ND. destruct ND as [Np ND]. rewrite IH by (auto; intros; apply HL; right; auto).
  destruct (in_dec (list_eq_dec Z.eq_dec) x pts) as [H | H]; destruct (in_dec (list_eq_dec Z.eq_dec) x (p :: pts)) as [H' | H'].
  - assert (N : p <> x) by (intros ->; auto). refine (proj1 (visit_alike x (HL x H') (k_eqs kn) (incl_refl _) _ _ _) b). split; intros.
    + apply visit_other. auto.
    + apply visit_frame. auto.
  - exfalso. apply H'. right. auto.
  - destruct H' as [<- | H']; [auto | contradiction].
  - apply visit_other. intros ->. apply H'. left. auto.
Qed.
Theorem any_order : forall pts M, BCSpec.sweeps pts (fun x => in_range k sizes (k_ext kn) x = true) ->
  forall b x, fold_left (visit J (k_eqs kn)) pts M b x = exec_kernel J k sizes M kn b x.
Proof.
  intros pts M [ND Hp] b x. rewrite loop_points; auto; [|intros y Hy; apply Hp in Hy; apply in_range_iff in Hy; tauto].
  unfold exec_kernel. destruct (in_dec (list_eq_dec Z.eq_dec) x pts) as [H | H].
  - symmetry. refine (proj1 (statements_alike x (proj1 (Hp x) H) (k_eqs kn) (incl_refl _) M M _) b). split; auto.
  - symmetry. apply statements_outside. destruct (in_range k sizes (k_ext kn) x) eqn:E; auto. exfalso. apply H. apply Hp. auto.
Qed.
End kernel.

(* ---- the kernels of the time scheme: everything is at the point itself ---- *)
Lemma advance_inside : forall l M M' x, in_range k sizes [] x = true -> (forall b, M b x = M' b x) ->
  forall b, AdvModel.run (list Z) (in_range k sizes []) l M b x = AdvModel.run (list Z) (same_point x) l M' b x.
Proof.
  unfold AdvModel.run. induction l as [|s l IH]; intros M M' x Hx H b; cbn [fold_left]; auto. apply IH; auto.
  intros c. unfold AdvModel.run_stmt. destruct (String.eqb c (fst s)); auto. rewrite Hx, same_point_refl.
  unfold AdvModel.value. destruct (snd s); rewrite !H; auto.
Qed.
Lemma advance_outside : forall (inside : list Z -> bool) l M x, inside x = false -> forall b, AdvModel.run (list Z) inside l M b x = M b x.
Proof.
  unfold AdvModel.run. induction l as [|s l IH]; intros M x Hx b; cbn [fold_left]; auto. rewrite IH by auto.
  unfold AdvModel.run_stmt. rewrite Hx. destruct (String.eqb b (fst s)); auto.
Qed.
Lemma advance_same : forall l M M' x, (forall b, M b x = M' b x) ->
  forall b, AdvModel.run (list Z) (same_point x) l M b x = AdvModel.run (list Z) (same_point x) l M' b x.
Proof.
  unfold AdvModel.run. induction l as [|s l IH]; intros M M' x H b; cbn [fold_left]; auto. apply IH; auto.
  intros c. unfold AdvModel.run_stmt. destruct (String.eqb c (fst s)); auto. rewrite same_point_refl.
  unfold AdvModel.value. destruct (snd s); rewrite !H; auto.
Qed.
Lemma advance_loop : forall l pts M x b, NoDup pts ->
  fold_left (visit_advance l) pts M b x = if in_dec (list_eq_dec Z.eq_dec) x pts then visit_advance l M x b x else M b x.
Proof.
  induction pts as [|p pts IH]; intros M x b ND; [reflexivity|]. cbn [fold_left].
  apply NoDup_cons_iff in ND. destruct ND as [Np ND]. rewrite IH by auto.
  assert (O : p <> x -> forall c, visit_advance l M p c x = M c x).
  { intros N c. apply advance_outside. destruct (same_point p x) eqn:E; auto. apply same_point_iff in E. contradiction. }
  destruct (in_dec (list_eq_dec Z.eq_dec) x pts) as [H | H]; destruct (in_dec (list_eq_dec Z.eq_dec) x (p :: pts)) as [H' | H'].
  - assert (N : p <> x) by (intros ->; auto). apply advance_same. auto.
  - exfalso. apply H'. right. auto.
  - destruct H' as [<- | H']; [auto | contradiction].
  - apply O. intros ->. apply H'. left. auto.
Qed.
Lemma advance_any_order : forall l pts M, BCSpec.sweeps pts (fun x => in_range k sizes [] x = true) ->
  forall b x, fold_left (visit_advance l) pts M b x = AdvModel.run (list Z) (in_range k sizes []) l M b x.
Proof.
  intros l pts M [ND Hp] b x. rewrite advance_loop by auto. destruct (in_dec (list_eq_dec Z.eq_dec) x pts) as [H | H].
  - symmetry. apply advance_inside; auto. apply Hp. auto.
  - symmetry. apply advance_outside. destruct (in_range k sizes [] x) eqn:E; auto. exfalso. apply H. apply Hp. auto.
Qed.

(* ---- programs ---- *)
Variables (dt : R) (ab : list R * list R).
Definition loopable (pk : pkernel) : Prop := match pk with Spatial kn => own_point ndim kn | _ => True end.
Notation same := (fun M M' : memory => forall b y, M b y = M' b y).
Lemma run_pkernel_ext : forall pk st M M', same M M' -> same (run_pkernel J k sizes dt ab M pk st) (run_pkernel J k sizes dt ab M' pk st).
Proof.
  intros pk st M M' H. assert (A : forall l (M M' : memory), same M M' -> same (AdvModel.run (list Z) (in_range k sizes []) l M) (AdvModel.run (list Z) (in_range k sizes []) l M')).
  { unfold AdvModel.run. induction l as [|s l IH]; intros N N' HN; cbn [fold_left]; auto. apply IH. intros b y.
    unfold AdvModel.run_stmt, AdvModel.value. destruct (snd s); rewrite !HN; auto. }
  destruct pk as [kn | eqs | eqs | eqs | ex]; cbn [run_pkernel]; try (apply A; auto).
  - unfold exec_kernel. generalize (k_eqs kn) as l. intros l. revert M M' H. induction l as [|s l IH]; intros M M' H; cbn [fold_left]; auto.
    apply IH. intros b y. unfold exec_eq. rewrite H. destruct (_ && _); auto. apply eval_ext. auto.
  - intros b y. unfold BCModel.transfer. rewrite !H. auto.
Qed.
Lemma run_program_ext : forall tr M M', same M M' -> same (run_program J k sizes dt ab tr M) (run_program J k sizes dt ab tr M').
Proof.
  unfold run_program. induction tr as [|ev tr IH]; intros M M' H; cbn [fold_left]; auto. apply IH.
  destruct ev; cbn [run_event]; auto. apply run_pkernel_ext. auto.
Qed.
Lemma loop_program_any : forall order, (forall n ext, BCSpec.sweeps (order n ext) (fun x => in_range k sizes ext x = true)) ->
  forall tr n M, (forall pk it st, In (AlgModel.EKernel pk it st) tr -> loopable pk) ->
  same (loop_program J dt ab order tr n M) (run_program J k sizes dt ab tr M).
Proof.
  intros order HO. induction tr as [|ev tr IH]; intros n M HL b y; [reflexivity|].
  assert (HL' : forall pk it st, In (AlgModel.EKernel pk it st) tr -> loopable pk) by (intros pk it st H; apply (HL pk it st); right; auto).
  destruct ev as [pk it st | | |]; cbn [loop_program]; try (rewrite IH by auto; reflexivity).
  rewrite IH by auto. unfold run_program. cbn [fold_left run_event]. apply run_program_ext. clear b y. intros b y.
  specialize (HL pk it st (or_introl eq_refl)).
  destruct pk as [kn | eqs | eqs | eqs | ex]; cbn [loop_pkernel run_pkernel range_of]; try (apply advance_any_order; auto); auto.
  apply any_order; auto.
Qed.
End loops.

(* ---- the kernels of the discretisation ---- *)
Section kernels.
Variables (k ndim : nat) (dirof : string -> nat) (inv : nat -> nat -> expr) (dord : expr -> list dset)
  (sord : list (expr * string) -> list (expr * string)).
Hypothesis Hinv : forall d m, dsets (inv d m) = [].
Hypothesis Hdord : forall e, enumerates (dord e) e.
Notation zero := (repeat 0%Z ndim).

Lemma all_here : forall kn, (forall r e b ix, In (r, e) (k_eqs kn) -> In (b, ix) (dsets e) -> ix = zero) -> own_point ndim kn.
Proof. intros kn H r e b ix Hin Hb _. eapply H; eauto. Qed.
Lemma reads_argument : forall v r b ix, discretise k dirof inv dord v = Ok r -> In (b, ix) (dsets r) -> In b (map fst (dsets (cd_arg v))).
Proof.
  intros v r b ix H Hb. destruct (dsets_discretise k dirof inv dord Hinv Hdord v r H b ix Hb) as [A | (ix0 & p & A & _)];
    apply (in_map fst) in A; auto.
Qed.
Lemma one_equation : forall v r w ext, discretise k dirof inv dord v = Ok r -> ~ In w (map fst (dsets (cd_arg v))) ->
  own_point ndim {| k_eqs := [(w, r)]; k_ext := ext |}.
Proof.
  intros v r w ext H Hw r' e b ix [E | []] Hb [<- | []]. injection E as <- <-. exfalso. apply Hw. eapply reads_argument; eauto.
Qed.
(* the argument of a derivative of the equations: arrays at the point, no work array *)
Definition free_arg (v : expr) : Prop := forall b ix, In (b, ix) (dsets (cd_arg v)) -> ix = zero /\ ~ reserved b.

Lemma residual_own : forall conv eqs, (forall r e b ix, In (r, e) eqs -> In (b, ix) (dsets e) -> ix = zero) -> own_point ndim (residual_kernel ndim conv eqs).
Proof.
  intros conv eqs H. apply all_here. intros r e b ix Hin Hb. cbn [residual_kernel k_eqs] in Hin.
  apply in_map_iff in Hin. destruct Hin as ([r0 e0] & E & Hin). cbn [fst snd] in E. injection E as -> <-. destruct conv; [eapply H; eauto|].
  rewrite dsets_app in Hb. cbn [flat_map here dsets app] in Hb. rewrite app_nil_r in Hb. destruct Hb as [E | Hb]; [injection E as _ <-; auto | eapply H; eauto].
Qed.
Lemma conv_group_own : forall all vs c eqs ks, conv_group k ndim dirof inv dord (assign_works 0 all) c vs = Ok (eqs, ks) ->
  (List.length all <= c)%nat -> incl vs all -> (forall v, In v vs -> free_arg v) ->
  (forall r e b ix, In (r, e) eqs -> In (b, ix) (dsets e) -> ix = zero) /\ (forall kn, In kn ks -> own_point ndim kn).
Proof.
  intros all. induction vs as [|v vs IH]; intros c eqs ks H Hc Hi Hv; cbn [conv_group] in H; [injection H as <- <-; split; intros; contradiction|].
  set (v1 := if many_datasets v then EApp HCD (here ndim (wk_name c) :: cd_coords v) else v) in *.
  destruct (discretise k dirof inv dord v1) as [r|] eqn:Er; [|discriminate]. cbn [bind] in H.
  destruct (conv_group k ndim dirof inv dord (assign_works 0 all) (if many_datasets v then S c else c) vs) as [[eqs' ks']|] eqn:Eg; [|discriminate].
  cbn [bind fst snd] in H. injection H as <- <-. destruct (IH _ _ _ Eg) as [A B]; [destruct (many_datasets v); lia | intros u Hu; apply Hi; right; auto | intros u Hu; apply Hv; right; auto |].
  pose proof (Hv v (or_introl eq_refl)) as Av. destruct (assign_lookup 0 [] eq_refl all v (Hi v (or_introl eq_refl))) as (_ & i & Ei & Li).
  split.
  - intros r' e b ix Hin Hb. apply in_app_iff in Hin. destruct Hin as [Hin | Hin]; [|eapply A; eauto].
    destruct (many_datasets v); [|contradiction]. destruct Hin as [E | []]. injection E as <- <-. apply (Av b ix Hb).
  - intros kn [<- | Hk]; auto. eapply one_equation; [exact Er|]. rewrite Ei. unfold v1. intros Hin. apply in_map_iff in Hin. destruct Hin as ([b ix] & E & Hb). cbn [fst] in E. subst b.
    destruct (many_datasets v).
    + destruct Hb as [E | []]. assert (E1 : wk_name c = wk_name i) by congruence. apply WorkProofs.wk_name_inj in E1. lia.
    + destruct (Av _ _ Hb) as [_ N]. apply N. exists i. auto.
Qed.
Lemma conv_groups_own : forall all c g ks, conv_groups k ndim dirof inv dord (assign_works 0 all) c g = Ok ks ->
  (List.length all <= c)%nat -> incl (flat_map snd g) all -> (forall v, In v (flat_map snd g) -> free_arg v) ->
  forall kn, In kn ks -> own_point ndim kn.
Proof.
  intros all c. induction g as [|[d vs] g IH]; intros ks H Hc Hi Hv kn Hk; cbn [conv_groups] in H; [injection H as <-; contradiction|].
  destruct (conv_group k ndim dirof inv dord (assign_works 0 all) c vs) as [[eqs ks1]|] eqn:Eg; [|discriminate]. cbn [bind fst snd] in H.
  destruct (conv_groups k ndim dirof inv dord (assign_works 0 all) c g) as [rest|] eqn:Er; [|discriminate]. cbn [bind] in H. injection H as <-.
  cbn [flat_map snd] in Hi, Hv.
  destruct (conv_group_own _ _ _ _ _ Eg Hc) as [A B]; [intros v Hin; apply Hi; apply in_app_iff; auto | intros v Hin; apply Hv; apply in_app_iff; auto |].
  apply in_app_iff in Hk. destruct Hk as [Hk | Hk]; [|apply in_app_iff in Hk; destruct Hk as [Hk | Hk]; auto].
  - destruct eqs as [|q eqs]; [contradiction|]. destruct Hk as [<- | []]. apply all_here. intros r e b ix Hin. cbn [k_eqs] in *. eapply A; eauto.
  - apply (IH rest eq_refl); auto; intros v Hin; [apply Hi | apply Hv]; apply in_app_iff; auto.
Qed.
Lemma convective_own : forall cds eqs ks, convective_kernels k ndim dirof inv dord sord cds eqs = Ok ks ->
  (forall v, In v cds -> free_arg v) -> (forall r e b ix, In (r, e) eqs -> In (b, ix) (dsets e) -> ix = zero) ->
  forall kn, In kn ks -> own_point ndim kn.
Proof.
  intros cds eqs ks H Hv He kn Hk. unfold convective_kernels in H.
  pose proof (group_perm dirof cds) as GP. destruct (group_by_direction dirof cds) as [|gg g] eqn:Eg; [injection H as <-; contradiction|]. rewrite <- Eg in *.
  destruct (conv_groups k ndim dirof inv dord (assign_works 0 (flat_map snd (group_by_direction dirof cds))) _ (group_by_direction dirof cds)) as [ks1|] eqn:Ec; [|discriminate].
  cbn [bind] in H. injection H as <-. apply in_app_iff in Hk. destruct Hk as [Hk | [<- | []]].
  - eapply conv_groups_own; [exact Ec | rewrite assign_length; auto | apply incl_refl | | exact Hk].
    intros v Hin. apply Hv. eapply Permutation_in; [exact GP | exact Hin].
  - apply residual_own. apply subs_store. auto.
Qed.
Lemma viscous_own : forall cds eqs ks, viscous_kernels k ndim dirof inv dord sord cds eqs = Ok ks ->
  (forall v, In v cds -> orig ndim dirof v /\ shallow cds v /\ free_arg v) ->
  (forall r e b ix, In (r, e) eqs -> In (b, ix) (dsets e) -> ix = zero) ->
  forall kn, In kn ks -> own_point ndim kn.
Proof.
  intros cds eqs ks H Hv He kn Hk. unfold viscous_kernels in H. destruct cds as [|c0 l0] eqn:Ecd; [injection H as <-; contradiction|].
  rewrite <- Ecd in *. clear Ecd c0 l0. set (works := assign_works 0 cds) in *.
  destruct (mapM _ (sort_by_coordinates cds)) as [ks1|] eqn:Em in H; [|discriminate]. cbn [bind] in H. injection H as <-.
  apply in_app_iff in Hk. destruct Hk as [Hk | [<- | []]].
  - destruct (mapM_in _ _ _ _ _ Em kn Hk) as (v & Hin & Ev).
    assert (Hc : In v cds) by (eapply Permutation_in; [apply csort_perm | exact Hin]).
    destruct (discretise k dirof inv dord (traverse ndim works v)) as [r|] eqn:Er; [|discriminate]. cbn [bind] in Ev. injection Ev as <-.
    destruct (Hv v Hc) as (Or & Sh & Av). eapply one_equation; [exact Er|].
    destruct (assign_lookup 0 [] eq_refl cds v Hc) as (_ & i & Ei & Li). fold works in Ei.
    intros Hin2. apply in_map_iff in Hin2. destruct Hin2 as ([b ix] & E & Hb). cbn [fst] in E. subst b.
    assert (NW : forall ix', In (lookup v works, ix') (dsets (cd_arg v)) -> False).
    { intros ix' Hw. destruct (Av _ _ Hw) as [_ N]. apply N. exists i. auto. }
    destruct Sh as [Sh | (c & Sh & Hcc & Lt)].
    + unfold works in Hb at 2. rewrite traverse_flat in Hb by auto. eauto.
    + unfold works in Hb at 2. rewrite (traverse_nested ndim cds c v) in Hb by auto. fold works in Hb.
      destruct Or as ((a & n & m & Ea & _) & _). assert (Ncv : c <> v) by (intros ->; lia).
      remember (lookup v works) as w eqn:Ew. subst v.
      rewrite T_eq in Hb. cbn [is_cd assoc] in Hb. destruct (expr_eq_dec (EApp HCD (a :: repeat (ESym KCoord n) (S m))) c) as [E | N]; [congruence|].
      rewrite map_cons, T_coords in Hb. cbn [cd_arg] in Hb. apply dsets_T in Hb. destruct Hb as [Hb | ([E | []] & _)]; [eapply NW; eauto|].
      cbn [snd] in E. apply Ncv. apply (assign_inj 0 [] eq_refl cds c _ Hcc Hc). fold works. congruence.
  - apply residual_own. apply subs_store. auto.
Qed.
End kernels.

Section program.
Variables (k : nat) (dirof : string -> nat) (inv : nat -> nat -> expr) (dord : expr -> list dset)
  (sord : list (expr * string) -> list (expr * string)) (num : string -> OrdModel.key) (kord : list string -> list string)
  (sizes : list Z) (sys crs : list (string * expr)) (known : list string) (register : string -> string) (ccds vcds : list expr).
Notation ndim := (List.length sizes).
Hypothesis Hinv : forall d m, dsets (inv d m) = [].
Hypothesis Hdord : forall e, enumerates (dord e) e.
Hypothesis Hnum : forall a b, num a = num b -> a = b.
Hypothesis Hkord : forall l, Permutation l (kord l).
Hypothesis PP : periodic_problem ndim dirof register sys crs known.
Hypothesis HC : lists_derivatives (disc_eqs sys) (fun t => ~ viscous_term t) ccds.
Hypothesis HV : lists_derivatives (disc_eqs sys) viscous_term vcds.

Lemma listed_free : forall v, In v ccds \/ In v vcds -> free_arg ndim v.
Proof.
  intros v H.
  assert (Q : derivative v /\ exists r rhs, In (r, rhs) (disc_eqs sys) /\ inside v rhs).
  { destruct H as [H | H]; [apply (proj2 HC) in H | apply (proj2 HV) in H]; destruct H as (Hd & r & rhs & t & Hr & Ht & _ & Hi);
      split; auto; exists r, rhs; split; auto; (eapply inside_trans; [exact Hi | apply terms_inside; auto]). }
  destruct Q as (Hd & r & rhs & Hr & Hi). pose proof (pp_form _ _ _ _ _ _ PP) as WF.
  destruct (wf_derivative _ _ _ _ WF r rhs v Hr Hi Hd) as (a & n & m & Ev & _). intros b ix Hb.
  assert (Hb' : In (b, ix) (dsets rhs)) by (eapply inside_dsets; [exact Hi|]; rewrite Ev in *; rewrite dsets_cd; exact Hb).
  destruct (wf_arrays _ _ _ _ WF r rhs b ix Hr Hb') as (A & B & _). split; auto. intros N. apply B. left. exact N.
Qed.
Lemma parts_here : forall (sel : expr -> expr), (sel = (fun rhs => fst (classify rhs)) \/ sel = (fun rhs => snd (classify rhs))) ->
  forall r e b ix, In (r, e) (map (fun re => (fst re, sel (snd re))) (disc_eqs sys)) -> In (b, ix) (dsets e) -> ix = repeat 0%Z ndim.
Proof.
  intros sel Hs r e b ix Hin Hb. apply in_map_iff in Hin. destruct Hin as ([r0 rhs] & E & Hin). cbn [fst snd] in E. injection E as -> <-.
  pose proof (pp_form _ _ _ _ _ _ PP) as WF.
  destruct (classify_form rhs (wf_form _ _ _ _ WF r rhs Hin) (wf_function _ _ _ _ WF r rhs Hin)) as (_ & _ & A & B).
  destruct Hs as [-> | ->]; cbn in Hb; [apply A in Hb | apply B in Hb]; eapply (wf_arrays _ _ _ _ WF r rhs b ix Hin Hb).
Qed.
Lemma spatial_own : forall sp, all_spatial_kernels k ndim dirof inv dord sord num kord crs (map fst sys ++ known) ccds vcds (disc_eqs sys) = Ok sp ->
  forall kn, In kn sp -> own_point ndim kn.
Proof.
  intros sp Esp kn Hkn. unfold all_spatial_kernels in Esp.
  destruct (sbli_rhs_discretisation k ndim dirof inv dord sord ccds vcds (disc_eqs sys)) as [ks|] eqn:Eks; [|discriminate]. cbn [bind] in Esp.
  destruct (OrdModel.sort_constituents kernel OrdModel.max_passes _ _) as [cs|] eqn:Ecs in Esp; [|discriminate].
  cbn [bind] in Esp. injection Esp as <-. apply in_app_iff in Hkn. destruct Hkn as [Hkn | Hkn].
  - destruct (OrdProps.C20_kernels kernel _ _ cs (crk_nodup dirof num kord sizes sys crs ccds vcds Hnum Hkord) Ecs) as (cl & -> & _ & Hcl).
    apply in_map_iff in Hkn. destruct Hkn as (c & <- & Hc). apply Hcl in Hc. destruct Hc as [Hc _].
    apply (crk_in dirof num kord sizes sys crs known ccds vcds register PP) in Hc. destruct Hc as (b & e & _ & Hin & ->).
    apply all_here. intros r e' c ix [E | []] Hc. injection E as <- <-. eapply (pp_local _ _ _ _ _ _ PP); eauto.
  - unfold sbli_rhs_discretisation in Eks.
    destruct (convective_kernels _ _ _ _ _ _ _ _) as [kc|] eqn:Ec in Eks; [|discriminate]. cbn [bind] in Eks.
    destruct (viscous_kernels _ _ _ _ _ _ _ _) as [kv|] eqn:Ev in Eks; [|discriminate]. cbn [bind] in Eks. injection Eks as <-.
    apply in_app_iff in Hkn. destruct Hkn as [Hkn | Hkn].
    + eapply (convective_own k ndim dirof inv dord sord Hinv Hdord); [exact Ec | | | exact Hkn].
      * intros v Hv. apply listed_free. auto.
      * apply (parts_here (fun rhs => snd (classify rhs))). auto.
    + eapply (viscous_own k ndim dirof inv dord sord Hinv Hdord); [exact Ev | | | exact Hkn].
      * intros v Hv.
        destruct (vcds_ok ndim dirof sizes eq_refl (disc_eqs sys) (wf_weaken _ _ _ reserved _ (fun b H => or_introl H) (pp_form _ _ _ _ _ _ PP)) vcds HV v Hv) as (A & B).
        split; auto. split; auto. apply listed_free; auto.
      * apply (parts_here (fun rhs => fst (classify rhs))). auto.
Qed.
End program.
