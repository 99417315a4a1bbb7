From Verif Require Import Base BaseProofs Expr ExprProofs FDModel FDProofs WorkModel WorkProofs ShiftModel ShiftSpec ShiftProofs DiscModel DiscSpec AlgProofs AdvProofs.
From Coq Require Import QArith ZArith Reals Qreals Lia Lra Permutation.
Local Close Scope Q_scope.

(* ---- C30: classification ---- *)
Lemma zero_functions_id : forall e, no_function e -> zero_functions e = e.
Proof.
  induction e as [q|kd n|b ix|h args IH] using expr_ind'; intros H; try reflexivity.
  assert (E : map zero_functions args = args).
  { rewrite <- (map_id args) at 2. apply map_ext_in. intros a Ha. rewrite Forall_forall in IH. apply IH; auto.
    intros f l Hi. apply (H f l). econstructor; eauto. }
  destruct h; cbn [zero_functions]; rewrite ?E; auto.
  exfalso. apply (H f args). constructor.
Qed.

Lemma sum_filter : forall (g : expr -> R) p l,
  (fold_right Rplus 0 (map g (filter p l)) + fold_right Rplus 0 (map g (filter (fun a => negb (p a)) l)) =
   fold_right Rplus 0 (map g l))%R.
Proof.
  intros g p. induction l as [|a l IH]; cbn; [lra|]. destruct (p a); cbn; lra.
Qed.

Definition keeps (rhs : expr) : expr :=
  match rhs with EApp HAdd _ | EApp HMul _ => zero_functions rhs | _ => ENum 0 end.
Lemma sem_add : forall J k dirof h M l x, real_arithmetic J ->
  sem J k dirof h M (EApp HAdd l) x = fold_right Rplus 0%R (map (fun a => sem J k dirof h M a x) l).
Proof. intros J k dirof h M l x (_ & Ja & _). cbn [sem]. rewrite Ja. reflexivity. Qed.
Lemma sem_num0 : forall J k dirof h M x, real_arithmetic J -> sem J k dirof h M (ENum 0) x = 0%R.
Proof. intros J k dirof h M x (Jn & _). cbn [sem]. rewrite Jn. apply RMicromega.Q2R_0. Qed.

Lemma classify_sum : forall J k dirof h M rhs x, real_arithmetic J ->
  (sem J k dirof h M (fst (classify rhs)) x + sem J k dirof h M (snd (classify rhs)) x =
   sem J k dirof h M (keeps rhs) x)%R.
Proof.
  intros J k dirof h M rhs x HJ.
  destruct rhs as [q|kd n|b ix|hd args]; try (cbn [classify keeps zero_functions fst snd]; rewrite !sem_num0 by auto; lra).
  destruct hd; try (cbn [classify keeps zero_functions fst snd]; rewrite !sem_num0 by auto; lra).
  - cbn [classify keeps zero_functions fst snd]. rewrite !sem_add by auto. rewrite !map_map. apply sum_filter.
  - unfold classify, keeps. destruct (has_re (EApp HMul args)); cbn [fst snd];
      rewrite (sem_num0 J k dirof h M x HJ : sem J k dirof h M (zero_functions (ENum 0)) x = 0%R); lra.
Qed.

(* ---- derivatives in an expression ---- *)
Lemma cds_post_app : forall h args, cds_post (EApp h args) =
  flat_map cds_post args ++ (if is_cd (EApp h args) then [EApp h args] else []).
Proof.
  intros. cbn [cds_post]. f_equal.
  all: induction args as [|x l IH]; cbn; [easy|now rewrite IH].
Qed.
Lemma cds_is_cd : forall e v, In v (cds_post e) -> is_cd v = true.
Proof.
  induction e as [q|kd n|b ix|h args IH] using expr_ind'; intros v Hv; try destruct Hv.
  rewrite cds_post_app in Hv. apply in_app_iff in Hv. destruct Hv as [Hv | Hv].
  - apply in_flat_map in Hv. destruct Hv as (a & Ha & Hv). rewrite Forall_forall in IH. eapply IH; eauto.
  - destruct (is_cd (EApp h args)) eqn:E; [destruct Hv as [<- | []]; auto | destruct Hv].
Qed.
Lemma cds_inside : forall e v, In v (cds_post e) <-> inside v e /\ is_cd v = true.
Proof.
  intros e v. split.
  - intros Hv. split; [|eapply cds_is_cd; eauto]. revert v Hv.
    induction e as [q|kd n|b ix|h args IH] using expr_ind'; intros v Hv; try destruct Hv.
    rewrite cds_post_app in Hv. apply in_app_iff in Hv. destruct Hv as [Hv | Hv].
    + apply in_flat_map in Hv. destruct Hv as (a & Ha & Hv). rewrite Forall_forall in IH. econstructor; eauto.
    + destruct (is_cd (EApp h args)); [destruct Hv as [<- | []]; constructor | destruct Hv].
  - intros [Hi Hc]. induction Hi as [e | e hd args a Ha Hi IH].
    + destruct e as [| | |h args]; try discriminate. rewrite cds_post_app, Hc. apply in_app_iff. right. left. auto.
    + rewrite cds_post_app. apply in_app_iff. left. apply in_flat_map. exists a. auto.
Qed.
Lemma inside_trans : forall a b c, inside a b -> inside b c -> inside a c.
Proof. intros a b c H1 H2. induction H2; auto. econstructor; eauto. Qed.

(* ---- simultaneous replacement of derivatives by work arrays ---- *)
Section T.
Variable ndim : nat.
Definition plist := list (expr * string).
Fixpoint assoc (v : expr) (P : plist) : option string :=
  match P with [] => None | (u, w) :: P => if expr_eq_dec v u then Some w else assoc v P end.
Fixpoint T (P : plist) (e : expr) : expr :=
  match e with
  | EApp h args =>
      match (if is_cd e then assoc e P else None) with
      | Some w => here ndim w
      | None => EApp h (map (T P) args)
      end
  | _ => e
  end.
Lemma T_eq : forall P h args, T P (EApp h args) =
  match (if is_cd (EApp h args) then assoc (EApp h args) P else None) with
  | Some w => here ndim w | None => EApp h (map (T P) args) end.
Proof. reflexivity. Qed.
Definition fresh (P : plist) (e : expr) : Prop := forall b ix, In (b, ix) (dsets e) -> ~ In b (map snd P).

Lemma assoc_in : forall v P w, assoc v P = Some w -> In (v, w) P.
Proof.
  induction P as [|[u w'] P IH]; intros w H; cbn in H; [discriminate|].
  destruct (expr_eq_dec v u) as [-> | _]; [injection H as ->; left; auto | right; auto].
Qed.
Lemma assoc_inj : forall P v u w, NoDup (map snd P) -> assoc v P = Some w -> assoc u P = Some w -> v = u.
Proof.
  intros P v u w ND H1 H2. apply assoc_in in H1. apply assoc_in in H2.
  revert ND H1 H2. induction P as [|[z w'] P IH]; intros ND H1 H2; [destruct H1|].
  cbn in ND. inversion ND; subst. destruct H1 as [E1 | H1], H2 as [E2 | H2].
  - congruence.
  - injection E1 as -> ->. exfalso. apply H3. change w with (snd (u, w)). apply in_map. auto.
  - injection E2 as -> ->. exfalso. apply H3. change w with (snd (v, w)). apply in_map. auto.
  - auto.
Qed.
Lemma fresh_arg : forall P h args a, fresh P (EApp h args) -> In a args -> fresh P a.
Proof. intros P h args a F Ha b ix Hin. apply (F b ix). rewrite dsets_app. apply in_flat_map. eauto. Qed.

Lemma T_inj : forall P, NoDup (map snd P) -> forall e1 e2, fresh P e1 -> fresh P e2 -> T P e1 = T P e2 -> e1 = e2.
Proof.
  intros P ND. induction e1 as [q|kd n|b ix|h args IH] using expr_ind'; intros e2 F1 F2 E.
  1, 2, 3: destruct e2 as [q2|k2 n2|b2 i2|h2 args2]; cbn [T] in E; try congruence;
    destruct (if is_cd (EApp h2 args2) then assoc (EApp h2 args2) P else None) as [w|] eqn:A; try discriminate.
  - unfold here in E. injection E as Eb Ei. subst b ix. destruct (is_cd (EApp h2 args2)); [|discriminate].
    apply assoc_in in A. exfalso. apply (F1 w (repeat 0%Z ndim)); [left; auto|]. change w with (snd (EApp h2 args2, w)).
    apply in_map. auto.
  - rewrite T_eq in E. destruct (if is_cd (EApp h args) then assoc (EApp h args) P else None) as [w|] eqn:A.
    + destruct (is_cd (EApp h args)); [|discriminate].
      destruct e2 as [q2|k2 n2|b2 i2|h2 args2]; try discriminate.
      * cbn [T] in E. unfold here in E. injection E as Eb Ei. subst b2 i2. apply assoc_in in A. exfalso.
        apply (F2 w (repeat 0%Z ndim)); [left; auto|]. change w with (snd (EApp h args, w)). apply in_map. auto.
      * rewrite T_eq in E. destruct (is_cd (EApp h2 args2)); [|discriminate].
        destruct (assoc (EApp h2 args2) P) as [w2|] eqn:A2; [|discriminate].
        unfold here in E. injection E as <-. eapply assoc_inj; eauto.
    + destruct e2 as [q2|k2 n2|b2 i2|h2 args2]; try discriminate.
      rewrite T_eq in E. destruct (if is_cd (EApp h2 args2) then assoc (EApp h2 args2) P else None) as [w2|] eqn:A2;
        [discriminate|].
      injection E as <- E. f_equal.
      assert (G : forall l1 l2, (forall a, In a l1 -> In a args) -> (forall a, In a l2 -> In a args2) ->
                 map (T P) l1 = map (T P) l2 -> l1 = l2).
      { induction l1 as [|a l1 IHl]; intros [|a2 l2] S1 S2 El; try discriminate; auto.
        cbn in El. injection El as Ea El. f_equal.
        - rewrite Forall_forall in IH. apply (IH a (S1 a (or_introl eq_refl))); auto.
          + exact (fresh_arg P h args a F1 (S1 a (or_introl eq_refl))).
          + exact (fresh_arg P h args2 a2 F2 (S2 a2 (or_introl eq_refl))).
        - apply IHl; auto.
          + intros. apply S1. right. auto.
          + intros. apply S2. right. auto. }
      apply G; auto.
Qed.

Lemma subst1_app : forall o n h args, subst1 o n (EApp h args) =
  if expr_eq_dec (EApp h args) o then n else EApp h (map (subst1 o n) args).
Proof. reflexivity. Qed.

(* one more replacement *)
Lemma subst_T : forall P v w, NoDup (map snd P) -> is_cd v = true -> assoc v P = None -> fresh P v ->
  forall e, fresh P e -> subst1 (T P v) (here ndim w) (T P e) = T ((v, w) :: P) e.
Proof.
  intros P v w ND Hc Hv Fv.
  assert (TV : exists args, T P v = EApp HCD args).
  { destruct v as [| | |h args]; try discriminate. rewrite T_eq, Hc, Hv. destruct h; try discriminate. eauto. }
  destruct TV as (vargs & TV).
  induction e as [q|kd n|b ix|h args IH] using expr_ind'; intros F.
  1, 2, 3: cbn [T subst1]; rewrite TV; destruct (expr_eq_dec _ _); congruence.
  rewrite !T_eq. cbn [assoc].
  destruct (is_cd (EApp h args)) eqn:C.
  - destruct (expr_eq_dec (EApp h args) v) as [Ev | Nv].
    + rewrite Ev, Hv. rewrite <- Ev in TV |- *. 
      assert (TE : T P (EApp h args) = EApp h (map (T P) args)) by (rewrite T_eq, C, Ev, Hv; reflexivity).
      rewrite <- TE. cbn [subst1]. destruct (T P (EApp h args)) eqn:X; cbn [subst1];
        destruct (expr_eq_dec _ _); congruence.
    + destruct (assoc (EApp h args) P) as [w'|] eqn:A.
      * unfold here. cbn [subst1]. rewrite TV. destruct (expr_eq_dec _ _); congruence.
      * rewrite subst1_app. destruct (expr_eq_dec (EApp h (map (T P) args)) (T P v)) as [E | N].
        -- exfalso. apply Nv. apply (T_inj P ND); auto. rewrite T_eq, C, A. exact E.
        -- f_equal. rewrite map_map. apply map_ext_in. intros a Ha. rewrite Forall_forall in IH. apply IH; auto.
           eapply fresh_arg; eauto.
  - rewrite subst1_app. destruct (expr_eq_dec (EApp h (map (T P) args)) (T P v)) as [E | N].
    + exfalso. assert (EApp h args = v); [|congruence]. apply (T_inj P ND); auto. rewrite T_eq, C. exact E.
    + f_equal. rewrite map_map. apply map_ext_in. intros a Ha. rewrite Forall_forall in IH. apply IH; auto.
      eapply fresh_arg; eauto.
Qed.

Lemma T_ext : forall P P' e, (forall v, In v (cds_post e) -> assoc v P = assoc v P') -> T P e = T P' e.
Proof.
  induction e as [q|kd n|b ix|h args IH] using expr_ind'; intros H; auto.
  rewrite !T_eq.
  assert (E : (if is_cd (EApp h args) then assoc (EApp h args) P else None) =
              (if is_cd (EApp h args) then assoc (EApp h args) P' else None)).
  { destruct (is_cd (EApp h args)) eqn:C; auto. apply H. rewrite cds_post_app, C. apply in_app_iff. right. left. auto. }
  rewrite E. clear E. destruct (if is_cd (EApp h args) then assoc (EApp h args) P' else None); auto.
  f_equal. apply map_ext_in. intros a Ha.
  rewrite Forall_forall in IH. apply IH; auto. intros v Hv. apply H. rewrite cds_post_app. apply in_app_iff. left.
  apply in_flat_map. eauto.
Qed.
Lemma T_nil : forall e, T [] e = e.
Proof.
  induction e as [q|kd n|b ix|h args IH] using expr_ind'; auto. rewrite T_eq. cbn [assoc].
  destruct (is_cd (EApp h args)); f_equal; rewrite <- (map_id args) at 2; apply map_ext_in; rewrite Forall_forall in IH; auto.
Qed.

(* a sequence of replacements, each key being the derivative with the earlier
   replacements already made *)
Lemma subs_T : forall (key : expr -> expr) l P e,
  NoDup (map snd (l ++ P)) -> NoDup (map fst (l ++ P)) ->
  (forall v w, In (v, w) l -> is_cd v = true) ->
  (forall v w, In (v, w) l -> fresh (l ++ P) v) -> fresh (l ++ P) e ->
  (forall l1 v w l2, l = l1 ++ (v, w) :: l2 -> key v = T (rev l1 ++ P) v) ->
  subs ndim (map (fun vw => (key (fst vw), snd vw)) l) (T P e) = T (rev l ++ P) e.
Proof.
  intros key. induction l as [|[v w] l IH]; intros P e N2 N1 Hc Hf Fe Hk; [reflexivity|].
  cbn [map subs fold_left fst snd]. rewrite (Hk [] v w l eq_refl). cbn [rev app].
  assert (NP : assoc v P = None).
  { destruct (assoc v P) as [w'|] eqn:A; auto. apply assoc_in in A. cbn in N1. inversion N1; subst. exfalso. apply H1.
    rewrite map_app. apply in_app_iff. right. change v with (fst (v, w')). apply in_map. auto. }
  assert (SubF : forall z, fresh (((v, w) :: l) ++ P) z -> fresh P z).
  { intros z Fz b ix Hin C. apply (Fz b ix Hin). rewrite map_app. apply in_app_iff. right. auto. }
  rewrite (subst_T P v w).
  - change (fold_left _ _ (T ((v, w) :: P) e)) with
      (subs ndim (map (fun vw => (key (fst vw), snd vw)) l) (T ((v, w) :: P) e)).
    rewrite (IH ((v, w) :: P) e).
    + rewrite <- app_assoc. reflexivity.
    + eapply Permutation_NoDup; [|exact N2]. apply Permutation_map. apply Permutation_middle.
    + eapply Permutation_NoDup; [|exact N1]. apply Permutation_map. apply Permutation_middle.
    + intros u z Hin. eapply Hc. right. eauto.
    + intros u z Hin b ix Hd C. apply (Hf u z (or_intror Hin) b ix Hd).
      revert C. apply Permutation_in. apply Permutation_map. symmetry. apply Permutation_middle.
    + intros b ix Hd C. apply (Fe b ix Hd).
      revert C. apply Permutation_in. apply Permutation_map. symmetry. apply Permutation_middle.
    + intros l1 u z l2 ->. rewrite (Hk ((v, w) :: l1) u z l2 eq_refl). cbn [rev]. rewrite <- app_assoc. reflexivity.
  - rewrite map_app in N2. cbn [map app] in N2. inversion N2. eapply AdvProofs.NoDup_app_remove_l; eauto.
  - apply (Hc v w). left. auto.
  - exact NP.
  - apply SubF. apply (Hf v w). left. auto.
  - apply SubF. auto.
Qed.
End T.

(* ---- stable sort ---- *)
Lemma cinsert_perm : forall v l, Permutation (insert_by v l) (v :: l).
Proof.
  induction l as [|u l IH]; cbn [insert_by]; auto. destruct (Nat.leb (coordinates v) (coordinates u)); auto.
  rewrite IH. apply perm_swap.
Qed.
Lemma csort_perm : forall l, Permutation (sort_by_coordinates l) l.
Proof. unfold sort_by_coordinates. induction l as [|v l IH]; cbn [fold_right]; auto. rewrite cinsert_perm, IH. auto. Qed.
Inductive ordered : list expr -> Prop :=
| ord_nil : ordered []
| ord_cons : forall v l, (forall u, In u l -> (coordinates v <= coordinates u)%nat) -> ordered l -> ordered (v :: l).
Lemma cinsert_ordered : forall v l, ordered l -> ordered (insert_by v l).
Proof.
  induction l as [|u l IH]; intros O; cbn [insert_by].
  - constructor; [intros ? [] | constructor].
  - inversion O; subst. destruct (Nat.leb_spec (coordinates v) (coordinates u)).
    + constructor; auto. intros w [<- | Hw]; auto. specialize (H1 w Hw). lia.
    + constructor; auto. intros w Hw. eapply Permutation_in in Hw; [|apply cinsert_perm].
      destruct Hw as [<- | Hw]; [lia | auto].
Qed.
Lemma csort_ordered : forall l, ordered (sort_by_coordinates l).
Proof. unfold sort_by_coordinates. induction l; cbn [fold_right]; [constructor | apply cinsert_ordered; auto]. Qed.
Lemma ordered_before : forall l1 v l2, ordered (l1 ++ v :: l2) -> forall u, In u (l1 ++ v :: l2) ->
  (coordinates u < coordinates v)%nat -> In u l1.
Proof.
  induction l1 as [|w l1 IH]; intros v l2 O u Hu Lt; cbn [app] in *; inversion O; subst.
  - destruct Hu as [-> | Hu]; [lia|]. specialize (H1 u Hu). lia.
  - destruct Hu as [-> | Hu]; [left; auto | right; eapply IH; eauto].
Qed.

