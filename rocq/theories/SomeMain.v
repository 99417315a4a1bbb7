(* Proofs for C71: stored derivatives, and the whole discretisation. *)
From Verif Require Import Base BaseProofs Expr ExprProofs KernelModel FDModel FDProofs WorkModel ShiftSpec ShiftModel ShiftProofs DiscModel DiscSpec DiscProofs DiscRun DiscMain SomeModel SomeSpec BCModel BCProofs BCMirror SomeLoop SomeProofs.
From Verif Require WorkProofs BCSpec StoreProofs.
From Coq Require Import QArith ZArith Reals Lia Lra Permutation.
Local Close Scope Q_scope.
Local Open Scope list_scope.

Lemma NoDup_app_intro : forall A (l l' : list A), NoDup l -> NoDup l' -> (forall x, In x l -> In x l' -> False) -> NoDup (l ++ l').
Proof.
  induction l as [|a l IH]; intros l' H1 H2 D; auto. apply NoDup_cons_iff in H1. destruct H1 as [N H1]. cbn [app]. constructor.
  - intros Hin. apply in_app_iff in Hin. destruct Hin as [Hin | Hin]; auto. apply (D a); auto. left. auto.
  - apply IH; auto. intros x Hx. apply D. right. auto.
Qed.
(* ---- replacing the stored derivatives ---- *)
Section replaced.
Variables (ndim : nat) (P : plist).
Lemma inside_arg : forall u hd args a, inside u a -> In a args -> inside u (EApp hd args).
Proof. intros. econstructor; eauto. Qed.
Lemma cds_T_nil : forall e, (forall v, In v (cds_post e) -> assoc v P <> None) -> cds_post (T ndim P e) = [].
Proof.
  induction e as [q|kd n|b ix|hd args IH] using expr_ind'; intros H; auto. rewrite T_eq.
  destruct (is_cd (EApp hd args)) eqn:C.
  - destruct (assoc (EApp hd args) P) eqn:A; [reflexivity|]. exfalso. apply (H (EApp hd args)); auto.
    rewrite cds_post_app, C. apply in_app_iff. right. left. auto.
  - rewrite cds_post_app, is_cd_map, C, app_nil_r. rewrite Forall_forall in IH.
    assert (X : forall a, In a args -> cds_post (T ndim P a) = []).
    { intros a Ha. apply IH; auto. intros v Hv. apply H. rewrite cds_post_app. apply in_app_iff. left. apply in_flat_map. eauto. }
    clear -X. induction args as [|a l IHl]; auto. cbn [map flat_map]. rewrite X by (left; auto). rewrite IHl; auto. intros; apply X; right; auto.
Qed.
(* derivatives left after the replacement *)
Lemma cds_T : forall e v', In v' (cds_post (T ndim P e)) -> exists v, In v (cds_post e) /\ assoc v P = None /\ v' = T ndim P v.
Proof.
  induction e as [q|kd n|b ix|hd args IH] using expr_ind'; intros v' H; try destruct H.
  rewrite T_eq in H. destruct (if is_cd (EApp hd args) then assoc (EApp hd args) P else None) as [w|] eqn:A; [destruct H|].
  rewrite cds_post_app, is_cd_map in H. apply in_app_iff in H. destruct H as [H | H].
  - apply in_flat_map in H. destruct H as (a' & Ha & H). apply in_map_iff in Ha. destruct Ha as (a & <- & Ha).
    rewrite Forall_forall in IH. destruct (IH a Ha v' H) as (v & Hv & X). exists v. split; auto.
    rewrite cds_post_app. apply in_app_iff. left. apply in_flat_map. eauto.
  - destruct (is_cd (EApp hd args)) eqn:C; [|destruct H]. destruct H as [<- | []]. exists (EApp hd args).
    split; [rewrite cds_post_app, C; apply in_app_iff; right; left; auto|]. split; auto. rewrite T_eq, C, A. reflexivity.
Qed.
Lemma cds_T_keep : forall e, (forall v w, assoc v P = Some w -> cds_post v = [v]) ->
  forall v, In v (cds_post e) -> assoc v P = None -> In (T ndim P v) (cds_post (T ndim P e)).
Proof.
  intros e F. induction e as [q|kd n|b ix|hd args IH] using expr_ind'; intros v Hv A; try destruct Hv.
  rewrite T_eq. destruct (is_cd (EApp hd args)) eqn:C.
  - destruct (assoc (EApp hd args) P) as [w|] eqn:B.
    + rewrite (F _ _ B) in Hv. destruct Hv as [<- | []]. congruence.
    + rewrite cds_post_app, is_cd_map, C. apply in_app_iff. rewrite cds_post_app, C in Hv. apply in_app_iff in Hv. destruct Hv as [Hv | [<- | []]].
      * left. apply in_flat_map in Hv. destruct Hv as (a & Ha & Hv). apply in_flat_map. exists (T ndim P a). split; [apply in_map; auto|].
        rewrite Forall_forall in IH. auto.
      * right. left. rewrite T_eq, C, B. reflexivity.
  - rewrite cds_post_app, is_cd_map, C, app_nil_r. rewrite cds_post_app, C, app_nil_r in Hv. apply in_flat_map in Hv. destruct Hv as (a & Ha & Hv).
    apply in_flat_map. exists (T ndim P a). split; [apply in_map; auto|]. rewrite Forall_forall in IH. auto.
Qed.
Lemma syms_T : forall kd e s, In s (syms kd (T ndim P e)) -> In s (syms kd e).
Proof.
  intros kd. induction e as [q|k s0|b ix|hd args IH] using expr_ind'; intros s H; auto.
  rewrite T_eq in H. destruct (if is_cd (EApp hd args) then assoc (EApp hd args) P else None) as [w|]; [destruct H|].
  rewrite syms_app in *. apply in_flat_map in H. destruct H as (a' & Ha & H). apply in_map_iff in Ha. destruct Ha as (a & <- & Ha).
  rewrite Forall_forall in IH. apply in_flat_map. exists a. auto.
Qed.
Lemma syms_T_keep : forall kd e s, (forall v w, assoc v P = Some w -> syms kd v = []) -> In s (syms kd e) -> In s (syms kd (T ndim P e)).
Proof.
  intros kd e s F. induction e as [q|k s0|b ix|hd args IH] using expr_ind'; intros H; auto.
  rewrite T_eq. destruct (if is_cd (EApp hd args) then assoc (EApp hd args) P else None) as [w|] eqn:A.
  - destruct (is_cd (EApp hd args)); [|discriminate]. rewrite (F _ _ A) in H. destruct H.
  - rewrite syms_app in *. apply in_flat_map in H. destruct H as (a & Ha & H). apply in_flat_map. exists (T ndim P a). split; [apply in_map; auto|].
    rewrite Forall_forall in IH. auto.
Qed.
Lemma inside_T : forall e f args', inside (EApp (HFun f) args') (T ndim P e) -> exists args, inside (EApp (HFun f) args) e.
Proof.
  induction e as [q|k s0|b ix|hd args IH] using expr_ind'; intros f args' H; try (inversion H; fail).
  rewrite T_eq in H. destruct (if is_cd (EApp hd args) then assoc (EApp hd args) P else None) as [w|]; [inversion H|].
  remember (EApp hd (map (T ndim P) args)) as e' eqn:Ee. remember (EApp (HFun f) args') as v eqn:Ev. destruct H as [e | e hd0 args0 a0 Ha0 Hi0]; [subst e; injection Ev as -> _ | injection Ee as -> ->; subst e].
  - exists args. constructor.
  - apply in_map_iff in Ha0. destruct Ha0 as (a1 & <- & Ha). rewrite Forall_forall in IH. destruct (IH a1 Ha _ _ Hi0) as (l & Hl). exists l. econstructor; eauto.
Qed.
Lemma no_function_T : forall e, no_function e -> no_function (T ndim P e).
Proof. intros e H f args Hi. apply inside_T in Hi. destruct Hi as (l & Hi). eapply H; eauto. Qed.
Lemma T_not_cd : forall hd args, is_cd (EApp hd args) = false -> T ndim P (EApp hd args) = EApp hd (map (T ndim P) args).
Proof. intros hd args H. rewrite T_eq, H. reflexivity. Qed.
Lemma terms_T : forall rhs, (exists args, rhs = EApp HAdd args \/ rhs = EApp HMul args) -> terms (T ndim P rhs) = map (T ndim P) (terms rhs).
Proof. intros rhs (args & [-> | ->]); rewrite T_not_cd by reflexivity; reflexivity. Qed.
Lemma T_cd_list : forall a n q, map (T ndim P) (a :: repeat (ESym KCoord n) q) = T ndim P a :: repeat (ESym KCoord n) q.
Proof. intros a n q. rewrite map_cons, T_coords. reflexivity. Qed.
Lemma form_T : forall rhs, (exists args, rhs = EApp HAdd args \/ rhs = EApp HMul args) ->
  exists args, T ndim P rhs = EApp HAdd args \/ T ndim P rhs = EApp HMul args.
Proof. intros rhs (args & [-> | ->]); rewrite T_not_cd by reflexivity; eauto. Qed.
End replaced.

Section values.
Variables (J : interp R) (k ndim : nat) (dirof : string -> nat) (h : nat -> R) (P : plist) (M1 M0 : memory).
Notation SEM := (sem J k dirof h).
(* the work array of u holds its value at y *)
Definition held (y : list Z) (u : expr) : Prop := exists w, assoc u P = Some w /\ M1 w y = SEM M0 u y.
Lemma sem_T_flat : forall e y, List.length y = ndim -> (forall b ix, In (b, ix) (dsets e) -> forall z, M1 b z = M0 b z) ->
  (forall v, In v (cds_post e) -> held y v) -> SEM M1 (T ndim P e) y = SEM M0 e y.
Proof.
  intros e y Ly Hb Hv. rewrite sem_flat.
  - apply value_T; auto.
  - apply cds_T_nil. intros v Hin. destruct (Hv v Hin) as (w & E & _). congruence.
Qed.
Lemma sem_T : forall e y, List.length y = ndim -> (forall b ix, In (b, ix) (dsets e) -> forall z, M1 b z = M0 b z) ->
  (forall v, In v (cds_post e) -> held y v \/ (assoc v P = None /\ exists a n m, v = EApp HCD (a :: repeat (ESym KCoord n) (S m)) /\
     forall u i, In u (cds_post a) -> (- Z.of_nat k <= i <= Z.of_nat k)%Z -> held (move (dirof n) i y) u)) ->
  SEM M1 (T ndim P e) y = SEM M0 e y.
Proof.
  intros e y Ly. induction e as [q|kd s|b ix|hd args IH] using expr_ind'; intros Hb Hv.
  - reflexivity.
  - reflexivity.
  - cbn [T sem]. apply (Hb b ix). left. auto.
  - destruct (is_cd (EApp hd args)) eqn:C.
    + assert (Hs : In (EApp hd args) (cds_post (EApp hd args))) by (rewrite cds_post_app, C; apply in_app_iff; right; left; auto).
      destruct (Hv _ Hs) as [(w & A & E) | (A & a & n & m & Ev & Hu)]; rewrite T_eq, C, A.
      * unfold here. cbn [sem]. rewrite vadd_0_r by auto. exact E.
      * assert (Eh : hd = HCD) by congruence. assert (Ea : args = a :: repeat (ESym KCoord n) (S m)) by congruence. subst hd args.
        rewrite T_cd_list, !sem_cd. apply grid_ext_in. intros i Hi. apply sem_T_flat.
        -- rewrite move_length. auto.
        -- intros b ix Hbi. apply (Hb b ix). rewrite dsets_cd. auto.
        -- intros u Hin. apply Hu; auto.
    + rewrite T_eq, C. 
      assert (E : map (fun a => SEM M1 a y) (map (T ndim P) args) = map (fun a => SEM M0 a y) args).
      { rewrite map_map. apply map_ext_in. intros a Ha. rewrite Forall_forall in IH. apply IH; auto.
        - intros b ix Hbi. apply (Hb b ix). rewrite dsets_app. apply in_flat_map. eauto.
        - intros v Hin. apply Hv. rewrite cds_post_app. apply in_app_iff. left. apply in_flat_map. eauto. }
      destruct hd; cbn [sem]; try (rewrite E; reflexivity). destruct args; [reflexivity | discriminate].
Qed.
End values.

Section main.
Variables (J : interp R) (k ndim : nat) (dirof : string -> nat) (inv : nat -> nat -> expr)
  (dord : expr -> list dset) (sord : list (expr * string) -> list (expr * string)) (h : nat -> R) (sizes : list Z)
  (corder : list string -> list string) (eorder vsort : list expr -> list expr) (korder : list (expr * expr) -> list (expr * expr)).
Hypothesis HJ : real_arithmetic J.
Hypothesis Hinv : forall M x d m, value J M x (inv d m) = (/ h d ^ m)%R.
Hypothesis Hinvd : forall d m, dsets (inv d m) = [].
Hypothesis Hinvg : forall d m, syms KGridVar (inv d m) = [].
Hypothesis Hdord : forall e, enumerates (dord e) e.
Hypothesis Hsord : forall l, Permutation l (sord l).
Hypothesis Hcord : forall l, Permutation l (corder l).
Hypothesis Heord : forall l, Permutation l (eorder l).
Hypothesis Hvord : forall l, Permutation l (vsort l).
Hypothesis Hkord : forall l, Permutation l (korder l).
Hypothesis Hsz : List.length sizes = ndim.
Variables (fns : list string) (eqs : list (string * expr)).
Hypothesis SB : storable ndim dirof fns eqs.
Notation SEM := (sem J k dirof h).
Notation zero := (repeat 0%Z ndim).
Notation DISC := (discretise k dirof inv dord).
Notation INR_ := (in_range k sizes).

Definition coords := coordinates_of corder eqs.
Definition stored := derivatives_to_store ndim fns coords.
Definition works := assign_works 0 stored.
Definition PL : plist := rev (sord works).

Lemma coords_in : forall n, In n coords <-> exists r rhs, In (r, rhs) eqs /\ In n (syms KCoord rhs).
Proof.
  intros n. unfold coords, coordinates_of.
  assert (X : forall l, In n (corder l) <-> In n l) by (intros l; split; apply Permutation_in; [symmetry|]; apply Hcord).
  rewrite X, nodup_In, in_flat_map. split.
  - intros ([r e] & H1 & H2). exists r, e. auto.
  - intros (r & e & H1 & H2). exists (r, e). auto.
Qed.
Lemma coords_nodup : NoDup coords.
Proof. unfold coords, coordinates_of. eapply Permutation_NoDup; [apply Hcord | apply NoDup_nodup]. Qed.
Lemma stored_in : forall v, In v stored <-> exists f n, In f fns /\ In n coords /\ v = EApp HCD [here ndim f; ESym KCoord n].
Proof.
  intros v. unfold stored, derivatives_to_store. rewrite in_flat_map. split.
  - intros (f & Hf & H). apply in_map_iff in H. destruct H as (n & <- & Hn). exists f, n. auto.
  - intros (f & n & Hf & Hn & ->). exists f. split; auto. apply (in_map (fun b => EApp HCD [here ndim f; ESym KCoord b])). auto.
Qed.
Lemma stored_nodup : NoDup stored.
Proof.
  unfold stored, derivatives_to_store. pose proof (proj1 (sb_functions _ _ _ _ SB)) as ND. revert ND. clear SB. generalize coords_nodup. generalize coords as cs.
  intros cs NC. induction fns as [|f l IH]; intros ND; [constructor|]. apply NoDup_cons_iff in ND. destruct ND as [N1 N2]. cbn [flat_map].
  apply NoDup_app_intro.
  - apply FinFun.Injective_map_NoDup; auto. intros a b E. congruence.
  - auto.
  - intros v H1 H2. apply in_map_iff in H1. destruct H1 as (n & <- & _). apply in_flat_map in H2. destruct H2 as (f' & Hf & H2).
    apply in_map_iff in H2. destruct H2 as (n' & E & _). unfold here in E. injection E as -> _. contradiction.
Qed.
Lemma stored_flat : forall v, In v stored -> cds_post v = [v].
Proof. intros v H. apply stored_in in H. destruct H as (f & n & _ & _ & ->). reflexivity. Qed.
(* a first derivative of a listed array that occurs in the equations is stored *)
Lemma stored_occurs : forall r rhs v, In (r, rhs) eqs -> inside v rhs -> stored_derivative ndim fns v -> In v stored.
Proof.
  intros r rhs v Hin Hi (f & n & Hf & ->). apply stored_in. exists f, n. split; auto. split; auto. apply coords_in. exists r, rhs. split; auto.
  eapply inside_syms; eauto. cbn. auto.
Qed.
Lemma stored_is : forall v, In v stored -> stored_derivative ndim fns v.
Proof. intros v H. apply stored_in in H. destruct H as (f & n & Hf & _ & ->). exists f, n. auto. Qed.
Lemma notwork_fn : forall f, In f fns -> notwork f.
Proof. intros f Hf i. apply (proj2 (sb_functions _ _ _ _ SB) f i Hf). Qed.
Lemma stored_local : forall v, In v stored -> local_cd ndim dirof v.
Proof.
  intros v H. apply stored_in in H. destruct H as (f & n & Hf & Hn & ->). apply coords_in in Hn. destruct Hn as (r & rhs & Hin & Hn).
  split; [|split; [|split]]; auto.
  - exists (here ndim f), n, 0%nat. split; [reflexivity|]. split; [eapply sb_coordinates; eauto | discriminate].
  - intros b ix [E | []]. injection E as <- <-. auto.
Qed.

(* ---- the dictionary ---- *)
Lemma PL_perm : Permutation works PL.
Proof. unfold PL. rewrite <- Permutation_rev. apply Hsord. Qed.
Lemma PL_fst : NoDup (map fst PL).
Proof. eapply Permutation_NoDup; [apply Permutation_map; apply PL_perm|]. unfold works. rewrite assign_fst. apply stored_nodup. Qed.
Lemma PL_assoc : forall v, In v stored -> assoc v PL = Some (lookup v works).
Proof.
  intros v Hv. apply assoc_unique; [apply PL_fst|]. eapply Permutation_in; [apply PL_perm|].
  destruct (assign_lookup 0 [] eq_refl stored v Hv) as (A & _). apply assoc_in in A. exact A.
Qed.
Lemma PL_in : forall v w, assoc v PL = Some w -> In v stored /\ exists i, w = wk_name i.
Proof.
  intros v w H. apply assoc_in in H. eapply Permutation_in in H; [|symmetry; apply PL_perm]. split.
  - rewrite <- (assign_fst 0 stored). change v with (fst (v, w)). apply in_map. auto.
  - eapply works_are_wk; eauto.
Qed.
Lemma PL_none : forall v, ~ In v stored -> assoc v PL = None.
Proof. intros v N. destruct (assoc v PL) as [w|] eqn:A; auto. apply PL_in in A. destruct A. contradiction. Qed.
Lemma fresh_notwork : forall e, clean e -> DiscProofs.fresh (sord works) e.
Proof.
  intros e C. apply fresh_clean; auto. intros v w Hin. eapply Permutation_in in Hin; [|symmetry; apply Hsord]. eapply works_are_wk; eauto.
Qed.
Lemma subs_is_T : forall e, clean e -> subs ndim (sord works) e = T ndim PL e.
Proof.
  intros e Ce. assert (W : forall v w, In (v, w) (sord works) -> In v stored).
  { intros v w H. eapply Permutation_in in H; [|symmetry; apply Hsord]. rewrite <- (assign_fst 0 stored). change v with (fst (v, w)). apply in_map. auto. }
  assert (NF : NoDup (map fst (sord works))).
  { eapply Permutation_NoDup; [apply Permutation_map; apply Hsord|]. unfold works. rewrite assign_fst. apply stored_nodup. }
  pose proof (subs_T ndim (fun v => v) (sord works) [] e) as X. rewrite !app_nil_r, T_nil in X.
  unfold PL. rewrite <- X; clear X.
  - f_equal. rewrite <- (map_id (sord works)) at 1. apply map_ext. intros [v w]. reflexivity.
  - eapply Permutation_NoDup; [apply Permutation_map; apply Hsord|]. apply assign_snd_nodup.
  - exact NF.
  - intros v w H. apply W in H. apply stored_in in H. destruct H as (f & n & _ & _ & ->). reflexivity.
  - intros v w H. apply W in H. apply fresh_notwork. apply stored_in in H. destruct H as (f & n & Hf & _ & ->).
    intros b ix [E | []]. injection E as <- _. apply notwork_fn. auto.
  - apply fresh_notwork. auto.
  - intros l1 v w l2 E. rewrite app_nil_r. 
    assert (N : assoc v (rev l1) = None).
    { destruct (assoc v (rev l1)) as [w'|] eqn:A; auto. apply assoc_in in A. apply in_rev in A. rewrite E, map_app in NF. cbn [map fst] in NF.
      apply NoDup_remove_2 in NF. exfalso. apply NF. apply in_app_iff. left. change v with (fst (v, w')). apply in_map. auto. }
    assert (Hv : In v stored) by (apply (W v w); rewrite E; apply in_app_iff; right; left; auto).
    apply stored_in in Hv. destruct Hv as (f & n & _ & _ & ->). rewrite T_eq. cbn [is_cd]. rewrite N. reflexivity.
Qed.
Lemma rhs_clean : forall r rhs, In (r, rhs) eqs -> clean rhs.
Proof. intros r rhs Hin b ix Hb. exact (proj1 (proj2 (sb_arrays _ _ _ _ SB r rhs b ix Hin Hb))). Qed.

(* ---- the equations after the replacement ---- *)
Lemma deriv_cases : forall r rhs v, In (r, rhs) eqs -> In v (cds_post rhs) ->
  In v stored \/ (~ In v stored /\ exists a n m, v = EApp HCD (a :: repeat (ESym KCoord n) (S m)) /\ (dirof n < ndim)%nat /\ dsets a <> [] /\
    (cds_post v = [v] \/ exists c, cds_post v = [c; v] /\ cds_post a = [c]) /\ forall u, In u (cds_post a) -> In u stored).
Proof.
  intros r rhs v Hin Hv. assert (Hv' := Hv). apply in_cds in Hv'. destruct Hv' as (Hi & Hd).
  destruct (in_dec expr_eq_dec v stored) as [Y | N]; auto. right. split; auto.
  destruct (sb_derivative _ _ _ _ SB r rhs v Hin Hi Hd) as (a & n & m & E & Hn & Hne). exists a, n, m. split; auto. split; auto. split; auto.
  assert (Ec : cds_post v = cds_post a ++ [v]) by (rewrite E; apply cds_cd).
  pose proof (sb_nested _ _ _ _ SB r rhs v Hin Hi Hd) as L. rewrite nderivs_len, Ec, app_length in L. cbn [List.length] in L. split.
  - rewrite Ec. destruct (cds_post a) as [|c [|c' l]]; [left; auto | right; exists c; auto | cbn in L; lia].
  - intros u Hu. apply in_cds in Hu. destruct Hu as (Hiu & Hdu). eapply stored_occurs; eauto.
    + eapply inside_trans; [|exact Hi]. rewrite E. econstructor; [left; reflexivity | auto].
    + eapply (sb_inner _ _ _ _ SB r rhs a _ u Hin); eauto. rewrite <- E. auto.
Qed.
Lemma stored_syms : forall kd v w, kd <> KCoord -> assoc v PL = Some w -> syms kd v = [].
Proof. intros kd v w N H. apply PL_in in H. destruct H as (H & _). apply stored_in in H. destruct H as (f & n & _ & _ & ->). destruct kd; auto. contradiction. Qed.
Lemma no_gridvar_T : forall e, syms KGridVar e = [] -> syms KGridVar (T ndim PL e) = [].
Proof.
  intros e H. destruct (syms KGridVar (T ndim PL e)) as [|s l] eqn:E; auto. assert (X : In s (syms KGridVar (T ndim PL e))) by (rewrite E; left; auto).
  apply syms_T in X. rewrite H in X. destruct X.
Qed.
Lemma viscous_T : forall t, has_re (T ndim PL t) = has_re t.
Proof.
  intros t. destruct (has_re t) eqn:H.
  - apply has_re_spec in H. apply has_re_spec. apply syms_T_keep; auto. intros v w A. eapply stored_syms; eauto. discriminate.
  - destruct (has_re (T ndim PL t)) eqn:H'; auto. apply has_re_spec in H'. apply syms_T in H'. apply has_re_spec in H'. congruence.
Qed.
Definition replaced (b : string) : Prop := exists i, b = wk_name i.
Lemma dsets_rhs_T : forall r rhs b ix, In (r, rhs) eqs -> In (b, ix) (dsets (T ndim PL rhs)) -> ix = zero /\ ~ In b (map fst eqs).
Proof.
  intros r rhs b ix Hin Hb. apply dsets_T in Hb. destruct Hb as [Hb | (Hb & ->)].
  - destruct (sb_arrays _ _ _ _ SB r rhs b ix Hin Hb) as (A & _ & B). auto.
  - split; auto. apply in_map_iff in Hb. destruct Hb as ([v w] & <- & Hb). cbn [snd]. intros C.
    eapply Permutation_in in Hb; [|symmetry; apply PL_perm]. apply works_are_wk in Hb. destruct Hb as (i & ->).
    apply in_map_iff in C. destruct C as ([r' e'] & E & C). cbn [fst] in E. exact (sb_residual _ _ _ _ SB r' e' i C E).
Qed.
Lemma local_T : forall r rhs v', In (r, rhs) eqs -> In v' (cds_post (T ndim PL rhs)) -> local_cd ndim dirof v'.
Proof.
  intros r rhs v' Hin Hv'. assert (Hd := Hv'). apply cds_T in Hv'. destruct Hv' as (v & Hv & A & E).
  destruct (deriv_cases r rhs v Hin Hv) as [S | (NS & a & n & m & Ev & Hn & Hne & _ & Hu)]; [rewrite (PL_assoc v S) in A; discriminate|].
  assert (Tv : v' = EApp HCD (T ndim PL a :: repeat (ESym KCoord n) (S m))).
  { rewrite E, Ev, T_eq. rewrite Ev in A. cbn [is_cd] in *. rewrite A.
    rewrite T_cd_list. auto. }
  split; [|split; [|split]].
  - exists (T ndim PL a), n, m. split; auto. split; auto. apply dsets_T_nonempty. auto.
  - intros b ix Hb. apply in_cds in Hd. destruct Hd as (Hi & _). apply (inside_dsets _ _ _ Hi) in Hb. apply (dsets_rhs_T r rhs b ix Hin Hb).
  - rewrite Tv, cds_cd. rewrite cds_T_nil; auto. intros u Hin'. apply Hu in Hin'. rewrite PL_assoc; auto. discriminate.
  - apply in_cds in Hd. destruct Hd as (Hi & _). destruct (syms KGridVar v') as [|s l] eqn:Es; auto.
    assert (X : In s (syms KGridVar (T ndim PL rhs))) by (eapply inside_syms; [exact Hi | rewrite Es; left; auto]).
    rewrite no_gridvar_T in X by (eapply sb_locals; eauto). destruct X.
Qed.

(* ---- ranges ---- *)
Lemma ranges_ok : exists upd, stored_ranges dirof stored (local_functions eorder eqs) = Ok upd /\
  forall r rhs v c a n m, In (r, rhs) eqs -> In v (cds_post rhs) -> v = EApp HCD (a :: repeat (ESym KCoord n) (S m)) -> cds_post v = [c; v] -> In c stored ->
    In (dirof n) (range_of upd c).
Proof.
  unfold stored_ranges.
  set (f := fun d => if existsb (fun v => if in_dec expr_eq_dec v stored then true else false) (cds_post d) then traverse_ranges dirof stored (cds_post d) else Ok []).
  destruct (mapM_all _ _ f (fun v u => forall c, cds_post v = [c; v] -> In c stored -> u = [(c, cd_dirs dirof v)]) (local_functions eorder eqs)) as (us & E & F).
  { intros v Hv. apply (local_functions_in eorder Heord) in Hv. destruct Hv as (r & rhs & Hin & Hv). unfold f.
    destruct (deriv_cases r rhs v Hin Hv) as [S | (_ & a & n & m & _ & _ & _ & [Fl | (c & Ec & Ea)] & Hu)].
    - rewrite (stored_flat v S). cbn [traverse_ranges]. eexists. split; [destruct (existsb _ _); reflexivity|]. intros c X. discriminate.
    - rewrite Fl. cbn [traverse_ranges]. eexists. split; [destruct (existsb _ _); reflexivity|]. intros c X. discriminate.
    - rewrite Ec. cbn [existsb traverse_ranges]. assert (Sc : In c stored) by (apply Hu; rewrite Ea; left; auto).
      destruct (in_dec expr_eq_dec c stored) as [_ | N]; [|contradiction]. cbn [orb bind]. eexists. split; [reflexivity|]. intros c' X _. congruence. }
  rewrite E. cbn [bind]. eexists. split; [reflexivity|].
  intros r rhs v c a n m Hin Hv Ev Ec Sc. assert (Hl : In v (local_functions eorder eqs)) by (apply (local_functions_in eorder Heord); eauto).
  apply In_nth_error in Hl. destruct Hl as (i & Hi). destruct (forall2_nth _ _ _ _ _ F i v Hi) as (u & Hu & Pu). rewrite (Pu c Ec Sc) in Hu.
  unfold range_of. apply in_flat_map. exists (c, cd_dirs dirof v). split.
  - apply in_concat. exists [(c, cd_dirs dirof v)]. split; [eapply nth_error_In; eauto | left; auto].
  - cbn [fst snd]. destruct (expr_eq_dec c c); [|contradiction]. rewrite Ev. left. reflexivity.
Qed.

(* ---- the kernels of the stored derivatives ---- *)
Section ordered.
Variable order : nat -> list nat -> list (list Z).
Hypothesis Hord : forall n ext, BCSpec.sweeps (order n ext) (fun x => INR_ ext x = true).
Lemma run_app : forall ks1 ks2 n M, run_kernels J order n (ks1 ++ ks2) M = run_kernels J order (n + List.length ks1) ks2 (run_kernels J order n ks1 M).
Proof.
  induction ks1 as [|kn ks1 IH]; intros ks2 n M; cbn [app run_kernels List.length]; [rewrite Nat.add_0_r; auto|].
  rewrite IH. f_equal. lia.
Qed.
Definition skern (upd : list (expr * list nat)) (vr : expr * expr) : skernel :=
  {| sk_eqs := [KEq (here ndim (lookup (fst vr) works)) (snd vr)]; sk_ext := range_of upd (fst vr) |}.
Lemma one_stored : forall w r pts M, (forall y, In y pts -> List.length y = ndim) -> NoDup pts ->
  (forall b ix, In (b, ix) (dsets r) -> b <> w) -> syms KGridVar r = [] ->
  (forall y, In y pts -> run_kernel J [KEq (here ndim w) r] pts M w y = value J M y r) /\
  (forall b y, b <> w -> run_kernel J [KEq (here ndim w) r] pts M b y = M b y).
Proof.
  intros w r pts M Lp ND Hr Hg.
  assert (W : forall b, wr [KEq (here ndim w) r] b -> b = w).
  { intros b (q & ix & [<- | []] & [E | []]). injection E as -> _. auto. }
  assert (O : own ndim [KEq (here ndim w) r]).
  { split.
    - intros q b ix [<- | []] [E | []]. injection E as _ <-. auto.
    - intros q b ix [<- | []] Hin Hw. apply W in Hw. subst b. cbn [reads] in Hin. apply in_app_iff in Hin. destruct Hin as [Hin | Hin];
        apply in_map_iff in Hin; destruct Hin as (z & E & Hin); [|discriminate]. injection E as ->. exfalso. eapply Hr; eauto. }
  split.
  - intros y Hy. rewrite (loop_run J ndim _ O); auto.
    + destruct (in_dec _ y pts); [|contradiction]. unfold run_point, here. cbn [fold_left exec1 fst snd]. rewrite vadd_here by auto. rewrite upd_same. apply at_point_value. auto.
    + intros b. destruct (string_dec b w) as [-> | N]; [left | right; intros C; apply N; auto]. eexists _, _. split; [left; reflexivity | left; reflexivity].
  - intros b y N. apply loop_frame. intros C. apply N. auto.
Qed.
Lemma stored_run : forall upd l M0, NoDup (map fst l) ->
  (forall v r, In (v, r) l -> In v stored /\ (forall M x, List.length x = ndim -> value J M x r = SEM M v x) /\
     (forall b ix, In (b, ix) (dsets r) -> exists ix', In (b, ix') (dsets v)) /\ syms KGridVar r = []) ->
  forall n M, (forall b y, notwork b -> M b y = M0 b y) ->
  (forall b y, notwork b -> run_kernels J order n (map (skern upd) l) M b y = M0 b y) /\
  (forall b y, (forall v r, In (v, r) l -> b <> lookup v works) -> run_kernels J order n (map (skern upd) l) M b y = M b y) /\
  (forall v r y, In (v, r) l -> INR_ (range_of upd v) y = true -> run_kernels J order n (map (skern upd) l) M (lookup v works) y = SEM M0 v y).
Proof.
  intros upd. induction l as [|[v r] l IH]; intros M0 ND H n M HM; cbn [map run_kernels].
  { split; [auto|]. split; [auto|]. intros v r y []. }
  cbn [map fst] in ND. apply NoDup_cons_iff in ND. destruct ND as [N1 N2].
  destruct (H v r (or_introl eq_refl)) as (Sv & Vr & Dr & Gr).
  destruct (assign_lookup 0 [] eq_refl stored v Sv) as (_ & i & Wv & _). fold works in Wv.
  assert (Fv : forall b ix, In (b, ix) (dsets v) -> notwork b).
  { intros b ix Hb. apply stored_in in Sv. destruct Sv as (f & m & Hf & _ & ->). destruct Hb as [E | []]. injection E as <- _. apply notwork_fn. auto. }
  destruct (Hord n (range_of upd v)) as (NDp & Inp).
  assert (Lp : forall y, In y (order n (range_of upd v)) -> List.length y = ndim).
  { intros y Hy. apply Inp in Hy. eapply in_range_length; eauto. }
  destruct (one_stored (lookup v works) r (order n (range_of upd v)) M Lp NDp) as (A & B); auto.
  { intros b ix Hb. destruct (Dr b ix Hb) as (ix' & Hb'). rewrite Wv. apply (Fv b ix' Hb'). }
  cbn [skern sk_eqs sk_ext fst snd].
  set (M' := run_kernel J [KEq (here ndim (lookup v works)) r] (order n (range_of upd v)) M) in *.
  assert (HM' : forall b y, notwork b -> M' b y = M0 b y).
  { intros b y Hb. rewrite B; auto. rewrite Wv. apply Hb. }
  destruct (IH M0 N2 (fun v r Hin => H v r (or_intror Hin)) (S n) M' HM') as (F1 & F2 & F3).
  split; [exact F1|]. split.
  - intros b y Hb. rewrite F2; [apply B; apply (Hb v r); left; auto|]. intros v' r' Hin. apply (Hb v' r'). right. auto.
  - intros v' r' y [E | Hin] Hy.
    + injection E as <- <-. rewrite F2.
      * rewrite A by (apply Inp; auto). rewrite Vr by (eapply in_range_length; eauto). apply sem_agree. intros b ix Hb z. apply HM. eapply Fv; eauto.
      * intros v' r' Hin E. apply N1. assert (Sv' : In v' stored) by (apply (H v' r'); right; auto).
        rewrite (assign_inj 0 [] eq_refl stored v v' Sv Sv' E). change v' with (fst (v', r')). apply in_map. auto.
    + eapply F3; eauto.
Qed.
End ordered.

(* ---- the two groups of terms ---- *)
Lemma syms_zero : forall kd e s, In s (syms kd (zero_functions e)) -> In s (syms kd e).
Proof.
  intros kd. induction e as [q|k0 s0|b ix|hd args IH] using expr_ind'; intros s H; auto.
  rewrite Forall_forall in IH. destruct hd; cbn [zero_functions] in H; try destruct H; rewrite syms_app in *;
    apply in_flat_map in H; destruct H as (a' & Ha & H); apply in_map_iff in Ha; destruct Ha as (a & <- & Ha); apply in_flat_map; exists a; auto.
Qed.
Lemma syms_classify : forall kd e s, In s (syms kd (fst (classify e))) \/ In s (syms kd (snd (classify e))) -> In s (syms kd e).
Proof.
  intros kd e s H.
  assert (G : forall p args, In s (syms kd (zero_functions (EApp HAdd (filter p args)))) -> In s (syms kd (EApp HAdd args))).
  { intros p args X. apply syms_zero in X. rewrite syms_app in *. apply in_flat_map in X. destruct X as (a & Ha & X). apply filter_In in Ha.
    apply in_flat_map. exists a. tauto. }
  destruct e as [q|k0 s0|b ix|hd args]; try (cbn in H; tauto). destruct hd; try (cbn in H; tauto).
  - unfold classify in H. cbn [fst snd] in H. destruct H as [H | H]; eapply G; eauto.
  - unfold classify in H. destruct (has_re (EApp HMul args)); cbn [fst snd] in H; destruct H as [H | H];
      try (apply syms_zero in H; exact H); destruct H.
Qed.
Lemma no_syms_classify : forall kd e, syms kd e = [] -> syms kd (fst (classify e)) = [] /\ syms kd (snd (classify e)) = [].
Proof.
  intros kd e H. assert (G : forall s, In s (syms kd (fst (classify e))) \/ In s (syms kd (snd (classify e))) -> False).
  { intros s X. apply syms_classify in X. rewrite H in X. destruct X. }
  split; [destruct (syms kd (fst (classify e))) as [|s l] | destruct (syms kd (snd (classify e))) as [|s l]]; auto; exfalso; apply (G s); [left | right]; left; auto.
Qed.

Lemma part_T : forall r rhs, In (r, rhs) eqs ->
  let e := T ndim PL rhs in
  (forall part, part = fst (classify e) \/ part = snd (classify e) ->
     syms KGridVar part = [] /\ (forall v, In v (cds_post part) -> In v (cds_post e)) /\ (forall b, In b (dsets part) -> In b (dsets e))) /\
  (forall v, In v (cds_post (fst (classify e))) <-> exists t, In t (terms e) /\ has_re t = true /\ In v (cds_post t)) /\
  (forall v, In v (cds_post (snd (classify e))) <-> exists t, In t (terms e) /\ has_re t = false /\ In v (cds_post t)).
Proof.
  intros r rhs Hin e.
  destruct (classify_form e) as (A & B & C & D).
  { apply form_T. eapply sb_form; eauto. } { apply no_function_T. eapply sb_function; eauto. }
  split; [|split; auto].
  pose proof (no_syms_classify KGridVar e (no_gridvar_T rhs (sb_locals _ _ _ _ SB r rhs Hin))) as (G1 & G2).
  assert (Tm : forall t v, In t (terms e) -> In v (cds_post t) -> In v (cds_post e)).
  { intros t v Ht Hv. apply in_cds in Hv. apply in_cds. split; [|tauto]. eapply inside_trans; [apply Hv | apply terms_inside; auto]. }
  intros part [-> | ->]; (split; [auto | split; [|auto]]); intros v Hv; [apply A in Hv | apply B in Hv]; destruct Hv as (t & Ht & _ & Hv); eauto.
Qed.
Definition eqs1 := map (fun re : string * expr => (fst re, T ndim PL (snd re))) eqs.
Definition conv1 := map (fun re : string * expr => (fst re, snd (classify (snd re)))) eqs1.
Definition visc1 := map (fun re : string * expr => (fst re, EApp HAdd [here ndim (fst re); fst (classify (snd re))])) eqs1.
Lemma in_conv1 : forall r e, In (r, e) conv1 <-> exists rhs, In (r, rhs) eqs /\ e = snd (classify (T ndim PL rhs)).
Proof.
  intros r e. unfold conv1, eqs1. rewrite map_map. rewrite in_map_iff. split.
  - intros ([r0 rhs] & E & H). cbn [fst snd] in E. injection E as -> <-. eauto.
  - intros (rhs & H & ->). exists (r, rhs). auto.
Qed.
Lemma in_visc1 : forall r e, In (r, e) visc1 <-> exists rhs, In (r, rhs) eqs /\ e = EApp HAdd [here ndim r; fst (classify (T ndim PL rhs))].
Proof.
  intros r e. unfold visc1, eqs1. rewrite map_map. rewrite in_map_iff. split.
  - intros ([r0 rhs] & E & H). cbn [fst snd] in E. injection E as -> <-. eauto.
  - intros (rhs & H & ->). exists (r, rhs). auto.
Qed.
Lemma fst_conv1 : map fst conv1 = map fst eqs.
Proof. unfold conv1, eqs1. rewrite !map_map. reflexivity. Qed.
Lemma fst_visc1 : map fst visc1 = map fst eqs.
Proof. unfold visc1, eqs1. rewrite !map_map. reflexivity. Qed.
Lemma local_conv1 : local_ok ndim dirof conv1.
Proof.
  split; [rewrite fst_conv1; eapply sb_distinct; eauto|]. rewrite fst_conv1. intros r e H. apply in_conv1 in H. destruct H as (rhs & Hin & ->).
  destruct (part_T r rhs Hin) as (A & _). destruct (A _ (or_intror eq_refl)) as (G & Cd & Ds).
  assert (X : forall b ix, In (b, ix) (dsets (snd (classify (T ndim PL rhs)))) -> ix = zero /\ ~ In b (map fst eqs)) by (intros b ix Hb; eapply dsets_rhs_T; eauto).
  split; auto. split; [intros b ix Hb; apply (X b ix Hb)|]. split; [intros b ix Hb; right; apply (X b ix Hb)|].
  intros v Hv. split; [eapply local_T; eauto|]. intros b ix Hb. apply (X b ix). apply in_cds in Hv. eapply inside_dsets; [apply Hv | auto].
Qed.
Lemma local_visc1 : local_ok ndim dirof visc1.
Proof.
  split; [rewrite fst_visc1; eapply sb_distinct; eauto|]. rewrite fst_visc1. intros r e H. apply in_visc1 in H. destruct H as (rhs & Hin & ->).
  destruct (part_T r rhs Hin) as (A & _). destruct (A _ (or_introl eq_refl)) as (G & Cd & Ds).
  assert (X : forall b ix, In (b, ix) (dsets (fst (classify (T ndim PL rhs)))) -> ix = zero /\ ~ In b (map fst eqs)) by (intros b ix Hb; eapply dsets_rhs_T; eauto).
  assert (Dx : forall b ix, In (b, ix) (dsets (EApp HAdd [here ndim r; fst (classify (T ndim PL rhs))])) -> (b = r /\ ix = zero) \/ In (b, ix) (dsets (fst (classify (T ndim PL rhs))))).
  { intros b ix. rewrite dsets_app. cbn [flat_map here dsets app]. rewrite app_nil_r. intros [E | E]; auto. injection E as <- <-. auto. }
  assert (Cx : forall v, In v (cds_post (EApp HAdd [here ndim r; fst (classify (T ndim PL rhs))])) -> In v (cds_post (fst (classify (T ndim PL rhs))))).
  { intros v. rewrite cds_post_app. cbn [is_cd flat_map here cds_post app]. rewrite !app_nil_r. auto. }
  split; [rewrite syms_app; cbn [flat_map here syms app]; rewrite app_nil_r; exact G|].
  split; [intros b ix Hb; apply Dx in Hb; destruct Hb as [(_ & ->) | Hb]; auto; apply (X b ix Hb)|].
  split; [intros b ix Hb; apply Dx in Hb; destruct Hb as [(-> & _) | Hb]; auto; right; apply (X b ix Hb)|].
  intros v Hv. apply Cx in Hv. split; [eapply local_T; eauto|]. intros b ix Hb. apply (X b ix). apply in_cds in Hv. eapply inside_dsets; [apply Hv | auto].
Qed.
(* a derivative that is not stored survives in its group *)
Lemma kept : forall r rhs t v, In (r, rhs) eqs -> In t (terms rhs) -> inside v t -> derivative v -> ~ stored_derivative ndim fns v ->
  In (T ndim PL v) (cds_post (if has_re t then fst (classify (T ndim PL rhs)) else snd (classify (T ndim PL rhs)))).
Proof.
  intros r rhs t v Hin Ht Hi Hd Ns. destruct (part_T r rhs Hin) as (_ & A & B).
  assert (K : In (T ndim PL v) (cds_post (T ndim PL t))).
  { apply cds_T_keep; auto.
    - intros u w Hu. apply PL_in in Hu. apply stored_flat. tauto.
    - apply in_cds. auto.
    - apply PL_none. intros S. apply Ns. apply stored_is. auto. }
  assert (Tt : In (T ndim PL t) (terms (T ndim PL rhs))).
  { rewrite terms_T by (eapply sb_form; eauto). apply in_map. auto. }
  pose proof (viscous_T t) as Vt. destruct (has_re t); [apply A | apply B]; exists (T ndim PL t); auto.
Qed.

Theorem residual_some :
  keeps_derivative ndim fns eqs (fun t => ~ viscous_term t) ->
  (keeps_derivative ndim fns eqs viscous_term \/ forall r rhs t, In (r, rhs) eqs -> In t (terms rhs) -> ~ viscous_term t) ->
  exists ks, store_some k ndim dirof inv dord sord corder eorder vsort korder fns eqs = Ok ks /\
    forall order, (forall n ext, BCSpec.sweeps (order n ext) (fun x => INR_ ext x = true)) ->
    forall M, (forall r rhs x, In (r, rhs) eqs -> grid_point sizes x -> run_kernels J order 0 ks M r x = SEM M rhs x) /\
      (forall b x, (forall i, b <> wk_name i) -> ~ In b (map fst eqs) -> run_kernels J order 0 ks M b x = M b x).
Proof.
  intros Kc Kv. unfold store_some. fold coords. fold stored. fold works.
  destruct (mapM_all _ _ DISC (fun v r => (forall M x, List.length x = ndim -> value J M x r = SEM M v x) /\
     (forall b ix, In (b, ix) (dsets r) -> exists ix', In (b, ix') (dsets v)) /\ syms KGridVar r = []) stored) as (rs & Ers & F2).
  { intros v Hv. eapply local_disc; eauto. apply stored_local. auto. }
  rewrite Ers. cbn [bind]. destruct ranges_ok as (upd & Eu & Ru). rewrite Eu. cbn [bind].
  assert (E1 : map (fun re : string * expr => (fst re, subs ndim (sord works) (snd re))) eqs = eqs1).
  { unfold eqs1. apply map_ext_in. intros [r rhs] Hin. cbn [fst snd]. f_equal. apply subs_is_T. eapply rhs_clean; eauto. }
  rewrite E1. fold conv1. fold visc1.
  destruct (SS_ok J k ndim dirof inv dord h sizes eorder vsort HJ Hinv Hinvd Hinvg Hdord Heord Hvord Hsz true conv1 local_conv1) as (oc & Ec & Xc).
  destruct (SS_ok J k ndim dirof inv dord h sizes eorder vsort HJ Hinv Hinvd Hinvg Hdord Heord Hvord Hsz false visc1 local_visc1) as (ov & Ev & Xv).
  rewrite Ec. cbn [bind]. rewrite Ev. cbn [bind].
  destruct oc as [qc|].
  2: { exfalso. destruct Kc as (r & rhs & t & v & Hin & Ht & Nv & Hi & Hd & Ns). pose proof (kept r rhs t v Hin Ht Hi Hd Ns) as K.
       rewrite <- has_re_spec in Nv. destruct (has_re t); [congruence|]. rewrite (Xc r (snd (classify (T ndim PL rhs)))) in K by (apply in_conv1; eauto). destruct K. }
  destruct Xc as (_ & Xc).
  set (pairs := korder (combine stored rs)).
  assert (Lrs : List.length stored = List.length rs) by (clear - F2; induction F2; cbn; congruence).
  assert (NDp : NoDup (map fst pairs)).
  { eapply Permutation_NoDup; [apply Permutation_map; apply Hkord|]. rewrite fst_combine by auto. apply stored_nodup. }
  assert (Inp : forall v r, In (v, r) pairs <-> In (v, r) (combine stored rs)).
  { intros v r. split; apply Permutation_in; [symmetry|]; apply Hkord. }
  assert (Hp : forall v r, In (v, r) pairs -> In v stored /\ (forall M x, List.length x = ndim -> value J M x r = SEM M v x) /\
     (forall b ix, In (b, ix) (dsets r) -> exists ix', In (b, ix') (dsets v)) /\ syms KGridVar r = []).
  { intros v r H. apply Inp in H. split; [eapply in_combine_l; eauto|]. apply (forall2_combine _ _ _ _ _ _ _ F2 H). }
  assert (Pv : forall v, In v stored -> exists r, In (v, r) pairs).
  { intros v Hv. apply In_nth_error in Hv. destruct Hv as (i & Hi). destruct (forall2_nth _ _ _ _ _ F2 i v Hi) as (r & Hr & _). exists r. apply Inp.
    clear - Hi Hr. revert rs i Hi Hr. generalize stored as l. induction l as [|a l IH]; intros [|b rs] [|i] Hi Hr; try discriminate; cbn in *.
    - left. congruence.
    - right. eauto. }
  set (kv := match ov with Some qs => [{| sk_eqs := qs; sk_ext := [] |}] | None => [] end).
  exists (map (skern upd) pairs ++ {| sk_eqs := qc; sk_ext := [] |} :: kv). split.
  { unfold kv, pairs, skern. destruct ov; reflexivity. }
  intros order Hord M. rewrite run_app. rewrite Nat.add_0_l, map_length. cbn [run_kernels sk_eqs sk_ext].
  destruct (stored_run order Hord upd pairs M NDp Hp 0 M) as (S1 & _ & S3); auto.
  set (M1 := run_kernels J order 0 (map (skern upd) pairs) M) in *.
  set (nn := List.length pairs). destruct (Hord nn []) as (NDo & Ino).
  assert (Lo : forall y, In y (order nn []) -> List.length y = ndim) by (intros y Hy; apply Ino in Hy; eapply in_range_length; eauto).
  destruct (Xc (order nn []) M1 NDo Lo) as (C1 & C2). rewrite fst_conv1 in C2.
  set (M2 := run_kernel J qc (order nn []) M1) in *.
  (* the right-hand sides *)
  assert (Rhs : forall r rhs x, In (r, rhs) eqs -> grid_point sizes x -> SEM M1 (T ndim PL rhs) x = SEM M rhs x).
  { intros r rhs x Hin Hx. apply grid_point_range with (k := k) in Hx. apply sem_T.
    - eapply in_range_length; eauto.
    - intros b ix Hb z. apply S1. exact (rhs_clean r rhs Hin b ix Hb).
    - intros v Hv. destruct (deriv_cases r rhs v Hin Hv) as [S | (NS & a & n & m & Evv & Hn & Hne & Sh & Hu)].
      + left. exists (lookup v works). split; [apply PL_assoc; auto|]. destruct (Pv v S) as (r' & Hr'). eapply S3; eauto. eapply in_range_weaken; eauto.
      + right. split; [apply PL_none; auto|]. exists a, n, m. split; auto. intros u i Hua Hi. assert (Su := Hu u Hua).
        exists (lookup u works). split; [apply PL_assoc; auto|]. destruct (Pv u Su) as (r' & Hr'). eapply S3; eauto.
        eapply in_range_move; eauto. destruct Sh as [Fl | (c & Ecv & Eca)].
        * exfalso. rewrite Evv, cds_cd in Fl. apply (f_equal (@List.length expr)) in Fl. rewrite app_length in Fl. cbn in Fl. destruct (cds_post a); [destruct Hua | cbn in Fl; lia].
        * rewrite Eca in Hua. destruct Hua as [<- | []]. eapply Ru; eauto. }
  assert (Sum : forall r rhs x, In (r, rhs) eqs ->
    (SEM M1 (snd (classify (T ndim PL rhs))) x + SEM M1 (fst (classify (T ndim PL rhs))) x = SEM M1 (T ndim PL rhs) x)%R).
  { intros r rhs x Hin. rewrite Rplus_comm, classify_sum by auto. rewrite keeps_id; auto.
    - apply form_T. eapply sb_form; eauto.
    - apply no_function_T. eapply sb_function; eauto. }
  destruct ov as [qv|]; unfold kv; cbn [run_kernels sk_eqs sk_ext].
  - destruct Xv as (_ & Xv). destruct (Hord (S nn) []) as (NDo' & Ino').
    assert (Lo' : forall y, In y (order (S nn) []) -> List.length y = ndim) by (intros y Hy; apply Ino' in Hy; eapply in_range_length; eauto).
    destruct (Xv (order (S nn) []) M2 NDo' Lo') as (V1 & V2). rewrite fst_visc1 in V2.
    split.
    + intros r rhs x Hin Hx. assert (Hx' := Hx). apply grid_point_range with (k := k) in Hx'.
      rewrite (V1 r (EApp HAdd [here ndim r; fst (classify (T ndim PL rhs))]) x) by (try (apply in_visc1; eauto); apply Ino'; auto).
      rewrite sem_add by auto. cbn [map fold_right]. unfold here. cbn [sem]. rewrite vadd_0_r by (eapply in_range_length; eauto).
      rewrite (C1 r (snd (classify (T ndim PL rhs))) x) by (try (apply in_conv1; eauto); apply Ino; auto).
      rewrite (sem_agree J k dirof h M2 M1 (fst (classify (T ndim PL rhs))) x).
      * rewrite Rplus_0_r. rewrite (Sum r rhs x Hin). apply (Rhs r); auto.
      * intros b ix Hb z. apply C2. destruct (part_T r rhs Hin) as (A & _). destruct (A _ (or_introl eq_refl)) as (_ & _ & Ds). apply Ds in Hb.
        apply (dsets_rhs_T r rhs b ix Hin Hb).
    + intros b x Nb Nr. rewrite V2, C2 by auto. apply S1. exact Nb.
  - split; [|intros b x Nb Nr; rewrite C2 by auto; apply S1; exact Nb].
    intros r rhs x Hin Hx. assert (Hx' := Hx). apply grid_point_range with (k := k) in Hx'.
    rewrite (C1 r (snd (classify (T ndim PL rhs))) x) by (try (apply in_conv1; eauto); apply Ino; auto).
    rewrite <- (Rhs r rhs x Hin Hx). rewrite <- (Sum r rhs x Hin).
    assert (Z : SEM M1 (fst (classify (T ndim PL rhs))) x = 0%R).
    { destruct Kv as [(r1 & rhs1 & t & v & Hin1 & Ht & Nv & Hi & Hd & Ns) | Nv].
      - exfalso. pose proof (kept r1 rhs1 t v Hin1 Ht Hi Hd Ns) as K. apply has_re_spec in Nv. rewrite Nv in K.
        assert (X : cds_post (EApp HAdd [here ndim r1; fst (classify (T ndim PL rhs1))]) = []) by (apply (Xv r1); apply in_visc1; eauto).
        rewrite cds_post_app in X. cbn [is_cd flat_map here cds_post app] in X. rewrite !app_nil_r in X. rewrite X in K. destruct K.
      - assert (NR : forall t, In t (terms (T ndim PL rhs)) -> has_re t = false).
        { intros t Ht. rewrite terms_T in Ht by (eapply sb_form; eauto). apply in_map_iff in Ht. destruct Ht as (t0 & <- & Ht). rewrite viscous_T.
          destruct (has_re t0) eqn:HR; auto. exfalso. apply has_re_spec in HR. eapply Nv; eauto. }
        destruct (form_T ndim PL rhs (sb_form _ _ _ _ SB r rhs Hin)) as (args & [E | E]); rewrite E in *.
        + cbn [classify fst zero_functions]. rewrite sem_add by auto. replace (filter has_re args) with (@nil expr); [reflexivity|].
          symmetry. cbn [terms] in NR. clear - NR. induction args as [|a l IH]; cbn; auto.
          rewrite (NR a) by (left; auto). apply IH. intros; apply NR; right; auto.
        + unfold classify. rewrite (NR (EApp HMul args)) by (left; auto). cbn [fst zero_functions]. apply sem_num0. auto. }
    rewrite Z. lra.
Qed.
End main.
