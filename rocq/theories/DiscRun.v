(* Execution of the discretised system. *)
From Verif Require Import Base BaseProofs Expr ExprProofs FDModel FDProofs WorkModel WorkProofs ShiftModel ShiftSpec ShiftProofs DiscModel DiscSpec DiscProofs AlgProofs AdvProofs.
From Coq Require Import QArith ZArith Reals Qreals Lia Lra Permutation.
Local Close Scope Q_scope.

Lemma at_offset_vadd : forall x ix, at_offset x ix = vadd x ix.
Proof. induction x; intros [|j ix]; cbn; f_equal; auto. Qed.
Lemma vadd_0_r : forall n x, List.length x = n -> vadd x (repeat 0%Z n) = x.
Proof. induction n; intros [|i x] H; cbn in *; try lia; auto. f_equal; [lia | apply IHn; lia]. Qed.
Lemma nth_move : forall d i x e, (d < List.length x)%nat ->
  nth e (move d i x) 0%Z = if Nat.eqb e d then (nth e x 0 + i)%Z else nth e x 0%Z.
Proof.
  induction d; intros i [|a x] e H; cbn in H; try lia.
  - destruct e; cbn; auto.
  - destruct e; cbn; auto. apply IHd. lia.
Qed.

Lemma grid_ext_in : forall k m hh u v, (forall i, (- Z.of_nat k <= i <= Z.of_nat k)%Z -> u i = v i) ->
  grid_formula (2 * Z.of_nat k) m hh u 0 = grid_formula (2 * Z.of_nat k) m hh v 0.
Proof.
  intros k m hh u v H. unfold grid_formula. f_equal.
  assert (G : forall pw, (forall p w, In (p, w) pw -> (- Z.of_nat k <= p <= Z.of_nat k)%Z) ->
     fold_right (fun jw acc => (Q2R (snd jw) * u (0 + fst jw)%Z + acc)%R) 0%R pw =
     fold_right (fun jw acc => (Q2R (snd jw) * v (0 + fst jw)%Z + acc)%R) 0%R pw).
  { induction pw as [|[p w] pw IH]; intros Hp; cbn [fold_right fst snd]; auto.
    rewrite IH by (intros; eapply Hp; right; eauto). rewrite (H (0 + p)%Z); [reflexivity|].
    apply (Hp p w). left. auto. }
  apply G. intros p w Hin. apply in_combine_l in Hin. rewrite central_points_even in Hin by lia.
  unfold zrange in Hin. apply in_map_iff in Hin. destruct Hin as (i & <- & Hi). apply in_seq in Hi. lia.
Qed.

Section run.
Variables (J : interp R) (k ndim : nat) (dirof : string -> nat) (inv : nat -> nat -> expr)
  (dord : expr -> list dset) (sord : list (expr * string) -> list (expr * string)) (h : nat -> R) (sizes : list Z).
Hypothesis HJ : real_arithmetic J.
Hypothesis Hinv : forall M x d m, value J M x (inv d m) = (/ h d ^ m)%R.
Hypothesis Hdord : forall e, enumerates (dord e) e.
Hypothesis Hsz : List.length sizes = ndim.

Notation SEM := (sem J k dirof h).
Notation EXEC := (exec J k sizes).
Notation INR_ := (in_range k sizes).

Definition placed (e : expr) : Prop := forall b ix, In (b, ix) (dsets e) -> ix = repeat 0%Z ndim.
Definition notwork (b : string) : Prop := forall i, b <> wk_name i.
Definition clean (e : expr) : Prop := forall b ix, In (b, ix) (dsets e) -> notwork b.

Lemma eval_value : forall M x e, eval J (fun b ix => M b (at_offset x ix)) e = value J M x e.
Proof. intros. unfold value. apply eval_ext. intros. rewrite at_offset_vadd. reflexivity. Qed.

Lemma in_range_length : forall ext x, INR_ ext x = true -> List.length x = ndim.
Proof. intros ext x H. unfold in_range in H. apply andb_true_iff in H. destruct H as [H _]. apply Nat.eqb_eq in H. lia. Qed.
Lemma in_range_move : forall d ext x i, (d < ndim)%nat -> In d ext -> INR_ [] x = true ->
  (- Z.of_nat k <= i <= Z.of_nat k)%Z -> INR_ ext (move d i x) = true.
Proof.
  intros d ext x i Hd Hin H Hi. pose proof (in_range_length _ _ H) as L. unfold in_range in *.
  apply andb_true_iff in H. destruct H as [H1 H2]. apply andb_true_iff. split; [rewrite move_length; auto|].
  rewrite forallb_forall in *. intros e He. specialize (H2 e He). rewrite nth_move by lia.
  apply andb_true_iff in H2. destruct H2 as [A B]. cbn [existsb] in A, B.
  apply Z.leb_le in A. apply Z.ltb_lt in B.
  assert (K : existsb (Nat.eqb e) ext = true -> In e ext).
  { rewrite existsb_exists. intros (z & Hz & E). apply Nat.eqb_eq in E. subst. auto. }
  apply andb_true_iff. rewrite Z.leb_le, Z.ltb_lt.
  destruct (Nat.eqb_spec e d) as [-> | Hne].
  - replace (existsb (Nat.eqb d) ext) with true; [lia|]. symmetry. apply existsb_exists. exists d.
    split; auto. apply Nat.eqb_refl.
  - destruct (existsb (Nat.eqb e) ext); lia.
Qed.
Lemma in_range_weaken : forall ext x, INR_ [] x = true -> INR_ ext x = true.
Proof.
  intros ext x H. unfold in_range in *. apply andb_true_iff in H. destruct H as [H1 H2]. apply andb_true_iff. split; auto.
  rewrite forallb_forall in *. intros e He. specialize (H2 e He). apply andb_true_iff in H2. destruct H2 as [A B].
  cbn [existsb] in A, B. apply Z.leb_le in A. apply Z.ltb_lt in B. apply andb_true_iff. rewrite Z.leb_le, Z.ltb_lt.
  destruct (existsb (Nat.eqb e) ext); lia.
Qed.

(* ---- execution of one kernel ---- *)
Lemma exec_eqs_frame : forall ext eqs M b x, ~ In b (map fst eqs) -> fold_left (exec_eq J k sizes ext) eqs M b x = M b x.
Proof.
  intros ext. induction eqs as [|[a e] eqs IH]; intros M b x H; cbn [fold_left]; auto.
  rewrite IH by (intro; apply H; right; auto). unfold exec_eq. cbn [fst].
  destruct (String.eqb_spec b a) as [-> | N]; auto. exfalso. apply H. left. auto.
Qed.
Lemma exec_eqs_value : forall ext eqs M, NoDup (map fst eqs) ->
  (forall a e b ix, In (a, e) eqs -> In (b, ix) (dsets e) -> b = a \/ ~ In b (map fst eqs)) ->
  forall a e x, In (a, e) eqs -> fold_left (exec_eq J k sizes ext) eqs M a x =
    if INR_ ext x then value J M x e else M a x.
Proof.
  intros ext. induction eqs as [|[a0 e0] eqs IH]; intros M ND Hr a e x Hin; [destruct Hin|].
  cbn [map fst] in ND. inversion ND as [|? ? N1 N2]; subst. cbn [fold_left].
  destruct Hin as [E | Hin].
  - injection E as -> ->. rewrite exec_eqs_frame by auto. unfold exec_eq. cbn [fst snd].
    rewrite String.eqb_refl. cbn [andb]. destruct (INR_ ext x); [apply eval_value | auto].
  - assert (Na : a <> a0).
    { intros ->. apply N1. change a0 with (fst (a0, e)). apply in_map. auto. }
    rewrite (IH _ N2) with (e := e); auto.
    + assert (Fr : forall b y, b <> a0 -> exec_eq J k sizes ext M (a0, e0) b y = M b y).
      { intros b y Hb. unfold exec_eq. cbn [fst]. destruct (String.eqb_spec b a0); auto. congruence. }
      destruct (INR_ ext x); [|apply Fr; auto].
      unfold value. apply eval_ext. intros b ix Hb. apply Fr.
      destruct (Hr a e b ix (or_intror Hin) Hb) as [-> | Hn]; auto.
      intros ->. apply Hn. left. auto.
    + intros a1 e1 b ix H1 Hb. destruct (Hr a1 e1 b ix (or_intror H1) Hb) as [-> | Hn]; auto.
      right. intro. apply Hn. right. auto.
Qed.
Definition writes (ks : list kernel) : list string := flat_map (fun kn => map fst (k_eqs kn)) ks.
Lemma exec_frame : forall ks M b x, ~ In b (writes ks) -> EXEC ks M b x = M b x.
Proof.
  induction ks as [|kn ks IH]; intros M b x H; cbn [exec fold_left]; auto.
  change (EXEC ks (exec_kernel J k sizes M kn) b x = M b x). rewrite IH.
  - unfold exec_kernel. apply exec_eqs_frame. intro. apply H. apply in_app_iff. auto.
  - intro. apply H. apply in_app_iff. auto.
Qed.
Lemma exec_app : forall ks1 ks2 M, EXEC (ks1 ++ ks2) M = EXEC ks2 (EXEC ks1 M).
Proof. intros. unfold exec. apply fold_left_app. Qed.
Lemma exec_cons : forall kn ks M, EXEC (kn :: ks) M = EXEC ks (exec_kernel J k sizes M kn).
Proof. reflexivity. Qed.

(* ---- values ---- *)
Lemma sem_flat : forall M e x, cds_post e = [] -> SEM M e x = value J M x e.
Proof.
  intros M. induction e as [q|kd n|b ix|hd args IH] using expr_ind'; intros x H; auto.
  rewrite cds_post_app in H. apply app_eq_nil in H. destruct H as [H1 H2].
  unfold value. cbn [eval]. 
  assert (E : map (fun a => SEM M a x) args = map (eval J (fun b ix => M b (vadd x ix))) args).
  { apply map_ext_in. intros a Ha. rewrite Forall_forall in IH. apply IH; auto.
    destruct (cds_post a) as [|c l] eqn:C; auto. exfalso.
    assert (In c (flat_map cds_post args)) by (apply in_flat_map; exists a; rewrite C; split; [auto | left; auto]).
    rewrite H1 in H. destruct H. }
  destruct hd; cbn [sem]; try (rewrite E; reflexivity).
  destruct args as [|a args]; [reflexivity | discriminate].
Qed.
Lemma sem_agree : forall M M0 e x, (forall b ix, In (b, ix) (dsets e) -> forall y, M b y = M0 b y) -> SEM M e x = SEM M0 e x.
Proof.
  intros M M0. induction e as [q|kd n|b ix|hd args IH] using expr_ind'; intros x H; auto.
  - cbn [sem]. apply (H b ix). left. auto.
  - rewrite Forall_forall in IH.
    assert (A : forall a y, In a args -> SEM M a y = SEM M0 a y).
    { intros a y Ha. apply IH; auto. intros b ix Hb. apply (H b ix). rewrite dsets_app. apply in_flat_map. eauto. }
    assert (E : map (fun a => SEM M a x) args = map (fun a => SEM M0 a x) args) by (apply map_ext_in; auto).
    destruct hd; cbn [sem]; try (rewrite E; reflexivity).
    destruct args as [|a args]; [reflexivity|]. apply grid_ext. intros i. apply A. left. auto.
Qed.
Lemma value_agree : forall M M0 e x, (forall b ix, In (b, ix) (dsets e) -> forall y, M b y = M0 b y) -> value J M x e = value J M0 x e.
Proof. intros. unfold value. apply eval_ext. intros b ix Hb. eapply H; eauto. Qed.

Lemma value_T : forall M M0 P e x, List.length x = ndim ->
  (forall v, In v (cds_post e) -> exists w, assoc v P = Some w /\ M w x = SEM M0 v x) ->
  (forall b ix, In (b, ix) (dsets e) -> forall y, M b y = M0 b y) ->
  value J M x (T ndim P e) = SEM M0 e x.
Proof.
  intros M M0 P e x Lx. induction e as [q|kd n|b ix|hd args IH] using expr_ind'; intros Hw Hb; auto.
  - cbn [T]. unfold value. cbn [eval sem]. apply (Hb b ix). left. auto.
  - rewrite T_eq. destruct (is_cd (EApp hd args)) eqn:C.
    + destruct (Hw (EApp hd args)) as (w & -> & E).
      { rewrite cds_post_app, C. apply in_app_iff. right. left. auto. }
      unfold value, here. cbn [eval]. rewrite vadd_0_r by auto. exact E.
    + assert (E : map (fun a => SEM M0 a x) args = map (fun a => value J M x (T ndim P a)) args).
      { apply map_ext_in. intros a Ha. rewrite Forall_forall in IH. symmetry. apply IH; auto.
        - intros v Hv. apply Hw. rewrite cds_post_app. apply in_app_iff. left. apply in_flat_map. eauto.
        - intros b ix Hbi. apply (Hb b ix). rewrite dsets_app. apply in_flat_map. eauto. }
      unfold value in *. cbn [eval]. rewrite map_map, <- E.
      destruct hd; cbn [sem]; try reflexivity. destruct args; [reflexivity | discriminate].
Qed.

(* ---- one discretised derivative ---- *)
Lemma discretise_ok : forall a n m, (dirof n < ndim)%nat -> placed a -> dsets a <> [] ->
  exists r, discretise k dirof inv dord (EApp HCD (a :: repeat (ESym KCoord n) (S m))) = Ok r /\
    forall M x, List.length x = ndim ->
      value J M x r = grid_formula (2 * Z.of_nat k) (S m) (h (dirof n)) (fun i => value J M (move (dirof n) i x) a) 0.
Proof.
  intros a n m Hd Hp Hne.
  assert (D : cd_dirs dirof (EApp HCD (a :: repeat (ESym KCoord n) (S m))) = repeat (dirof n) (S m)).
  { unfold cd_dirs, cd_coords. generalize (S m) as q. induction q; cbn; [auto | f_equal; auto]. }
  assert (Dd : cd_dir dirof (EApp HCD (a :: repeat (ESym KCoord n) (S m))) = dirof n).
  { unfold cd_dir. rewrite D. reflexivity. }
  unfold discretise, homogeneous. rewrite Dd, D.
  replace (forallb (Nat.eqb (dirof n)) (repeat (dirof n) (S m))) with true.
  2: { symmetry. apply forallb_forall. intros z Hz. apply repeat_spec in Hz. subst. apply Nat.eqb_refl. }
  unfold cd_coords, cd_arg. rewrite repeat_length.
  destruct (discretise_value ndim a (dirof n) (fun _ => dord a) (2 * Z.of_nat k) (S m) (inv (dirof n) (S m))) as (r & E & H); auto.
  - intros b ix Hin. rewrite (Hp b ix Hin). apply repeat_length.
  - intros p Hin. eapply one_location_no_collision; eauto.
    + intros b ix Hb. rewrite (Hp b ix Hb). apply repeat_length.
    + intros b ix b' ix' H1 H2. rewrite (Hp b ix H1), (Hp b' ix' H2). reflexivity.
  - exists r. split; [exact E|]. intros M x Hx. apply H; auto.
Qed.

Lemma sem_cd : forall M a n m x, SEM M (EApp HCD (a :: repeat (ESym KCoord n) (S m))) x =
  grid_formula (2 * Z.of_nat k) (S m) (h (dirof n)) (fun i => SEM M a (move (dirof n) i x)) 0.
Proof. intros. cbn [sem repeat direction]. cbn [List.length]. rewrite repeat_length. reflexivity. Qed.

Definition orig (v : expr) : Prop :=
  proper_derivative ndim dirof v /\ placed v /\ clean v.
Lemma cds_coords_nil : forall n q, flat_map cds_post (repeat (ESym KCoord n) q) = [].
Proof. induction q; cbn; auto. Qed.
Lemma dsets_coords_nil : forall n q, flat_map dsets (repeat (ESym KCoord n) q) = [].
Proof. induction q; cbn; auto. Qed.
Lemma dsets_cd : forall a n q, dsets (EApp HCD (a :: repeat (ESym KCoord n) q)) = dsets a.
Proof. intros. rewrite dsets_app. cbn [flat_map]. rewrite dsets_coords_nil, app_nil_r. reflexivity. Qed.
Lemma cds_cd : forall a n q, cds_post (EApp HCD (a :: repeat (ESym KCoord n) q)) =
  cds_post a ++ [EApp HCD (a :: repeat (ESym KCoord n) q)].
Proof. intros. rewrite cds_post_app. cbn [flat_map is_cd]. rewrite cds_coords_nil, app_nil_r. reflexivity. Qed.

(* ---- convective groups ---- *)
Lemma conv_group_ok : forall works d M0 vs c,
  (forall v, In v vs -> orig v /\ cds_post v = [v] /\ cd_dir dirof v = d) -> NoDup vs ->
  (forall v, In v vs -> exists i, lookup v works = wk_name i /\ (i < c)%nat) ->
  (forall u v, In u vs -> In v vs -> lookup u works = lookup v works -> u = v) ->
  exists eqs ks, conv_group k ndim dirof inv dord works c vs = Ok (eqs, ks) /\
    NoDup (map fst eqs) /\
    (forall t e, In (t, e) eqs -> (exists i, (c <= i)%nat /\ t = wk_name i) /\ clean e) /\
    writes ks = map (fun v => lookup v works) vs /\
    forall M, (forall b, notwork b -> forall x, M b x = M0 b x) ->
      (forall t e x, In (t, e) eqs -> INR_ [d] x = true -> M t x = value J M0 x e) ->
      forall v x, In v vs -> INR_ [] x = true -> EXEC ks M (lookup v works) x = SEM M0 v x.
Proof.
  intros works d M0. induction vs as [|v vs IH]; intros c Hv ND Hl Hinj.
  { exists [], []. cbn. repeat split; try constructor; intros; try contradiction. }
  destruct (Hv v (or_introl eq_refl)) as (Ov & Fv & Dv).
  destruct Ov as ((a & n & m & Ev & Hd & Hne) & Pv & Cv).
  assert (Dn : dirof n = d).
  { rewrite <- Dv, Ev. reflexivity. }
  assert (Fa : cds_post a = []).
  { rewrite Ev, cds_cd in Fv. change [EApp HCD (a :: repeat (ESym KCoord n) (S m))] with
      ([] ++ [EApp HCD (a :: repeat (ESym KCoord n) (S m))]) in Fv at 2. apply app_inv_tail in Fv. auto. }
  assert (Ds : dsets v = dsets a) by (rewrite Ev; apply dsets_cd).
  assert (Pa : placed a) by (intros b ix Hb; apply (Pv b ix); rewrite Ds; auto).
  assert (Ca : clean a) by (intros b ix Hb; apply (Cv b ix); rewrite Ds; auto).
  assert (Ac : cd_arg v = a) by (rewrite Ev; reflexivity).
  assert (Cc : cd_coords v = repeat (ESym KCoord n) (S m)) by (rewrite Ev; reflexivity).
  inversion ND as [|? ? N1 N2]; subst x l.
  cbn [conv_group]. rewrite Ac, Cc.
  destruct (many_datasets v) eqn:Mv.
  - (* through a temporary *)
    destruct (discretise_ok (here ndim (wk_name c)) n m Hd) as (r & Er & Vr).
    { intros b ix [H | []]. injection H as <- <-. reflexivity. }
    { discriminate. }
    rewrite Er. cbn [bind].
    destruct (IH (S c)) as (eqs & ks & E & NDe & Te & We & Hx).
    { intros u Hu. apply Hv. right. auto. } { auto. }
    { intros u Hu. destruct (Hl u (or_intror Hu)) as (i & Ei & Li). exists i. split; auto. }
    { intros u u' Hu Hu'. apply Hinj; right; auto. }
    rewrite E. cbn [bind fst snd app].
    eexists. eexists. split; [reflexivity|]. split.
    { cbn [map fst]. constructor; auto. intros Hin. apply in_map_iff in Hin. destruct Hin as ([t e] & Et & Hin).
      cbn in Et. subst t. destruct (Te _ _ Hin) as ((i & Li & Ei) & _). apply wk_name_inj in Ei. lia. }
    split.
    { intros t e [H | H]; [injection H as <- <-; split; [exists c; auto | auto] |].
      destruct (Te t e H) as ((i & Li & Ei) & Ce). split; auto. exists i. split; [lia | auto]. }
    split.
    { cbn [writes flat_map k_eqs map fst app]. f_equal. exact We. }
    intros M HM HT u x Hu Hx'. rewrite exec_cons.
    set (M1 := exec_kernel J k sizes M {| k_eqs := [(lookup v works, r)]; k_ext := [] |}).
    assert (F1 : forall b y, b <> lookup v works -> M1 b y = M b y).
    { intros b y Hb. unfold M1, exec_kernel. apply exec_eqs_frame. intros [E1 | []]. cbn in E1. congruence. }
    destruct Hu as [<- | Hu].
    + rewrite exec_frame.
      * unfold M1, exec_kernel. cbn [k_eqs k_ext]. 
        assert (V : fold_left (exec_eq J k sizes []) [(lookup v works, r)] M (lookup v works) x = value J M x r).
        { cbn [fold_left]. unfold exec_eq. cbn [fst snd]. rewrite String.eqb_refl, Hx'. cbn [andb]. apply eval_value. }
        rewrite V, Vr by (eapply in_range_length; eauto). rewrite Ev, sem_cd. apply grid_ext_in. intros i Hi.
        unfold value at 1, here. cbn [eval]. rewrite vadd_0_r by (rewrite move_length; eapply in_range_length; eauto).
        rewrite sem_flat by auto. apply (HT (wk_name c) a).
        -- left. auto.
        -- apply in_range_move; auto. left. auto.
      * rewrite We. intros Hin. apply in_map_iff in Hin. destruct Hin as (u & Eu & Hu). 
        apply N1. rewrite <- (Hinj u v (or_intror Hu) (or_introl eq_refl) Eu). auto.
    + apply Hx; auto.
      * intros b Hb y. rewrite F1; [apply HM; auto|]. destruct (Hl v (or_introl eq_refl)) as (i & Ei & _).
        rewrite Ei. apply Hb.
      * intros t e y Hin Hy. rewrite F1; [apply HT; [right; auto | auto]|].
        destruct (Te t e Hin) as ((i & Li & ->) & _). destruct (Hl v (or_introl eq_refl)) as (j & Ej & Lj).
        rewrite Ej. intros X. apply wk_name_inj in X. lia.
  - destruct (discretise_ok a n m Hd Pa) as (r & Er & Vr); [auto|].
    rewrite Ev. rewrite Er. rewrite <- Ev. cbn [bind].
    destruct (IH c) as (eqs & ks & E & NDe & Te & We & Hx).
    { intros u Hu. apply Hv. right. auto. } { auto. }
    { intros u Hu. apply Hl. right. auto. }
    { intros u u' Hu Hu'. apply Hinj; right; auto. }
    rewrite E. cbn [bind fst snd app].
    eexists. eexists. split; [reflexivity|]. split; [exact NDe|]. split; [exact Te|]. split.
    { cbn [writes flat_map k_eqs map fst app]. f_equal. exact We. }
    intros M HM HT u x Hu Hx'. rewrite exec_cons.
    set (M1 := exec_kernel J k sizes M {| k_eqs := [(lookup v works, r)]; k_ext := [] |}).
    assert (F1 : forall b y, b <> lookup v works -> M1 b y = M b y).
    { intros b y Hb. unfold M1, exec_kernel. apply exec_eqs_frame. intros [E1 | []]. cbn in E1. congruence. }
    destruct Hu as [<- | Hu].
    + rewrite exec_frame.
      * unfold M1, exec_kernel. cbn [k_eqs k_ext]. 
        assert (V : fold_left (exec_eq J k sizes []) [(lookup v works, r)] M (lookup v works) x = value J M x r).
        { cbn [fold_left]. unfold exec_eq. cbn [fst snd]. rewrite String.eqb_refl, Hx'. cbn [andb]. apply eval_value. }
        rewrite V, Vr by (eapply in_range_length; eauto). rewrite Ev, sem_cd. apply grid_ext. intros i.
        rewrite sem_flat by auto. apply value_agree. intros b ix Hb y. apply HM. eapply Ca; eauto.
      * rewrite We. intros Hin. apply in_map_iff in Hin. destruct Hin as (u & Eu & Hu). 
        apply N1. rewrite <- (Hinj u v (or_intror Hu) (or_introl eq_refl) Eu). auto.
    + apply Hx; auto.
      * intros b Hb y. rewrite F1; [apply HM; auto|]. destruct (Hl v (or_introl eq_refl)) as (i & Ei & _).
        rewrite Ei. apply Hb.
      * intros t e y Hin Hy. rewrite F1; [apply HT; auto|].
        destruct (Te t e Hin) as ((i & Li & ->) & _). destruct (Hl v (or_introl eq_refl)) as (j & Ej & Lj).
        rewrite Ej. intros X. apply wk_name_inj in X. lia.
Qed.

(* ---- dictionaries ---- *)
Lemma assoc_total : forall v P, In v (map fst P) -> exists w, assoc v P = Some w /\ In (v, w) P.
Proof.
  induction P as [|[u w] P IH]; intros H; [destruct H|]. cbn [assoc].
  destruct (expr_eq_dec v u) as [-> | N].
  - exists w. split; auto. left. auto.
  - destruct H as [H | H]; [cbn in H; congruence|]. destruct (IH H) as (w' & E & Hin). exists w'. split; auto. right. auto.
Qed.
Lemma assoc_unique : forall P v w, NoDup (map fst P) -> In (v, w) P -> assoc v P = Some w.
Proof.
  induction P as [|[u w0] P IH]; intros v w ND Hin; [destruct Hin|]. cbn in ND. inversion ND; subst. cbn [assoc].
  destruct Hin as [E | Hin].
  - injection E as -> ->. destruct (expr_eq_dec v v); congruence.
  - destruct (expr_eq_dec v u) as [-> | N]; auto. exfalso. apply H1. change u with (fst (u, w)). apply in_map. auto.
Qed.
Lemma lookup_assoc : forall v P w, assoc v P = Some w -> lookup v P = w.
Proof.
  induction P as [|[u w0] P IH]; intros w H; cbn in H; [discriminate|]. cbn [lookup].
  destruct (expr_eq_dec v u); [congruence | auto].
Qed.
Lemma assign_fst : forall st vs, map fst (assign_works st vs) = vs.
Proof.
  intros st vs. unfold assign_works. revert st. induction vs as [|v vs IH]; intros st; cbn; auto. f_equal. apply IH.
Qed.
Lemma assign_snd : forall st vs, map snd (assign_works st vs) = map wk_name (seq st (List.length vs)).
Proof.
  intros st vs. unfold assign_works. revert st. induction vs as [|v vs IH]; intros st; cbn; auto. f_equal. apply IH.
Qed.
Lemma assign_snd_nodup : forall st vs, NoDup (map snd (assign_works st vs)).
Proof.
  intros. rewrite assign_snd. apply FinFun.Injective_map_NoDup; [|apply seq_NoDup]. intros i j. apply wk_name_inj.
Qed.
Lemma assign_length : forall st vs, List.length (assign_works st vs) = List.length vs.
Proof. intros. rewrite <- (map_length fst), assign_fst. reflexivity. Qed.
Lemma assign_lookup : forall vs v, In v vs -> assoc v (assign_works 0 vs) = Some (lookup v (assign_works 0 vs)) /\
  exists i, lookup v (assign_works 0 vs) = wk_name i /\ (i < List.length vs)%nat.
Proof.
  intros vs v Hv. destruct (assoc_total v (assign_works 0 vs)) as (w & E & Hin); [rewrite assign_fst; auto|].
  rewrite (lookup_assoc _ _ _ E). split; auto.
  assert (H : In w (map snd (assign_works 0 vs))) by (change w with (snd (v, w)); apply in_map; auto).
  rewrite assign_snd in H. apply in_map_iff in H. destruct H as (i & <- & Hi). apply in_seq in Hi. exists i. split; auto. lia.
Qed.
Lemma assign_inj : forall vs u v, In u vs -> In v vs ->
  lookup u (assign_works 0 vs) = lookup v (assign_works 0 vs) -> u = v.
Proof.
  intros vs u v Hu Hv E. destruct (assign_lookup vs u Hu) as [A _]. destruct (assign_lookup vs v Hv) as [B _].
  rewrite E in A. eapply assoc_inj; [apply (assign_snd_nodup 0 vs) | exact A | exact B].
Qed.

(* ---- groups ---- *)
Lemma group_add_perm : forall v g, Permutation (flat_map snd (group_add dirof v g)) (v :: flat_map snd g).
Proof.
  induction g as [|[d l] g IH]; cbn [group_add flat_map snd]; auto.
  destruct (Nat.eqb (cd_dir dirof v) d); cbn [flat_map snd].
  - rewrite <- app_assoc. symmetry. apply Permutation_middle.
  - rewrite IH. symmetry. apply Permutation_middle.
Qed.
Lemma group_perm : forall cds, Permutation (flat_map snd (group_by_direction dirof cds)) cds.
Proof.
  intros cds. unfold group_by_direction.
  assert (G : forall g, Permutation (flat_map snd (fold_left (fun g v => group_add dirof v g) cds g)) (flat_map snd g ++ cds)).
  { induction cds as [|v cds IH]; intros g; cbn [fold_left]; [rewrite app_nil_r; auto|].
    rewrite IH, group_add_perm. cbn [app]. apply Permutation_middle. }
  apply (G []).
Qed.
Lemma group_dirs : forall cds d l v, In (d, l) (group_by_direction dirof cds) -> In v l -> cd_dir dirof v = d.
Proof.
  intros cds. unfold group_by_direction.
  assert (A : forall v g, (forall d l u, In (d, l) g -> In u l -> cd_dir dirof u = d) ->
     forall d l u, In (d, l) (group_add dirof v g) -> In u l -> cd_dir dirof u = d).
  { intros v. induction g as [|[d0 l0] g IH]; intros Hg d l u Hin Hu; cbn [group_add] in Hin.
    - destruct Hin as [E | []]. injection E as <- <-. destruct Hu as [-> | []]. auto.
    - destruct (Nat.eqb_spec (cd_dir dirof v) d0) as [Ed | Nd]; destruct Hin as [E | Hin].
      + injection E as <- <-. apply in_app_iff in Hu. destruct Hu as [Hu | [<- | []]]; auto.
        apply (Hg d0 l0); auto. left. auto.
      + apply (Hg d l); auto. right. auto.
      + injection E as <- <-. apply (Hg d0 l0); auto. left. auto.
      + apply (IH (fun d l u H => Hg d l u (or_intror H)) d l u Hin Hu). }
  assert (G : forall g, (forall d l u, In (d, l) g -> In u l -> cd_dir dirof u = d) ->
     forall d l u, In (d, l) (fold_left (fun g v => group_add dirof v g) cds g) -> In u l -> cd_dir dirof u = d).
  { induction cds as [|v cds IH]; intros g Hg; cbn [fold_left]; auto. apply IH. apply A. auto. }
  intros d l v. apply (G []). intros ? ? ? [].
Qed.

Lemma conv_groups_ok : forall works c g,
  (forall d l v, In (d, l) g -> In v l -> orig v /\ cds_post v = [v] /\ cd_dir dirof v = d) ->
  NoDup (flat_map snd g) ->
  (forall v, In v (flat_map snd g) -> exists i, lookup v works = wk_name i /\ (i < c)%nat) ->
  (forall u v, In u (flat_map snd g) -> In v (flat_map snd g) -> lookup u works = lookup v works -> u = v) ->
  exists ks, conv_groups k ndim dirof inv dord works c g = Ok ks /\
    (forall b, In b (writes ks) -> (exists v, In v (flat_map snd g) /\ b = lookup v works) \/ exists i, (c <= i)%nat /\ b = wk_name i) /\
    forall M0 M, (forall b, notwork b -> forall x, M b x = M0 b x) ->
      forall v x, In v (flat_map snd g) -> INR_ [] x = true -> EXEC ks M (lookup v works) x = SEM M0 v x.
Proof.
  intros works c. induction g as [|[d vs] g IH]; intros Hg ND Hl Hinj.
  { exists []. cbn. split; auto. split; intros; contradiction. }
  cbn [flat_map snd] in *.
  assert (Sub1 : forall v, In v vs -> In v (vs ++ flat_map snd g)) by (intros; apply in_app_iff; auto).
  assert (Sub2 : forall v, In v (flat_map snd g) -> In v (vs ++ flat_map snd g)) by (intros; apply in_app_iff; auto).
  destruct (IH) as (ks2 & E2 & W2 & X2).
  { intros d' l v Hin Hv. apply (Hg d' l); auto. right. auto. }
  { eapply NoDup_app_remove_l; eauto. }
  { intros v Hv. apply Hl. auto. }
  { intros u v Hu Hv. apply Hinj; auto. }
  assert (G1 : exists eqs ks, conv_group k ndim dirof inv dord works c vs = Ok (eqs, ks)).
  { destruct (conv_group_ok works d (fun _ _ => 0%R) vs c) as (eqs & ks & E & _); eauto.
    - intros v Hv. apply (Hg d vs); auto. left. auto.
    - eapply NoDup_app_remove_r; eauto. }
  destruct G1 as (eqs & ks & E1).
  cbn [conv_groups]. rewrite E1. cbn [bind fst snd]. rewrite E2. cbn [bind].
  eexists. split; [reflexivity|].
  assert (GG : forall M0, NoDup (map fst eqs) /\
    (forall t e, In (t, e) eqs -> (exists i, (c <= i)%nat /\ t = wk_name i) /\ clean e) /\
    writes ks = map (fun v => lookup v works) vs /\
    forall M, (forall b, notwork b -> forall x, M b x = M0 b x) ->
      (forall t e x, In (t, e) eqs -> INR_ [d] x = true -> M t x = value J M0 x e) ->
      forall v x, In v vs -> INR_ [] x = true -> EXEC ks M (lookup v works) x = SEM M0 v x).
  { intros M0. destruct (conv_group_ok works d M0 vs c) as (eqs' & ks' & E & R1 & R2 & R3 & R4).
    - intros v Hv. apply (Hg d vs); auto. left. auto.
    - eapply NoDup_app_remove_r; eauto.
    - intros v Hv. apply Hl. auto.
    - intros u v Hu Hv. apply Hinj; auto.
    - rewrite E1 in E. injection E as <- <-. auto. }
  set (evk := match eqs with [] => [] | p :: l => [{| k_eqs := p :: l; k_ext := [d] |}] end).
  assert (Wev : writes evk = map fst eqs).
  { unfold evk. destruct eqs; [reflexivity|]. unfold writes. cbn [flat_map k_eqs]. apply app_nil_r. }
  assert (Wapp : forall a b, writes (a ++ b) = writes a ++ writes b).
  { intros. unfold writes. rewrite flat_map_app. reflexivity. }
  split.
  - intros b Hb. rewrite !Wapp, Wev in Hb. apply in_app_iff in Hb. destruct Hb as [Hb | Hb].
    + right. apply in_map_iff in Hb. destruct Hb as ([t e] & <- & Hin). destruct (GG (fun _ _ => 0%R)) as (_ & G2 & _).
      destruct (G2 t e Hin) as ((i & Li & Ei) & _). exists i. auto.
    + apply in_app_iff in Hb. destruct Hb as [Hb | Hb].
      * left. destruct (GG (fun _ _ => 0%R)) as (_ & _ & G3 & _). rewrite G3 in Hb. apply in_map_iff in Hb.
        destruct Hb as (v & <- & Hv). exists v. auto.
      * destruct (W2 b Hb) as [(v & Hv & ->) | R]; auto. left. exists v. auto.
  - intros M0 M HM v x Hv Hx. rewrite !exec_app.
    destruct (GG M0) as (G1 & G2 & G3 & G4).
    set (Me := EXEC evk M).
    assert (Fe : forall b, notwork b -> forall y, Me b y = M0 b y).
    { intros b Hb y. unfold Me. rewrite exec_frame; [apply HM; auto|]. rewrite Wev. intros Hin.
      apply in_map_iff in Hin. destruct Hin as ([t e] & <- & Hin). destruct (G2 t e Hin) as ((i & _ & Ei) & _).
      apply (Hb i). exact Ei. }
    assert (Ve : forall t e y, In (t, e) eqs -> INR_ [d] y = true -> Me t y = value J M0 y e).
    { intros t e y Hin Hy. unfold Me, evk. destruct eqs as [|q eqs']; [destruct Hin|]. set (eqs := q :: eqs') in *.
      rewrite exec_cons. cbn [exec fold_left]. unfold exec_kernel. cbn [k_eqs k_ext].
      rewrite (exec_eqs_value [d] eqs M G1) with (e := e); auto.
      - rewrite Hy. apply value_agree. intros b ix Hb z. apply HM. apply (proj2 (G2 t e Hin) b ix Hb).
      - intros a0 e0 b ix H0 Hb. right. intros C. apply in_map_iff in C. destruct C as ([t1 e1] & Eb & H1).
        cbn in Eb. subst t1. destruct (G2 _ _ H1) as ((i & _ & Ei) & _). apply (proj2 (G2 a0 e0 H0) b ix Hb i). auto. }
    set (Md := EXEC ks Me).
    assert (Fd : forall b, notwork b -> forall y, Md b y = M0 b y).
    { intros b Hb y. unfold Md. rewrite exec_frame; auto. rewrite G3. intros Hin. apply in_map_iff in Hin.
      destruct Hin as (u & <- & Hu). destruct (Hl u (Sub1 u Hu)) as (i & Ei & _). apply (Hb i). auto. }
    apply in_app_iff in Hv. destruct Hv as [Hv | Hv].
    + rewrite exec_frame; [apply G4; auto|]. intros Hin. destruct (W2 _ Hin) as [(u & Hu & Eu) | (i & Li & Ei)].
      * assert (v = u) by (apply Hinj; auto). subst u.
        clear - ND Hv Hu. induction vs; [destruct Hv|]. cbn in ND. inversion ND; subst.
        destruct Hv as [-> | Hv]; [apply H1; apply in_app_iff; auto | auto].
      * destruct (Hl v (Sub1 v Hv)) as (j & Ej & Lj). rewrite Ei in Ej. apply wk_name_inj in Ej. lia.
    + apply X2; auto.
Qed.

(* ---- the convective part ---- *)
Definition eqs_ok (cds : list expr) (eqs : list (string * expr)) : Prop :=
  NoDup (map fst eqs) /\
  (forall r e, In (r, e) eqs -> notwork r /\ clean e /\ (forall v, In v (cds_post e) -> In v cds) /\
     forall b ix, In (b, ix) (dsets e) -> ~ In b (map fst eqs)).

Lemma fresh_clean : forall P e, clean e -> (forall v w, In (v, w) P -> exists i, w = wk_name i) -> fresh P e.
Proof.
  intros P e C HP b ix Hb Hin. apply in_map_iff in Hin. destruct Hin as ([v w] & Ew & Hin). cbn in Ew. subst w.
  destruct (HP _ _ Hin) as (i & Ei). apply (C b ix Hb i). auto.
Qed.
Lemma works_are_wk : forall vs v w, In (v, w) (assign_works 0 vs) -> exists i, w = wk_name i.
Proof.
  intros vs v w Hin. assert (H : In w (map snd (assign_works 0 vs))) by (change w with (snd (v, w)); apply in_map; auto).
  rewrite assign_snd in H. apply in_map_iff in H. destruct H as (i & <- & _). eauto.
Qed.

(* dsets of a replaced expression *)
Lemma dsets_T : forall P e b ix, In (b, ix) (dsets (T ndim P e)) ->
  In (b, ix) (dsets e) \/ (In b (map snd P) /\ ix = repeat 0%Z ndim).
Proof.
  intros P. induction e as [q|kd n|b0 ix0|hd args IH] using expr_ind'; intros b ix H; auto.
  rewrite T_eq in H. destruct (if is_cd (EApp hd args) then assoc (EApp hd args) P else None) as [w|] eqn:A.
  - destruct H as [H | []]. injection H as <- <-. right. split; auto. destruct (is_cd (EApp hd args)); [|discriminate].
    apply assoc_in in A. change w with (snd (EApp hd args, w)). apply in_map. auto.
  - rewrite dsets_app in H. apply in_flat_map in H. destruct H as (a' & Ha & Hb). apply in_map_iff in Ha.
    destruct Ha as (a & <- & Ha). rewrite Forall_forall in IH. destruct (IH a Ha b ix Hb) as [H | H]; auto.
    left. rewrite dsets_app. apply in_flat_map. eauto.
Qed.
Lemma dsets_T_nonempty : forall P e, dsets e <> [] -> dsets (T ndim P e) <> [].
Proof.
  intros P. induction e as [q|kd n|b0 ix0|hd args IH] using expr_ind'; intros H; auto.
  rewrite T_eq. destruct (if is_cd (EApp hd args) then assoc (EApp hd args) P else None) as [w|]; [discriminate|].
  rewrite dsets_app in *. 
  assert (X : exists a, In a args /\ dsets a <> []).
  { clear IH. induction args as [|a args IHa]; [exfalso; apply H; auto|]. cbn [flat_map] in H.
    destruct (dsets a) as [|z l] eqn:D.
    - destruct (IHa H) as (a' & Ha & Da). exists a'. split; [right; auto | auto].
    - exists a. split; [left; auto | congruence]. }
  destruct X as (a & Ha & Da). rewrite Forall_forall in IH. specialize (IH a Ha Da).
  intros C. destruct (dsets (T ndim P a)) as [|z l] eqn:D; [congruence|].
  assert (In z (flat_map dsets (map (T ndim P) args))).
  { apply in_flat_map. exists (T ndim P a). split; [apply in_map; auto | rewrite D; left; auto]. }
  rewrite C in H0. destruct H0.
Qed.

Lemma residual_value : forall (conv : bool) eqs M,
  NoDup (map fst eqs) ->
  (forall r e b ix, In (r, e) eqs -> In (b, ix) (dsets e) -> ~ In b (map fst eqs)) ->
  forall r e x, In (r, e) eqs -> INR_ [] x = true ->
  exec_kernel J k sizes M (residual_kernel ndim conv eqs) r x =
    if conv then value J M x e else (M r x + value J M x e)%R.
Proof.
  intros conv eqs M ND Hb r e x Hin Hx. unfold exec_kernel, residual_kernel. cbn [k_eqs k_ext].
  set (g := fun re : string * expr => (fst re, if conv then snd re else EApp HAdd [here ndim (fst re); snd re])).
  assert (Ef : map fst (map g eqs) = map fst eqs) by (rewrite map_map; reflexivity).
  rewrite (exec_eqs_value [] (map g eqs) M) with (e := snd (g (r, e))).
  - rewrite Hx. unfold g. cbn [snd fst]. destruct conv; auto.
    unfold value at 1. cbn [eval map]. destruct HJ as (_ & Ja & _). rewrite Ja. cbn [fold_right].
    unfold here. cbn [eval]. rewrite vadd_0_r by (eapply in_range_length; eauto).
    unfold value. lra.
  - rewrite Ef. auto.
  - rewrite Ef. intros a e0 b ix H0 Hd. apply in_map_iff in H0. destruct H0 as ([r1 e1] & Eg & H1).
    unfold g in Eg. cbn [fst snd] in Eg. injection Eg as <- <-.
    destruct conv; [right; eapply Hb; eauto|].
    rewrite dsets_app in Hd. cbn [flat_map] in Hd. rewrite app_nil_r in Hd. apply in_app_iff in Hd.
    destruct Hd as [[E | []] | Hd]; [left; congruence | right; eapply Hb; eauto].
  - change (r, snd (g (r, e))) with (g (r, e)). apply in_map. auto.
Qed.
Lemma residual_writes : forall conv eqs, map fst (k_eqs (residual_kernel ndim conv eqs)) = map fst eqs.
Proof. intros. unfold residual_kernel. cbn [k_eqs]. rewrite map_map. reflexivity. Qed.

Lemma convective_ok : forall cds eqs, cds <> [] -> NoDup cds ->
  (forall v, In v cds -> orig v /\ cds_post v = [v]) -> eqs_ok cds eqs ->
  (forall l, Permutation l (sord l)) ->
  exists ks, convective_kernels k ndim dirof inv dord sord cds eqs = Ok ks /\
    forall M, (forall b, notwork b -> ~ In b (map fst eqs) -> forall x, EXEC ks M b x = M b x) /\
      forall r e x, In (r, e) eqs -> INR_ [] x = true -> EXEC ks M r x = SEM M e x.
Proof.
  intros cds eqs Hne ND Hc (NDe & He) Hs. unfold convective_kernels.
  pose proof (group_perm cds) as GP. set (g := group_by_direction dirof cds) in *.
  set (vs := flat_map snd g) in *.
  assert (NDv : NoDup vs) by (eapply Permutation_NoDup; [symmetry; exact GP | auto]).
  destruct (conv_groups_ok (assign_works 0 vs) (List.length (assign_works 0 vs)) g) as (ks & E & W & X).
  { intros d l v Hin Hv. assert (In v cds).
    { eapply Permutation_in; [exact GP|]. unfold vs. apply in_flat_map. exists (d, l). auto. }
    destruct (Hc v H). split; auto. split; auto. eapply group_dirs; eauto. }
  { exact NDv. }
  { intros v Hv. rewrite assign_length. apply assign_lookup. auto. }
  { intros u v. apply assign_inj. }
  assert (Mg : forall A (a b : A), match g with [] => a | _ => b end = b).
  { intros A a b. destruct g; auto. exfalso. apply Hne. apply Permutation_nil in GP. auto. }
  cbv zeta. fold g. fold vs. rewrite Mg, E. cbn [bind].
  eexists. split; [reflexivity|]. intros M.
  set (works := assign_works 0 vs) in *.
  set (reqs := map (fun re : string * expr => (fst re, subs ndim (sord works) (snd re))) eqs).
  assert (Fr : map fst reqs = map fst eqs) by (unfold reqs; rewrite map_map; reflexivity).
  assert (Wwk : forall b, In b (writes ks) -> exists i, b = wk_name i).
  { intros b Hb. destruct (W b Hb) as [(v & Hv & ->) | (i & _ & ->)]; eauto.
    destruct (assign_lookup vs v Hv) as (_ & i & Ei & _). eauto. }
  set (M1 := EXEC ks M).
  assert (F1 : forall b, notwork b -> forall x, M1 b x = M b x).
  { intros b Hb x. unfold M1. apply exec_frame. intros Hin. destruct (Wwk b Hin) as (i & Ei). apply (Hb i). auto. }
  assert (Sb : forall e, clean e -> subs ndim (sord works) e = T ndim (rev (sord works)) e).
  { intros e Ce.
    pose proof (subs_T ndim (fun v => v) (sord works) [] e) as S. rewrite T_nil, app_nil_r in S.
    replace (map (fun vw : expr * string => (fst vw, snd vw)) (sord works)) with (sord works) in S.
    2: { rewrite <- (map_id (sord works)) at 1. apply map_ext. intros []. reflexivity. }
    assert (InP : forall v w, In (v, w) (sord works) -> In (v, w) works).
    { intros v w. apply Permutation_in. symmetry. apply Hs. }
    assert (Pk : forall v w, In (v, w) (sord works) -> In v cds).
    { intros v w Hin. apply InP in Hin. eapply Permutation_in; [exact GP|].
      rewrite <- (assign_fst 0 vs). change v with (fst (v, w)). apply in_map. auto. }
    rewrite app_nil_r in S.
    apply S; clear S.
    - eapply Permutation_NoDup; [apply Permutation_map, Hs | apply assign_snd_nodup].
    - eapply Permutation_NoDup; [apply Permutation_map, Hs | unfold works; rewrite assign_fst; auto].
    - intros v w Hin. destruct (Hc v (Pk v w Hin)) as (((a & n & m & Ev & _) & _) & _). rewrite Ev. reflexivity.
    - intros v w Hin. apply fresh_clean.
      + apply (proj2 (proj2 (proj1 (Hc v (Pk v w Hin))))).
      + intros u z Hz. eapply works_are_wk. apply InP. eauto.
    - apply fresh_clean; auto. intros u z Hz. eapply works_are_wk. apply InP. eauto.
    - intros l1 v w l2 El. rewrite app_nil_r.
      assert (Hin : In (v, w) (sord works)) by (rewrite El; apply in_app_iff; right; left; auto).
      rewrite <- (T_nil ndim v) at 1. apply T_ext. intros u Hu.
      rewrite (proj2 (Hc v (Pk v w Hin))) in Hu. destruct Hu as [<- | []]. cbn [assoc].
      destruct (assoc v (rev l1)) as [w'|] eqn:A; auto. apply assoc_in in A. apply in_rev in A. exfalso.
      assert (NDf : NoDup (map fst (sord works))).
      { eapply Permutation_NoDup; [apply Permutation_map, Hs | unfold works; rewrite assign_fst; auto]. }
      rewrite El, map_app in NDf. cbn [map fst] in NDf. apply NoDup_remove_2 in NDf. apply NDf. apply in_app_iff. left.
      change v with (fst (v, w')). apply in_map. auto. }
  rewrite exec_app. fold M1. rewrite exec_cons. cbn [exec fold_left]. split.
  - intros b Hb Hn x. unfold exec_kernel. rewrite exec_eqs_frame; [apply F1; auto|]. rewrite residual_writes, Fr. auto.
  - intros r e x Hin Hx.
    rewrite (residual_value true reqs M1) with (e := subs ndim (sord works) e).
    + destruct (He r e Hin) as (Nr & Ce & Cd & Nb). rewrite Sb by auto. apply value_T.
      * eapply in_range_length; eauto.
      * intros v Hv. assert (Hvs : In v vs) by (eapply Permutation_in; [symmetry; exact GP | auto]).
        destruct (assign_lookup vs v Hvs) as (A & _). fold works in A.
        exists (lookup v works). split.
        -- apply assoc_unique.
           ++ rewrite map_rev. apply NoDup_rev.
              eapply Permutation_NoDup; [apply Permutation_map, Hs | unfold works; rewrite assign_fst; auto].
           ++ apply in_rev. rewrite rev_involutive. eapply Permutation_in; [apply Hs|]. apply assoc_in. auto.
        -- unfold M1. apply X; auto.
      * intros b ix Hb y. apply F1. apply (Ce b ix Hb).
    + rewrite Fr. auto.
    + rewrite Fr. intros r0 e0 b ix H0 Hb. unfold reqs in H0. apply in_map_iff in H0. destruct H0 as ([r1 e1] & Eg0 & H1).
      cbn [fst snd] in Eg0. injection Eg0 as <- <-. destruct (He r1 e1 H1) as (Nr & Ce & Cd & Nb).
      rewrite Sb in Hb by auto. apply dsets_T in Hb. destruct Hb as [Hb | (Hb & _)]; [eapply Nb; eauto|].
      intros C. apply in_map_iff in C. destruct C as ([r2 e2] & Er & H2). cbn in Er. subst r2.
      rewrite map_rev in Hb. apply in_rev in Hb. apply in_map_iff in Hb. destruct Hb as ([v w] & Ew & Hw). cbn in Ew. subst w.
      assert (In (v, b) works) by (eapply Permutation_in; [symmetry; apply Hs | auto]).
      destruct (works_are_wk _ _ _ H) as (i & Ei). apply (proj1 (He b e2 H2) i). auto.
    + unfold reqs. change (r, subs ndim (sord works) e) with ((fun re : string * expr => (fst re, subs ndim (sord works) (snd re))) (r, e)).
      apply in_map. auto.
    + exact Hx.
Qed.

(* ---- the viscous part ---- *)
Lemma cds_len : forall e v, In v (cds_post e) -> (List.length (cds_post v) <= List.length (cds_post e))%nat.
Proof.
  induction e as [q|kd n|b ix|hd args IH] using expr_ind'; intros v Hv; try destruct Hv.
  rewrite cds_post_app in Hv. apply in_app_iff in Hv. destruct Hv as [Hv | Hv].
  - apply in_flat_map in Hv. destruct Hv as (a & Ha & Hv). rewrite Forall_forall in IH. specialize (IH a Ha v Hv).
    rewrite cds_post_app, app_length. apply in_split in Ha. destruct Ha as (l1 & l2 & ->).
    rewrite flat_map_app, app_length. cbn [flat_map]. rewrite app_length. lia.
  - destruct (is_cd (EApp hd args)); [destruct Hv as [<- | []]; lia | destruct Hv].
Qed.
Lemma dsets_T_has : forall c w e, In c (cds_post e) -> In (w, repeat 0%Z ndim) (dsets (T ndim [(c, w)] e)).
Proof.
  intros c w. induction e as [q|kd n|b ix|hd args IH] using expr_ind'; intros Hc; try destruct Hc.
  rewrite T_eq. destruct (is_cd (EApp hd args)) eqn:C.
  - cbn [assoc]. destruct (expr_eq_dec (EApp hd args) c) as [E | N].
    + left. reflexivity.
    + rewrite cds_post_app, C in Hc. apply in_app_iff in Hc. destruct Hc as [Hc | [Hc | []]]; [|congruence].
      apply in_flat_map in Hc. destruct Hc as (a & Ha & Hc). rewrite dsets_app. apply in_flat_map.
      exists (T ndim [(c, w)] a). split; [apply in_map; auto|]. rewrite Forall_forall in IH. auto.
  - rewrite cds_post_app, C, app_nil_r in Hc. 
    apply in_flat_map in Hc. destruct Hc as (a & Ha & Hc). rewrite dsets_app. apply in_flat_map.
    exists (T ndim [(c, w)] a). split; [apply in_map; auto|]. rewrite Forall_forall in IH. auto.
Qed.
Lemma T_coords : forall P n q, map (T ndim P) (repeat (ESym KCoord n) q) = repeat (ESym KCoord n) q.
Proof. induction q; cbn; auto. f_equal. auto. Qed.

Lemma snd_nodup : forall l : list (expr * string), NoDup (map fst l) ->
  (forall u v w, In (u, w) l -> In (v, w) l -> u = v) -> NoDup (map snd l).
Proof.
  induction l as [|[u w] l IHl]; intros N HH; cbn in *; constructor.
  - inversion N; subst. intros Hin. apply in_map_iff in Hin. destruct Hin as ([u' w'] & Ew & Hin). cbn in Ew. subst w'.
    assert (u = u') by (eapply HH; eauto). subst u'. apply H1. change u with (fst (u, w)). apply in_map. auto.
  - inversion N; subst. apply IHl; auto. intros; eapply HH; eauto.
Qed.

Definition shallow (cds : list expr) (v : expr) : Prop :=
  cds_post v = [v] \/ exists c, cds_post v = [c; v] /\ In c cds /\ (coordinates c < coordinates v)%nat.

Section visc.
Variable cds : list expr.
Hypothesis NDc : NoDup cds.
Hypothesis Hc : forall v, In v cds -> orig v /\ shallow cds v.
Let works := assign_works 0 cds.

Lemma wk_look : forall v, In v cds -> exists i, lookup v works = wk_name i.
Proof. intros v Hv. destruct (assign_lookup cds v Hv) as (_ & i & Ei & _). eauto. Qed.

Lemma traverse_flat : forall v, cds_post v = [v] -> traverse ndim works v = v.
Proof. intros v E. unfold traverse. rewrite E. reflexivity. Qed.
Lemma traverse_nested : forall c v, In v cds -> In c cds -> cds_post v = [c; v] ->
  traverse ndim works v = T ndim [(c, lookup c works)] v.
Proof.
  intros c v Hv Hcc E. unfold traverse. rewrite E. cbn [removelast fold_left].
  pose proof (subst_T ndim [] c (lookup c works)) as S.
  rewrite !T_nil in S. specialize (S (NoDup_nil _)).
  assert (Cc : is_cd c = true) by (apply (cds_is_cd v); rewrite E; left; auto).
  specialize (S Cc eq_refl). assert (F : forall z, fresh [] z) by (intros z b ix _ []).
  specialize (S (F c) v (F v)). rewrite T_nil in S. exact S.
Qed.
Lemma ext_inner : forall c v n, In v cds -> cds_post v = [c; v] -> In n (cd_dirs dirof v) -> In n (extended dirof cds c).
Proof.
  intros c v n Hv E Hn. unfold extended. apply in_flat_map. exists (c, cd_dirs dirof v). split.
  - apply in_flat_map. exists v. split; auto. rewrite E. left. auto.
  - cbn [fst snd]. destruct (expr_eq_dec c c); congruence.
Qed.
Lemma ext_outer : forall c v, In v cds -> cds_post v = [c; v] -> extended dirof cds v = [].
Proof.
  intros c v Hv E. destruct (extended dirof cds v) as [|n l] eqn:X; auto. exfalso.
  assert (H : In n (extended dirof cds v)) by (rewrite X; left; auto).
  unfold extended in H. apply in_flat_map in H. destruct H as ([u ds] & Hu & Hn). cbn [fst snd] in Hn.
  destruct (expr_eq_dec u v); [subst u | destruct Hn].
  apply in_flat_map in Hu. destruct Hu as (o & Ho & Hu). destruct (Hc o Ho) as ((Po & _ & _) & [Eo | (c' & Eo & _)]).
  - rewrite Eo in Hu. destruct Hu.
  - rewrite Eo in Hu. destruct Hu as [Hu | []]. injection Hu as -> _.
    destruct Po as (a & m & q & Ea & _). subst o. rewrite cds_cd in Eo.
    change [v; EApp HCD (a :: repeat (ESym KCoord m) (S q))] with ([v] ++ [EApp HCD (a :: repeat (ESym KCoord m) (S q))]) in Eo.
    apply app_inj_tail in Eo. destruct Eo as [Eo _].
    assert (L : (List.length (cds_post v) <= List.length (cds_post a))%nat) by (apply cds_len; rewrite Eo; left; auto).
    rewrite Eo, E in L. cbn in L. lia.
Qed.

Lemma visc_step : forall v, In v cds -> exists r,
  discretise k dirof inv dord (traverse ndim works v) = Ok r /\
  forall M M0, (forall b, notwork b -> forall y, M b y = M0 b y) ->
    (forall c, In c (cds_post v) -> c <> v -> forall y, INR_ (extended dirof cds c) y = true -> M (lookup c works) y = SEM M0 c y) ->
    forall x, INR_ (extended dirof cds v) x = true -> value J M x r = SEM M0 v x.
Proof.
  intros v Hv. destruct (Hc v Hv) as ((Pv & Lv & Cv) & Sh).
  assert (Pv' := Pv). destruct Pv' as (a & n & m & Ev & Hd & Hne).
  assert (La : placed a) by (intros b ix Hb; apply (Lv b ix); rewrite Ev, dsets_cd; auto).
  assert (Ca : clean a) by (intros b ix Hb; apply (Cv b ix); rewrite Ev, dsets_cd; auto).
  destruct Sh as [Sh | (c & Sh & Hcc & Lt)].
  - rewrite traverse_flat by auto. subst v.
    destruct (discretise_ok a n m Hd La Hne) as (r & Er & Vr). exists r. split; auto.
    intros M M0 HM _ x Hx. rewrite Vr by (eapply in_range_length; eauto). rewrite sem_cd.
    apply grid_ext_in. intros i Hi.
    transitivity (value J M (move (dirof n) i x) (T ndim [] a)); [rewrite T_nil; reflexivity|]. apply value_T.
    + rewrite move_length. eapply in_range_length; eauto.
    + intros u Hu. exfalso. rewrite cds_cd in Sh. destruct (cds_post a); [destruct Hu|].
      injection Sh as _ Sh. destruct l; discriminate.
    + intros b ix Hb y. apply HM. eapply Ca. eauto.
  - rewrite (traverse_nested c v) by auto.
    assert (Ncv : c <> v) by (intros ->; lia).
    assert (Ea : cds_post a = [c]).
    { rewrite Ev, cds_cd in Sh. change [c; EApp HCD (a :: repeat (ESym KCoord n) (S m))]
        with ([c] ++ [EApp HCD (a :: repeat (ESym KCoord n) (S m))]) in Sh. apply app_inj_tail in Sh. tauto. }
    set (w := lookup c works) in *.
    assert (ET : T ndim [(c, w)] v = EApp HCD (T ndim [(c, w)] a :: repeat (ESym KCoord n) (S m))).
    { rewrite Ev. rewrite T_eq. cbn [is_cd assoc]. destruct (expr_eq_dec (EApp HCD (a :: repeat (ESym KCoord n) (S m))) c) as [E | N].
      - exfalso. apply Ncv. rewrite Ev. auto.
      - rewrite map_cons, T_coords. reflexivity. }
    rewrite ET.
    destruct (discretise_ok (T ndim [(c, w)] a) n m Hd) as (r & Er & Vr).
    { intros b ix Hb. apply dsets_T in Hb. destruct Hb as [Hb | (_ & ->)]; auto. eapply La. eauto. }
    { apply dsets_T_nonempty. auto. }
    exists r. split; auto. intros M M0 HM HI x Hx.
    rewrite (ext_outer c v Hv Sh) in Hx.
    rewrite Vr by (eapply in_range_length; eauto). rewrite Ev at 1. rewrite sem_cd. apply grid_ext_in. intros i Hi.
    apply value_T.
    + rewrite move_length. eapply in_range_length; eauto.
    + intros u Hu. rewrite Ea in Hu. destruct Hu as [<- | []]. exists w. split.
      * cbn [assoc]. destruct (expr_eq_dec c c); congruence.
      * unfold w. apply HI; auto.
        -- rewrite Sh. left. auto.
        -- apply in_range_move; auto. apply (ext_inner c v); auto. rewrite Ev. left. reflexivity.
    + intros b ix Hb y. apply HM. eapply Ca. eauto.
Qed.

Definition visc_kernel (v : expr) : result kernel :=
  bind (discretise k dirof inv dord (traverse ndim works v)) (fun r =>
    Ok {| k_eqs := [(lookup v works, r)]; k_ext := extended dirof cds v |}).
Lemma visc_run : forall s D,
  (forall v, In v (D ++ s) -> In v cds) -> NoDup (D ++ s) ->
  (forall l1 v l2, s = l1 ++ v :: l2 -> forall c, In c (cds_post v) -> c <> v -> In c (D ++ l1)) ->
  exists ks, mapM visc_kernel s = Ok ks /\ writes ks = map (fun v => lookup v works) s /\
  forall M M0, (forall b, notwork b -> forall y, M b y = M0 b y) ->
    (forall v, In v D -> forall y, INR_ (extended dirof cds v) y = true -> M (lookup v works) y = SEM M0 v y) ->
    forall v, In v (D ++ s) -> forall y, INR_ (extended dirof cds v) y = true -> EXEC ks M (lookup v works) y = SEM M0 v y.
Proof.
  induction s as [|v s IH]; intros D HD ND Hp.
  { exists []. split; auto. split; auto. intros M M0 _ H v Hv. rewrite app_nil_r in Hv. cbn. auto. }
  assert (Hv : In v cds) by (apply HD; apply in_app_iff; right; left; auto).
  destruct (IH (D ++ [v])) as (ks & E & W & X).
  { intros u Hu. apply HD. rewrite <- app_assoc in Hu. exact Hu. }
  { rewrite <- app_assoc. exact ND. }
  { intros l1 u l2 Es c Hcu Nc. rewrite <- app_assoc. apply (Hp (v :: l1) u l2); auto. cbn. congruence. }
  destruct (visc_step v Hv) as (r & Er & Vr).
  cbn [mapM]. unfold visc_kernel at 1. rewrite Er. cbn [bind]. rewrite E. cbn [bind].
  eexists. split; [reflexivity|]. split.
  { unfold writes in *. cbn [flat_map k_eqs map fst app]. f_equal. exact W. }
  intros M M0 HM HI u Hu y Hy. rewrite exec_cons.
  replace (D ++ v :: s) with ((D ++ [v]) ++ s) in Hu by (rewrite <- app_assoc; reflexivity).
  apply X; auto; clear u Hu y Hy.
  - intros b Hb y. unfold exec_kernel. cbn [k_eqs k_ext fold_left]. unfold exec_eq. cbn [fst snd].
    destruct (String.eqb_spec b (lookup v works)) as [-> | N].
    + exfalso. destruct (wk_look v Hv) as (i & Ei). apply (Hb i). auto.
    + cbn [andb]. auto.
  - intros u Hu y Hy. unfold exec_kernel. cbn [k_eqs k_ext fold_left]. unfold exec_eq. cbn [fst snd].
    destruct (String.eqb_spec (lookup u works) (lookup v works)) as [Eq | N].
    + assert (u = v).
      { apply (assign_inj cds); auto. apply HD. apply in_app_iff in Hu. apply in_app_iff.
        destruct Hu as [Hu | [<- | []]]; [auto | right; left; auto]. }
      subst u. rewrite Hy. cbn [andb]. rewrite eval_value. apply Vr; auto.
      intros c Hcc Nc z Hz. apply HI; auto.
      specialize (Hp [] v s eq_refl c Hcc Nc). rewrite app_nil_r in Hp. auto.
    + cbn [andb]. apply in_app_iff in Hu. destruct Hu as [Hu | [<- | []]]; [auto | congruence].
Qed.

Lemma inner_first_sorted :
  inner_first (map (fun v => (traverse ndim works v, lookup v works)) (sort_by_coordinates cds)).
Proof.
  intros l1 key w l2 E key' w' ix Hin Hd.
  pose proof (csort_perm cds) as SP. pose proof (csort_ordered cds) as O. set (s := sort_by_coordinates cds) in *.
  assert (NDs : NoDup s) by (eapply Permutation_NoDup; [symmetry; exact SP | auto]).
  assert (X : exists s1 v s2, s = s1 ++ v :: s2 /\ key = traverse ndim works v /\ w = lookup v works /\
     l2 = map (fun v => (traverse ndim works v, lookup v works)) s2).
  { clear - E. clearbody s. revert l1 E. induction s as [|v s IH]; intros l1 E; [destruct l1; discriminate|].
    destruct l1 as [|p l1]; cbn [map app] in E.
    - injection E as <- <- <-. exists [], v, s. auto.
    - injection E as _ E. destruct (IH l1 E) as (s1 & u & s2 & -> & A & B & C). exists (v :: s1), u, s2. auto. }
  destruct X as (s1 & v & s2 & Es & -> & _ & ->).
  apply in_map_iff in Hin. destruct Hin as (u & Eu & Hu). injection Eu as _ <-.
  assert (Hvc : In v cds) by (eapply Permutation_in; [exact SP|]; rewrite Es; apply in_app_iff; right; left; auto).
  assert (Huc : In u cds) by (eapply Permutation_in; [exact SP|]; rewrite Es; apply in_app_iff; right; right; auto).
  destruct (wk_look u Huc) as (i & Ei).
  destruct (Hc v Hvc) as ((_ & _ & Cv) & [F | (c & F & Hcc & Lt)]).
  - rewrite traverse_flat in Hd by auto. apply (Cv _ _ Hd i). auto.
  - rewrite (traverse_nested c v) in Hd by auto. apply dsets_T in Hd. destruct Hd as [Hd | (Hd & _)].
    + apply (Cv _ _ Hd i). auto.
    + cbn in Hd. destruct Hd as [Hd | []]. apply (assign_inj cds) in Hd; auto. subst u.
      assert (In c s1).
      { rewrite Es in O. eapply ordered_before; eauto. rewrite <- Es. eapply Permutation_in; [symmetry; exact SP | auto]. }
      rewrite Es in NDs. clear - NDs H Hu. induction s1 as [|z s1 IH]; [destruct H|].
      cbn in NDs. inversion NDs; subst. destruct H as [-> | H]; auto.
      apply H2. apply in_app_iff. right. right. auto.
Qed.

Lemma viscous_ok : forall eqs, cds <> [] -> eqs_ok cds eqs ->
  (forall l, Permutation l (sord l)) ->
  inner_first (sord (map (fun v => (traverse ndim works v, lookup v works)) cds)) ->
  exists ks, viscous_kernels k ndim dirof inv dord sord cds eqs = Ok ks /\
    forall M, (forall b, notwork b -> ~ In b (map fst eqs) -> forall x, EXEC ks M b x = M b x) /\
      forall r e x, In (r, e) eqs -> INR_ [] x = true -> EXEC ks M r x = (M r x + SEM M e x)%R.
Proof.
  intros eqs Hne (NDe & He) Hs Ho.
  pose proof (csort_perm cds) as SP. set (s := sort_by_coordinates cds) in *.
  destruct (visc_run s []) as (ks & E & W & X).
  { intros v Hv. cbn in Hv. eapply Permutation_in; eauto. }
  { cbn. eapply Permutation_NoDup; [symmetry; exact SP | auto]. }
  { intros l1 v l2 Es c Hcv Nc. cbn [app]. pose proof (csort_ordered cds) as O. fold s in O. rewrite Es in O.
    assert (Hv : In v cds) by (eapply Permutation_in; [exact SP | rewrite Es; apply in_app_iff; right; left; auto]).
    destruct (Hc v Hv) as (_ & [F | (c' & F & Hc' & Lt)]); rewrite F in Hcv.
    - destruct Hcv as [<- | []]. congruence.
    - destruct Hcv as [<- | [<- | []]]; [|congruence]. eapply ordered_before; eauto.
      rewrite <- Es. eapply Permutation_in; [symmetry; exact SP | auto]. }
  cbn [app] in X.
  unfold viscous_kernels.
  assert (Mc : forall (l : list expr) A (a b : A), l <> [] -> match l with [] => a | _ => b end = b) by (intros [|]; congruence).
  rewrite Mc by auto. cbv zeta. fold works s.
  change (mapM (fun v => bind (discretise k dirof inv dord (traverse ndim works v)) (fun r =>
    Ok {| k_eqs := [(lookup v works, r)]; k_ext := extended dirof cds v |})) s) with (mapM visc_kernel s).
  rewrite E. cbn [bind]. eexists. split; [reflexivity|]. intros M.
  set (keys := map (fun v => (traverse ndim works v, lookup v works)) cds) in *.
  set (reqs := map (fun re : string * expr => (fst re, subs ndim (sord keys) (snd re))) eqs).
  assert (Fr : map fst reqs = map fst eqs) by (unfold reqs; rewrite map_map; reflexivity).
  set (M1 := EXEC ks M).
  assert (F1 : forall b, notwork b -> forall x, M1 b x = M b x).
  { intros b Hb x. unfold M1. apply exec_frame. rewrite W. intros Hin. apply in_map_iff in Hin.
    destruct Hin as (v & <- & Hv). destruct (wk_look v) as (i & Ei); [eapply Permutation_in; eauto|]. apply (Hb i). auto. }
  destruct (Permutation_map_inv (fun v => (traverse ndim works v, lookup v works)) cds (Permutation_sym (Hs keys))) as (cds' & Ek & Pc).
  set (P := map (fun v => (v, lookup v works)) cds').
  assert (Pf : map fst P = cds') by (unfold P; rewrite map_map; apply map_id).
  assert (Ps : map snd P = map (fun v => lookup v works) cds') by (unfold P; rewrite map_map; reflexivity).
  assert (Nf : NoDup (map fst P)) by (rewrite Pf; eapply Permutation_NoDup; [exact Pc | auto]).
  assert (InC : forall v, In v cds' -> In v cds) by (intros v; eapply Permutation_in; symmetry; auto).
  assert (PIn : forall v w, In (v, w) P -> In v cds /\ w = lookup v works).
  { intros v w Hin. unfold P in Hin. apply in_map_iff in Hin. destruct Hin as (u & Eu & Hu). injection Eu as <- <-. auto. }
  assert (Ns : NoDup (map snd P)).
  { apply snd_nodup; auto. intros u v w Hu Hv. destruct (PIn _ _ Hu) as (A & EA). destruct (PIn _ _ Hv) as (B & EB).
    apply (assign_inj cds); auto. fold works. congruence. }
  assert (Sb : forall e, clean e -> subs ndim (sord keys) e = T ndim (rev P) e).
  { intros e Ce.
    pose proof (subs_T ndim (traverse ndim works) P [] e) as S. rewrite T_nil, !app_nil_r in S.
    replace (map (fun vw : expr * string => (traverse ndim works (fst vw), snd vw)) P) with (sord keys) in S.
    2: { rewrite Ek. unfold P. rewrite map_map. reflexivity. }
    apply S; clear S; auto.
    - intros v w Hin. destruct (Hc v (proj1 (PIn v w Hin))) as (((a & n & m & Ev & _) & _) & _). rewrite Ev. reflexivity.
    - intros v w Hin. apply fresh_clean.
      + apply (proj2 (proj2 (proj1 (Hc v (proj1 (PIn v w Hin)))))).
      + intros u z Hz. destruct (PIn u z Hz) as (A & ->). apply wk_look. auto.
    - apply fresh_clean; auto. intros u z Hz. destruct (PIn u z Hz) as (A & ->). apply wk_look. auto.
    - intros l1 v w l2 El. rewrite app_nil_r.
      assert (Hin : In (v, w) P) by (rewrite El; apply in_app_iff; right; left; auto).
      destruct (PIn v w Hin) as (Hv & Ew).
      assert (Nv : assoc v (rev l1) = None).
      { destruct (assoc v (rev l1)) as [w'|] eqn:A; auto. apply assoc_in in A. apply in_rev in A. exfalso.
        assert (NDf := Nf). rewrite El, map_app in NDf. cbn [map fst] in NDf. apply NoDup_remove_2 in NDf. apply NDf. apply in_app_iff. left.
        change v with (fst (v, w')). apply in_map. auto. }
      destruct (Hc v Hv) as (_ & [F | (c & F & Hcc & Lt)]).
      + rewrite traverse_flat by auto. rewrite <- (T_nil ndim v) at 1. apply T_ext. intros u Hu.
        rewrite F in Hu. destruct Hu as [<- | []]. cbn [assoc]. auto.
      + rewrite (traverse_nested c v) by auto. apply T_ext. intros u Hu. rewrite F in Hu.
        assert (Ncv : c <> v) by (intros ->; lia).
        destruct Hu as [<- | [<- | []]]; cbn [assoc].
        * destruct (expr_eq_dec c c); [|congruence]. symmetry. apply assoc_unique.
          { rewrite map_rev. apply NoDup_rev. assert (NDf := Nf). rewrite El, map_app in NDf. eapply NoDup_app_remove_r; eauto. }
          apply in_rev. rewrite rev_involutive.
          assert (Hcp : In (c, lookup c works) P).
          { unfold P. apply in_map_iff. exists c. split; auto. eapply Permutation_in; eauto. }
          rewrite El in Hcp. apply in_app_iff in Hcp. destruct Hcp as [Hcp | [Hcp | Hcp]]; auto.
          { injection Hcp as Hcp _. congruence. }
          exfalso.
          apply (Ho (map (fun vw => (traverse ndim works (fst vw), snd vw)) l1) (traverse ndim works v) w
                    (map (fun vw => (traverse ndim works (fst vw), snd vw)) l2)) with (key' := traverse ndim works c) (w' := lookup c works) (ix := repeat 0%Z ndim).
          { rewrite Ek. transitivity (map (fun vw => (traverse ndim works (fst vw), snd vw)) P).
            - unfold P. rewrite map_map. reflexivity.
            - rewrite El, map_app. reflexivity. }
          { change (traverse ndim works c, lookup c works) with ((fun vw : expr * string => (traverse ndim works (fst vw), snd vw)) (c, lookup c works)).
            apply in_map. auto. }
          { rewrite (traverse_nested c v) by auto. apply dsets_T_has. rewrite F. left. auto. }
        * rewrite Nv. destruct (expr_eq_dec v c); congruence. }
  rewrite exec_app. fold M1. rewrite exec_cons. cbn [exec fold_left]. split.
  - intros b Hb Hn x. unfold exec_kernel. rewrite exec_eqs_frame; [apply F1; auto|]. rewrite residual_writes, Fr. auto.
  - intros r e x Hin Hx.
    rewrite (residual_value false reqs M1) with (e := subs ndim (sord keys) e).
    + destruct (He r e Hin) as (Nr & Ce & Cd & Nb). rewrite F1 by auto. f_equal. rewrite Sb by auto. apply value_T.
      * eapply in_range_length; eauto.
      * intros v Hv. specialize (Cd v Hv).
        exists (lookup v works). split.
        -- apply assoc_unique.
           ++ rewrite map_rev. apply NoDup_rev. auto.
           ++ apply in_rev. rewrite rev_involutive. unfold P. apply in_map_iff. exists v. split; auto. eapply Permutation_in; eauto.
        -- unfold M1. apply X; auto.
           ++ intros v0 [].
           ++ eapply Permutation_in; [symmetry; exact SP | auto].
           ++ apply in_range_weaken. auto.
      * intros b ix Hb y. apply F1. apply (Ce b ix Hb).
    + rewrite Fr. auto.
    + rewrite Fr. intros r0 e0 b ix H0 Hb. unfold reqs in H0. apply in_map_iff in H0. destruct H0 as ([r1 e1] & Eg0 & H1).
      cbn [fst snd] in Eg0. injection Eg0 as <- <-. destruct (He r1 e1 H1) as (Nr & Ce & Cd & Nb).
      rewrite Sb in Hb by auto. apply dsets_T in Hb. destruct Hb as [Hb | (Hb & _)]; [eapply Nb; eauto|].
      intros C. apply in_map_iff in C. destruct C as ([r2 e2] & Er & H2). cbn in Er. subst r2.
      rewrite map_rev in Hb. apply in_rev in Hb. apply in_map_iff in Hb. destruct Hb as ([v w] & Ew & Hw). cbn in Ew. subst w.
      destruct (PIn _ _ Hw) as (A & ->). destruct (wk_look v A) as (i & Ei). apply (proj1 (He _ e2 H2) i). auto.
    + unfold reqs. change (r, subs ndim (sord keys) e) with ((fun re : string * expr => (fst re, subs ndim (sord keys) (snd re))) (r, e)).
      apply in_map. auto.
    + exact Hx.
Qed.
End visc.
End run.
