(* Execution of the system discretised with one-sided formulas: the proofs of DiscRun, with the
   formulas of C47 in place of the central ones. *)
From Verif Require Import Base BaseProofs Expr ExprProofs FDModel FDProofs WorkModel WorkProofs ShiftModel ShiftSpec ShiftProofs DiscModel DiscSpec DiscProofs AlgProofs AdvProofs DiscRun OneProofs.
From Verif Require Import OneModel SideModel SideSpec.
From Verif Require BCModel BCSpec BCKern.
From Coq Require Import QArith ZArith Reals Qreals Lia Lra Permutation.
Local Close Scope Q_scope.
Local Open Scope list_scope.

Section run.
Variables (J : interp R) (k ndim : nat) (dirof : string -> nat) (inv : nat -> nat -> expr)
  (dord : expr -> list dset) (sord : list (expr * string) -> list (expr * string)) (h : nat -> R) (sizes : list Z) (sd : sides).
Hypothesis HJ : real_arithmetic J.
Hypothesis Hinv : forall M x d m, value J M x (inv d m) = (/ h d ^ m)%R.
Hypothesis Hdord : forall e, enumerates (dord e) e.
Hypothesis Hsz : List.length sizes = ndim.
Hypothesis Hroom : room sd sizes.

Notation SEM1 := (sem1 J k dirof h sizes sd).
Notation EXEC1 := (exec1 J k sizes).
Notation INR_ := (in_range k sizes).
Notation placed := (placed ndim).


(* ---- the formula of a direction ---- *)
Lemma grid_at : forall N m hh (u : Z -> R) i, grid_formula N m hh u i = grid_formula N m hh (fun j => u (i + j)%Z) 0.
Proof. intros. unfold grid_formula. f_equal. Qed.
Lemma difference_ext : forall m hd b n u v i, (forall j, u j = v j) -> difference k m hd b n u i = difference k m hd b n v i.
Proof.
  intros m hd b n u v i H. unfold difference, boundary_derivative.
  destruct (pairs_of (fst b) m false n) as [l|]; [|reflexivity]. cbn [bind].
  destruct (pairs_of (snd b) m true n) as [r|]; [|reflexivity]. cbn [bind].
  destruct (find _ _) as [[st z]|].
  - f_equal. unfold apply_stencil. induction st as [|p st IH]; cbn [fold_right]; auto. rewrite IH, H. reflexivity.
  - apply grid_ext. auto.
Qed.
Lemma pairs_inside : forall b m side n l, pairs_of b m side n = Ok l -> (b <> None -> 6 <= n)%Z ->
  forall c p, In c l -> In p (fst c) -> (0 <= snd c + snd p < n)%Z.
Proof.
  intros b m side n l E Hn. destruct b as [s|]; cbn [pairs_of] in E.
  2: { injection E as <-. intros c p []. }
  assert (H6 : (6 <= n)%Z) by (apply Hn; discriminate). clear Hn.
  assert (K : Forall (fun c : stencil * Z => Forall (fun z => (0 <= snd c + z < n)%Z) (map snd (fst c))) l).
  { unfold expr_cond_pairs in E.
    destruct s, side; (destruct m as [|[|[|m]]]; [discriminate E | | | discriminate E]);
      cbn [rows carpenter_rows access_rows order_rows bind] in E; apply ok_inj in E; subst l;
      cbn [map seq BCModel.enum combine List.length fst snd point]; repeat constructor; cbn; lia. }
  intros c p Hc Hp. rewrite Forall_forall in K. specialize (K c Hc). rewrite Forall_forall in K. apply K. apply in_map. auto.
Qed.
Lemma difference_in : forall m hd b n u v i, (0 <= i < n)%Z -> (b <> (None, None) -> 6 <= n)%Z ->
  (forall j, (- Z.of_nat k <= j < n + Z.of_nat k)%Z -> u j = v j) -> difference k m hd b n u i = difference k m hd b n v i.
Proof.
  intros m hd b n u v i Hi Hn H. unfold difference, boundary_derivative.
  destruct (pairs_of (fst b) m false n) as [l|] eqn:El; [|reflexivity]. cbn [bind].
  destruct (pairs_of (snd b) m true n) as [r|] eqn:Er; [|reflexivity]. cbn [bind].
  destruct (find _ _) as [[st z]|] eqn:F.
  - apply find_some in F. destruct F as [F Ea]. apply Z.eqb_eq in Ea. cbn [snd] in Ea. subst z. f_equal.
    assert (R : forall p, In p st -> (0 <= i + snd p < n)%Z).
    { intros p Hp. apply in_app_iff in F. destruct F as [F | F];
        [apply (pairs_inside _ _ _ _ _ El) with (c := (st, i)) | apply (pairs_inside _ _ _ _ _ Er) with (c := (st, i))]; auto;
        intros Nn; apply Hn; intros E; rewrite E in Nn; apply Nn; reflexivity. }
    clear F. unfold apply_stencil. induction st as [|p st IH]; cbn [fold_right]; auto.
    rewrite IH by (intros; apply R; right; auto). pose proof (R p (or_introl eq_refl)). rewrite H by lia. reflexivity.
  - rewrite (grid_at _ _ _ u), (grid_at _ _ _ v). apply grid_ext_in. intros j Hj. apply H. lia.
Qed.

Lemma at_index_length : forall d v x, List.length (at_index d v x) = List.length x.
Proof. intros. apply move_length. Qed.
Lemma at_index_self : forall d x, at_index d (nth d x 0%Z) x = x.
Proof. intros. unfold at_index. rewrite Z.sub_diag. revert x. induction d; intros [|a x]; cbn [move]; auto; f_equal; auto. lia. Qed.
Lemma in_range_nth : forall x d, INR_ [] x = true -> (d < ndim)%nat -> (0 <= nth d x 0 < nth d sizes 0)%Z.
Proof.
  intros x d H Hd. unfold in_range in H. apply andb_true_iff in H. destruct H as [_ H2]. rewrite forallb_forall in H2.
  specialize (H2 d). apply andb_true_iff in H2; [|apply in_seq; lia]. destruct H2 as [A B]. cbn [existsb] in A, B.
  apply Z.leb_le in A. apply Z.ltb_lt in B. lia.
Qed.
Lemma in_range_at_index : forall d ext x j, (d < ndim)%nat -> In d ext -> INR_ [] x = true ->
  (- Z.of_nat k <= j < nth d sizes 0 + Z.of_nat k)%Z -> INR_ ext (at_index d j x) = true.
Proof.
  intros d ext x i Hd Hin H Hi. pose proof (in_range_length k ndim sizes Hsz _ _ H) as L. unfold in_range in *.
  apply andb_true_iff in H. destruct H as [H1 H2]. apply andb_true_iff. split; [rewrite at_index_length; auto|].
  rewrite forallb_forall in *. intros e He. specialize (H2 e He). unfold at_index. rewrite nth_move by lia.
  apply andb_true_iff in H2. destruct H2 as [A B]. cbn [existsb] in A, B.
  apply Z.leb_le in A. apply Z.ltb_lt in B.
  apply andb_true_iff. rewrite Z.leb_le, Z.ltb_lt.
  destruct (Nat.eqb_spec e d) as [-> | Hne].
  - replace (existsb (Nat.eqb d) ext) with true; [lia|]. symmetry. apply existsb_exists. exists d.
    split; auto. apply Nat.eqb_refl.
  - destruct (existsb (Nat.eqb e) ext); lia.
Qed.
Lemma difference_range : forall m hd d u v x, (d < ndim)%nat -> INR_ [] x = true ->
  (forall j, (- Z.of_nat k <= j < nth d sizes 0 + Z.of_nat k)%Z -> u j = v j) ->
  difference k m hd (sd d) (nth d sizes 0%Z) u (nth d x 0%Z) = difference k m hd (sd d) (nth d sizes 0%Z) v (nth d x 0%Z).
Proof.
  intros m hd d u v x Hd Hx H. apply difference_in; auto; [apply in_range_nth; auto|].
  intros E. apply Hroom; [lia | exact E].
Qed.

(* ---- execution of one kernel ---- *)
Lemma exec_eqs_frame1 : forall ext eqs M b x, ~ In b (map fst eqs) -> fold_left (exec_eq1 J k sizes ext) eqs M b x = M b x.
Proof.
  intros ext. induction eqs as [|[a e] eqs IH]; intros M b x H; cbn [fold_left]; auto.
  rewrite IH by (intro; apply H; right; auto). unfold exec_eq1. cbn [fst].
  destruct (String.eqb_spec b a) as [-> | N]; auto. exfalso. apply H. left. auto.
Qed.
Lemma exec_plain : forall kn M, exec_kernel1 J k sizes M (plain_kernel kn) = exec_kernel J k sizes M kn.
Proof.
  intros [eqs ext] M. unfold exec_kernel1, exec_kernel, plain_kernel. cbn [sk_eqs sk_ext k_eqs k_ext].
  revert M. induction eqs as [|[a e] eqs IH]; intros M; cbn [map fold_left]; [reflexivity | apply IH].
Qed.
Definition writes1 (ks : list skernel) : list string := flat_map (fun kn => map fst (sk_eqs kn)) ks.
Lemma exec_frame1 : forall ks M b x, ~ In b (writes1 ks) -> EXEC1 ks M b x = M b x.
Proof.
  induction ks as [|kn ks IH]; intros M b x H; cbn [exec1 fold_left]; auto.
  change (EXEC1 ks (exec_kernel1 J k sizes M kn) b x = M b x). rewrite IH.
  - unfold exec_kernel1. apply exec_eqs_frame1. intro. apply H. apply in_app_iff. auto.
  - intro. apply H. apply in_app_iff. auto.
Qed.
Lemma exec_app1 : forall ks1 ks2 M, EXEC1 (ks1 ++ ks2) M = EXEC1 ks2 (EXEC1 ks1 M).
Proof. intros. unfold exec1. apply fold_left_app. Qed.
Lemma exec_cons1 : forall kn ks M, EXEC1 (kn :: ks) M = EXEC1 ks (exec_kernel1 J k sizes M kn).
Proof. reflexivity. Qed.
Lemma writes1_plain : forall kn, map fst (sk_eqs (plain_kernel kn)) = map fst (k_eqs kn).
Proof. intros [eqs ext]. cbn. rewrite map_map. reflexivity. Qed.

(* ---- values ---- *)
Lemma sem1_flat : forall M e x, cds_post e = [] -> SEM1 M e x = value J M x e.
Proof.
  intros M. induction e as [q|kd n|b ix|hd args IH] using expr_ind'; intros x H; auto.
  rewrite cds_post_app in H. apply app_eq_nil in H. destruct H as [H1 H2].
  unfold value. cbn [eval]. 
  assert (E : map (fun a => SEM1 M a x) args = map (eval J (fun b ix => M b (vadd x ix))) args).
  { apply map_ext_in. intros a Ha. rewrite Forall_forall in IH. apply IH; auto.
    destruct (cds_post a) as [|c l] eqn:C; auto. exfalso.
    assert (In c (flat_map cds_post args)) by (apply in_flat_map; exists a; rewrite C; split; [auto | left; auto]).
    rewrite H1 in H. destruct H. }
  destruct hd; cbn [sem1]; try (rewrite E; reflexivity).
  destruct args as [|a args]; [reflexivity | discriminate].
Qed.
Lemma sem1_agree : forall M M0 e x, (forall b ix, In (b, ix) (dsets e) -> forall y, M b y = M0 b y) -> SEM1 M e x = SEM1 M0 e x.
Proof.
  intros M M0. induction e as [q|kd n|b ix|hd args IH] using expr_ind'; intros x H; auto.
  - cbn [sem1]. apply (H b ix). left. auto.
  - rewrite Forall_forall in IH.
    assert (A : forall a y, In a args -> SEM1 M a y = SEM1 M0 a y).
    { intros a y Ha. apply IH; auto. intros b ix Hb. apply (H b ix). rewrite dsets_app. apply in_flat_map. eauto. }
    assert (E : map (fun a => SEM1 M a x) args = map (fun a => SEM1 M0 a x) args) by (apply map_ext_in; auto).
    destruct hd; cbn [sem1]; try (rewrite E; reflexivity).
    destruct args as [|a args]; [reflexivity|]. apply difference_ext. intros i. apply A. left. auto.
Qed.


Lemma value_T1 : forall M M0 P e x, List.length x = ndim ->
  (forall v, In v (cds_post e) -> exists w, assoc v P = Some w /\ M w x = SEM1 M0 v x) ->
  (forall b ix, In (b, ix) (dsets e) -> forall y, M b y = M0 b y) ->
  value J M x (T ndim P e) = SEM1 M0 e x.
Proof.
  intros M M0 P e x Lx. induction e as [q|kd n|b ix|hd args IH] using expr_ind'; intros Hw Hb; auto.
  - cbn [T]. unfold value. cbn [eval sem1]. apply (Hb b ix). left. auto.
  - rewrite T_eq. destruct (is_cd (EApp hd args)) eqn:C.
    + destruct (Hw (EApp hd args)) as (w & -> & E).
      { rewrite cds_post_app, C. apply in_app_iff. right. left. auto. }
      unfold value, here. cbn [eval]. rewrite vadd_0_r by auto. exact E.
    + assert (E : map (fun a => SEM1 M0 a x) args = map (fun a => value J M x (T ndim P a)) args).
      { apply map_ext_in. intros a Ha. rewrite Forall_forall in IH. symmetry. apply IH; auto.
        - intros v Hv. apply Hw. rewrite cds_post_app. apply in_app_iff. left. apply in_flat_map. eauto.
        - intros b ix Hbi. apply (Hb b ix). rewrite dsets_app. apply in_flat_map. eauto. }
      unfold value in *. cbn [eval]. rewrite map_map, <- E.
      destruct hd; cbn [sem1]; try reflexivity. destruct args; [reflexivity | discriminate].
Qed.


(* ---- one discretised derivative ---- *)
Lemma relocated_value : forall M x a d c, placed a -> List.length x = ndim -> (d < ndim)%nat ->
  value J M x (map_dsets (fun b => (fst b, move d c (repeat 0%Z ndim))) a) = value J M (move d c x) a.
Proof.
  intros M x a d c Hp Lx Hd. unfold value. rewrite eval_map_dsets. apply eval_ext. intros b ix Hb. cbn [fst].
  rewrite (Hp b ix Hb). f_equal. rewrite <- vadd_move.
  rewrite vadd_0_r by (rewrite move_length; auto). reflexivity.
Qed.
Lemma formula_terms_ok : forall a d st, placed a -> dsets a <> [] -> (d < ndim)%nat ->
  exists ts, OneModel.formula_terms dord d a st = Ok ts /\
    forall M x, List.length x = ndim ->
      fold_right (fun p acc => (fst p * eval J (fun b ix => M b (at_offset x ix)) (snd p) + acc)%R) 0%R ts =
      apply_stencil st (fun j => value J M (at_index d j x) a) (nth d x 0%Z).
Proof.
  intros a d st Hp Hne Hd. unfold OneModel.formula_terms.
  destruct (Hdord a) as [_ En]. destruct (dord a) as [|[b loc] o] eqn:Eo.
  { destruct (dsets a) as [|y l] eqn:Ed; [congruence|]. exfalso. specialize (En y). cbn in En. apply En. left. auto. }
  assert (Hloc : loc = repeat 0%Z ndim). { apply (Hp b loc). apply En. left. auto. }
  eexists. split; [reflexivity|]. intros M x Lx. unfold apply_stencil.
  induction st as [|p st IH]; cbn [map fold_right fst snd]; auto.
  rewrite IH. f_equal. f_equal. rewrite BCKern.relocate_any by exact Hdord. rewrite Hloc.
  rewrite eval_value. rewrite shift_move. rewrite relocated_value by auto.
  unfold at_index. f_equal. f_equal. lia.
Qed.
Definition low1 (n : string) (q : nat) : Prop := has_scheme sd (dirof n) -> (q <= 2)%nat.
Lemma condition_pairs_ok : forall a d b side m, placed a -> dsets a <> [] -> (d < ndim)%nat ->
  (b <> None -> S m <= 2)%nat ->
  exists prs ps, pairs_of b (S m) side (nth d sizes 0%Z) = Ok prs /\ condition_pairs dord sizes a (S m) d b side = Ok ps /\
    Forall2 (fun c p => snd p = (d, snd c) /\ forall M x, List.length x = ndim ->
      fold_right (fun p acc => (fst p * eval J (fun b ix => M b (at_offset x ix)) (snd p) + acc)%R) 0%R (fst p) =
      apply_stencil (fst c) (fun j => value J M (at_index d j x) a) (nth d x 0%Z)) prs ps.
Proof.
  intros a d b side m Hp Hne Hd Hm.
  assert (E : exists prs, pairs_of b (S m) side (nth d sizes 0%Z) = Ok prs).
  { destruct b as [s|]; [|exists []; reflexivity]. assert (Hm' : (S m <= 2)%nat) by (apply Hm; discriminate).
    destruct m as [|[|m]]; [| | lia]; destruct s, side; eexists; reflexivity. }
  destruct E as (prs & E). exists prs. unfold condition_pairs. rewrite E. cbn [bind]. clear E.
  induction prs as [|c prs IH].
  - exists []. split; [reflexivity|]. split; [reflexivity | constructor].
  - destruct IH as (ps & _ & IH & F). cbn [mapM].
    destruct (formula_terms_ok a d (fst c) Hp Hne Hd) as (ts & Et & V). rewrite Et. cbn [bind]. rewrite IH. cbn [bind].
    eexists. split; [reflexivity|]. split; [reflexivity|]. constructor; auto.
Qed.
Lemma forall2_weaken : forall {A B} (P Q : A -> B -> Prop) l l', Forall2 P l l' -> (forall a b, P a b -> Q a b) -> Forall2 Q l l'.
Proof. induction 1; constructor; auto. Qed.
Lemma find_pairs : forall {A} (f : A -> R) (g : stencil -> R) d z prs (ps : list (A * (nat * Z))) x, nth d x 0%Z = z ->
  Forall2 (fun c p => snd p = (d, snd c) /\ f (fst p) = g (fst c)) prs ps ->
  match find (fun p => Z.eqb (nth (fst (snd p)) x 0%Z) (snd (snd p))) ps with Some (ts, _) => Some (f ts) | None => None end =
  match find (fun c : stencil * Z => Z.eqb z (snd c)) prs with Some (st, _) => Some (g st) | None => None end.
Proof.
  intros A f g d z prs ps x Hz F. induction F as [|c p prs ps [E V] F IH]; cbn [find]; auto.
  rewrite E. cbn [fst snd]. rewrite Hz. destruct (Z.eqb z (snd c)); auto. destruct p, c. cbn [fst] in V. rewrite V. reflexivity.
Qed.
Lemma discretise_ok1 : forall a n m, (dirof n < ndim)%nat -> placed a -> dsets a <> [] -> low1 n (S m) ->
  exists r, discretise1 k dirof inv dord sizes sd (EApp HCD (a :: repeat (ESym KCoord n) (S m))) = Ok r /\
    forall M x, List.length x = ndim ->
      rvalue J M x r = difference k (S m) (h (dirof n)) (sd (dirof n)) (nth (dirof n) sizes 0%Z)
                         (fun i => value J M (at_index (dirof n) i x) a) (nth (dirof n) x 0%Z).
Proof.
  intros a n m Hd Hp Hne Hlow.
  assert (D : cd_dirs dirof (EApp HCD (a :: repeat (ESym KCoord n) (S m))) = repeat (dirof n) (S m)).
  { unfold cd_dirs, cd_coords. generalize (S m) as q. induction q; cbn; [auto | f_equal; auto]. }
  assert (Dd : cd_dir dirof (EApp HCD (a :: repeat (ESym KCoord n) (S m))) = dirof n).
  { unfold cd_dir. rewrite D. reflexivity. }
  unfold discretise1, homogeneous. rewrite Dd, D.
  replace (forallb (Nat.eqb (dirof n)) (repeat (dirof n) (S m))) with true.
  2: { symmetry. apply forallb_forall. intros z Hz. apply repeat_spec in Hz. subst. apply Nat.eqb_refl. }
  unfold cd_coords, cd_arg. rewrite repeat_length.
  set (d := dirof n) in *.
  destruct (disc_terms_value ndim a d (fun _ => dord a)) with (pw := combine (central_points (2 * Z.of_nat k)) (generate_weights (2 * Z.of_nat k) (S m)))
    (form := ENum 0) as (form & Ef & Vf); auto.
  - intros b ix Hin. rewrite (Hp b ix Hin). apply repeat_length.
  - intros p w Hin. eapply one_location_no_collision; eauto.
    + intros b ix Hb. rewrite (Hp b ix Hb). apply repeat_length.
    + intros b ix b' ix' H1 H2. rewrite (Hp b ix H1), (Hp b' ix' H2). reflexivity.
  - unfold central_form. destruct (dsets a) as [|y l] eqn:Ed; [congruence|]. rewrite Ef. cbn [bind]. rewrite <- Ed in Hne. clear Ed y l.
    assert (G : forall M x, List.length x = ndim ->
        (value J M x form * value J M x (inv d (S m)))%R =
        grid_formula (2 * Z.of_nat k) (S m) (h d) (fun i => value J M (at_index d i x) a) (nth d x 0%Z)).
    { intros M x Lx. rewrite Vf, Hinv by auto. unfold value at 1. cbn [eval]. pose proof HJ as (Jn & _). rewrite Jn.
      rewrite RMicromega.Q2R_0, Rplus_0_l. unfold grid_formula. f_equal.
      clear Vf Ef. generalize (combine (central_points (2 * Z.of_nat k)) (generate_weights (2 * Z.of_nat k) (S m))).
      intros pw0. induction pw0 as [|[p w] pw IH]; cbn [fold_right fst snd]; auto. rewrite IH. f_equal. f_equal. f_equal.
      unfold at_index. f_equal. lia. }
    assert (Low : sd d <> (None, None) -> (S m <= 2)%nat) by exact Hlow.
    destruct (condition_pairs_ok a d (fst (sd d)) false m Hp Hne Hd) as (prs & ps & E1 & E2 & F1).
    { intros Nn. apply Low. intros E. rewrite E in Nn. apply Nn. reflexivity. }
    destruct (condition_pairs_ok a d (snd (sd d)) true m Hp Hne Hd) as (qrs & qs & E3 & E4 & F2).
    { intros Nn. apply Low. intros E. rewrite E in Nn. apply Nn. reflexivity. }
    assert (Gen : forall M x, List.length x = ndim ->
      rvalue J M x (Piecewise (ps ++ qs) form (inv d (S m))) =
      difference k (S m) (h d) (sd d) (nth d sizes 0%Z) (fun i => value J M (at_index d i x) a) (nth d x 0%Z)).
    { intros M x Lx. unfold rvalue, difference, boundary_derivative. rewrite E1, E3. cbn [bind].
      rewrite <- G by auto. rewrite !eval_value. rewrite Hinv.
      pose proof (find_pairs (fun ts => fold_right (fun p acc => (fst p * eval J (fun b ix => M b (at_offset x ix)) (snd p) + acc)%R) 0%R ts)
        (fun st => apply_stencil st (fun j => value J M (at_index d j x) a) (nth d x 0%Z)) d (nth d x 0%Z) (prs ++ qrs) (ps ++ qs) x eq_refl) as Fp.
      destruct (find _ (ps ++ qs)) as [[ts c]|]; destruct (find _ (prs ++ qrs)) as [[st c']|].
      - f_equal. assert (E : Some (fold_right (fun p acc => (fst p * eval J (fun b ix => M b (at_offset x ix)) (snd p) + acc)%R) 0%R ts) =
          Some (apply_stencil st (fun j => value J M (at_index d j x) a) (nth d x 0%Z))).
        { apply Fp. apply Forall2_app; [apply (forall2_weaken _ _ _ _ F1) | apply (forall2_weaken _ _ _ _ F2)]; intros ? ? [? ?]; split; auto. }
        congruence.
      - exfalso. assert (E : Some (fold_right (fun p acc => (fst p * eval J (fun b ix => M b (at_offset x ix)) (snd p) + acc)%R) 0%R ts) = None).
        { apply Fp. apply Forall2_app; [apply (forall2_weaken _ _ _ _ F1) | apply (forall2_weaken _ _ _ _ F2)]; intros ? ? [? ?]; split; auto. }
        discriminate.
      - exfalso. assert (E : None = Some (apply_stencil st (fun j => value J M (at_index d j x) a) (nth d x 0%Z))).
        { apply Fp. apply Forall2_app; [apply (forall2_weaken _ _ _ _ F1) | apply (forall2_weaken _ _ _ _ F2)]; intros ? ? [? ?]; split; auto. }
        discriminate.
      - reflexivity. }
    destruct (sd d) as [l r] eqn:Es. cbn [fst snd] in *.
    assert (Cs : (l = None /\ r = None) \/ (l, r) <> (None, None)) by (destruct l, r; auto; right; discriminate).
    destruct Cs as [[-> ->] | Cs].
    + eexists. split; [reflexivity|]. intros M x Lx. cbn [rvalue]. rewrite eval_value.
      unfold difference, boundary_derivative. cbn [fst snd pairs_of bind app find]. rewrite <- G by auto.
      unfold value. cbn [eval map]. pose proof HJ as (_ & _ & Jm). rewrite Jm. cbn [fold_right]. ring.
    + exists (Piecewise (ps ++ qs) form (inv d (S m))). split; [|exact Gen].
      rewrite E2, E4. cbn [bind]. destruct l, r; try reflexivity. congruence.
Qed.

Lemma sem_cd1 : forall M a n m x, SEM1 M (EApp HCD (a :: repeat (ESym KCoord n) (S m))) x =
  difference k (S m) (h (dirof n)) (sd (dirof n)) (nth (dirof n) sizes 0%Z)
    (fun i => SEM1 M a (at_index (dirof n) i x)) (nth (dirof n) x 0%Z).
Proof. intros. cbn [sem1 repeat direction]. cbn [List.length]. rewrite repeat_length. reflexivity. Qed.

Definition orig1 (v : expr) : Prop :=
  orig ndim dirof v /\ (forall a n q, v = EApp HCD (a :: repeat (ESym KCoord n) q) -> low1 n q).

(* ---- convective groups ---- *)
Lemma conv_group_ok1 : forall works d M0 vs c,
  (forall v, In v vs -> orig1 v /\ cds_post v = [v] /\ cd_dir dirof v = d) -> NoDup vs ->
  (forall v, In v vs -> exists i, lookup v works = wk_name i /\ (i < c)%nat) ->
  (forall u v, In u vs -> In v vs -> lookup u works = lookup v works -> u = v) ->
  exists eqs ks, conv_group1 k ndim dirof inv dord sizes sd works c vs = Ok (eqs, ks) /\
    NoDup (map fst eqs) /\
    (forall t e, In (t, e) eqs -> (exists i, (c <= i)%nat /\ t = wk_name i) /\ clean e) /\
    writes1 ks = map (fun v => lookup v works) vs /\
    forall M, (forall b, notwork b -> forall x, M b x = M0 b x) ->
      (forall t e x, In (t, e) eqs -> INR_ [d] x = true -> M t x = value J M0 x e) ->
      forall v x, In v vs -> INR_ [] x = true -> EXEC1 ks M (lookup v works) x = SEM1 M0 v x.
Proof.
  intros works d M0. induction vs as [|v vs IH]; intros c Hv ND Hl Hinj.
  { exists [], []. cbn. repeat split; try constructor; intros; try contradiction. }
  destruct (Hv v (or_introl eq_refl)) as (Ov & Fv & Dv).
  destruct Ov as (((a & n & m & Ev & Hd & Hne) & Pv & Cv) & Lv). specialize (Lv a n (S m) Ev).
  assert (Dn : dirof n = d).
  { rewrite <- Dv, Ev. reflexivity. }
  assert (Fa : cds_post a = []).
  { rewrite Ev, cds_cd in Fv. change [EApp HCD (a :: repeat (ESym KCoord n) (S m))] with
      ([] ++ [EApp HCD (a :: repeat (ESym KCoord n) (S m))]) in Fv at 2. apply app_inv_tail in Fv. auto. }
  assert (Ds : dsets v = dsets a) by (rewrite Ev; apply dsets_cd).
  assert (Pa : placed a) by (intros b ix Hb; apply (Pv b ix); rewrite Ds; auto).
  assert (Ca : clean a) by (intros b ix Hb; apply (Cv b ix); rewrite Ds; auto).
  assert (Ac : cd_arg v = a) by (rewrite Ev; reflexivity).
  assert (Cc : cd_coords v = repeat (ESym KCoord n) (S m)) by (rewrite Ev; reflexivity).
  inversion ND as [|? ? N1 N2]; subst x l.
  cbn [conv_group1]. rewrite Ac, Cc.
  destruct (many_datasets v) eqn:Mv.
  - (* through a temporary *)
    destruct (discretise_ok1 (here ndim (wk_name c)) n m Hd) as (r & Er & Vr).
    { intros b ix [H | []]. injection H as <- <-. reflexivity. }
    { discriminate. }
    { exact Lv. }
    rewrite Er. cbn [bind].
    destruct (IH (S c)) as (eqs & ks & E & NDe & Te & We & Hx).
    { intros u Hu. apply Hv. right. auto. } { auto. }
    { intros u Hu. destruct (Hl u (or_intror Hu)) as (i & Ei & Li). exists i. split; auto. }
    { intros u u' Hu Hu'. apply Hinj; right; auto. }
    rewrite E. cbn [bind fst snd app].
    eexists. eexists. split; [reflexivity|]. split.
    { cbn [map fst]. constructor; auto. intros Hin. apply in_map_iff in Hin. destruct Hin as ([t e] & Et & Hin).
      cbn in Et. subst t. destruct (Te _ _ Hin) as ((i & Li & Ei) & _). apply wk_name_inj in Ei. lia. }
    split.
    { intros t e [H | H]; [injection H as <- <-; split; [exists c; auto | auto] |].
      destruct (Te t e H) as ((i & Li & Ei) & Ce). split; auto. exists i. split; [lia | auto]. }
    split.
    { cbn [writes1 flat_map sk_eqs map fst app]. f_equal. exact We. }
    intros M HM HT u x Hu Hx'. rewrite exec_cons1.
    set (M1 := exec_kernel1 J k sizes M {| sk_eqs := [(lookup v works, r)]; sk_ext := [] |}).
    assert (F1 : forall b y, b <> lookup v works -> M1 b y = M b y).
    { intros b y Hb. unfold M1, exec_kernel1. apply exec_eqs_frame1. intros [E1 | []]. cbn in E1. congruence. }
    destruct Hu as [<- | Hu].
    + rewrite exec_frame1.
      * unfold M1, exec_kernel1. cbn [sk_eqs sk_ext]. 
        assert (V : fold_left (exec_eq1 J k sizes []) [(lookup v works, r)] M (lookup v works) x = rvalue J M x r).
        { cbn [fold_left]. unfold exec_eq1. cbn [fst snd]. rewrite String.eqb_refl, Hx'. reflexivity. }
        rewrite V, Vr by (eapply in_range_length; eauto). rewrite Ev, sem_cd1. apply difference_range; auto. intros i Hi.
        unfold value at 1, here. cbn [eval]. rewrite vadd_0_r by (rewrite at_index_length; eapply in_range_length; eauto).
        rewrite sem1_flat by auto. apply (HT (wk_name c) a).
        -- left. auto.
        -- rewrite <- Dn in *. apply in_range_at_index; auto. left. auto.
      * rewrite We. intros Hin. apply in_map_iff in Hin. destruct Hin as (u & Eu & Hu). 
        apply N1. rewrite <- (Hinj u v (or_intror Hu) (or_introl eq_refl) Eu). auto.
    + apply Hx; auto.
      * intros b Hb y. rewrite F1; [apply HM; auto|]. destruct (Hl v (or_introl eq_refl)) as (i & Ei & _).
        rewrite Ei. apply Hb.
      * intros t e y Hin Hy. rewrite F1; [apply HT; [right; auto | auto]|].
        destruct (Te t e Hin) as ((i & Li & ->) & _). destruct (Hl v (or_introl eq_refl)) as (j & Ej & Lj).
        rewrite Ej. intros X. apply wk_name_inj in X. lia.
  - destruct (discretise_ok1 a n m Hd Pa) as (r & Er & Vr); [auto | exact Lv |].
    rewrite Ev. rewrite Er. rewrite <- Ev. cbn [bind].
    destruct (IH c) as (eqs & ks & E & NDe & Te & We & Hx).
    { intros u Hu. apply Hv. right. auto. } { auto. }
    { intros u Hu. apply Hl. right. auto. }
    { intros u u' Hu Hu'. apply Hinj; right; auto. }
    rewrite E. cbn [bind fst snd app].
    eexists. eexists. split; [reflexivity|]. split; [exact NDe|]. split; [exact Te|]. split.
    { cbn [writes1 flat_map sk_eqs map fst app]. f_equal. exact We. }
    intros M HM HT u x Hu Hx'. rewrite exec_cons1.
    set (M1 := exec_kernel1 J k sizes M {| sk_eqs := [(lookup v works, r)]; sk_ext := [] |}).
    assert (F1 : forall b y, b <> lookup v works -> M1 b y = M b y).
    { intros b y Hb. unfold M1, exec_kernel1. apply exec_eqs_frame1. intros [E1 | []]. cbn in E1. congruence. }
    destruct Hu as [<- | Hu].
    + rewrite exec_frame1.
      * unfold M1, exec_kernel1. cbn [sk_eqs sk_ext]. 
        assert (V : fold_left (exec_eq1 J k sizes []) [(lookup v works, r)] M (lookup v works) x = rvalue J M x r).
        { cbn [fold_left]. unfold exec_eq1. cbn [fst snd]. rewrite String.eqb_refl, Hx'. reflexivity. }
        rewrite V, Vr by (eapply in_range_length; eauto). rewrite Ev, sem_cd1. apply difference_ext. intros i.
        rewrite sem1_flat by auto. apply value_agree. intros b ix Hb y. apply HM. eapply Ca; eauto.
      * rewrite We. intros Hin. apply in_map_iff in Hin. destruct Hin as (u & Eu & Hu). 
        apply N1. rewrite <- (Hinj u v (or_intror Hu) (or_introl eq_refl) Eu). auto.
    + apply Hx; auto.
      * intros b Hb y. rewrite F1; [apply HM; auto|]. destruct (Hl v (or_introl eq_refl)) as (i & Ei & _).
        rewrite Ei. apply Hb.
      * intros t e y Hin Hy. rewrite F1; [apply HT; auto|].
        destruct (Te t e Hin) as ((i & Li & ->) & _). destruct (Hl v (or_introl eq_refl)) as (j & Ej & Lj).
        rewrite Ej. intros X. apply wk_name_inj in X. lia.
Qed.

Lemma conv_groups_ok1 : forall works c g,
  (forall d l v, In (d, l) g -> In v l -> orig1 v /\ cds_post v = [v] /\ cd_dir dirof v = d) ->
  NoDup (flat_map snd g) ->
  (forall v, In v (flat_map snd g) -> exists i, lookup v works = wk_name i /\ (i < c)%nat) ->
  (forall u v, In u (flat_map snd g) -> In v (flat_map snd g) -> lookup u works = lookup v works -> u = v) ->
  exists ks, conv_groups1 k ndim dirof inv dord sizes sd works c g = Ok ks /\
    (forall b, In b (writes1 ks) -> (exists v, In v (flat_map snd g) /\ b = lookup v works) \/ exists i, (c <= i)%nat /\ b = wk_name i) /\
    forall M0 M, (forall b, notwork b -> forall x, M b x = M0 b x) ->
      forall v x, In v (flat_map snd g) -> INR_ [] x = true -> EXEC1 ks M (lookup v works) x = SEM1 M0 v x.
Proof.
  intros works c. induction g as [|[d vs] g IH]; intros Hg ND Hl Hinj.
  { exists []. cbn. split; auto. split; intros; contradiction. }
  cbn [flat_map snd] in *.
  assert (Sub1 : forall v, In v vs -> In v (vs ++ flat_map snd g)) by (intros; apply in_app_iff; auto).
  assert (Sub2 : forall v, In v (flat_map snd g) -> In v (vs ++ flat_map snd g)) by (intros; apply in_app_iff; auto).
  destruct (IH) as (ks2 & E2 & W2 & X2).
  { intros d' l v Hin Hv. apply (Hg d' l); auto. right. auto. }
  { eapply NoDup_app_remove_l; eauto. }
  { intros v Hv. apply Hl. auto. }
  { intros u v Hu Hv. apply Hinj; auto. }
  assert (G1 : exists eqs ks, conv_group1 k ndim dirof inv dord sizes sd works c vs = Ok (eqs, ks)).
  { destruct (conv_group_ok1 works d (fun _ _ => 0%R) vs c) as (eqs & ks & E & _); eauto.
    - intros v Hv. apply (Hg d vs); auto. left. auto.
    - eapply NoDup_app_remove_r; eauto. }
  destruct G1 as (eqs & ks & E1).
  cbn [conv_groups1]. rewrite E1. cbn [bind fst snd]. rewrite E2. cbn [bind].
  eexists. split; [reflexivity|].
  assert (GG : forall M0, NoDup (map fst eqs) /\
    (forall t e, In (t, e) eqs -> (exists i, (c <= i)%nat /\ t = wk_name i) /\ clean e) /\
    writes1 ks = map (fun v => lookup v works) vs /\
    forall M, (forall b, notwork b -> forall x, M b x = M0 b x) ->
      (forall t e x, In (t, e) eqs -> INR_ [d] x = true -> M t x = value J M0 x e) ->
      forall v x, In v vs -> INR_ [] x = true -> EXEC1 ks M (lookup v works) x = SEM1 M0 v x).
  { intros M0. destruct (conv_group_ok1 works d M0 vs c) as (eqs' & ks' & E & R1 & R2 & R3 & R4).
    - intros v Hv. apply (Hg d vs); auto. left. auto.
    - eapply NoDup_app_remove_r; eauto.
    - intros v Hv. apply Hl. auto.
    - intros u v Hu Hv. apply Hinj; auto.
    - rewrite E1 in E. injection E as <- <-. auto. }
  set (evk := match eqs with [] => [] | p :: l => [plain_kernel {| k_eqs := p :: l; k_ext := [d] |}] end).
  assert (Wev : writes1 evk = map fst eqs).
  { unfold evk. destruct eqs; [reflexivity|]. unfold writes1. cbn [flat_map]. rewrite writes1_plain. apply app_nil_r. }
  assert (Wapp : forall a b, writes1 (a ++ b) = writes1 a ++ writes1 b).
  { intros. unfold writes1. rewrite flat_map_app. reflexivity. }
  split.
  - intros b Hb. rewrite !Wapp, Wev in Hb. apply in_app_iff in Hb. destruct Hb as [Hb | Hb].
    + right. apply in_map_iff in Hb. destruct Hb as ([t e] & <- & Hin). destruct (GG (fun _ _ => 0%R)) as (_ & G2 & _).
      destruct (G2 t e Hin) as ((i & Li & Ei) & _). exists i. auto.
    + apply in_app_iff in Hb. destruct Hb as [Hb | Hb].
      * left. destruct (GG (fun _ _ => 0%R)) as (_ & _ & G3 & _). rewrite G3 in Hb. apply in_map_iff in Hb.
        destruct Hb as (v & <- & Hv). exists v. auto.
      * destruct (W2 b Hb) as [(v & Hv & ->) | R]; auto. left. exists v. auto.
  - intros M0 M HM v x Hv Hx. rewrite !exec_app1.
    destruct (GG M0) as (G1 & G2 & G3 & G4).
    set (Me := EXEC1 evk M).
    assert (Fe : forall b, notwork b -> forall y, Me b y = M0 b y).
    { intros b Hb y. unfold Me. rewrite exec_frame1; [apply HM; auto|]. rewrite Wev. intros Hin.
      apply in_map_iff in Hin. destruct Hin as ([t e] & <- & Hin). destruct (G2 t e Hin) as ((i & _ & Ei) & _).
      apply (Hb i). exact Ei. }
    assert (Ve : forall t e y, In (t, e) eqs -> INR_ [d] y = true -> Me t y = value J M0 y e).
    { intros t e y Hin Hy. unfold Me, evk. destruct eqs as [|q eqs']; [destruct Hin|]. set (eqs := q :: eqs') in *.
      rewrite exec_cons1. cbn [exec1 fold_left]. rewrite exec_plain. unfold exec_kernel. cbn [k_eqs k_ext].
      rewrite (exec_eqs_value J k sizes [d] eqs M G1) with (e := e); auto.
      - rewrite Hy. apply value_agree. intros b ix Hb z. apply HM. apply (proj2 (G2 t e Hin) b ix Hb).
      - intros a0 e0 b ix H0 Hb. right. intros C. apply in_map_iff in C. destruct C as ([t1 e1] & Eb & H1).
        cbn in Eb. subst t1. destruct (G2 _ _ H1) as ((i & _ & Ei) & _). apply (proj2 (G2 a0 e0 H0) b ix Hb i). auto. }
    set (Md := EXEC1 ks Me).
    assert (Fd : forall b, notwork b -> forall y, Md b y = M0 b y).
    { intros b Hb y. unfold Md. rewrite exec_frame1; auto. rewrite G3. intros Hin. apply in_map_iff in Hin.
      destruct Hin as (u & <- & Hu). destruct (Hl u (Sub1 u Hu)) as (i & Ei & _). apply (Hb i). auto. }
    apply in_app_iff in Hv. destruct Hv as [Hv | Hv].
    + rewrite exec_frame1; [apply G4; auto|]. intros Hin. destruct (W2 _ Hin) as [(u & Hu & Eu) | (i & Li & Ei)].
      * assert (v = u) by (apply Hinj; auto). subst u.
        clear - ND Hv Hu. induction vs; [destruct Hv|]. cbn in ND. inversion ND; subst.
        destruct Hv as [-> | Hv]; [apply H1; apply in_app_iff; auto | auto].
      * destruct (Hl v (Sub1 v Hv)) as (j & Ej & Lj). rewrite Ei in Ej. apply wk_name_inj in Ej. lia.
    + apply X2; auto.
Qed.

Lemma convective_ok1 : forall cds eqs, cds <> [] -> NoDup cds ->
  (forall v, In v cds -> orig1 v /\ cds_post v = [v]) -> eqs_ok cds eqs ->
  (forall l, Permutation l (sord l)) ->
  exists ks, convective_kernels1 k ndim dirof inv dord sord sizes sd cds eqs = Ok ks /\
    forall M, (forall b, notwork b -> ~ In b (map fst eqs) -> forall x, EXEC1 ks M b x = M b x) /\
      forall r e x, In (r, e) eqs -> INR_ [] x = true -> EXEC1 ks M r x = SEM1 M e x.
Proof.
  intros cds eqs Hne ND Hc (NDe & He) Hs. unfold convective_kernels1.
  pose proof (group_perm dirof cds) as GP. set (g := group_by_direction dirof cds) in *.
  set (vs := flat_map snd g) in *.
  assert (NDv : NoDup vs) by (eapply Permutation_NoDup; [symmetry; exact GP | auto]).
  destruct (conv_groups_ok1 (assign_works 0 vs) (List.length (assign_works 0 vs)) g) as (ks & E & W & X).
  { intros d l v Hin Hv. assert (In v cds).
    { eapply Permutation_in; [exact GP|]. unfold vs. apply in_flat_map. exists (d, l). auto. }
    destruct (Hc v H). split; auto. split; auto. eapply group_dirs; eauto. }
  { exact NDv. }
  { intros v Hv. rewrite assign_length. destruct (assign_lookup ndim sizes Hsz vs v Hv) as (_ & X). exact X. }
  { intros u v. apply (assign_inj ndim sizes Hsz). }
  assert (Mg : forall A (a b : A), match g with [] => a | _ => b end = b).
  { intros A a b. destruct g; auto. exfalso. apply Hne. apply Permutation_nil in GP. auto. }
  cbv zeta. fold g. fold vs. rewrite Mg, E. cbn [bind].
  eexists. split; [reflexivity|]. intros M.
  set (works := assign_works 0 vs) in *.
  set (reqs := map (fun re : string * expr => (fst re, subs ndim (sord works) (snd re))) eqs).
  assert (Fr : map fst reqs = map fst eqs) by (unfold reqs; rewrite map_map; reflexivity).
  assert (Wwk : forall b, In b (writes1 ks) -> exists i, b = wk_name i).
  { intros b Hb. destruct (W b Hb) as [(v & Hv & ->) | (i & _ & ->)]; eauto.
    destruct (assign_lookup ndim sizes Hsz vs v Hv) as (_ & i & Ei & _). eauto. }
  set (M1 := EXEC1 ks M).
  assert (F1 : forall b, notwork b -> forall x, M1 b x = M b x).
  { intros b Hb x. unfold M1. apply exec_frame1. intros Hin. destruct (Wwk b Hin) as (i & Ei). apply (Hb i). auto. }
  assert (Sb : forall e, clean e -> subs ndim (sord works) e = T ndim (rev (sord works)) e).
  { intros e Ce.
    pose proof (subs_T ndim (fun v => v) (sord works) [] e) as S. rewrite T_nil, app_nil_r in S.
    replace (map (fun vw : expr * string => (fst vw, snd vw)) (sord works)) with (sord works) in S.
    2: { rewrite <- (map_id (sord works)) at 1. apply map_ext. intros []. reflexivity. }
    assert (InP : forall v w, In (v, w) (sord works) -> In (v, w) works).
    { intros v w. apply Permutation_in. symmetry. apply Hs. }
    assert (Pk : forall v w, In (v, w) (sord works) -> In v cds).
    { intros v w Hin. apply InP in Hin. eapply Permutation_in; [exact GP|].
      rewrite <- (assign_fst 0 vs). change v with (fst (v, w)). apply in_map. auto. }
    rewrite app_nil_r in S.
    apply S; clear S.
    - eapply Permutation_NoDup; [apply Permutation_map, Hs | apply assign_snd_nodup].
    - eapply Permutation_NoDup; [apply Permutation_map, Hs | unfold works; rewrite assign_fst; auto].
    - intros v w Hin. destruct (Hc v (Pk v w Hin)) as ((((a & n & m & Ev & _) & _) & _) & _). rewrite Ev. reflexivity.
    - intros v w Hin. apply fresh_clean.
      + apply (proj2 (proj2 (proj1 (proj1 (Hc v (Pk v w Hin)))))).
      + intros u z Hz. eapply works_are_wk. apply InP. eauto.
    - apply fresh_clean; auto. intros u z Hz. eapply works_are_wk. apply InP. eauto.
    - intros l1 v w l2 El. rewrite app_nil_r.
      assert (Hin : In (v, w) (sord works)) by (rewrite El; apply in_app_iff; right; left; auto).
      rewrite <- (T_nil ndim v) at 1. apply T_ext. intros u Hu.
      rewrite (proj2 (Hc v (Pk v w Hin))) in Hu. destruct Hu as [<- | []]. cbn [assoc].
      destruct (assoc v (rev l1)) as [w'|] eqn:A; auto. apply assoc_in in A. apply in_rev in A. exfalso.
      assert (NDf : NoDup (map fst (sord works))).
      { eapply Permutation_NoDup; [apply Permutation_map, Hs | unfold works; rewrite assign_fst; auto]. }
      rewrite El, map_app in NDf. cbn [map fst] in NDf. apply NoDup_remove_2 in NDf. apply NDf. apply in_app_iff. left.
      change v with (fst (v, w')). apply in_map. auto. }
  rewrite exec_app1. fold M1. rewrite exec_cons1, exec_plain. cbn [exec1 fold_left]. split.
  - intros b Hb Hn x. unfold exec_kernel. rewrite exec_eqs_frame; [apply F1; auto|]. rewrite residual_writes, Fr. auto.
  - intros r e x Hin Hx.
    rewrite (residual_value J k ndim sizes HJ Hsz true reqs M1) with (e := subs ndim (sord works) e).
    + destruct (He r e Hin) as (Nr & Ce & Cd & Nb). rewrite Sb by auto. apply value_T1.
      * eapply in_range_length; eauto.
      * intros v Hv. assert (Hvs : In v vs) by (eapply Permutation_in; [symmetry; exact GP | auto]).
        destruct (assign_lookup ndim sizes Hsz vs v Hvs) as (A & _). fold works in A.
        exists (lookup v works). split.
        -- apply assoc_unique.
           ++ rewrite map_rev. apply NoDup_rev.
              eapply Permutation_NoDup; [apply Permutation_map, Hs | unfold works; rewrite assign_fst; auto].
           ++ apply in_rev. rewrite rev_involutive. eapply Permutation_in; [apply Hs|]. apply assoc_in. auto.
        -- unfold M1. apply X; auto.
      * intros b ix Hb y. apply F1. apply (Ce b ix Hb).
    + rewrite Fr. auto.
    + rewrite Fr. intros r0 e0 b ix H0 Hb. unfold reqs in H0. apply in_map_iff in H0. destruct H0 as ([r1 e1] & Eg0 & H1).
      cbn [fst snd] in Eg0. injection Eg0 as <- <-. destruct (He r1 e1 H1) as (Nr & Ce & Cd & Nb).
      rewrite Sb in Hb by auto. apply dsets_T in Hb. destruct Hb as [Hb | (Hb & _)]; [eapply Nb; eauto|].
      intros C. apply in_map_iff in C. destruct C as ([r2 e2] & Er & H2). cbn in Er. subst r2.
      rewrite map_rev in Hb. apply in_rev in Hb. apply in_map_iff in Hb. destruct Hb as ([v w] & Ew & Hw). cbn in Ew. subst w.
      assert (In (v, b) works) by (eapply Permutation_in; [symmetry; apply Hs | auto]).
      destruct (works_are_wk _ _ _ H) as (i & Ei). apply (proj1 (He b e2 H2) i). auto.
    + unfold reqs. change (r, subs ndim (sord works) e) with ((fun re : string * expr => (fst re, subs ndim (sord works) (snd re))) (r, e)).
      apply in_map. auto.
    + exact Hx.
Qed.

Section visc.
Variable cds : list expr.
Hypothesis NDc : NoDup cds.
Hypothesis Hc : forall v, In v cds -> orig1 v /\ shallow cds v.
Let works := assign_works 0 cds.

Lemma wk_look1 : forall v, In v cds -> exists i, lookup v works = wk_name i.
Proof. intros v Hv. destruct (assign_lookup ndim sizes Hsz cds v Hv) as (_ & i & Ei & _). eauto. Qed.

Lemma traverse_flat1 : forall v, cds_post v = [v] -> traverse ndim works v = v.
Proof. intros v E. unfold traverse. rewrite E. reflexivity. Qed.
Lemma traverse_nested1 : forall c v, In v cds -> In c cds -> cds_post v = [c; v] ->
  traverse ndim works v = T ndim [(c, lookup c works)] v.
Proof.
  intros c v Hv Hcc E. unfold traverse. rewrite E. cbn [removelast fold_left].
  pose proof (subst_T ndim [] c (lookup c works)) as S.
  rewrite !T_nil in S. specialize (S (NoDup_nil _)).
  assert (Cc : is_cd c = true) by (apply (cds_is_cd v); rewrite E; left; auto).
  specialize (S Cc eq_refl). assert (F : forall z, fresh [] z) by (intros z b ix _ []).
  specialize (S (F c) v (F v)). rewrite T_nil in S. exact S.
Qed.
Lemma ext_inner1 : forall c v n, In v cds -> cds_post v = [c; v] -> In n (cd_dirs dirof v) -> In n (extended dirof cds c).
Proof.
  intros c v n Hv E Hn. unfold extended. apply in_flat_map. exists (c, cd_dirs dirof v). split.
  - apply in_flat_map. exists v. split; auto. rewrite E. left. auto.
  - cbn [fst snd]. destruct (expr_eq_dec c c); congruence.
Qed.
Lemma ext_outer1 : forall c v, In v cds -> cds_post v = [c; v] -> extended dirof cds v = [].
Proof.
  intros c v Hv E. destruct (extended dirof cds v) as [|n l] eqn:X; auto. exfalso.
  assert (H : In n (extended dirof cds v)) by (rewrite X; left; auto).
  unfold extended in H. apply in_flat_map in H. destruct H as ([u ds] & Hu & Hn). cbn [fst snd] in Hn.
  destruct (expr_eq_dec u v); [subst u | destruct Hn].
  apply in_flat_map in Hu. destruct Hu as (o & Ho & Hu). destruct (Hc o Ho) as (((Po & _ & _) & _) & [Eo | (c' & Eo & _)]).
  - rewrite Eo in Hu. destruct Hu.
  - rewrite Eo in Hu. destruct Hu as [Hu | []]. injection Hu as -> _.
    destruct Po as (a & m & q & Ea & _). subst o. rewrite cds_cd in Eo.
    change [v; EApp HCD (a :: repeat (ESym KCoord m) (S q))] with ([v] ++ [EApp HCD (a :: repeat (ESym KCoord m) (S q))]) in Eo.
    apply app_inj_tail in Eo. destruct Eo as [Eo _].
    assert (L : (List.length (cds_post v) <= List.length (cds_post a))%nat) by (apply (cds_len ndim sizes Hsz); rewrite Eo; left; auto).
    rewrite Eo, E in L. cbn in L. lia.
Qed.

Lemma visc_step1 : forall v, In v cds -> exists r,
  discretise1 k dirof inv dord sizes sd (traverse ndim works v) = Ok r /\
  forall M M0, (forall b, notwork b -> forall y, M b y = M0 b y) ->
    (forall c, In c (cds_post v) -> c <> v -> forall y, INR_ (extended dirof cds c) y = true -> M (lookup c works) y = SEM1 M0 c y) ->
    forall x, INR_ (extended dirof cds v) x = true -> rvalue J M x r = SEM1 M0 v x.
Proof.
  intros v Hv. destruct (Hc v Hv) as (((Pv & Lv & Cv) & Low) & Sh).
  assert (Pv' := Pv). destruct Pv' as (a & n & m & Ev & Hd & Hne). specialize (Low a n (S m) Ev).
  assert (La : placed a) by (intros b ix Hb; apply (Lv b ix); rewrite Ev, dsets_cd; auto).
  assert (Ca : clean a) by (intros b ix Hb; apply (Cv b ix); rewrite Ev, dsets_cd; auto).
  destruct Sh as [Sh | (c & Sh & Hcc & Lt)].
  - rewrite traverse_flat1 by auto. subst v.
    destruct (discretise_ok1 a n m Hd La Hne Low) as (r & Er & Vr). exists r. split; auto.
    intros M M0 HM _ x Hx. rewrite Vr by (eapply in_range_length; eauto). rewrite sem_cd1.
    apply difference_ext. intros i.
    transitivity (value J M (at_index (dirof n) i x) (T ndim [] a)); [rewrite T_nil; reflexivity|]. apply value_T1.
    + rewrite at_index_length. eapply in_range_length; eauto.
    + intros u Hu. exfalso. rewrite cds_cd in Sh. destruct (cds_post a); [destruct Hu|].
      injection Sh as _ Sh. destruct l; discriminate.
    + intros b ix Hb y. apply HM. eapply Ca. eauto.
  - rewrite (traverse_nested1 c v) by auto.
    assert (Ncv : c <> v) by (intros ->; lia).
    assert (Ea : cds_post a = [c]).
    { rewrite Ev, cds_cd in Sh. change [c; EApp HCD (a :: repeat (ESym KCoord n) (S m))]
        with ([c] ++ [EApp HCD (a :: repeat (ESym KCoord n) (S m))]) in Sh. apply app_inj_tail in Sh. tauto. }
    set (w := lookup c works) in *.
    assert (ET : T ndim [(c, w)] v = EApp HCD (T ndim [(c, w)] a :: repeat (ESym KCoord n) (S m))).
    { rewrite Ev. rewrite T_eq. cbn [is_cd assoc]. destruct (expr_eq_dec (EApp HCD (a :: repeat (ESym KCoord n) (S m))) c) as [E | N].
      - exfalso. apply Ncv. rewrite Ev. auto.
      - rewrite map_cons, T_coords. reflexivity. }
    rewrite ET.
    destruct (discretise_ok1 (T ndim [(c, w)] a) n m Hd) as (r & Er & Vr).
    { intros b ix Hb. apply dsets_T in Hb. destruct Hb as [Hb | (_ & ->)]; auto. eapply La. eauto. }
    { apply dsets_T_nonempty. auto. }
    { exact Low. }
    exists r. split; auto. intros M M0 HM HI x Hx.
    rewrite (ext_outer1 c v Hv Sh) in Hx.
    rewrite Vr by (eapply in_range_length; eauto). rewrite Ev at 1. rewrite sem_cd1. apply difference_range; auto. intros i Hi.
    apply value_T1.
    + rewrite at_index_length. eapply in_range_length; eauto.
    + intros u Hu. rewrite Ea in Hu. destruct Hu as [<- | []]. exists w. split.
      * cbn [assoc]. destruct (expr_eq_dec c c); congruence.
      * unfold w. apply HI; auto.
        -- rewrite Sh. left. auto.
        -- apply in_range_at_index; auto. apply (ext_inner1 c v); auto. rewrite Ev. left. reflexivity.
    + intros b ix Hb y. apply HM. eapply Ca. eauto.
Qed.

Definition visc_kernel1 (v : expr) : result skernel :=
  bind (discretise1 k dirof inv dord sizes sd (traverse ndim works v)) (fun r =>
    Ok {| sk_eqs := [(lookup v works, r)]; sk_ext := extended dirof cds v |}).
Lemma visc_run1 : forall s D,
  (forall v, In v (D ++ s) -> In v cds) -> NoDup (D ++ s) ->
  (forall l1 v l2, s = l1 ++ v :: l2 -> forall c, In c (cds_post v) -> c <> v -> In c (D ++ l1)) ->
  exists ks, mapM visc_kernel1 s = Ok ks /\ writes1 ks = map (fun v => lookup v works) s /\
  forall M M0, (forall b, notwork b -> forall y, M b y = M0 b y) ->
    (forall v, In v D -> forall y, INR_ (extended dirof cds v) y = true -> M (lookup v works) y = SEM1 M0 v y) ->
    forall v, In v (D ++ s) -> forall y, INR_ (extended dirof cds v) y = true -> EXEC1 ks M (lookup v works) y = SEM1 M0 v y.
Proof.
  induction s as [|v s IH]; intros D HD ND Hp.
  { exists []. split; auto. split; auto. intros M M0 _ H v Hv. rewrite app_nil_r in Hv. cbn. auto. }
  assert (Hv : In v cds) by (apply HD; apply in_app_iff; right; left; auto).
  destruct (IH (D ++ [v])) as (ks & E & W & X).
  { intros u Hu. apply HD. rewrite <- app_assoc in Hu. exact Hu. }
  { rewrite <- app_assoc. exact ND. }
  { intros l1 u l2 Es c Hcu Nc. rewrite <- app_assoc. apply (Hp (v :: l1) u l2); auto. cbn. congruence. }
  destruct (visc_step1 v Hv) as (r & Er & Vr).
  cbn [mapM]. unfold visc_kernel1 at 1. rewrite Er. cbn [bind]. rewrite E. cbn [bind].
  eexists. split; [reflexivity|]. split.
  { unfold writes1 in *. cbn [flat_map sk_eqs map fst app]. f_equal. exact W. }
  intros M M0 HM HI u Hu y Hy. rewrite exec_cons1.
  replace (D ++ v :: s) with ((D ++ [v]) ++ s) in Hu by (rewrite <- app_assoc; reflexivity).
  apply X; auto; clear u Hu y Hy.
  - intros b Hb y. unfold exec_kernel1. cbn [sk_eqs sk_ext fold_left]. unfold exec_eq1. cbn [fst snd].
    destruct (String.eqb_spec b (lookup v works)) as [-> | N].
    + exfalso. destruct (wk_look1 v Hv) as (i & Ei). apply (Hb i). auto.
    + cbn [andb]. auto.
  - intros u Hu y Hy. unfold exec_kernel1. cbn [sk_eqs sk_ext fold_left]. unfold exec_eq1. cbn [fst snd].
    destruct (String.eqb_spec (lookup u works) (lookup v works)) as [Eq | N].
    + assert (u = v).
      { apply (assign_inj ndim sizes Hsz cds); auto. apply HD. apply in_app_iff in Hu. apply in_app_iff.
        destruct Hu as [Hu | [<- | []]]; [auto | right; left; auto]. }
      subst u. rewrite Hy. cbn [andb]. apply Vr; auto.
      intros c Hcc Nc z Hz. apply HI; auto.
      specialize (Hp [] v s eq_refl c Hcc Nc). rewrite app_nil_r in Hp. auto.
    + cbn [andb]. apply in_app_iff in Hu. destruct Hu as [Hu | [<- | []]]; [auto | congruence].
Qed.

Lemma inner_first_sorted1 :
  inner_first (map (fun v => (traverse ndim works v, lookup v works)) (sort_by_coordinates cds)).
Proof.
  intros l1 key w l2 E key' w' ix Hin Hd.
  pose proof (csort_perm cds) as SP. pose proof (csort_ordered cds) as O. set (s := sort_by_coordinates cds) in *.
  assert (NDs : NoDup s) by (eapply Permutation_NoDup; [symmetry; exact SP | auto]).
  assert (X : exists s1 v s2, s = s1 ++ v :: s2 /\ key = traverse ndim works v /\ w = lookup v works /\
     l2 = map (fun v => (traverse ndim works v, lookup v works)) s2).
  { clear - E. clearbody s. revert l1 E. induction s as [|v s IH]; intros l1 E; [destruct l1; discriminate|].
    destruct l1 as [|p l1]; cbn [map app] in E.
    - injection E as <- <- <-. exists [], v, s. auto.
    - injection E as _ E. destruct (IH l1 E) as (s1 & u & s2 & -> & A & B & C). exists (v :: s1), u, s2. auto. }
  destruct X as (s1 & v & s2 & Es & -> & _ & ->).
  apply in_map_iff in Hin. destruct Hin as (u & Eu & Hu). injection Eu as _ <-.
  assert (Hvc : In v cds) by (eapply Permutation_in; [exact SP|]; rewrite Es; apply in_app_iff; right; left; auto).
  assert (Huc : In u cds) by (eapply Permutation_in; [exact SP|]; rewrite Es; apply in_app_iff; right; right; auto).
  destruct (wk_look1 u Huc) as (i & Ei).
  destruct (Hc v Hvc) as (((_ & _ & Cv) & _) & [F | (c & F & Hcc & Lt)]).
  - rewrite traverse_flat1 in Hd by auto. apply (Cv _ _ Hd i). auto.
  - rewrite (traverse_nested1 c v) in Hd by auto. apply dsets_T in Hd. destruct Hd as [Hd | (Hd & _)].
    + apply (Cv _ _ Hd i). auto.
    + cbn in Hd. destruct Hd as [Hd | []]. apply (assign_inj ndim sizes Hsz cds) in Hd; auto. subst u.
      assert (In c s1).
      { rewrite Es in O. eapply ordered_before; eauto. rewrite <- Es. eapply Permutation_in; [symmetry; exact SP | auto]. }
      rewrite Es in NDs. clear - NDs H Hu. induction s1 as [|z s1 IH]; [destruct H|].
      cbn in NDs. inversion NDs; subst. destruct H as [-> | H]; auto.
      apply H2. apply in_app_iff. right. right. auto.
Qed.

Lemma viscous_ok1 : forall eqs, cds <> [] -> eqs_ok cds eqs ->
  (forall l, Permutation l (sord l)) ->
  inner_first (sord (map (fun v => (traverse ndim works v, lookup v works)) cds)) ->
  exists ks, viscous_kernels1 k ndim dirof inv dord sord sizes sd cds eqs = Ok ks /\
    forall M, (forall b, notwork b -> ~ In b (map fst eqs) -> forall x, EXEC1 ks M b x = M b x) /\
      forall r e x, In (r, e) eqs -> INR_ [] x = true -> EXEC1 ks M r x = (M r x + SEM1 M e x)%R.
Proof.
  intros eqs Hne (NDe & He) Hs Ho.
  pose proof (csort_perm cds) as SP. set (s := sort_by_coordinates cds) in *.
  destruct (visc_run1 s []) as (ks & E & W & X).
  { intros v Hv. cbn in Hv. eapply Permutation_in; eauto. }
  { cbn. eapply Permutation_NoDup; [symmetry; exact SP | auto]. }
  { intros l1 v l2 Es c Hcv Nc. cbn [app]. pose proof (csort_ordered cds) as O. fold s in O. rewrite Es in O.
    assert (Hv : In v cds) by (eapply Permutation_in; [exact SP | rewrite Es; apply in_app_iff; right; left; auto]).
    destruct (Hc v Hv) as (_ & [F | (c' & F & Hc' & Lt)]); rewrite F in Hcv.
    - destruct Hcv as [<- | []]. congruence.
    - destruct Hcv as [<- | [<- | []]]; [|congruence]. eapply ordered_before; eauto.
      rewrite <- Es. eapply Permutation_in; [symmetry; exact SP | auto]. }
  cbn [app] in X.
  unfold viscous_kernels1.
  assert (Mc : forall (l : list expr) A (a b : A), l <> [] -> match l with [] => a | _ => b end = b) by (intros [|]; congruence).
  rewrite Mc by auto. cbv zeta. fold works s.
  change (mapM (fun v => bind (discretise1 k dirof inv dord sizes sd (traverse ndim works v)) (fun r =>
    Ok {| sk_eqs := [(lookup v works, r)]; sk_ext := extended dirof cds v |})) s) with (mapM visc_kernel1 s).
  rewrite E. cbn [bind]. eexists. split; [reflexivity|]. intros M.
  set (keys := map (fun v => (traverse ndim works v, lookup v works)) cds) in *.
  set (reqs := map (fun re : string * expr => (fst re, subs ndim (sord keys) (snd re))) eqs).
  assert (Fr : map fst reqs = map fst eqs) by (unfold reqs; rewrite map_map; reflexivity).
  set (M1 := EXEC1 ks M).
  assert (F1 : forall b, notwork b -> forall x, M1 b x = M b x).
  { intros b Hb x. unfold M1. apply exec_frame1. rewrite W. intros Hin. apply in_map_iff in Hin.
    destruct Hin as (v & <- & Hv). destruct (wk_look1 v) as (i & Ei); [eapply Permutation_in; eauto|]. apply (Hb i). auto. }
  destruct (Permutation_map_inv (fun v => (traverse ndim works v, lookup v works)) cds (Permutation_sym (Hs keys))) as (cds' & Ek & Pc).
  set (P := map (fun v => (v, lookup v works)) cds').
  assert (Pf : map fst P = cds') by (unfold P; rewrite map_map; apply map_id).
  assert (Ps : map snd P = map (fun v => lookup v works) cds') by (unfold P; rewrite map_map; reflexivity).
  assert (Nf : NoDup (map fst P)) by (rewrite Pf; eapply Permutation_NoDup; [exact Pc | auto]).
  assert (InC : forall v, In v cds' -> In v cds) by (intros v; eapply Permutation_in; symmetry; auto).
  assert (PIn : forall v w, In (v, w) P -> In v cds /\ w = lookup v works).
  { intros v w Hin. unfold P in Hin. apply in_map_iff in Hin. destruct Hin as (u & Eu & Hu). injection Eu as <- <-. auto. }
  assert (Ns : NoDup (map snd P)).
  { apply snd_nodup; auto. intros u v w Hu Hv. destruct (PIn _ _ Hu) as (A & EA). destruct (PIn _ _ Hv) as (B & EB).
    apply (assign_inj ndim sizes Hsz cds); auto. fold works. congruence. }
  assert (Sb : forall e, clean e -> subs ndim (sord keys) e = T ndim (rev P) e).
  { intros e Ce.
    pose proof (subs_T ndim (traverse ndim works) P [] e) as S. rewrite T_nil, !app_nil_r in S.
    replace (map (fun vw : expr * string => (traverse ndim works (fst vw), snd vw)) P) with (sord keys) in S.
    2: { rewrite Ek. unfold P. rewrite map_map. reflexivity. }
    apply S; clear S; auto.
    - intros v w Hin. destruct (Hc v (proj1 (PIn v w Hin))) as ((((a & n & m & Ev & _) & _) & _) & _). rewrite Ev. reflexivity.
    - intros v w Hin. apply fresh_clean.
      + apply (proj2 (proj2 (proj1 (proj1 (Hc v (proj1 (PIn v w Hin))))))).
      + intros u z Hz. destruct (PIn u z Hz) as (A & ->). apply wk_look1. auto.
    - apply fresh_clean; auto. intros u z Hz. destruct (PIn u z Hz) as (A & ->). apply wk_look1. auto.
    - intros l1 v w l2 El. rewrite app_nil_r.
      assert (Hin : In (v, w) P) by (rewrite El; apply in_app_iff; right; left; auto).
      destruct (PIn v w Hin) as (Hv & Ew).
      assert (Nv : assoc v (rev l1) = None).
      { destruct (assoc v (rev l1)) as [w'|] eqn:A; auto. apply assoc_in in A. apply in_rev in A. exfalso.
        assert (NDf := Nf). rewrite El, map_app in NDf. cbn [map fst] in NDf. apply NoDup_remove_2 in NDf. apply NDf. apply in_app_iff. left.
        change v with (fst (v, w')). apply in_map. auto. }
      destruct (Hc v Hv) as (_ & [F | (c & F & Hcc & Lt)]).
      + rewrite traverse_flat1 by auto. rewrite <- (T_nil ndim v) at 1. apply T_ext. intros u Hu.
        rewrite F in Hu. destruct Hu as [<- | []]. cbn [assoc]. auto.
      + rewrite (traverse_nested1 c v) by auto. apply T_ext. intros u Hu. rewrite F in Hu.
        assert (Ncv : c <> v) by (intros ->; lia).
        destruct Hu as [<- | [<- | []]]; cbn [assoc].
        * destruct (expr_eq_dec c c); [|congruence]. symmetry. apply assoc_unique.
          { rewrite map_rev. apply NoDup_rev. assert (NDf := Nf). rewrite El, map_app in NDf. eapply NoDup_app_remove_r; eauto. }
          apply in_rev. rewrite rev_involutive.
          assert (Hcp : In (c, lookup c works) P).
          { unfold P. apply in_map_iff. exists c. split; auto. eapply Permutation_in; eauto. }
          rewrite El in Hcp. apply in_app_iff in Hcp. destruct Hcp as [Hcp | [Hcp | Hcp]]; auto.
          { injection Hcp as Hcp _. congruence. }
          exfalso.
          apply (Ho (map (fun vw => (traverse ndim works (fst vw), snd vw)) l1) (traverse ndim works v) w
                    (map (fun vw => (traverse ndim works (fst vw), snd vw)) l2)) with (key' := traverse ndim works c) (w' := lookup c works) (ix := repeat 0%Z ndim).
          { rewrite Ek. transitivity (map (fun vw => (traverse ndim works (fst vw), snd vw)) P).
            - unfold P. rewrite map_map. reflexivity.
            - rewrite El, map_app. reflexivity. }
          { change (traverse ndim works c, lookup c works) with ((fun vw : expr * string => (traverse ndim works (fst vw), snd vw)) (c, lookup c works)).
            apply in_map. auto. }
          { rewrite (traverse_nested1 c v) by auto. apply dsets_T_has. rewrite F. left. auto. }
        * rewrite Nv. destruct (expr_eq_dec v c); congruence. }
  rewrite exec_app1. fold M1. rewrite exec_cons1, exec_plain. cbn [exec1 fold_left]. split.
  - intros b Hb Hn x. unfold exec_kernel. rewrite exec_eqs_frame; [apply F1; auto|]. rewrite residual_writes, Fr. auto.
  - intros r e x Hin Hx.
    rewrite (residual_value J k ndim sizes HJ Hsz false reqs M1) with (e := subs ndim (sord keys) e).
    + destruct (He r e Hin) as (Nr & Ce & Cd & Nb). rewrite F1 by auto. f_equal. rewrite Sb by auto. apply value_T1.
      * eapply in_range_length; eauto.
      * intros v Hv. specialize (Cd v Hv).
        exists (lookup v works). split.
        -- apply assoc_unique.
           ++ rewrite map_rev. apply NoDup_rev. auto.
           ++ apply in_rev. rewrite rev_involutive. unfold P. apply in_map_iff. exists v. split; auto. eapply Permutation_in; eauto.
        -- unfold M1. apply X; auto.
           ++ intros v0 [].
           ++ eapply Permutation_in; [symmetry; exact SP | auto].
           ++ apply (in_range_weaken k ndim sizes Hsz). auto.
      * intros b ix Hb y. apply F1. apply (Ce b ix Hb).
    + rewrite Fr. auto.
    + rewrite Fr. intros r0 e0 b ix H0 Hb. unfold reqs in H0. apply in_map_iff in H0. destruct H0 as ([r1 e1] & Eg0 & H1).
      cbn [fst snd] in Eg0. injection Eg0 as <- <-. destruct (He r1 e1 H1) as (Nr & Ce & Cd & Nb).
      rewrite Sb in Hb by auto. apply dsets_T in Hb. destruct Hb as [Hb | (Hb & _)]; [eapply Nb; eauto|].
      intros C. apply in_map_iff in C. destruct C as ([r2 e2] & Er & H2). cbn in Er. subst r2.
      rewrite map_rev in Hb. apply in_rev in Hb. apply in_map_iff in Hb. destruct Hb as ([v w] & Ew & Hw). cbn in Ew. subst w.
      destruct (PIn _ _ Hw) as (A & ->). destruct (wk_look1 v A) as (i & Ei). apply (proj1 (He _ e2 H2) i). auto.
    + unfold reqs. change (r, subs ndim (sord keys) e) with ((fun re : string * expr => (fst re, subs ndim (sord keys) (snd re))) (r, e)).
      apply in_map. auto.
    + exact Hx.
Qed.
End visc.
End run.
