(* Execution of the filter kernels. *)
From Verif Require Import Base Expr ExprProofs KernelModel ShiftModel ShiftSpec ShiftProofs BCModel BCSpec BCProofs BCKern BCMirror BCPoint FiltModel FiltSpec.
From Coq Require Import QArith ZArith Reals Qreals Lia Lra.
Local Close Scope Q_scope.

(* a group of array assignments at the grid point, none reading the target of another *)
Lemma phase_data : forall V (J : interp V) n x T (ts : list T) dst rhs, List.length x = n ->
  NoDup (map dst ts) ->
  (forall t u, In t ts -> In u ts -> dst t <> dst u -> forall ix, ~ In (dst u, ix) (dsets (rhs t))) ->
  forall M L, let s := fold_left (exec1 J x) (map (fun t => KEq (arr_at n (dst t)) (rhs t)) ts) (M, L) in
  snd s = L /\
  (forall t, In t ts -> fst s (dst t) x = at_point J M L x (rhs t)) /\
  (forall b y, ~ (In b (map dst ts) /\ y = x) -> fst s b y = M b y).
Proof.
  intros V J n x T ts dst rhs Lx. induction ts as [|t ts IH]; intros ND Rd M L; cbn [map fold_left].
  { split; [reflexivity|]. split; [intros ? []|]. auto. }
  apply NoDup_cons_iff in ND. destruct ND as [Nt ND]. cbn [exec1 fst snd arr_at].
  assert (Vx : vadd x (repeat 0%Z n) = x) by (apply vadd_here; auto). rewrite Vx.
  set (M1 := upd M (dst t) x (at_point J M L x (rhs t))).
  destruct (IH ND ltac:(intros; apply Rd; auto; right; auto) M1 L) as (I1 & I2 & I3). unfold arr_at in *.
  split; [exact I1|]. split.
  - intros u [<- | Hu].
    + rewrite I3 by tauto. apply upd_same.
    + rewrite I2 by auto. apply at_point_ext; auto. intros b ix Hb. apply upd_other. left. intros <-.
      apply (Rd u t ltac:(right; auto) ltac:(left; auto)) in Hb; auto. intros E. apply Nt. rewrite <- E. apply in_map. auto.
  - intros b y H. rewrite I3 by (intros [A B]; apply H; split; [right; auto | auto]). apply upd_other.
    destruct (string_dec (dst t) b) as [<- |]; [|auto]. right. intros <-. apply H. split; [left; auto | auto].
Qed.
Lemma phase_local : forall V (J : interp V) x T (ts : list T) dst rhs,
  NoDup (map dst ts) ->
  (forall t u, In t ts -> In u ts -> dst t <> dst u -> ~ In (dst u) (syms KGridVar (rhs t))) ->
  forall M L, let s := fold_left (exec1 J x) (map (fun t => KEq (evar (dst t)) (rhs t)) ts) (M, L) in
  fst s = M /\
  (forall t, In t ts -> snd s (dst t) = at_point J M L x (rhs t)) /\
  (forall g, ~ In g (map dst ts) -> snd s g = L g).
Proof.
  intros V J x T ts dst rhs. induction ts as [|t ts IH]; intros ND Rd M L; cbn [map fold_left].
  { split; [reflexivity|]. split; [intros ? []|]. auto. }
  apply NoDup_cons_iff in ND. destruct ND as [Nt ND]. cbn [exec1 fst snd evar].
  set (L1 := updl L (dst t) (at_point J M L x (rhs t))).
  destruct (IH ND ltac:(intros; apply Rd; auto; right; auto) M L1) as (I1 & I2 & I3). unfold evar in *.
  split; [exact I1|]. split.
  - intros u [<- | Hu].
    + rewrite I3 by auto. apply updl_same.
    + rewrite I2 by auto. apply at_point_ext; auto. intros g Hg. apply updl_other. intros <-.
      apply (Rd u t ltac:(right; auto) ltac:(left; auto)) in Hg; auto. intros E. apply Nt. rewrite <- E. apply in_map. auto.
  - intros g H. rewrite I3 by (intros A; apply H; right; auto). apply updl_other. intros <-. apply H. left. auto.
Qed.

(* ---- names ---- *)
Lemma cons_vars_ok : forall n vs, cons_vars n = Ok vs -> (n = 2 \/ n = 3) /\ vs = conservative n.
Proof. intros [|[|[|[|n]]]] vs H; cbn in H; try discriminate; injection H as <-; auto. Qed.
Ltac nodup := repeat (constructor; [cbn; intuition discriminate|]); constructor.
Lemma names_sfd : forall n, n = 2 \/ n = 3 ->
  NoDup (conservative n) /\ NoDup (map filt (conservative n)) /\ NoDup (map filtold (conservative n)) /\
  (forall u v, In u (conservative n) -> In v (conservative n) -> filt u <> v /\ filtold u <> v /\ filt u <> filtold v).
Proof.
  intros n [-> | ->]; (split; [nodup|]; split; [nodup|]; split; [nodup|]); intros u v Hu Hv; cbn in Hu, Hv;
    intuition (subst; discriminate).
Qed.

(* ---- selective frequency damping at one point ---- *)
Section sfd.
  Context (J : interp R) (HJ : reals J) (HE : forall a, iapp J (HFun "exp") [a] = exp a).
  Let c := isym J KConst "chi_filt".
  Let w := isym J KConst "omega_filt".
  Let h := isym J KConst "dt".
  Let e := exp (- (c + w) * h).
  Lemma ap_damping : forall M L x, at_point J M L x damping = e.
  Proof.
    intros M L x. unfold damping.
    transitivity (iapp J (HFun "exp") [at_point J M L x (emul [eint (-1); eadd [chi; omega]; dt])]); [reflexivity|]. rewrite HE.
    unfold e. f_equal. rewrite ap_mul by auto. cbn [map fold_right]. rewrite ap_int, ap_add by auto. cbn [map fold_right].
    unfold at_point. cbn. fold c w h. lra.
  Qed.
  Lemma ap_const : forall M L x s, at_point J M L x (econst s) = isym J KConst s.
  Proof. reflexivity. Qed.
  Lemma ap_arr : forall M L x n s, List.length x = n -> at_point J M L x (arr_at n s) = M s x.
  Proof. intros. unfold at_point, arr_at. cbn. rewrite vadd_here by auto. reflexivity. Qed.

  Ltac aps := repeat (first [rewrite ap_damping | rewrite ap_div by auto | rewrite ap_add by auto | rewrite ap_sub by auto | rewrite ap_mul by auto
    | rewrite ap_int by auto | rewrite ap_arr by auto]; cbn [map fold_right]).
  Lemma sfd_point : forall n M x v, n = 2 \/ n = 3 -> List.length x = n -> In v (conservative n) ->
    let M' := fst (run_point J (sfd_eqs n (conservative n)) M x) in
    M' (filtold v) x = M (filt v) x /\
    M' (filt v) x = ((M v x * (1 - e) + M (filt v) x * (c / w + e)) / (c / w + 1))%R /\
    M' v x = ((M v x * (e * c / w + 1) + M (filt v) x * c / w * (1 - e)) / (c / w + 1))%R.
  Proof.
    intros n M x v Hn Lx Hv. destruct (names_sfd n Hn) as (N1 & N2 & N3 & Ne). unfold run_point, sfd_eqs. rewrite !fold_left_app.
    set (L := isym J KGridVar).
    assert (D1 : forall u ix, In (u, ix) (dsets damping) -> False) by (cbn; tauto).
    destruct (phase_data R J n x _ (conservative n) filtold (fun v => arr_at n (filt v)) Lx N3) with (M := M) (L := L) as (A1 & A2 & A3).
    { intros t u Ht Hu _ ix [E | []]. injection E as E _. apply (proj2 (proj2 (Ne t u Ht Hu)) E). }
    destruct (fold_left (exec1 J x) (map (fun v0 => KEq (arr_at n (filtold v0)) (arr_at n (filt v0))) (conservative n)) (M, L)) as [M1 L1].
    cbn [fst snd] in A1, A2, A3. subst L1.
    destruct (phase_data R J n x _ (conservative n) filt (sfd_new_filt n) Lx N2) with (M := M1) (L := L) as (B1 & B2 & B3).
    { intros t u Ht Hu Nu ix Hi. cbn in Hi. destruct Hi as [E | [E | []]]; injection E as E _; [apply (proj1 (Ne u t Hu Ht)); auto | apply Nu; auto]. }
    destruct (fold_left (exec1 J x) (map (fun v0 => KEq (arr_at n (filt v0)) (sfd_new_filt n v0)) (conservative n)) (M1, L)) as [M2 L2].
    cbn [fst snd] in B1, B2, B3. subst L2.
    destruct (phase_data R J n x _ (conservative n) (fun v => v) (sfd_new_v n) Lx ltac:(rewrite map_id; auto)) with (M := M2) (L := L) as (C1 & C2 & C3).
    { intros t u Ht Hu Nu ix Hi. cbn in Hi. destruct Hi as [E | [E | []]]; injection E as E _; [apply Nu; auto | apply (proj1 (proj2 (Ne t u Ht Hu))); auto]. }
    rewrite map_id in C3.
    assert (K : forall u, ~ In (filt u) (conservative n) /\ ~ In (filtold u) (conservative n) \/ ~ In u (conservative n)).
    { intros u. destruct (in_dec string_dec u (conservative n)) as [I | I]; [left | right; auto].
      split; intros H; [apply (proj1 (Ne u _ I H)) | apply (proj1 (proj2 (Ne u _ I H)))]; auto. }
    destruct (K v) as [[K1 K2] | ?]; [|contradiction].
    assert (K3 : ~ In (filtold v) (map filt (conservative n))).
    { intros H. apply in_map_iff in H. destruct H as (u & E & Hu). apply (proj2 (proj2 (Ne u v Hu Hv)) E). }
    assert (K4 : ~ In (filt v) (map filtold (conservative n))).
    { intros H. apply in_map_iff in H. destruct H as (u & E & Hu). apply (proj2 (proj2 (Ne v u Hv Hu))). auto. }
    assert (K5 : ~ In v (map filt (conservative n))).
    { intros H. apply in_map_iff in H. destruct H as (u & E & Hu). apply (proj1 (Ne u v Hu Hv) E). }
    assert (K6 : ~ In v (map filtold (conservative n))).
    { intros H. apply in_map_iff in H. destruct H as (u & E & Hu). apply (proj1 (proj2 (Ne u v Hu Hv)) E). }
    assert (O1 : M1 (filtold v) x = M (filt v) x) by (rewrite A2 by auto; apply ap_arr; auto).
    assert (O2 : M1 (filt v) x = M (filt v) x) by (apply A3; tauto).
    assert (O3 : M1 v x = M v x) by (apply A3; tauto).
    assert (P1 : M2 (filtold v) x = M (filt v) x) by (rewrite B3 by tauto; auto).
    assert (P3 : M2 v x = M v x) by (rewrite B3 by tauto; auto).
    split; [rewrite C3 by tauto; auto|]. split.
    - rewrite C3 by tauto. rewrite B2 by auto. unfold sfd_new_filt. aps. rewrite O2, O3. unfold chi, omega. rewrite !ap_const. fold c w. f_equal; ring.
    - rewrite C2 by auto. unfold sfd_new_v. aps. rewrite P1, P3. unfold chi, omega. rewrite !ap_const. fold c w. f_equal; unfold Rdiv; ring.
  Qed.
  Lemma sfd_pointwise : forall n, n = 2 \/ n = 3 -> pointwise n (sfd_eqs n (conservative n)).
  Proof.
    intros n _ q b ix Hq Hb. unfold sfd_eqs in Hq. unfold here.
    rewrite !in_app_iff in Hq. destruct Hq as [H | [H | H]]; apply in_map_iff in H; destruct H as (v & <- & _); cbn in Hb;
      intuition (congruence).
  Qed.
  Lemma sfd_targets : forall n q b ix, In q (sfd_eqs n (conservative n)) -> In (inl (b, ix)) (target q) ->
    exists v, In v (conservative n) /\ (b = v \/ b = filt v \/ b = filtold v).
  Proof.
    intros n q b ix Hq Hb. unfold sfd_eqs in Hq. rewrite !in_app_iff in Hq.
    destruct Hq as [H | [H | H]]; apply in_map_iff in H; destruct H as (v & <- & Hv); destruct Hb as [E | []]; injection E as <- _; exists v; auto.
  Qed.
End sfd.
