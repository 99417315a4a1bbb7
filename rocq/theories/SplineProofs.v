(* The spline equations and the pieces of the interpolant. *)
From Verif Require Import Base SplineModel.
From Coq Require Import Reals Lia Lra.
Open Scope R_scope.

Lemma store_same : forall a i v, store a i v i = v.
Proof. intros. unfold store. rewrite Nat.eqb_refl. auto. Qed.
Lemma store_other : forall a i v j, j <> i -> store a i v j = a j.
Proof. intros. unfold store. destruct (Nat.eqb_spec j i); congruence. Qed.

Definition increasing (n : nat) (x : nat -> R) : Prop := forall i, (i + 1 < n)%nat -> x i < x (i + 1)%nat.
Lemma increasing_lt : forall n x, increasing n x -> forall i j, (i < j < n)%nat -> x i < x j.
Proof.
  intros n x H i j Hij. assert (E : exists k, j = (i + 1 + k)%nat) by (exists (j - i - 1)%nat; lia). destruct E as (k & ->).
  induction k as [|k IH]; [rewrite Nat.add_0_r; apply H; lia|].
  apply Rlt_trans with (x (i + 1 + k)%nat); [apply IH; lia|]. replace (i + 1 + S k)%nat with (i + 1 + k + 1)%nat by lia. apply H. lia.
Qed.
Lemma increasing_le : forall n x, increasing n x -> forall i j, (i <= j < n)%nat -> x i <= x j.
Proof. intros n x H i j Hij. destruct (Nat.eq_dec i j) as [-> |]; [lra|]. left. apply (increasing_lt n); auto; lia. Qed.

Section equations.
  Variables (x y : nat -> R) (n : nat) (ys ye : R).
  Hypothesis (Hn : (2 <= n)%nat) (Hx : increasing n x).
  Let rhs i := (y (i + 1)%nat - y i) / (x (i + 1)%nat - x i) - (y i - y (i - 1)%nat) / (x i - x (i - 1)%nat).
  Let sig i := (x i - x (i - 1)%nat) / (x (i + 1)%nat - x (i - 1)%nat).

  Lemma sig_range : forall i, (1 <= i)%nat -> (i + 1 < n)%nat -> 0 < sig i < 1.
  Proof.
    intros i H1 H2. unfold sig. assert (A : x (i - 1)%nat < x i) by (apply (increasing_lt n); auto; lia).
    assert (B : x i < x (i + 1)%nat) by (apply Hx; lia). split.
    - apply Rdiv_lt_0_compat; lra.
    - apply (Rmult_lt_reg_r (x (i + 1)%nat - x (i - 1)%nat)); [lra|]. unfold Rdiv. rewrite Rmult_assoc, Rinv_l by lra. lra.
  Qed.
  Definition fwd (k : nat) := fold_left (spline_forward x y) (seq 1 k) (spline_start x y ys).
  Lemma fwd_succ : forall k, fwd (S k) = spline_forward x y (fwd k) (S k).
  Proof. intros k. unfold fwd. rewrite seq_S, fold_left_app. reflexivity. Qed.
  Lemma fwd_inv : forall k, (k + 1 < n)%nat ->
    let d := fst (fwd k) in let u := snd (fwd k) in
    d 0%nat = fst (spline_start x y ys) 0%nat /\ u 0%nat = snd (spline_start x y ys) 0%nat /\
    (forall i, (i <= k)%nat -> -1 < d i <= 0) /\
    (forall i, (1 <= i <= k)%nat ->
       d i = (sig i - 1) / (sig i * d (i - 1)%nat + 2) /\
       u i = (6 * rhs i / (x (i + 1)%nat - x (i - 1)%nat) - sig i * u (i - 1)%nat) / (sig i * d (i - 1)%nat + 2)).
  Proof.
    induction k as [|k IH]; intros Hk d u.
    - split; auto. split; auto. split; [|intros i Hi; lia].
      intros i Hi. assert (i = 0)%nat as -> by lia. unfold d, fwd, spline_start. cbn [seq fold_left]. destruct (above ys huge); cbn [fst]; rewrite store_same; lra.
    - destruct (IH ltac:(lia)) as (I1 & I2 & I3 & I4). subst d u. rewrite fwd_succ.
      destruct (fwd k) as [d0 u0]. cbn [fst snd] in I1, I2, I3, I4. cbn [spline_forward fst snd]. fold (sig (S k)).
      assert (Lo : forall i v, (i <= k)%nat -> store d0 (S k) v i = d0 i) by (intros; apply store_other; lia).
      replace (S k - 1)%nat with k by lia.
      split; [rewrite Lo by lia; auto|]. split; [rewrite !store_other by lia; auto|].
      assert (Sg := sig_range (S k) ltac:(lia) ltac:(lia)). assert (Dk := I3 k ltac:(lia)).
      assert (P : 1 < sig (S k) * d0 k + 2) by nra.
      split.
      + intros i Hi. destruct (Nat.eq_dec i (S k)) as [-> | N]; [|rewrite Lo by lia; apply I3; lia].
        rewrite store_same. unfold Rdiv. assert (Q : 0 < / (sig (S k) * d0 k + 2)) by (apply Rinv_0_lt_compat; lra).
        assert (E : (sig (S k) * d0 k + 2) * / (sig (S k) * d0 k + 2) = 1) by (apply Rinv_r; lra). split; nra.
      + intros i Hi. destruct (Nat.eq_dec i (S k)) as [-> | N].
        * replace (S k - 1)%nat with k by lia. rewrite !store_same. rewrite !(store_other _ (S k) _ k) by lia. split; auto.
          unfold rhs. replace (S k - 1)%nat with k by lia. reflexivity.
        * rewrite !store_other by lia. apply I4. lia.
  Qed.
  Lemma back_inv : forall u d0 m, (m + 1 <= n)%nat ->
    let d := fold_left (spline_back u) (rev (seq 0 m)) d0 in
    (forall i, (m <= i)%nat -> d i = d0 i) /\ (forall i, (i < m)%nat -> d i = d0 i * d (i + 1)%nat + u i).
  Proof.
    intros u d0 m. revert d0. induction m as [|m IH]; intros d0 Hm d; [split; [auto | intros; lia]|].
    assert (E : d = fold_left (spline_back u) (rev (seq 0 m)) (spline_back u d0 m)).
    { unfold d. rewrite seq_S, rev_app_distr. reflexivity. }
    destruct (IH (spline_back u d0 m) ltac:(lia)) as [A B]. rewrite <- E in A, B. clearbody d. unfold spline_back in A, B. split.
    - intros i Hi. rewrite A by lia. apply store_other. lia.
    - intros i Hi. destruct (Nat.eq_dec i m) as [-> | N].
      + rewrite A by lia. rewrite store_same. rewrite A by lia. rewrite store_other by lia. reflexivity.
      + rewrite B by lia. rewrite store_other by lia. reflexivity.
  Qed.

  Let m := spline x y n ys ye.
  Let h i := x (i + 1)%nat - x i.
  Let slope i := (y (i + 1)%nat - y i) / (x (i + 1)%nat - x i).
  Theorem spline_equations :
    (forall i, (1 <= i)%nat -> (i + 1 < n)%nat -> h (i - 1) / 6 * m (i - 1)%nat + (h (i - 1) + h i) / 3 * m i + h i / 6 * m (i + 1)%nat = slope i - slope (i - 1)%nat) /\
    (if above ys huge then m 0%nat = 0 else slope 0%nat - h 0%nat / 3 * m 0%nat - h 0%nat / 6 * m 1%nat = ys) /\
    (if above ye huge then m (n - 1)%nat = 0
     else slope (n - 2)%nat + h (n - 2)%nat / 6 * m (n - 2)%nat + h (n - 2)%nat / 3 * m (n - 1)%nat = ye).
  Proof.
    destruct (fwd_inv (n - 2) ltac:(lia)) as (I1 & I2 & I3 & I4).
    set (d := fst (fwd (n - 2))) in *. set (u := snd (fwd (n - 2))) in *.
    assert (Em : exists D, m = fold_left (spline_back u) (rev (seq 0 (n - 1))) D /\
      D (n - 1)%nat = (snd (spline_last x y n ye) - fst (spline_last x y n ye) * u (n - 2)%nat) / (fst (spline_last x y n ye) * d (n - 2)%nat + 1) /\
      forall i, (i < n - 1)%nat -> D i = d i).
    { unfold m, spline. fold (fwd (n - 2)). unfold d, u. destruct (fwd (n - 2)) as [d' u']. destruct (spline_last x y n ye) as [qn un]. cbn [fst snd].
      eexists. split; [reflexivity|]. split; [apply store_same|]. intros i Hi. apply store_other. lia. }
    destruct Em as (D & Em & DL & DI).
    destruct (back_inv u D (n - 1) ltac:(lia)) as [B1 B2]. rewrite <- Em in B1, B2.
    assert (Mi : forall i, (i < n - 1)%nat -> m i = d i * m (i + 1)%nat + u i) by (intros i Hi; rewrite <- DI by auto; apply B2; auto).
    assert (ML : m (n - 1)%nat = D (n - 1)%nat) by (apply B1; lia).
    clear Em B1 B2. clearbody m d u.
    assert (hp : forall i, (i + 1 < n)%nat -> 0 < h i) by (intros i Hi; unfold h; specialize (Hx i Hi); lra).
    split; [|split].
    - intros i H1 H2. destruct (I4 i ltac:(lia)) as [Ed Eu]. assert (M1 := Mi (i - 1)%nat ltac:(lia)). replace (i - 1 + 1)%nat with i in M1 by lia.
      assert (M2 := Mi i ltac:(lia)). assert (Sg := sig_range i H1 H2). assert (Dk := I3 (i - 1)%nat ltac:(lia)).
      assert (P : 0 < sig i * d (i - 1)%nat + 2) by nra.
      assert (E : (sig i * d (i - 1)%nat + 2) * m i = (sig i - 1) * m (i + 1)%nat + (6 * rhs i / (x (i + 1)%nat - x (i - 1)%nat) - sig i * u (i - 1)%nat)).
      { rewrite M2, Ed, Eu. assert (x (i - 1)%nat < x (i + 1)%nat) by (apply (increasing_lt n); auto; lia). field. lra. }
      assert (E2 : sig i * m (i - 1)%nat + 2 * m i + (1 - sig i) * m (i + 1)%nat = 6 * rhs i / (x (i + 1)%nat - x (i - 1)%nat)) by (rewrite M1; lra).
      assert (ha := hp (i - 1)%nat ltac:(lia)). assert (hb := hp i H2). unfold h in *. unfold slope. fold (rhs i) in *.
      replace (i - 1 + 1)%nat with i in * by lia. unfold sig in E2.
      set (w := x (i + 1)%nat - x (i - 1)%nat) in *. assert (hw : w <> 0) by (unfold w; lra).
      change ((y (i + 1)%nat - y i) / (x (i + 1)%nat - x i) - (y i - y (i - 1)%nat) / (x i - x (i - 1)%nat)) with (rhs i).
      transitivity (w / 6 * (6 * rhs i / w)); [|field; auto]. rewrite <- E2. unfold w in *. field. auto.
    - assert (M0 := Mi 0%nat ltac:(lia)). rewrite I1, I2 in M0. unfold spline_start in M0. assert (h0 := hp 0%nat ltac:(lia)). unfold h, slope in *.
      cbn [Nat.add] in *. destruct (above ys huge); cbn [fst snd] in M0; rewrite !store_same in M0; [lra|]. rewrite M0. field. lra.
    - rewrite DL in ML. unfold spline_last in ML. assert (M2 := Mi (n - 2)%nat ltac:(lia)). replace (n - 2 + 1)%nat with (n - 1)%nat in M2 by lia.
      assert (hl := hp (n - 2)%nat ltac:(lia)). unfold h, slope in *. replace (n - 2 + 1)%nat with (n - 1)%nat in * by lia.
      assert (Dk := I3 (n - 2)%nat ltac:(lia)). destruct (above ye huge); cbn [fst snd] in ML.
      + rewrite ML. field.
      + rewrite M2. rewrite ML. field. lra.
  Qed.
End equations.

(* ---- bisection ---- *)
Definition bracket (n : nat) (x : nat -> R) (t : R) (k : nat) : Prop :=
  (k + 1 < n)%nat /\ (k = 0%nat \/ x k <= t) /\ ((k + 2)%nat = n \/ t < x (k + 1)%nat).
Lemma bisect_bracket : forall x t n, (2 <= n)%nat -> exists k, bisect x t n 0 (n - 1) = (k, (k + 1)%nat) /\ bracket n x t k.
Proof.
  intros x t n Hn.
  assert (G : forall fuel lo hi, (lo < hi)%nat -> (hi < n)%nat -> (hi - lo <= fuel + 1)%nat -> (lo = 0%nat \/ x lo <= t) -> ((hi + 1)%nat = n \/ t < x hi) ->
    exists k, bisect x t fuel lo hi = (k, (k + 1)%nat) /\ bracket n x t k).
  { induction fuel as [|fuel IH]; intros lo hi H1 H2 H3 H4 H5; cbn [bisect].
    - exists lo. assert (hi = lo + 1)%nat as -> by lia. split; auto. split; [lia|]. split; auto. destruct H5; [left; lia | auto].
    - destruct (Nat.ltb_spec 1 (hi - lo)) as [L | L].
      + assert (K : (lo < Nat.div (hi + lo) 2 < hi)%nat).
        { pose proof (Nat.div_mod (hi + lo) 2 ltac:(lia)). pose proof (Nat.mod_upper_bound (hi + lo) 2 ltac:(lia)). lia. }
        unfold above. destruct (Rlt_dec t (x (Nat.div (hi + lo) 2))) as [Hk | Hk].
        * apply IH; auto; try lia.
        * apply IH; auto; try lia. right. lra.
      + exists lo. assert (hi = lo + 1)%nat as -> by lia. split; auto. split; [lia|]. split; auto. destruct H5; [left; lia | auto]. }
  apply G; lia.
Qed.
Lemma bracket_unique : forall n x t j k, increasing n x -> bracket n x t j -> bracket n x t k -> j = k.
Proof.
  intros n x t j k Hx (A1 & A2 & A3) (B1 & B2 & B3).
  destruct (Nat.lt_trichotomy j k) as [L | [E | L]]; auto; exfalso.
  - destruct B2 as [B2 | B2]; [lia|]. destruct A3 as [A3 | A3]; [lia|]. pose proof (increasing_le n x Hx (j + 1) k ltac:(lia)). lra.
  - destruct A2 as [A2 | A2]; [lia|]. destruct B3 as [B3 | B3]; [lia|]. pose proof (increasing_le n x Hx (k + 1) j ltac:(lia)). lra.
Qed.
Definition index (x : nat -> R) (n : nat) (t : R) : nat := fst (bisect x t n 0 (n - 1)).
Lemma index_bracket : forall x n t, (2 <= n)%nat -> bracket n x t (index x n t) /\ bisect x t n 0 (n - 1) = (index x n t, (index x n t + 1)%nat).
Proof. intros x n t Hn. destruct (bisect_bracket x t n Hn) as (k & E & B). unfold index. rewrite E. auto. Qed.

(* ---- gluing ---- *)
Lemma glue_derivable : forall f p q t l, (exists del, 0 < del /\ forall s, Rabs (s - t) < del -> f s = p s \/ f s = q s) -> p t = q t ->
  derivable_pt_lim p t l -> derivable_pt_lim q t l -> derivable_pt_lim f t l.
Proof.
  intros f p q t l (del & Hd & Hf) E Hp Hq eps He. destruct (Hp eps He) as (d1 & H1). destruct (Hq eps He) as (d2 & H2).
  assert (Pm : 0 < Rmin del (Rmin d1 d2)) by (apply Rmin_pos; [auto | apply Rmin_pos; [apply (cond_pos d1) | apply (cond_pos d2)]]).
  exists (mkposreal _ Pm). intros h Hh0 Hh. cbn in Hh.
  assert (h1 : Rabs h < del) by (apply Rlt_le_trans with (1 := Hh); apply Rmin_l).
  assert (h2 : Rabs h < Rmin d1 d2) by (apply Rlt_le_trans with (1 := Hh); apply Rmin_r).
  assert (h3 : Rabs h < d1) by (apply Rlt_le_trans with (1 := h2); apply Rmin_l).
  assert (h4 : Rabs h < d2) by (apply Rlt_le_trans with (1 := h2); apply Rmin_r).
  assert (ft : f t = p t). { destruct (Hf t) as [-> | ->]; auto. rewrite Rminus_diag_eq, Rabs_R0; auto. }
  destruct (Hf (t + h)) as [-> | ->]; [replace (t + h - t) with h by ring; auto | |]; rewrite ft; [apply H1 | rewrite E; apply H2]; auto.
Qed.
Lemma glue_continuous : forall f p q t, (exists del, 0 < del /\ forall s, Rabs (s - t) < del -> f s = p s \/ f s = q s) -> p t = q t ->
  continuity_pt p t -> continuity_pt q t -> continuity_pt f t.
Proof.
  intros f p q t (del & Hd & Hf) E Hp Hq eps He. destruct (Hp eps He) as (d1 & P1 & H1). destruct (Hq eps He) as (d2 & P2 & H2).
  exists (Rmin del (Rmin d1 d2)). split; [apply Rmin_pos; [auto | apply Rmin_pos; auto]|].
  intros s [Hs1 Hs2]. cbn in *. unfold R_dist in *.
  assert (h1 : Rabs (s - t) < del) by (apply Rlt_le_trans with (1 := Hs2); apply Rmin_l).
  assert (h2 : Rabs (s - t) < Rmin d1 d2) by (apply Rlt_le_trans with (1 := Hs2); apply Rmin_r).
  assert (h3 : Rabs (s - t) < d1) by (apply Rlt_le_trans with (1 := h2); apply Rmin_l).
  assert (h4 : Rabs (s - t) < d2) by (apply Rlt_le_trans with (1 := h2); apply Rmin_r).
  assert (ft : f t = p t). { destruct (Hf t) as [-> | ->]; auto. rewrite Rminus_diag_eq, Rabs_R0; auto. }
  destruct (Hf s h1) as [-> | ->]; rewrite ft; [apply H1 | rewrite E; apply H2]; auto.
Qed.

(* ---- the pieces ---- *)
Section pieces.
  Variables (x y m : nat -> R).
  Definition piece (k : nat) (t : R) : R :=
    let h := x (k + 1)%nat - x k in
    let a := (x (k + 1)%nat - t) / h in let b := (t - x k) / h in
    a * y k + b * y (k + 1)%nat + ((a ^ 3 - a) * m k + (b ^ 3 - b) * m (k + 1)%nat) * h ^ 2 / 6.
  Definition piece1 (k : nat) (t : R) : R :=
    let h := x (k + 1)%nat - x k in
    let a := (x (k + 1)%nat - t) / h in let b := (t - x k) / h in
    (y (k + 1)%nat - y k) / h - (3 * a ^ 2 - 1) / 6 * h * m k + (3 * b ^ 2 - 1) / 6 * h * m (k + 1)%nat.
  Definition piece2 (k : nat) (t : R) : R :=
    let h := x (k + 1)%nat - x k in
    (x (k + 1)%nat - t) / h * m k + (t - x k) / h * m (k + 1)%nat.
  Lemma cubic_deriv : forall c0 c1 c2 c3 s t,
    derivable_pt_lim (fun t => c0 + c1 * (t - s) + c2 * (t - s) ^ 2 + c3 * (t - s) ^ 3) t (c1 + 2 * c2 * (t - s) + 3 * c3 * (t - s) ^ 2).
  Proof.
    intros c0 c1 c2 c3 s t.
    assert (L : derivable_pt_lim (fun t => t - s) t 1).
    { replace 1 with (1 - 0) by ring. apply (derivable_pt_lim_minus id (fun _ => s)); [apply derivable_pt_lim_id | apply derivable_pt_lim_const]. }
    assert (Pw : forall k, derivable_pt_lim (fun t => (t - s) ^ k) t (INR k * (t - s) ^ pred k * 1)).
    { intros k. apply (derivable_pt_lim_comp (fun t => t - s) (fun u => u ^ k)); auto. apply derivable_pt_lim_pow. }
    replace (c1 + 2 * c2 * (t - s) + 3 * c3 * (t - s) ^ 2) with (((0 + c1 * 1) + c2 * (INR 2 * (t - s) ^ pred 2 * 1)) + c3 * (INR 3 * (t - s) ^ pred 3 * 1)) by (cbn; ring).
    apply (derivable_pt_lim_plus (fun t => c0 + c1 * (t - s) + c2 * (t - s) ^ 2) (fun t => c3 * (t - s) ^ 3)).
    - apply (derivable_pt_lim_plus (fun t => c0 + c1 * (t - s)) (fun t => c2 * (t - s) ^ 2)).
      + apply (derivable_pt_lim_plus (fun t => c0) (fun t => c1 * (t - s))); [apply derivable_pt_lim_const|].
        apply (derivable_pt_lim_scal (fun t => t - s) c1). auto.
      + apply (derivable_pt_lim_scal (fun t => (t - s) ^ 2) c2). apply Pw.
    - apply (derivable_pt_lim_scal (fun t => (t - s) ^ 3) c3). apply Pw.
  Qed.
  Lemma deriv_ext : forall f g t l, (forall s, f s = g s) -> derivable_pt_lim g t l -> derivable_pt_lim f t l.
  Proof. intros f g t l E H eps He. destruct (H eps He) as (d & Hd). exists d. intros. rewrite !E. auto. Qed.
  Lemma piece_deriv : forall k t, x (k + 1)%nat - x k <> 0 -> derivable_pt_lim (piece k) t (piece1 k t).
  Proof.
    intros k t Hh. set (h := x (k + 1)%nat - x k) in *.
    apply (deriv_ext _ (fun t => y k + ((y (k + 1)%nat - y k) / h - h / 3 * m k - h / 6 * m (k + 1)%nat) * (t - x k) + (m k / 2) * (t - x k) ^ 2 + ((m (k + 1)%nat - m k) / (6 * h)) * (t - x k) ^ 3)).
    - intros s. unfold piece. fold h. replace (x (k + 1)%nat - s) with (h - (s - x k)) by (unfold h; ring). generalize (s - x k). intros z. field. auto.
    - replace (piece1 k t) with (((y (k + 1)%nat - y k) / h - h / 3 * m k - h / 6 * m (k + 1)%nat) + 2 * (m k / 2) * (t - x k) + 3 * ((m (k + 1)%nat - m k) / (6 * h)) * (t - x k) ^ 2).
      + apply cubic_deriv.
      + unfold piece1. fold h. replace (x (k + 1)%nat - t) with (h - (t - x k)) by (unfold h; ring). generalize (t - x k). intros z. field. auto.
  Qed.
  Lemma piece1_deriv : forall k t, x (k + 1)%nat - x k <> 0 -> derivable_pt_lim (piece1 k) t (piece2 k t).
  Proof.
    intros k t Hh. set (h := x (k + 1)%nat - x k) in *.
    apply (deriv_ext _ (fun t => ((y (k + 1)%nat - y k) / h - h / 3 * m k - h / 6 * m (k + 1)%nat) + m k * (t - x k) + ((m (k + 1)%nat - m k) / (2 * h)) * (t - x k) ^ 2 + 0 * (t - x k) ^ 3)).
    - intros s. unfold piece1. fold h. replace (x (k + 1)%nat - s) with (h - (s - x k)) by (unfold h; ring). generalize (s - x k). intros z. field. auto.
    - replace (piece2 k t) with (m k + 2 * ((m (k + 1)%nat - m k) / (2 * h)) * (t - x k) + 3 * 0 * (t - x k) ^ 2).
      + apply cubic_deriv.
      + unfold piece2. fold h. replace (x (k + 1)%nat - t) with (h - (t - x k)) by (unfold h; ring). generalize (t - x k). intros z. field. auto.
  Qed.
  Lemma piece2_cont : forall k t, x (k + 1)%nat - x k <> 0 -> continuity_pt (piece2 k) t.
  Proof.
    intros k t Hh. set (h := x (k + 1)%nat - x k) in *. apply derivable_continuous_pt.
    exists ((m (k + 1)%nat - m k) / h + 2 * 0 * (t - x k) + 3 * 0 * (t - x k) ^ 2).
    apply (deriv_ext _ (fun t => m k + ((m (k + 1)%nat - m k) / h) * (t - x k) + 0 * (t - x k) ^ 2 + 0 * (t - x k) ^ 3)).
    - intros s. unfold piece2. fold h. replace (x (k + 1)%nat - s) with (h - (s - x k)) by (unfold h; ring). generalize (s - x k). intros z. field. auto.
    - apply cubic_deriv.
  Qed.
End pieces.

(* near t the interpolant is given by one or two pieces *)
Lemma near : forall n x t, (2 <= n)%nat -> increasing n x ->
  exists del j, 0 < del /\ (forall s, Rabs (s - t) < del -> index x n s = index x n t \/ index x n s = j) /\
    (j = index x n t \/ ((j + 1)%nat = index x n t /\ t = x (j + 1)%nat /\ (j + 2 < n)%nat)).
Proof.
  intros n x t Hn Hx. destruct (index_bracket x n t Hn) as [(B1 & B2 & B3) _]. set (k := index x n t) in *.
  assert (Hi : exists dh, 0 < dh /\ forall s, s < t + dh -> (k + 2)%nat = n \/ s < x (k + 1)%nat).
  { destruct B3 as [B3 | B3]; [exists 1; split; [lra | auto]|]. exists (x (k + 1)%nat - t). split; [lra|]. intros. right. lra. }
  destruct Hi as (dh & Ph & Hh).
  assert (Idx : forall s, bracket n x s (index x n s)) by (intros s; apply (index_bracket x n s Hn)).
  destruct (Nat.eq_dec k 0) as [K0 | K0].
  - exists dh, k. split; auto. split; auto. intros s Hs. left. apply Rabs_def2 in Hs. apply (bracket_unique n x s); auto.
    split; [auto|]. split; [auto|]. apply Hh. lra.
  - destruct B2 as [B2 | B2]; [contradiction|]. destruct (Rlt_le_dec (x k) t) as [L | L].
    + exists (Rmin dh (t - x k)), k. split; [apply Rmin_pos; lra|]. split; auto. intros s Hs. left.
      assert (s1 : Rabs (s - t) < dh) by (apply Rlt_le_trans with (1 := Hs); apply Rmin_l).
      assert (s2 : Rabs (s - t) < t - x k) by (apply Rlt_le_trans with (1 := Hs); apply Rmin_r).
      apply Rabs_def2 in s1, s2. apply (bracket_unique n x s); auto. split; [auto|]. split; [right; lra|]. apply Hh. lra.
    + assert (E : t = x k) by lra. assert (Lk : x (k - 1)%nat < x k) by (apply (increasing_lt n x Hx); lia).
      exists (Rmin dh (t - x (k - 1)%nat)), (k - 1)%nat. split; [apply Rmin_pos; lra|]. split.
      * intros s Hs.
        assert (s1 : Rabs (s - t) < dh) by (apply Rlt_le_trans with (1 := Hs); apply Rmin_l).
        assert (s2 : Rabs (s - t) < t - x (k - 1)%nat) by (apply Rlt_le_trans with (1 := Hs); apply Rmin_r).
        apply Rabs_def2 in s1, s2. destruct (Rle_lt_dec (x k) s) as [Ls | Ls].
        -- left. apply (bracket_unique n x s); auto. split; [auto|]. split; [auto|]. apply Hh. lra.
        -- right. apply (bracket_unique n x s); auto. split; [lia|]. split; [right; lra|]. right. replace (k - 1 + 1)%nat with k by lia. auto.
      * right. replace (k - 1 + 1)%nat with k by lia. split; [auto|]. split; [auto|]. lia.
Qed.
