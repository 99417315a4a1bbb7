(* Calculus needed for the metric transformations. *)
From Verif Require Import Base MetModel MetSpec.
From Coq Require Import Reals Lra Psatz Classical FunctionalExtensionality.
Open Scope R_scope.

Lemma inv_pos : forall n, 0 < / INR (S n).
Proof. intros. apply Rinv_0_lt_compat. apply lt_0_INR. lia. Qed.

Lemma quotients_cv : forall f x l, derivable_pt_lim f x l -> Un_cv (quotients f x) l.
Proof.
  intros f x l H eps He. destruct (H eps He) as (d & Hd).
  destruct (archimed_cor1 d (cond_pos d)) as (N & HN & HN0).
  exists N. intros n Hn. unfold R_dist, quotients. apply Hd.
  - pose proof (inv_pos n). lra.
  - pose proof (inv_pos n). rewrite Rabs_pos_eq by lra. apply Rle_lt_trans with (/ INR N); auto.
    apply Rinv_le_contravar; [apply lt_0_INR; lia | apply le_INR; lia].
Qed.
Lemma deriv_eq : forall f x l, derivable_pt_lim f x l -> deriv f x = l.
Proof.
  intros f x l H. pose proof (quotients_cv f x l H) as Q.
  assert (C : Cauchy_crit (quotients f x)) by (apply CV_Cauchy; exists l; auto).
  unfold deriv. destruct (ClassicalDedekindReals.sig_not_dec (Cauchy_crit (quotients f x))) as [N | N]; [|exfalso; auto].
  destruct (R_complete (quotients f x) (NNPP (Cauchy_crit (quotients f x)) N)) as (l' & L). cbn [proj1_sig]. apply (UL_sequence _ _ _ L Q).
Qed.
Lemma partial_eq : forall k F p l, has_partial k F p l -> partial k F p = l.
Proof. intros. apply deriv_eq. auto. Qed.

(* points *)
Lemma set_same : forall p k, set p k (p k) = p.
Proof. intros. apply functional_extensionality. intros i. unfold set. destruct (Nat.eqb_spec i k); subst; auto. Qed.
Lemma set_at : forall p k t, set p k t k = t.
Proof. intros. unfold set. rewrite Nat.eqb_refl. auto. Qed.
Lemma set_off : forall p k t i, i <> k -> set p k t i = p i.
Proof. intros. unfold set. destruct (Nat.eqb_spec i k); [contradiction|auto]. Qed.
Lemma set_set : forall p k t s, set (set p k t) k s = set p k s.
Proof. intros. apply functional_extensionality. intros i. unfold set. destruct (Nat.eqb i k); auto. Qed.
Lemma set_comm : forall p k t j s, j <> k -> set (set p k t) j s = set (set p j s) k t.
Proof. intros. apply functional_extensionality. intros i. unfold set. destruct (Nat.eqb_spec i j); destruct (Nat.eqb_spec i k); subst; auto; contradiction. Qed.

(* derivatives depend on nearby values only *)
Lemma derivable_local : forall f g x l d, 0 < d -> (forall t, Rabs (t - x) < d -> f t = g t) -> derivable_pt_lim f x l -> derivable_pt_lim g x l.
Proof.
  intros f g x l d Hd E H eps He. destruct (H eps He) as (e & Hh).
  assert (Hm : 0 < Rmin d e) by (apply Rmin_pos; auto; apply cond_pos).
  exists (mkposreal _ Hm). intros h Hn Hl. cbn in Hl.
  rewrite <- !E.
  - apply Hh; auto. apply Rlt_le_trans with (Rmin d e); auto. apply Rmin_r.
  - rewrite Rminus_diag_eq, Rabs_R0 by auto. auto.
  - replace (x + h - x) with h by ring. apply Rlt_le_trans with (Rmin d e); auto. apply Rmin_l.
Qed.
Lemma has_partial_local : forall U k F F' p l, axis_open U -> U p -> (forall q, U q -> F q = F' q) -> has_partial k F p l -> has_partial k F' p l.
Proof. intros U k F F' p l O Hp E H. destruct (O p k Hp) as (d & Hd & Ho). apply (derivable_local (fun t => F (set p k t)) _ _ _ d); auto. Qed.
Lemma partial_local : forall U k F F' p l, axis_open U -> U p -> (forall q, U q -> F q = F' q) -> has_partial k F p l -> partial k F' p = l.
Proof. intros. apply partial_eq. eapply has_partial_local; eauto. Qed.
Lemma has_partial_const : forall U k F p, axis_open U -> U p -> (forall t, U (set p k t) -> F (set p k t) = F p) -> has_partial k F p 0.
Proof.
  intros U k F p O Hp E. destruct (O p k Hp) as (d & Hd & Ho). apply (derivable_local (fun _ => F p) _ _ _ d); auto.
  - intros t Ht. rewrite E; auto.
  - apply derivable_pt_lim_const.
Qed.

(* sums *)
Lemma sumn_ext : forall n f g, (forall i, (i < n)%nat -> f i = g i) -> sumn n f = sumn n g.
Proof. induction n; intros f g H; cbn [sumn]; auto. rewrite (IHn f g), H by (intros; auto with arith). auto. Qed.
Lemma sumn_plus : forall n f g, sumn n (fun i => f i + g i) = sumn n f + sumn n g.
Proof. induction n; intros; cbn [sumn]; [ring|]. rewrite IHn. ring. Qed.
Lemma sumn_scal : forall n c f, sumn n (fun i => c * f i) = c * sumn n f.
Proof. induction n; intros; cbn [sumn]; [ring|]. rewrite IHn. ring. Qed.
Lemma sumn_scalr : forall n c f, sumn n (fun i => f i * c) = sumn n f * c.
Proof. induction n; intros; cbn [sumn]; [ring|]. rewrite IHn. ring. Qed.
Lemma sumn_swap : forall n m f, sumn n (fun i => sumn m (fun j => f i j)) = sumn m (fun j => sumn n (fun i => f i j)).
Proof.
  induction n; intros; cbn [sumn].
  - induction m; cbn [sumn]; auto. rewrite <- IHm. ring.
  - rewrite IHn. rewrite <- sumn_plus. auto.
Qed.
Lemma sumn_zero : forall n, sumn n (fun _ => 0) = 0.
Proof. induction n; cbn [sumn]; lra. Qed.
Lemma sumn_delta : forall n j f, (j < n)%nat -> sumn n (fun i => f i * (if Nat.eqb i j then 1 else 0)) = f j.
Proof.
  induction n; intros j f H; [lia|]. cbn [sumn]. destruct (Nat.eqb_spec n j).
  - subst. rewrite (sumn_ext j _ (fun _ => 0)). { rewrite sumn_zero. ring. } intros i Hi. destruct (Nat.eqb_spec i j); [lia|ring].
  - rewrite IHn by lia. ring.
Qed.
Lemma sumn_le : forall n f g, (forall i, (i < n)%nat -> f i <= g i) -> sumn n f <= sumn n g.
Proof. induction n; intros f g H; cbn [sumn]; [lra|]. apply Rplus_le_compat; [apply IHn; auto | apply H; auto]. Qed.

Lemma derivable_sumn : forall n (f : nat -> R -> R) x l, (forall i, (i < n)%nat -> derivable_pt_lim (f i) x (l i)) -> derivable_pt_lim (fun t => sumn n (fun i => f i t)) x (sumn n l).
Proof.
  induction n; intros f x l H; cbn [sumn].
  - apply derivable_pt_lim_const.
  - apply (derivable_pt_lim_plus (fun t => sumn n (fun i => f i t)) (f n)); auto.
Qed.

(* finitely many bounds have a common one *)
Lemma common : forall n (P : nat -> R -> Prop), (forall i d d', P i d -> 0 < d' <= d -> P i d') -> (forall i, (i < n)%nat -> exists d, 0 < d /\ P i d) ->
  exists d, 0 < d /\ forall i, (i < n)%nat -> P i d.
Proof.
  induction n; intros P M H.
  - exists 1. split; [lra|]. intros. lia.
  - destruct (IHn P M) as (d & Hd & Hp); auto. destruct (H n) as (d' & Hd' & Hp'); auto.
    exists (Rmin d d'). split; [apply Rmin_pos; auto|]. intros i Hi. destruct (Nat.eq_dec i n).
    + subst. apply (M n d'); auto. split; [apply Rmin_pos; auto | apply Rmin_r].
    + apply (M i d); [apply Hp; lia|]. split; [apply Rmin_pos; auto | apply Rmin_l].
Qed.

(* the chain rule *)
Lemma chain : forall n (g : field) (phi : nat -> R -> R) x G J,
  differentiable n g (fun i => phi i x) G -> (forall i, (i < n)%nat -> derivable_pt_lim (phi i) x (J i)) ->
  derivable_pt_lim (fun t => g (fun i => phi i t)) x (sumn n (fun i => G i * J i)).
Proof.
  intros n g phi x G J D H.
  assert (L : derivable_pt_lim (fun t => sumn n (fun i => G i * phi i t)) x (sumn n (fun i => G i * J i))).
  { apply (derivable_sumn n (fun i t => G i * phi i t)). intros i Hi. apply (derivable_pt_lim_scal (phi i)); auto. }
  intros eps He. destruct (L (eps / 2) ltac:(lra)) as (d1 & H1).
  set (A := sumn n (fun i => Rabs (J i) + 1)).
  assert (HA : 0 <= A). { unfold A. rewrite <- (sumn_zero n). apply sumn_le. intros. pose proof (Rabs_pos (J i)). lra. }
  destruct (D (eps / (2 * (A + 1)))) as (dg & Hdg & Hg). { apply Rdiv_lt_0_compat; lra. }
  (* the increments are small, and at most linear *)
  assert (S : exists d, 0 < d /\ forall i, (i < n)%nat -> forall h, h <> 0 -> Rabs h < d -> Rabs (phi i (x + h) - phi i x) <= (Rabs (J i) + 1) * Rabs h).
  { apply (common n (fun i d => forall h, h <> 0 -> Rabs h < d -> Rabs (phi i (x + h) - phi i x) <= (Rabs (J i) + 1) * Rabs h)).
    - intros i d d' P Hd h Hn Hh. apply P; auto. lra.
    - intros i Hi. destruct (H i Hi 1 Rlt_0_1) as (d & Hd). exists d. split; [apply cond_pos|]. intros h Hn Hh. specialize (Hd h Hn Hh).
      assert (Q : Rabs ((phi i (x + h) - phi i x) / h) <= Rabs (J i) + 1).
      { replace ((phi i (x + h) - phi i x) / h) with (((phi i (x + h) - phi i x) / h - J i) + J i) by ring.
        eapply Rle_trans; [apply Rabs_triang|]. lra. }
      replace (phi i (x + h) - phi i x) with ((phi i (x + h) - phi i x) / h * h) by (field; auto). rewrite Rabs_mult.
      apply Rmult_le_compat_r; auto. apply Rabs_pos. }
  destruct S as (d2 & Hd2 & S).
  assert (S' : exists d, 0 < d /\ forall i, (i < n)%nat -> (Rabs (J i) + 1) * d < dg).
  { apply (common n (fun i d => (Rabs (J i) + 1) * d < dg)).
    - intros i d d' P Hd. pose proof (Rabs_pos (J i)). nra.
    - intros i Hi. pose proof (Rabs_pos (J i)). exists (dg / (2 * (Rabs (J i) + 1))). split; [apply Rdiv_lt_0_compat; lra|].
      replace ((Rabs (J i) + 1) * (dg / (2 * (Rabs (J i) + 1)))) with (dg / 2) by (field; lra). lra. }
  destruct S' as (d3 & Hd3 & S').
  assert (Hm : 0 < Rmin d1 (Rmin d2 d3)) by (repeat apply Rmin_pos; auto; apply cond_pos).
  exists (mkposreal _ Hm). intros h Hn Hh. cbn in Hh.
  assert (B1 : Rabs h < d1) by (eapply Rlt_le_trans; [apply Hh | apply Rmin_l]).
  assert (B2 : Rabs h < d2) by (eapply Rlt_le_trans; [apply Hh | eapply Rle_trans; [apply Rmin_r | apply Rmin_l]]).
  assert (B3 : Rabs h < d3) by (eapply Rlt_le_trans; [apply Hh | eapply Rle_trans; [apply Rmin_r | apply Rmin_r]]).
  specialize (H1 h Hn B1). specialize (Hg (fun i => phi i (x + h))).
  assert (Q : Rabs (g (fun i => phi i (x + h)) - g (fun i => phi i x) - sumn n (fun i => G i * (phi i (x + h) - phi i x))) <= eps / (2 * (A + 1)) * (A * Rabs h)).
  { eapply Rle_trans; [apply Hg|].
    - intros i Hi. eapply Rle_lt_trans; [apply S; auto|]. apply Rle_lt_trans with ((Rabs (J i) + 1) * d3); [|auto].
      apply Rmult_le_compat_l; [pose proof (Rabs_pos (J i)); lra | lra].
    - apply Rmult_le_compat_l; [apply Rlt_le, Rdiv_lt_0_compat; lra|]. unfold A. rewrite <- sumn_scalr. apply sumn_le. intros i Hi. apply S; auto. }
  assert (E : sumn n (fun i => G i * (phi i (x + h) - phi i x)) = sumn n (fun i => G i * phi i (x + h)) - sumn n (fun i => G i * phi i x)).
  { replace (sumn n (fun i => G i * phi i (x + h)) - sumn n (fun i => G i * phi i x)) with (sumn n (fun i => G i * phi i (x + h)) + -1 * sumn n (fun i => G i * phi i x)) by ring.
    rewrite <- sumn_scal, <- sumn_plus. apply sumn_ext. intros. ring. }
  rewrite E in Q.
  set (s1 := sumn n (fun i => G i * phi i (x + h))) in *. set (s0 := sumn n (fun i => G i * phi i x)) in *. set (sl := sumn n (fun i => G i * J i)) in *.
  set (g1 := g (fun i => phi i (x + h))) in *. set (g0 := g (fun i => phi i x)) in *.
  replace ((g1 - g0) / h - sl) with ((g1 - g0 - (s1 - s0)) / h + ((s1 - s0) / h - sl)) by (field; auto).
  eapply Rle_lt_trans; [apply Rabs_triang|].
  assert (Q2 : Rabs ((g1 - g0 - (s1 - s0)) / h) <= eps / 2).
  { unfold Rdiv at 1. rewrite Rabs_mult, Rabs_inv. assert (0 < Rabs h) by (apply Rabs_pos_lt; auto).
    apply (Rmult_le_reg_r (Rabs h)); auto. rewrite Rmult_assoc, Rinv_l by lra. rewrite Rmult_1_r. eapply Rle_trans; [apply Q|].
    replace (eps / (2 * (A + 1)) * (A * Rabs h)) with (eps / 2 * Rabs h * (A / (A + 1))) by (field; lra).
    assert (A / (A + 1) <= 1). { apply (Rmult_le_reg_r (A + 1)); [lra|]. unfold Rdiv. rewrite Rmult_assoc, Rinv_l by lra. lra. }
    assert (0 <= eps / 2 * Rabs h) by nra. nra. }
  lra.
Qed.
Lemma chain_partial : forall n g k (X : nat -> field) p G J,
  differentiable n g (fun i => X i p) G -> (forall i, (i < n)%nat -> has_partial k (X i) p (J i)) ->
  has_partial k (fun q => g (fun i => X i q)) p (sumn n (fun i => G i * J i)).
Proof.
  intros n g k X p G J D H. unfold has_partial.
  apply (chain n g (fun i t => X i (set p k t))); auto. rewrite set_same. auto.
Qed.

Lemma has_partial_mult : forall k F F' p l l', has_partial k F p l -> has_partial k F' p l' -> has_partial k (fun q => F q * F' q) p (l * F' p + F p * l').
Proof.
  intros k F F' p l l' H H'. pose proof (derivable_pt_lim_mult _ _ _ _ _ H H') as M. cbn beta in M. rewrite set_same in M. exact M.
Qed.
Lemma has_partial_plus : forall k F F' p l l', has_partial k F p l -> has_partial k F' p l' -> has_partial k (fun q => F q + F' q) p (l + l').
Proof. intros k F F' p l l' H H'. exact (derivable_pt_lim_plus _ _ _ _ _ H H'). Qed.
Lemma has_partial_div : forall k F F' p l l', F' p <> 0 -> has_partial k F p l -> has_partial k F' p l' -> has_partial k (fun q => F q / F' q) p ((l * F' p - l' * F p) / Rsqr (F' p)).
Proof.
  intros k F F' p l l' N H H'. assert (N' : (fun t => F' (set p k t)) (p k) <> 0) by (rewrite set_same; auto).
  pose proof (derivable_pt_lim_div _ _ _ _ _ H H' N') as M. cbn beta in M. rewrite set_same in M. exact M.
Qed.
Lemma has_partial_sumn : forall n k (F : nat -> field) p l, (forall i, (i < n)%nat -> has_partial k (F i) p (l i)) -> has_partial k (fun q => sumn n (fun i => F i q)) p (sumn n l).
Proof. intros n k F p l H. exact (derivable_sumn n (fun i t => F i (set p k t)) (p k) l H). Qed.
Lemma has_partial_num : forall k c p, has_partial k (fun _ => c) p 0.
Proof. intros. exact (derivable_pt_lim_const c (p k)). Qed.
