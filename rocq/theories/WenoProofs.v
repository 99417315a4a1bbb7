(* Proofs about the WENO coefficients, weights and reconstruction. *)
From Verif Require Import Base FDModel FDSpec FDForn FDProofs AlgProofs WenoModel WenoSpec WenoPoly.
From Coq Require Import QArith Reals Qreals List ZArith Lia Lra.
Import ListNotations.
Local Open Scope R_scope.

Lemma wtotal_rsum : forall n w, wtotal n w = rsumR (map w (seq 0 n)).
Proof. induction n; intros w; [reflexivity|]. rewrite seq_S, map_app, rsumR_app. cbn [wtotal]. rewrite IHn. cbn. ring. Qed.

(* ---------- a candidate is the derivative of an interpolant ---------- *)
Lemma Q2R_qsum : forall l, Q2R (qsumQ l) = rsumR (map Q2R l).
Proof. induction l; cbn [map qsumQ fold_right]; [apply RMicromega.Q2R_0|]. fold (qsumQ l). rewrite Q2R_plus, IHl, rsumR_cons. auto. Qed.
Definition nodes0 (k : nat) : list Z := zrange 0 (Z.of_nat k + 1).
Definition lag (s : side) (k r : nat) (m : Z) : R :=
  peval (pderiv (prodR (without m (nodes0 k)))) (IZR (Z.of_nat r + offset_d s)) / denom (nodes0 k) m.
Lemma eno_term_lag : forall s k r m, Q2R (eno_term s k r m) = lag s k r m.
Proof.
  intros s k r m. unfold eno_term, lag.
  set (b := zprodZ (map (fun l => (m - l)%Z) (without m (zrange 0 (Z.of_nat k + 1))))).
  assert (Hb : IZR b <> 0) by (apply (denom_nonzero (nodes0 k) m)).
  rewrite Q2R_div.
  - rewrite !Q2R_inject_Z. unfold denom. fold (nodes0 k) in *. fold b. f_equal.
    rewrite prodR_deriv by (apply NoDup_without, NoDup_zrange).
    rewrite IZR_zsum, map_map. apply rsumR_map_ext. intros l _. rewrite IZR_zprod, map_map. f_equal.
    apply map_ext. intros q. rewrite plus_IZR, minus_IZR, plus_IZR. ring.
  - intros E. apply Hb. unfold Qeq in E. cbn in E. f_equal. lia.
Qed.

Lemma triangle : forall (w f : Z -> R) (k : nat),
  rsumR (map (fun j => rsumR (map w (zrange (j + 1) (Z.of_nat k + 1))) * f j) (zrange 0 (Z.of_nat k))) =
  rsumR (map (fun m => rsumR (map f (zrange 0 m)) * w m) (zrange 0 (Z.of_nat k + 1))).
Proof.
  intros w f. induction k as [|k IH].
  - change (zrange 0 (Z.of_nat 0)) with (@nil Z). change (zrange 0 (Z.of_nat 0 + 1)) with [0%Z]. rs.
    change (zrange 0 0) with (@nil Z). rs. ring.
  - replace (Z.of_nat (S k)) with (Z.of_nat k + 1)%Z by lia.
    rewrite (zrange_snoc 0 (Z.of_nat k + 1)) by lia. rewrite (map_app _ (zrange 0 (Z.of_nat k + 1))), rsumR_app.
    rewrite <- IH. rewrite (zrange_snoc 0 (Z.of_nat k)) at 1 by lia. rewrite map_app, rsumR_app.
    rewrite (rsumR_map_ext _ _ (fun j => rsumR (map w (zrange (j + 1) (Z.of_nat k + 1))) * f j + w (Z.of_nat k + 1)%Z * f j)).
    + rewrite rsumR_map_plus, rsumR_map_scale. rs. rewrite (zrange_snoc 0 (Z.of_nat k)) by lia.
      rewrite map_app, rsumR_app. rs.
      rewrite (zrange_cons (Z.of_nat k + 1)) by lia. rewrite (zrange_empty (Z.of_nat k + 1 + 1)) by lia. rs. ring.
    + intros j I. apply In_zrange in I. rewrite (zrange_snoc (j + 1) (Z.of_nat k + 1)) by lia.
      rewrite map_app, rsumR_app. rs. ring.
Qed.

Lemma nth_flat : forall (h : nat -> nat -> Z) k n r j, (r < n)%nat -> (j < k)%nat ->
  nth (r * k + j) (flat_map (fun r => map (h r) (seq 0 k)) (seq 0 n)) 0%Z = h r j.
Proof.
  intros h k n r j Hr Hj. assert (G : forall n s r, (r < n)%nat ->
    nth (r * k + j) (flat_map (fun r => map (h r) (seq 0 k)) (seq s n)) 0%Z = h (s + r)%nat j).
  { clear n r Hr. induction n as [|n IH]; intros s r Hr; [lia|]. cbn [seq flat_map].
    destruct r as [|r].
    - rewrite app_nth1 by (rewrite map_length, seq_length; lia). cbn [Nat.mul Nat.add].
      rewrite (nth_indep _ 0%Z (h s 0%nat)) by (rewrite map_length, seq_length; lia).
      rewrite map_nth, seq_nth by lia. f_equal. lia.
    - rewrite app_nth2 by (rewrite map_length, seq_length; lia). rewrite map_length, seq_length.
      replace (S r * k + j - k)%nat with (r * k + j)%nat by lia. rewrite IH by lia. f_equal. lia. }
  apply (G n 0%nat r Hr).
Qed.

(* position of the first cell of candidate r *)
Definition start (s : side) (r : nat) : Z := (point_shift s - Z.of_nat r)%Z.

Lemma candidate_sum : forall s k r f, (r < k)%nat ->
  candidate s k r f = rsumR (map (fun j => Q2R (eno_coefficient s k r j) * f (start s r + Z.of_nat j)%Z) (seq 0 k)).
Proof.
  intros s k r f Hr. unfold candidate. apply rsumR_map_ext. intros j I. apply in_seq in I.
  unfold func_points. rewrite (nth_flat (fun r j => (- Z.of_nat r + Z.of_nat j + point_shift s)%Z)) by lia.
  f_equal. f_equal. unfold start. lia.
Qed.

Lemma candidate_D : forall s k r f G, (r < k)%nat ->
  (forall x, (start s r <= x < start s r + Z.of_nat k)%Z -> G (x + 1)%Z - G x = f x) ->
  candidate s k r f = D (start s r) k 1 G.
Proof.
  intros s k r f G Hr HG. rewrite candidate_sum by auto. set (a := start s r) in *.
  replace 1 with (IZR (Z.of_nat r + offset_d s) + IZR a).
  2:{ rewrite <- plus_IZR. f_equal. unfold a, start. destruct s; unfold offset_d, point_shift; lia. }
  pose proof (D_shift 0 k (IZR (Z.of_nat r + offset_d s)) G a) as DS. rewrite Z.add_0_l in DS. rewrite DS. clear DS.
  (* the running sum is G up to a constant *)
  set (h := fun x => f (x + a)%Z).
  assert (C : forall x, (0 <= x <= Z.of_nat k)%Z -> G (x + a)%Z = 1 * rsumR (map h (zrange 0 x)) + G a * 1).
  { intros x Hx. assert (exists n, x = Z.of_nat n /\ (n <= k)%nat) as (n & -> & Hn) by (exists (Z.to_nat x); lia). clear Hx.
    induction n as [|n IH]; [cbn; rewrite Rmult_1_r; ring_simplify; reflexivity|].
    replace (Z.of_nat (S n)) with (Z.of_nat n + 1)%Z by lia. rewrite zrange_snoc by lia. rewrite map_app, rsumR_app. rs.
    specialize (HG (Z.of_nat n + a)%Z). replace (Z.of_nat n + 1 + a)%Z with (Z.of_nat n + a + 1)%Z by lia.
    unfold h at 2. assert (E := IH ltac:(lia)). rewrite E in HG. specialize (HG ltac:(lia)). lra. }
  rewrite (D_ext 0 k _ _ (fun x => 1 * rsumR (map h (zrange 0 x)) + G a * 1)) by (intros; apply C; lia).
  rewrite (D_lin 0 k _ 1 (G a) (fun x => rsumR (map h (zrange 0 x))) (fun _ => 1)), D_const.
  rewrite Rmult_0_r, Rplus_0_r, Rmult_1_l.
  unfold D. rewrite interp_deriv. rewrite Z.add_0_l.
  transitivity (rsumR (map (fun m => rsumR (map h (zrange 0 m)) * lag s k r m) (zrange 0 (Z.of_nat k + 1)))).
  - rewrite <- triangle. rewrite zrange_seq, map_map. apply rsumR_map_ext. intros j I. unfold h.
    replace (Z.of_nat j + a)%Z with (a + Z.of_nat j)%Z by lia. f_equal. unfold eno_coefficient.
    rewrite Q2R_qsum, map_map. apply rsumR_map_ext. intros. apply eno_term_lag.
  - apply rsumR_map_ext. intros m _. unfold lag, nodes0. unfold Rdiv. ring.
Qed.

(* an antiderivative on the integers exists for all cell values *)
Definition cumul (f : Z -> R) (x : Z) : R := rsumR (map f (zrange 0 x)) - rsumR (map f (zrange x 0)).
Lemma cumul_step : forall f x, cumul f (x + 1)%Z - cumul f x = f x.
Proof.
  intros f x. unfold cumul. destruct (Z_le_gt_dec 0 x) as [H|H].
  - rewrite zrange_snoc, map_app, rsumR_app by auto. rs. rewrite !(zrange_empty _ 0) by lia. rs. ring.
  - rewrite (zrange_cons x 0) by lia. rs. rewrite !(zrange_empty 0) by lia. rs. ring.
Qed.
Lemma candidate_cumul : forall s k r f, (r < k)%nat -> candidate s k r f = D (start s r) k 1 (cumul f).
Proof. intros. apply candidate_D; auto. intros. apply cumul_step. Qed.

(* ---------- C32 ---------- *)
Lemma candidate_exact : forall s k r, (r < k)%nat -> reconstructs_exactly (candidate s k r) (k - 1).
Proof.
  intros s k r Hr p F x h Hd HF Hh. unfold degree_at_most in Hd.
  set (g := pshift (x - 1/2 * h) h p).
  set (Gp := pprimitive g).
  rewrite (candidate_D s k r _ (fun z => peval Gp (IZR z))); auto.
  - rewrite (D_poly _ _ _ _ Gp).
    + rewrite (peq_eval _ _ _ (primitive_pderiv g)). unfold g. rewrite peval_pshift. f_equal. field.
    + unfold Gp. rewrite primitive_length. unfold g. rewrite pshift_length. lia.
    + auto.
  - intros z _. unfold cell_average.
    rewrite (same_derivative (peval Gp) (fun t => F (x - 1/2 * h + t * h) / h) (fun t => peval p (x - 1/2 * h + t * h))).
    + rewrite plus_IZR. replace (x - 1/2 * h + (IZR z + 1) * h) with (x + (IZR z + 1/2) * h) by field.
      replace (x - 1/2 * h + IZR z * h) with (x + (IZR z - 1/2) * h) by field. field. auto.
    + intros t. replace (peval p (x - 1/2 * h + t * h)) with (peval g t) by apply peval_pshift. apply primitive_derives.
    + intros t. assert (K : derivable_pt_lim (comp F (fun t => x - 1/2 * h + t * h)) t (peval p (x - 1/2 * h + t * h) * h)).
      { apply derivable_pt_lim_comp; [|apply HF].
        assert (L : derivable_pt_lim (fun u => x - 1/2 * h + u * h) t (0 + (1 * h + t * 0))).
        { apply (derivable_pt_lim_plus (fun _ => x - 1/2 * h) (fun u => u * h)). apply derivable_pt_lim_const.
          apply (derivable_pt_lim_mult (fun u => u) (fun _ => h)). apply derivable_pt_lim_id. apply derivable_pt_lim_const. }
        intros e He. destruct (L e He) as [d Hd']. exists d. intros u U1 U2. specialize (Hd' u U1 U2).
        replace (0 + (1 * h + t * 0)) with h in * by ring. exact Hd'. }
      assert (L : derivable_pt_lim (mult_real_fct (/ h) (comp F (fun t => x - 1/2 * h + t * h))) t (/ h * (peval p (x - 1/2 * h + t * h) * h)))
        by (apply derivable_pt_lim_scal; auto).
      replace (/ h * (peval p (x - 1/2 * h + t * h) * h)) with (peval p (x - 1/2 * h + t * h)) in L by (field; auto).
      intros e He. destruct (L e He) as [d Hd']. exists d. intros u U1 U2. specialize (Hd' u U1 U2).
      unfold mult_real_fct, comp in Hd'. replace (F (x - 1/2 * h + (t + u) * h) / h) with (/ h * F (x - 1/2 * h + (t + u) * h)) by (unfold Rdiv; ring).
      replace (F (x - 1/2 * h + t * h) / h) with (/ h * F (x - 1/2 * h + t * h)) by (unfold Rdiv; ring). exact Hd'.
Qed.

(* ---------- optimal weights ---------- *)
Lemma rsum_seq_S : forall n (f : nat -> R), rsumR (map f (seq 0 (S n))) = rsumR (map f (seq 0 n)) + f n.
Proof. intros. rewrite seq_S, map_app, rsumR_app. cbn. ring. Qed.
Lemma rsum_seq_shift : forall n (f : nat -> R), rsumR (map f (seq 0 (S n))) = f O + rsumR (map (fun i => f (S i)) (seq 0 n)).
Proof. intros. cbn [seq]. rs. f_equal. rewrite <- seq_shift, map_map. auto. Qed.

Lemma neville_weights : forall n a k, (a + Z.of_nat n <= 1)%Z -> (1 <= a + Z.of_nat k)%Z ->
  exists d : nat -> R, (forall i, (i <= n)%nat -> 0 < d i) /\ rsumR (map d (seq 0 (S n))) = 1 /\
    forall G, D a (k + n) 1 G = rsumR (map (fun i => d i * D (a + Z.of_nat i) k 1 G) (seq 0 (S n))).
Proof.
  induction n as [|n IH]; intros a k Ha Hk.
  - exists (fun _ => 1). split; [intros; lra|]. split; [cbn; ring|]. intros G. rs. cbn [seq]. rs.
    replace (a + Z.of_nat 0)%Z with a by lia. rewrite Nat.add_0_r. ring.
  - destruct (IH (a + 1)%Z k) as (d1 & P1 & S1 & E1); [lia|lia|].
    destruct (IH a k) as (d2 & P2 & S2 & E2); [lia|lia|].
    set (la := IZR (1 - a) / INR (S (k + n))). set (mu := IZR (a + Z.of_nat (k + n) + 1 - 1) / INR (S (k + n))).
    assert (N0 : 0 < INR (S (k + n))) by (apply lt_0_INR; lia).
    assert (L : 0 < la). { apply Rdiv_lt_0_compat; auto. apply IZR_lt. lia. }
    assert (M : 0 < mu). { apply Rdiv_lt_0_compat; auto. apply IZR_lt. lia. }
    assert (LM : la + mu = 1).
    { unfold la, mu. rewrite <- Rdiv_plus_distr, <- plus_IZR. replace (1 - a + (a + Z.of_nat (k + n) + 1 - 1))%Z with (Z.of_nat (S (k + n))) by lia.
      rewrite <- INR_IZR_INZ. field. lra. }
    set (u := fun i => match i with O => 0 | S i => la * d1 i end).
    set (v := fun i => if Nat.leb i n then mu * d2 i else 0).
    assert (U : forall (h : nat -> R), rsumR (map (fun i => u i * h i) (seq 0 (S (S n)))) = la * rsumR (map (fun i => d1 i * h (S i)) (seq 0 (S n)))).
    { intros h. rewrite rsum_seq_shift. cbn [u]. rewrite Rmult_0_l, Rplus_0_l, <- rsumR_map_scale. apply rsumR_map_ext. intros. ring. }
    assert (V : forall (h : nat -> R), rsumR (map (fun i => v i * h i) (seq 0 (S (S n)))) = mu * rsumR (map (fun i => d2 i * h i) (seq 0 (S n)))).
    { intros h. rewrite rsum_seq_S. unfold v at 2. replace (Nat.leb (S n) n) with false by (symmetry; apply Nat.leb_gt; lia).
      rewrite Rmult_0_l, Rplus_0_r, <- rsumR_map_scale. apply rsumR_map_ext. intros i I. apply in_seq in I.
      unfold v. replace (Nat.leb i n) with true by (symmetry; apply Nat.leb_le; lia). ring. }
    exists (fun i => u i + v i). split; [|split].
    + intros i Hi. unfold u, v. destruct i as [|i].
      * cbn [Nat.leb]. rewrite Rplus_0_l. apply Rmult_lt_0_compat; auto. apply P2. lia.
      * assert (0 < la * d1 i) by (apply Rmult_lt_0_compat; auto; apply P1; lia).
        destruct (Nat.leb_spec (S i) n); [|lra].
        assert (0 < mu * d2 (S i)) by (apply Rmult_lt_0_compat; auto; apply P2; lia). lra.
    + rewrite (rsumR_map_ext _ _ (fun i => u i * 1 + v i * 1)) by (intros; ring).
      rewrite rsumR_map_plus, (U (fun _ => 1)), (V (fun _ => 1)).
      rewrite (rsumR_map_ext _ (fun i => d1 i * 1) d1), (rsumR_map_ext _ (fun i => d2 i * 1) d2) by (intros; ring).
      rewrite S1, S2. lra.
    + intros G. replace (k + S n)%nat with (S (k + n)) by lia. rewrite (D_neville a (k + n) 1 G) by lia.
      fold la mu. rewrite E1, E2.
      rewrite (rsumR_map_ext _ (fun i => (u i + v i) * _) (fun i => u i * D (a + Z.of_nat i) k 1 G + v i * D (a + Z.of_nat i) k 1 G)) by (intros; ring).
      rewrite rsumR_map_plus, (U (fun i => D (a + Z.of_nat i) k 1 G)), (V (fun i => D (a + Z.of_nat i) k 1 G)).
      f_equal. f_equal. apply rsumR_map_ext. intros i _. f_equal. f_equal. lia.
Qed.

(* positive weights with unit sum combining the candidates to the wide stencil *)
Lemma rsum_rev : forall n (f : nat -> R), rsumR (map (fun i => f (n - 1 - i)%nat) (seq 0 n)) = rsumR (map f (seq 0 n)).
Proof.
  induction n as [|n IH]; intros f; [reflexivity|]. rewrite rsum_seq_shift, rsum_seq_S. rewrite <- (IH f).
  replace (S n - 1 - 0)%nat with n by lia. rewrite Rplus_comm. f_equal. apply rsumR_map_ext. intros i _. f_equal. lia.
Qed.
Lemma ideal_weights : forall s k, (1 <= k)%nat -> exists e : nat -> R,
  (forall r, (r < k)%nat -> 0 < e r) /\ rsumR (map e (seq 0 k)) = 1 /\
  forall f, candidate s (2 * k - 1) (k - 1) f = rsumR (map (fun r => e r * candidate s k r f) (seq 0 k)).
Proof.
  intros s k Hk. destruct (neville_weights (k - 1) (start s (k - 1)) k) as (d & P & S1 & E).
  - unfold start. destruct s; unfold offset_d, point_shift; lia.
  - unfold start. destruct s; unfold offset_d, point_shift; lia.
  - replace (S (k - 1)) with k in * by lia. exists (fun r => d (k - 1 - r)%nat). split; [|split].
    + intros. apply P. lia.
    + rewrite rsum_rev. auto.
    + intros f. rewrite candidate_cumul by lia. replace (2 * k - 1)%nat with (k + (k - 1))%nat by lia. rewrite E.
      rewrite <- rsum_rev. apply rsumR_map_ext. intros r I. apply in_seq in I. rewrite candidate_cumul by lia.
      f_equal. f_equal. unfold start. lia.
Qed.

(* coefficients by indicator functions *)
Definition ind (p : Z) : Z -> R := fun x => if Z.eqb x p then 1 else 0.
Lemma candidate_ind : forall s k r j, (r < k)%nat -> (j < k)%nat ->
  candidate s k r (ind (start s r + Z.of_nat j)) = Q2R (eno_coefficient s k r j).
Proof.
  intros s k r j Hr Hj. rewrite candidate_sum by auto.
  rewrite (rsumR_single _ _ _ j (seq_NoDup _ _)).
  - unfold ind. rewrite Z.eqb_refl. ring.
  - apply in_seq. lia.
  - intros i _ Hi. unfold ind. destruct (Z.eqb_spec (start s r + Z.of_nat i) (start s r + Z.of_nat j)); [lia|ring].
Qed.
Lemma candidate_ind_out : forall s k r p, (r < k)%nat -> (p < start s r)%Z -> candidate s k r (ind p) = 0.
Proof.
  intros s k r p Hr Hp. rewrite candidate_sum by auto. apply rsumR_map_0. intros j _. unfold ind.
  destruct (Z.eqb_spec (start s r + Z.of_nat j) p); [lia|ring].
Qed.

Lemma prod_deriv_pos : forall qs, (forall q, In q qs -> (0 < q)%Z) -> qs <> [] ->
  0 < (-1) ^ (List.length qs) * peval (prodR qs) 0 /\ 0 < (-1) ^ (S (List.length qs)) * peval (pderiv (prodR qs)) 0.
Proof.
  induction qs as [|q qs IH]; intros H N; [tauto|]. cbn [prodR fold_right]. fold (prodR qs).
  rewrite peval_mono, pderiv_mono. cbn [List.length].
  assert (Q : 0 < IZR q) by (apply IZR_lt, H; cbn; auto).
  destruct qs as [|q' qs].
  - cbn. lra.
  - destruct IH as [A B]; [intros; apply H; cbn; auto|discriminate|].
    set (n := List.length (q' :: qs)) in *. set (u := peval (prodR (q' :: qs)) 0) in *. set (v := peval (pderiv (prodR (q' :: qs))) 0) in *.
    cbn [pow] in *. set (e := (-1) ^ n) in *. split; nra.
Qed.
Lemma prod_deriv_nonzero : forall qs (y : Z), NoDup qs -> qs <> [] -> (In y qs \/ forall q, In q qs -> (y < q)%Z) ->
  peval (pderiv (prodR qs)) (IZR y) <> 0.
Proof.
  intros qs y N Ne [I|H].
  - rewrite prodR_deriv by auto. rewrite (rsumR_single _ _ qs y N I).
    + apply rprod_nonzero. rewrite in_map_iff. intros (q & E & Iq). apply In_without in Iq. destruct Iq as [_ Hq].
      apply Hq. apply eq_IZR. lra.
    + intros l _ Hl. apply rprod_zero. apply in_map_iff. exists y. split; [ring|]. apply In_without. auto.
  - (* shift to zero *)
    assert (E : peval (pderiv (prodR qs)) (IZR y) = peval (pderiv (prodR (map (fun q => q - y)%Z qs))) 0).
    { clear. induction qs as [|q qs IH]; [cbn; ring|]. cbn [prodR fold_right map]. fold (prodR qs).
      fold (prodR (map (fun q => (q - y)%Z) qs)). rewrite !pderiv_mono, IH, !prodR_eval, map_map, minus_IZR.
      replace (map (fun x => 0 - IZR (x - y)) qs) with (map (fun q => IZR y - IZR q) qs).
      ring. apply map_ext. intros. rewrite minus_IZR. ring. }
    rewrite E. destruct (prod_deriv_pos (map (fun q => q - y)%Z qs)) as [_ P].
    + intros q Iq. apply in_map_iff in Iq. destruct Iq as (q0 & <- & I0). specialize (H q0 I0). lia.
    + destruct qs; [tauto|discriminate].
    + intros Z0. rewrite Z0 in P. lra.
Qed.

Lemma pivot_nonzero : forall s k r, (r < k)%nat -> Q2R (eno_coefficient s k r 0) <> 0.
Proof.
  intros s k r Hr. rewrite <- (candidate_ind s k r 0) by lia. set (a := start s r). replace (a + Z.of_nat 0)%Z with a by lia.
  rewrite (candidate_D s k r (ind a) (fun x => -1 * ind a x + 1 * 1)); auto.
  - fold a. rewrite (D_lin a k 1 (-1) 1 (ind a) (fun _ => 1)). rewrite D_const.
    unfold D. rewrite interp_deriv.
    rewrite (rsumR_single _ _ _ a (NoDup_zrange _ _)).
    + unfold ind. rewrite Z.eqb_refl.
      assert (X : peval (pderiv (prodR (without a (zrange a (a + Z.of_nat k + 1))))) (IZR 1) <> 0).
      { apply prod_deriv_nonzero. apply NoDup_without, NoDup_zrange.
        - rewrite (zrange_cons a) by lia. cbn [without filter]. rewrite Z.eqb_refl. cbn [negb]. fold (without a (zrange (a + 1) (a + Z.of_nat k + 1))).
          rewrite without_notin by (rewrite In_zrange; lia). rewrite zrange_cons by lia. discriminate.
        - destruct (Z.eq_dec a 1) as [E|E].
          + right. intros q I. apply In_without in I. rewrite In_zrange in I. lia.
          + left. apply In_without. rewrite In_zrange. unfold a, start in *. destruct s; cbn [point_shift] in *; lia. }
      pose proof (denom_nonzero (zrange a (a + Z.of_nat k + 1)) a) as DN.
      pose proof (Rinv_neq_0_compat _ DN). unfold Rdiv. nra.
    + apply In_zrange. lia.
    + intros m _ Hm. unfold ind. destruct (Z.eqb_spec m a); [tauto|]. unfold Rdiv. ring.
  - intros x Hx. unfold ind. fold a in Hx. destruct (Z.eqb_spec (x + 1) a); [lia|]. destruct (Z.eqb_spec x a); lra.
Qed.

Lemma solve_length : forall s k i, List.length (solve_weights s k i) = i.
Proof. induction i; cbn; auto. Qed.
Lemma solve_unique : forall s k (e : nat -> R), (1 <= k)%nat ->
  (forall f, candidate s (2 * k - 1) (k - 1) f = rsumR (map (fun r => e r * candidate s k r f) (seq 0 k))) ->
  forall i, (i <= k)%nat -> forall j, (j < i)%nat -> Q2R (nth j (solve_weights s k i) 0%Q) = e (k - i + j)%nat.
Proof.
  intros s k e Hk H. induction i as [|i IH]; intros Hi j Hj; [lia|]. cbn [solve_weights].
  destruct j as [|j]; [|cbn [nth]; rewrite IH by lia; f_equal; lia]. cbn [nth].
  pose proof (pivot_nonzero s k (k - 1 - i) ltac:(lia)) as Pv.
  assert (PQ : ~ (eno_coefficient s k (k - 1 - i) 0 == 0)%Q).
  { intros E. apply Pv. rewrite (Qeq_eqR _ _ E). apply RMicromega.Q2R_0. }
  rewrite Q2R_div, Q2R_minus, Q2R_qsum, map_map by auto.
  pose proof (H (ind (start s (k - 1) + Z.of_nat i))) as E. rewrite candidate_ind in E by lia. rewrite E.
  (* split the sum at k-1-i *)
  replace (seq 0 k) with (seq 0 (k - 1 - i) ++ seq (k - 1 - i) (S i)).
  2:{ replace k with ((k - 1 - i) + S i)%nat at 3 by lia. rewrite seq_app. reflexivity. }
  rewrite map_app, rsumR_app. rewrite (rsumR_map_0 _ _ (seq 0 (k - 1 - i))).
  2:{ intros r I. apply in_seq in I. rewrite candidate_ind_out; [ring|lia|]. unfold start. lia. }
  cbn [seq]. rs. replace (k - S i + 0)%nat with (k - 1 - i)%nat by lia.
  replace (start s (k - 1) + Z.of_nat i)%Z with (start s (k - 1 - i) + Z.of_nat 0)%Z at 1 by (unfold start; lia).
  rewrite candidate_ind by lia.
  match goal with |- (0 + (?A + ?B) - ?C) / _ = _ => assert (BC : B = C) end.
  { replace (seq (S (k - 1 - i)) i) with (map (fun j => (k - 1 - i + j)%nat) (seq 1 i)).
    - rewrite map_map. apply rsumR_map_ext. intros j I. apply in_seq in I. rewrite Q2R_mult, IH by lia.
      replace (start s (k - 1) + Z.of_nat i)%Z with (start s (k - 1 - i + j) + Z.of_nat j)%Z by (unfold start; lia).
      rewrite candidate_ind by lia. f_equal. f_equal. lia.
    - assert (G : forall a n b, map (fun j => (a + j)%nat) (seq b n) = seq (a + b) n).
      { induction n; cbn; intros; auto. f_equal. rewrite IHn. f_equal. lia. }
      rewrite G. f_equal. lia. }
  rewrite BC. field. auto.
Qed.

(* ---------- C33 ---------- *)
Lemma opt_unique : forall s k (e : nat -> R), (1 <= k)%nat ->
  (forall f, candidate s (2 * k - 1) (k - 1) f = rsumR (map (fun r => e r * candidate s k r f) (seq 0 k))) ->
  forall r, (r < k)%nat -> Q2R (nth r (opt_weights s k) 0%Q) = e r.
Proof. intros s k e Hk H r Hr. unfold opt_weights. rewrite (solve_unique s k e Hk H k) by lia. f_equal. lia. Qed.
Definition dw (s : side) (k r : nat) : R := Q2R (nth r (opt_weights s k) 0%Q).
Lemma opt_weights_ok : forall s k, (1 <= k)%nat ->
  (forall r, (r < k)%nat -> 0 < dw s k r) /\ rsumR (map (dw s k) (seq 0 k)) = 1 /\
  forall f, candidate s (2 * k - 1) (k - 1) f = rsumR (map (fun r => dw s k r * candidate s k r f) (seq 0 k)).
Proof.
  intros s k Hk. destruct (ideal_weights s k Hk) as (e & P & S1 & E). pose proof (opt_unique s k e Hk E) as U.
  split; [|split].
  - intros. unfold dw. rewrite U; auto.
  - rewrite <- S1. apply rsumR_map_ext. intros r I. apply in_seq in I. unfold dw. apply U. lia.
  - intros f. rewrite E. apply rsumR_map_ext. intros r I. apply in_seq in I. unfold dw. rewrite U by lia. auto.
Qed.
Lemma opt_length : forall s k, List.length (opt_weights s k) = k.
Proof. intros. apply solve_length. Qed.

(* ---------- C34 ---------- *)
Lemma smoothness_nonneg : forall s k r f, 0 <= smoothness_indicator s k r f.
Proof.
  intros. unfold smoothness_indicator, smoothness. apply rsumR_nonneg. intros x I. apply in_map_iff in I.
  destruct I as (l & <- & _). apply integral_square_nonneg.
Qed.
Definition alpha (fm : formulation) (s : side) (k : nat) (eps tau : R) (b : nat -> R) (r : nat) : R :=
  match fm with JS => dw s k r / (eps + b r) ^ 2 | WZ => dw s k r * (1 + (tau / (eps + b r)) ^ 2) end.
Lemma alphas_eq : forall fm s k eps b al, alphas fm s k eps b = Ok al ->
  exists tau, al = map (alpha fm s k eps tau b) (seq 0 k) /\ (fm = WZ -> global_smoothness k b = Ok tau).
Proof.
  intros fm s k eps b al H. destruct fm; cbn [alphas] in H.
  - exists 0. split; [|discriminate]. inversion H. auto.
  - destruct (global_smoothness k b) as [tau|] eqn:E; cbn [bind] in H; inversion H; subst. exists tau. auto.
Qed.
Lemma alpha_pos : forall fm s k eps tau b r, (r < k)%nat -> 0 < eps -> 0 <= b r -> 0 < alpha fm s k eps tau b r.
Proof.
  intros fm s k eps tau b r Hr He Hb. destruct (opt_weights_ok s k ltac:(lia)) as (P & _). specialize (P r Hr).
  destruct fm; cbn [alpha].
  - apply Rdiv_lt_0_compat; auto. apply pow_lt. lra.
  - apply Rmult_lt_0_compat; auto. pose proof (pow2_ge_0 (tau / (eps + b r))). lra.
Qed.
Lemma omega_nth : forall (a : nat -> R) k r, (r < k)%nat ->
  nth r (omegas (map a (seq 0 k))) 0 = a r * (1 / rsumR (map a (seq 0 k))).
Proof.
  intros a k r Hr. unfold omegas. rewrite map_map.
  rewrite (nth_indep _ 0 (a O * (1 / rsumR (map a (seq 0 k))))) by (rewrite map_length, seq_length; auto).
  rewrite (map_nth (fun x => a x * (1 / rsumR (map a (seq 0 k)))) (seq 0 k) 0%nat r), seq_nth by auto. auto.
Qed.
Definition weight (a : nat -> R) (k r : nat) : R := a r * (1 / rsumR (map a (seq 0 k))).
Lemma weight_ok : forall a k, (1 <= k)%nat -> (forall r, (r < k)%nat -> 0 < a r) ->
  (forall r, (r < k)%nat -> 0 < weight a k r) /\ rsumR (map (weight a k) (seq 0 k)) = 1.
Proof.
  intros a k Hk H. assert (P : 0 < rsumR (map a (seq 0 k))).
  { apply rsumR_pos. destruct k; [lia|discriminate]. intros x I. apply in_map_iff in I. destruct I as (r & <- & I).
    apply in_seq in I. apply H. lia. }
  split.
  - intros r Hr. unfold weight. apply Rmult_lt_0_compat; auto. apply Rdiv_lt_0_compat; lra.
  - unfold weight. rewrite (rsumR_map_ext _ _ (fun r => 1 / rsumR (map a (seq 0 k)) * a r)) by (intros; ring).
    rewrite rsumR_map_scale. field. lra.
Qed.
Lemma reconstruction_eq : forall fm s k eps f v, reconstruction fm s k eps f = Ok v ->
  exists tau, v = rsumR (map (fun r => weight (alpha fm s k eps tau (fun r => smoothness_indicator s k r f)) k r * candidate s k r f) (seq 0 k))
    /\ (fm = WZ -> global_smoothness k (fun r => smoothness_indicator s k r f) = Ok tau) /\ k <> 1%nat.
Proof.
  intros fm s k eps f v H. unfold reconstruction in H. destruct (Nat.eqb_spec k 1); [discriminate|].
  apply bind_ok in H. destruct H as (al & Ha & H). inversion H; subst v. clear H.
  apply alphas_eq in Ha. destruct Ha as (tau & -> & T). exists tau. split; auto.
  apply rsumR_map_ext. intros r I. apply in_seq in I. rewrite omega_nth by lia. auto.
Qed.
Lemma convex_bounds : forall k (w c : nat -> R) lo hi, (forall r, (r < k)%nat -> 0 < w r) -> rsumR (map w (seq 0 k)) = 1 ->
  (forall r, (r < k)%nat -> lo <= c r <= hi) -> lo <= rsumR (map (fun r => w r * c r) (seq 0 k)) <= hi.
Proof.
  intros k w c lo hi P S1 H.
  assert (G : forall n, (n <= k)%nat -> lo * rsumR (map w (seq 0 n)) <= rsumR (map (fun r => w r * c r) (seq 0 n)) <= hi * rsumR (map w (seq 0 n))).
  { induction n as [|n IH]; intros Hn; [cbn; lra|]. rewrite !rsum_seq_S. specialize (IH ltac:(lia)).
    specialize (P n ltac:(lia)). specialize (H n ltac:(lia)). nra. }
  specialize (G k ltac:(lia)). rewrite S1 in G. lra.
Qed.
Lemma exactly_sum : forall k n (w : nat -> R) (c : nat -> (Z -> R) -> R), rsumR (map w (seq 0 k)) = 1 ->
  (forall r, (r < k)%nat -> reconstructs_exactly (c r) n) ->
  reconstructs_exactly (fun f => rsumR (map (fun r => w r * c r f) (seq 0 k))) n.
Proof.
  intros k n w c S1 H p F x h Hd HF Hh.
  rewrite (rsumR_map_ext _ _ (fun r => peval p (x + 1/2 * h) * w r)).
  - rewrite rsumR_map_scale, S1. ring.
  - intros r I. apply in_seq in I. rewrite (H r ltac:(lia) p F x h); auto. ring.
Qed.

(* ---------- C35 ---------- *)
Lemma eval_peq : forall p q, (forall t, peval p t = peval q t) -> peq p q.
Proof.
  intros p q H. apply (poly_unique (zrange 0 (Z.of_nat (List.length p + List.length q)))); auto.
  apply NoDup_zrange. rewrite zrange_length; lia. rewrite zrange_length; lia.
Qed.
Lemma pderivs_scale : forall l c p t, peval (pderivs l (pscaleR c p)) t = c * peval (pderivs l p) t.
Proof.
  induction l as [|l IH]; intros c p t; cbn [pderivs]; [apply peval_scale|].
  rewrite <- IH. apply peq_eval. apply peq_pderivs. apply eval_peq. intros u. rewrite pderiv_scale, peval_scale. auto.
Qed.
Lemma pderivs_pshift : forall l x h p t, peval (pderivs l (pshift x h p)) t = h ^ l * peval (pderivs l p) (x + t * h).
Proof.
  induction l as [|l IH]; intros x h p t; cbn [pderivs pow]; [rewrite peval_pshift; ring|].
  rewrite (peq_eval _ (pderivs l (pscaleR h (pshift x h (pderiv p))))).
  - rewrite pderivs_scale, IH. ring.
  - apply peq_pderivs. apply eval_peq. intros u. rewrite pderiv_pshift, peval_scale, peval_pshift. auto.
Qed.

Lemma running_reflect : forall r r' g x, (- Z.of_nat r' <= x <= Z.of_nat r + 1)%Z ->
  running_sum r' (fun i => g (- i)%Z) x + running_sum r g (1 - x) = running_sum r g (Z.of_nat r' + 1).
Proof.
  intros r r' g x H. assert (exists n, x = (- Z.of_nat r' + Z.of_nat n)%Z) as (n & ->) by (exists (Z.to_nat (x + Z.of_nat r')); lia).
  induction n as [|n IH].
  - unfold running_sum. rewrite (zrange_empty (- Z.of_nat r')) by lia. rs. rewrite Rplus_0_l. do 3 f_equal. lia.
  - rewrite <- IH by lia. unfold running_sum.
    replace (- Z.of_nat r' + Z.of_nat (S n))%Z with ((- Z.of_nat r' + Z.of_nat n) + 1)%Z by lia.
    set (y := (- Z.of_nat r' + Z.of_nat n)%Z) in *. rewrite (zrange_snoc _ y) by lia. rewrite map_app, rsumR_app. rs.
    replace (1 - y)%Z with (1 - (y + 1) + 1)%Z by lia. rewrite (zrange_snoc _ (1 - (y + 1))) by lia.
    rewrite (map_app g), rsumR_app. rs. replace (1 - (y + 1))%Z with (- y)%Z by lia. ring.
Qed.
Lemma smoothness_reflect : forall k r g, (r < k)%nat -> smoothness k (k - 1 - r) (fun i => g (- i)%Z) = smoothness k r g.
Proof.
  intros k r g Hr. unfold smoothness. set (r' := (k - 1 - r)%nat).
  set (P := interpolating_poly (zrange (- Z.of_nat r) (Z.of_nat k + 1 - Z.of_nat r)) (running_sum r g)).
  set (P' := interpolating_poly (zrange (- Z.of_nat r') (Z.of_nat k + 1 - Z.of_nat r')) (running_sum r' (fun i => g (- i)%Z))).
  set (c := running_sum r g (Z.of_nat r' + 1)).
  assert (E : peq P' (paddR [c] (pscaleR (-1) (pshift 1 (-1) P)))).
  { apply interp_unique.
    - apply NoDup_zrange.
    - assert (L : (List.length P <= S k)%nat).
      { unfold P. eapply Nat.le_trans. apply interp_length. apply NoDup_zrange. rewrite zrange_length. lia. }
      rewrite paddR_length, zrange_length. unfold pscaleR. rewrite map_length, pshift_length. cbn [List.length]. lia.
    - intros x I. apply In_zrange in I. rewrite peval_add, peval_scale, peval_pshift.
      replace (1 + IZR x * -1) with (IZR (1 - x)) by (rewrite minus_IZR; ring).
      assert (N : peval P (IZR (1 - x)) = running_sum r g (1 - x)).
      { apply interp_node. apply NoDup_zrange. apply In_zrange. unfold r' in I. lia. }
      rewrite N. unfold c. rewrite <- (running_reflect r r' g x) by (unfold r' in *; lia). cbn [peval]. ring. }
  apply rsumR_map_ext. intros l _. apply integral_reflect. intros x. rewrite !pmulR_eval.
  change (pderivs l (pderiv P')) with (pderivs (S l) P'). change (pderivs l (pderiv P)) with (pderivs (S l) P).
  assert (V : peval (pderivs (S l) P') x = - (-1) ^ (S l) * peval (pderivs (S l) P) (1 - x)).
  { rewrite (peq_eval _ _ x (peq_pderivs (S l) _ _ E)), pderivs_paddR, peval_add, pderivs_scale, pderivs_pshift.
    replace (1 + x * -1) with (1 - x) by ring.
    assert (Z0 : peval (pderivs (S l) [c]) x = 0).
    { cbn [pderivs pderiv paddR]. clear. generalize x. intros. apply peval_zero. intros i.
      assert (G : forall l p, (forall i, nth i p 0 = 0) -> forall i, nth i (pderivs l p) 0 = 0).
      { induction l0 as [|l0 IH]; intros p H j; cbn [pderivs]; auto. apply IH. intros m. rewrite nth_pderiv, H. ring. }
      apply G. intros [|[|j]]; reflexivity. }
    rewrite Z0. ring. }
  rewrite !V. replace (- (-1) ^ S l * peval (pderivs (S l) P) (1 - x) * (- (-1) ^ S l * peval (pderivs (S l) P) (1 - x)))
    with (((-1) ^ S l * (-1) ^ S l) * (peval (pderivs (S l) P) (1 - x) * peval (pderivs (S l) P) (1 - x))) by ring.
  rewrite <- Rpow_mult_distr. replace (-1 * -1) with 1 by ring. rewrite pow1. ring.
Qed.
Lemma indicator_mirror : forall k r f, (r < k)%nat ->
  smoothness_indicator SLeft k r f = smoothness_indicator SRight k (k - 1 - r) (mirrored f).
Proof.
  intros k r f Hr. unfold smoothness_indicator. rewrite <- (smoothness_reflect k r) by auto.
  unfold smoothness. set (r' := (k - 1 - r)%nat). unfold mirrored.
  replace (interpolating_poly (zrange (- Z.of_nat r') (Z.of_nat k + 1 - Z.of_nat r')) (running_sum r' (fun i => f (- i + point_shift SLeft)%Z)))
    with (interpolating_poly (zrange (- Z.of_nat r') (Z.of_nat k + 1 - Z.of_nat r')) (running_sum r' (fun i => f (1 - (i + point_shift SRight))%Z))); auto.
  unfold interpolating_poly. generalize (zrange (- Z.of_nat r') (Z.of_nat k + 1 - Z.of_nat r')) as ys. intros ys.
  assert (G : forall ms, fold_right (fun m acc => paddR (pscaleR (running_sum r' (fun i => f (1 - (i + point_shift SRight))%Z) m / IZR (zprodZ (map (fun l => (m - l)%Z) (without m ys)))) (prodR (without m ys))) acc) [] ms
     = fold_right (fun m acc => paddR (pscaleR (running_sum r' (fun i => f (- i + point_shift SLeft)%Z) m / IZR (zprodZ (map (fun l => (m - l)%Z) (without m ys)))) (prodR (without m ys))) acc) [] ms).
  { induction ms; cbn [fold_right]; auto. rewrite IHms.
    replace (running_sum r' (fun i => f (1 - (i + point_shift SRight))%Z) a) with (running_sum r' (fun i => f (- i + point_shift SLeft)%Z) a); auto.
    unfold running_sum. apply rsumR_map_ext. intros i _. f_equal. cbn [point_shift]. lia. }
  apply G.
Qed.
Lemma candidate_mirror : forall k r f, (r < k)%nat -> candidate SLeft k r f = candidate SRight k (k - 1 - r) (mirrored f).
Proof.
  intros k r f Hr. rewrite candidate_cumul by auto.
  rewrite (candidate_D SRight k (k - 1 - r) (mirrored f) (fun x => -1 * cumul f (2 - x) + 0 * 0)).
  - set (a := start SRight (k - 1 - r)). rewrite (D_lin a k 1 (-1) 0 (fun x => cumul f (2 - x)) (fun _ => 0)), D_const.
    pose proof (D_reflect a k 1 (cumul f) 2) as E. replace (2 - 1) with 1 in E by ring.
    replace (2 - a - Z.of_nat k)%Z with (start SLeft r) in E by (unfold a, start, point_shift; lia). rewrite E. ring.
  - lia.
  - intros x _. unfold mirrored. rewrite <- (cumul_step f (1 - x)). replace (1 - x + 1)%Z with (2 - x)%Z by lia.
    replace (2 - (x + 1))%Z with (1 - x)%Z by lia. ring.
Qed.
Lemma dw_mirror : forall k r, (1 <= k)%nat -> (r < k)%nat -> dw SLeft k r = dw SRight k (k - 1 - r).
Proof.
  intros k r Hk Hr. unfold dw at 1. apply (opt_unique SLeft k (fun r => dw SRight k (k - 1 - r))); auto.
  intros f. rewrite candidate_mirror by lia. replace (2 * k - 1 - 1 - (k - 1))%nat with (k - 1)%nat by lia.
  destruct (opt_weights_ok SRight k Hk) as (_ & _ & E). rewrite E.
  rewrite <- (rsum_rev k). apply rsumR_map_ext. intros i I. apply in_seq in I. f_equal.
  rewrite candidate_mirror by lia. auto.
Qed.
Lemma global_mirror : forall k b b', (forall r, (r < k)%nat -> b r = b' (k - 1 - r)%nat) -> global_smoothness k b = global_smoothness k b'.
Proof.
  intros k b b' H.
  destruct k as [|[|[|[|[|[|[|[|k]]]]]]]]; try reflexivity; cbn [global_smoothness].
  - rewrite (H 0%nat), (H 1%nat) by lia. cbn [Nat.sub]. f_equal. rewrite Rabs_minus_sym. reflexivity.
  - rewrite (H 0%nat), (H 2%nat) by lia. cbn [Nat.sub]. f_equal. rewrite Rabs_minus_sym. reflexivity.
  - rewrite (H 0%nat), (H 1%nat), (H 2%nat), (H 3%nat) by lia. cbn [Nat.sub]. f_equal. rewrite <- Rabs_Ropp. f_equal. ring.
  - rewrite (H 0%nat), (H 1%nat), (H 2%nat), (H 3%nat), (H 4%nat) by lia. cbn [Nat.sub]. f_equal. f_equal. ring.
  - rewrite (H 0%nat), (H 1%nat), (H 2%nat), (H 3%nat), (H 4%nat), (H 5%nat) by lia. cbn [Nat.sub]. f_equal. rewrite <- Rabs_Ropp. f_equal. ring.
  - rewrite (H 0%nat), (H 1%nat), (H 2%nat), (H 4%nat), (H 5%nat), (H 6%nat) by lia. cbn [Nat.sub]. f_equal. rewrite <- Rabs_Ropp. f_equal. ring.
Qed.
Lemma reconstruction_mirror : forall fm k eps f,
  reconstruction fm SLeft k eps f = reconstruction fm SRight k eps (mirrored f).
Proof.
  intros fm k eps f. unfold reconstruction. destruct (Nat.eqb_spec k 1) as [|K1]; auto.
  destruct (Nat.eq_dec k 0) as [->|K0]; [destruct fm; reflexivity|].
  set (bl := fun r => smoothness_indicator SLeft k r f). set (br := fun r => smoothness_indicator SRight k r (mirrored f)).
  assert (B : forall r, (r < k)%nat -> bl r = br (k - 1 - r)%nat) by (intros r Hr; unfold bl, br; exact (indicator_mirror k r f Hr)).
  assert (A : forall tau, rsumR (map (fun r => nth r (omegas (map (alpha fm SLeft k eps tau bl) (seq 0 k))) 0 * candidate SLeft k r f) (seq 0 k))
            = rsumR (map (fun r => nth r (omegas (map (alpha fm SRight k eps tau br) (seq 0 k))) 0 * candidate SRight k r (mirrored f)) (seq 0 k))).
  { intros tau. assert (AE : forall r, (r < k)%nat -> alpha fm SLeft k eps tau bl r = alpha fm SRight k eps tau br (k - 1 - r)%nat).
    { intros r Hr. unfold alpha. rewrite dw_mirror, B by (auto; lia). auto. }
    assert (SE : rsumR (map (alpha fm SLeft k eps tau bl) (seq 0 k)) = rsumR (map (alpha fm SRight k eps tau br) (seq 0 k))).
    { rewrite <- (rsum_rev k (alpha fm SRight k eps tau br)). apply rsumR_map_ext. intros r I. apply in_seq in I. apply AE. lia. }
    rewrite <- (rsum_rev k (fun r => nth r (omegas (map (alpha fm SRight k eps tau br) (seq 0 k))) 0 * _)).
    apply rsumR_map_ext. intros r I. apply in_seq in I. rewrite !omega_nth by lia. rewrite SE, AE, candidate_mirror by lia. auto. }
  destruct fm; cbn [alphas bind].
  - f_equal. apply (A 0).
  - rewrite (global_mirror k bl br B). destruct (global_smoothness k br) as [tau|]; cbn [bind]; auto. f_equal. apply (A tau).
Qed.
