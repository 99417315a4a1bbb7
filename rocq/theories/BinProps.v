(* C52: the binomial filter. *)
From Verif Require Import Base Expr KernelModel ShiftSpec ShiftProofs BCModel BCSpec BCProofs BCMirror BCVec FiltModel FiltSpec FiltProofs BinProofs.
From Coq Require Import QArith ZArith Reals Qreals Lia Lra.
Local Close Scope Q_scope.
Open Scope R_scope.

Definition sigma_of (J : interp R) := isym J KConst "sigma_filt".

(* Odd orders and orders above ten are rejected; only two and three dimensions work. *)
Theorem C52_accepted : forall ndim order,
  ((exists qs, binomial_filter ndim order = Ok qs) <-> Z.Even order /\ (order <= 10)%Z /\ (ndim = 2%nat \/ ndim = 3%nat)) /\
  (Z.Odd order \/ (10 < order)%Z -> binomial_filter ndim order = Err ValueError).
Proof.
  intros ndim order. unfold binomial_filter.
  assert (Ev : Z.Even order <-> (order mod 2 = 0)%Z).
  { split; [intros (k & ->); rewrite Z.mul_comm; apply Z.mod_mul; lia | intros E; exists (order / 2)%Z; apply Z.div_exact; lia]. }
  split.
  - split.
    + intros (qs & H). destruct (Z.eqb_spec (order mod 2) 0) as [E | E]; cbn in H; [|discriminate]. destruct (10 <? order)%Z eqn:E2; [discriminate|].
      destruct (cons_vars ndim) eqn:E3; [|discriminate]. split; [apply Ev; auto|]. split; [apply Z.ltb_ge; auto | apply (cons_vars_ok _ _ E3)].
    + intros (He & Hl & Hn). apply Ev in He. rewrite He. cbn. assert (E2 : (10 <? order)%Z = false) by (apply Z.ltb_ge; auto). rewrite E2.
      destruct Hn as [-> | ->]; eexists; reflexivity.
  - intros H. destruct (Z.eqb_spec (order mod 2) 0) as [E | E]; cbn; auto. destruct H as [H | H].
    + exfalso. apply Ev in E. apply (Z.Even_Odd_False order); auto.
    + apply Z.ltb_lt in H. rewrite H. reflexivity.
Qed.
Print Assumptions C52_accepted.

Lemma built : forall ndim order qs, binomial_filter ndim order = Ok qs -> (0 <= order)%Z ->
  accepted order /\ (ndim = 2%nat \/ ndim = 3%nat) /\ qs = filter_eqs ndim order (conservative ndim).
Proof.
  intros ndim order qs H H0. unfold binomial_filter in H. destruct (order mod 2 =? 0)%Z eqn:E; cbn in H; [|discriminate]. destruct (10 <? order)%Z eqn:E2; [discriminate|].
  destruct (cons_vars ndim) eqn:E3; [|discriminate]. cbn in H. destruct (cons_vars_ok _ _ E3) as [Hn ->].
  split; [split; [apply Z.ltb_ge in E2; lia | apply Z.eqb_eq; auto]|]. split; auto. congruence.
Qed.
Lemma wsum_binomial : forall h g, wsum (Z.of_nat (2 * h)) g =
  fold_right Rplus 0 (map (fun i => C (2 * h) i / 2 ^ (2 * h) * g (Z.of_nat i - Z.of_nat h)%Z) (seq 0 (2 * h + 1))).
Proof.
  intros h g. unfold wsum, filter_weights, filter_locations.
  replace (Z.of_nat (2 * h) / 2)%Z with (Z.of_nat h) by (rewrite Nat2Z.inj_mul; rewrite Z.mul_comm, Z.div_mul; lia).
  replace (Z.to_nat (Z.of_nat (2 * h) + 1)) with (2 * h + 1)%nat by lia. replace (Z.to_nat (2 * Z.of_nat h + 1)) with (2 * h + 1)%nat by lia.
  rewrite Nat2Z.id.
  assert (G : forall l, (forall i, In i l -> (i <= 2 * h)%nat) ->
    map2 (fun w l => Q2R w * g l) (map (fun i => ((FiltModel.binomial (2 * h) i # 1) / (2 ^ Z.of_nat (2 * h) # 1))%Q) l) (map (fun i => (Z.of_nat i - Z.of_nat h)%Z) l) =
    map (fun i => C (2 * h) i / 2 ^ (2 * h) * g (Z.of_nat i - Z.of_nat h)%Z) l).
  { induction l as [|i l IH]; intros Hl; auto. cbn [map map2]. f_equal; [|apply IH; intros; apply Hl; right; auto]. f_equal.
    assert (P : (2 ^ Z.of_nat (2 * h) <> 0)%Z) by (apply Z.pow_nonzero; lia).
    assert (E1 : Q2R (2 ^ Z.of_nat (2 * h) # 1) = 2 ^ (2 * h)).
    { unfold Q2R. cbn [Qnum Qden]. rewrite Rinv_1, Rmult_1_r. rewrite <- pow_IZR. reflexivity. }
    rewrite Q2R_div.
    - rewrite E1. f_equal. unfold Q2R. cbn [Qnum Qden]. rewrite Rinv_1, Rmult_1_r. apply binomial_C. apply Hl. left. auto.
    - unfold Qeq. cbn [Qnum Qden]. lia. }
  rewrite G; auto. intros i Hi. apply in_seq in Hi. lia.
Qed.

(* What the kernel writes at one point: the blend of the value with its binomial mean. *)
Theorem C52_formula : forall J ndim h qs (M : string -> list Z -> R), reals J ->
  binomial_filter ndim (Z.of_nat (2 * h)) = Ok qs ->
  forall x, List.length x = ndim ->
    (forall v, In v (conservative ndim) ->
       fst (run_point J qs M x) v x = (1 - sigma_of J) * M v x + sigma_of J * binomial_mean ndim h (M v) x) /\
    (forall b y, ~ (In b (conservative ndim) /\ y = x) -> fst (run_point J qs M x) b y = M b y).
Proof.
  intros J ndim h qs M HJ H x Lx. destruct (built _ _ _ H ltac:(lia)) as (Ha & Hn & ->). split.
  - intros v Hv. rewrite (filter_point J HJ) by auto. unfold sigma_of. f_equal. f_equal. unfold filtered, binomial_mean. f_equal. f_equal.
    apply map_ext. intros d. apply (wsum_binomial h (fun l => M v (move d l x))).
  - intros b y Hb. apply filter_frame; auto; intros Hi E; apply Hb; auto.
Qed.
Print Assumptions C52_formula.

Lemma rsum_const : forall (l : list nat) (c : R), fold_right Rplus 0 (map (fun _ => c) l) = INR (List.length l) * c.
Proof. induction l as [|a l IH]; intros c; [cbn; ring|]. cbn [map fold_right List.length]. rewrite IH, S_INR. ring. Qed.
Lemma filtered_const : forall n N u x c, n <> 0%nat -> (forall d, (d < n)%nat -> wsum N (fun l => u (move d l x)) = c) -> filtered n N u x = c.
Proof.
  intros n N u x c Hn H. unfold filtered. rewrite (rsum_ext _ _ (fun _ => c)) by (intros d Hd; apply H; apply in_seq in Hd; lia).
  rewrite rsum_const, seq_length. field. apply not_0_INR. auto.
Qed.

(* Linear fields, in particular constants, are unchanged by sweeps in any order. *)
Theorem C52_linear_unchanged : forall J ndim order qs pts (M : string -> list Z -> R), reals J -> (0 <= order)%Z ->
  binomial_filter ndim order = Ok qs -> (forall x, In x pts -> List.length x = ndim) ->
  forall v, In v (conservative ndim) -> linear_field ndim (M v) ->
  forall x, List.length x = ndim -> run_kernel J qs pts M v x = M v x.
Proof.
  intros J ndim order qs pts M HJ H0 H HL v Hv (a & b & Hl) x Lx. destruct (built _ _ _ H H0) as (Ha & Hn & ->).
  set (lin := fun x => a + fold_right Rplus 0 (map (fun d => b d * IZR (nth d x 0%Z)) (seq 0 ndim))) in *.
  rewrite (Hl x Lx).
  apply (sweep_invariant J HJ order ndim v (fun y r => r = lin y)); auto.
  intros M' y Ly HM. rewrite filtered_const with (c := lin y).
  - rewrite (HM y Ly). ring.
  - lia.
  - intros d Hd. rewrite (wsum_ext _ _ (fun l => lin y + b d * IZR l)); [apply wsum_affine; auto|].
    intros l. rewrite HM by (rewrite move_length; auto). unfold lin. rewrite Rplus_assoc. f_equal.
    assert (G : forall ds, NoDup ds -> fold_right Rplus 0 (map (fun e => b e * IZR (nth e (move d l y) 0%Z)) ds) =
       fold_right Rplus 0 (map (fun e => b e * IZR (nth e y 0%Z)) ds) + (if in_dec Nat.eq_dec d ds then b d * IZR l else 0)).
    { induction ds as [|e ds IH]; intros ND; [cbn; ring|]. apply NoDup_cons_iff in ND. destruct ND as [Ne ND]. cbn [map fold_right]. rewrite IH by auto.
      destruct (Nat.eq_dec e d) as [-> | N].
      - rewrite move_nth by lia. rewrite plus_IZR. destruct (in_dec Nat.eq_dec d ds); [contradiction|]. destruct (in_dec Nat.eq_dec d (d :: ds)) as [_ | K]; [ring | exfalso; apply K; left; auto].
      - rewrite move_nth_other by auto. destruct (in_dec Nat.eq_dec d ds) as [I | I]; destruct (in_dec Nat.eq_dec d (e :: ds)) as [K | K]; try ring.
        + exfalso. apply K. right. auto.
        + exfalso. destruct K; auto. }
    rewrite G by apply seq_NoDup. destruct (in_dec Nat.eq_dec d (seq 0 ndim)) as [_ | K]; auto. exfalso. apply K. apply in_seq. lia.
Qed.
Print Assumptions C52_linear_unchanged.

(* Blending with a factor in [0,1] creates no new extrema, in any order of the points. *)
Theorem C52_no_new_extrema : forall J ndim order qs pts (M : string -> list Z -> R), reals J -> (0 <= order)%Z ->
  binomial_filter ndim order = Ok qs -> (forall x, In x pts -> List.length x = ndim) ->
  0 <= sigma_of J <= 1 ->
  forall v lo hi, In v (conservative ndim) -> (forall x, List.length x = ndim -> lo <= M v x <= hi) ->
  forall x, List.length x = ndim -> lo <= run_kernel J qs pts M v x <= hi.
Proof.
  intros J ndim order qs pts M HJ H0 H HL Hs v lo hi Hv Hb. destruct (built _ _ _ H H0) as (Ha & Hn & ->).
  apply (sweep_invariant J HJ order ndim v (fun y r => lo <= r <= hi)); auto.
  intros M' y Ly HM. fold (sigma_of J).
  assert (F : lo <= filtered ndim order (M' v) y <= hi).
  { unfold filtered. assert (G : forall l, INR (List.length l) * lo <= fold_right Rplus 0 (map (fun d => wsum order (fun l => M' v (move d l y))) l) <= INR (List.length l) * hi).
    { induction l as [|d l IH]; [cbn; lra|]. cbn [map fold_right List.length]. rewrite S_INR.
      assert (B : lo <= wsum order (fun l => M' v (move d l y)) <= hi) by (apply wsum_bound; auto; intros; apply HM; rewrite move_length; auto). lra. }
    specialize (G (seq 0 ndim)). rewrite seq_length in G. assert (P : 0 < INR ndim) by (apply lt_0_INR; lia). split.
    - apply (Rmult_le_reg_l (INR ndim)); auto. unfold Rdiv. rewrite (Rmult_comm _ (/ INR ndim)), <- Rmult_assoc, Rinv_r by lra. lra.
    - apply (Rmult_le_reg_l (INR ndim)); auto. unfold Rdiv. rewrite (Rmult_comm _ (/ INR ndim)), <- Rmult_assoc, Rinv_r by lra. lra. }
  specialize (HM y Ly). nra.
Qed.
Print Assumptions C52_no_new_extrema.

(* The wave that alternates between neighbouring points is removed from the filtered part:
   evaluated on the unfiltered data only the fraction 1 - sigma is left. *)
Theorem C52_alternating_partial : forall J ndim order qs (M : string -> list Z -> R), reals J -> (2 <= order)%Z ->
  binomial_filter ndim order = Ok qs ->
  forall v x, In v (conservative ndim) -> List.length x = ndim -> alternating ndim (M v) ->
  fst (run_point J qs M x) v x = (1 - sigma_of J) * M v x.
Proof.
  intros J ndim order qs M HJ H2 H v x Hv Lx Al. destruct (built _ _ _ H ltac:(lia)) as (Ha & Hn & ->).
  rewrite (filter_point J HJ) by auto. fold (sigma_of J). rewrite filtered_const with (c := 0); [ring | lia|].
  intros d Hd.
  assert (Up : forall k y, List.length y = ndim -> M v (move d (Z.of_nat k) y) = (if Z.even (Z.of_nat k) then 1 else -1) * M v y).
  { induction k as [|k IH]; intros y Ly; [cbn; rewrite move_0; ring|]. rewrite Nat2Z.inj_succ. unfold Z.succ.
    rewrite <- move_move, Al by (auto; rewrite move_length; auto). rewrite IH by auto. rewrite Z.even_add. cbn [Z.even]. destruct (Z.even (Z.of_nat k)); cbn; ring. }
  rewrite (wsum_ext _ _ (fun l => M v x * (if Z.even l then 1 else -1) + 0 * 0)).
  - rewrite wsum_lin, w_alt by auto. ring.
  - intros l. destruct (Z_le_gt_dec 0 l) as [Hl | Hl].
    + replace l with (Z.of_nat (Z.to_nat l)) by lia. rewrite Up by auto. ring.
    + pose proof (Up (Z.to_nat (- l)) (move d l x) ltac:(rewrite move_length; auto)) as E. rewrite move_move in E.
      replace (l + Z.of_nat (Z.to_nat (- l)))%Z with 0%Z in E by lia. rewrite move_0 in E. replace (Z.of_nat (Z.to_nat (- l))) with (- l)%Z in E by lia.
      rewrite Z.even_opp in E. rewrite E. destruct (Z.even l); ring.
Qed.
Print Assumptions C52_alternating_partial.

(* The sum over a periodic grid is kept when every point is evaluated on the unfiltered data. *)
Theorem C52_mean_partial : forall J ndim order qs (M : string -> list Z -> R) np, reals J -> (0 <= order)%Z ->
  binomial_filter ndim order = Ok qs -> List.length np = ndim ->
  forall v, In v (conservative ndim) -> periodic_field np (M v) ->
  grid_sum np (fun x => fst (run_point J qs M x) v x) = grid_sum np (M v).
Proof.
  intros J ndim order qs M np HJ H0 H Ln v Hv P. destruct (built _ _ _ H H0) as (Ha & Hn & ->).
  rewrite (grid_sum_ext np _ (fun x => (1 - sigma_of J) * M v x + sigma_of J * filtered ndim order (M v) x)) by (intros x Lx; apply filter_point; auto; lia).
  rewrite grid_sum_lin.
  assert (E : grid_sum np (filtered ndim order (M v)) = grid_sum np (M v)).
  { unfold filtered. rewrite (grid_sum_ext np _ (fun x => / INR ndim * fold_right Rplus 0 (map (fun d => wsum order (fun l => M v (move d l x))) (seq 0 ndim)) + 0 * 0)) by (intros; unfold Rdiv; ring).
    rewrite grid_sum_lin, grid_sum_rsum. rewrite (rsum_ext _ _ (fun _ => grid_sum np (M v))).
    - rewrite rsum_const, seq_length. field. apply not_0_INR. lia.
    - intros d Hd. apply in_seq in Hd. rewrite (grid_sum_wsum np order (fun l x => M v (move d l x))).
      rewrite (wsum_ext _ _ (fun l => grid_sum np (M v) * 1 + 0 * 0)).
      + rewrite wsum_lin, w_one by auto. ring.
      + intros l. rewrite (grid_sum_shift np (M v) d l) by (auto; lia). ring. }
  rewrite E. ring.
Qed.
Print Assumptions C52_mean_partial.

(* The kernel updates the solution in place.  Points visited later read filtered values, so
   the result depends on the order of the points, the alternating wave is not removed and
   the sum over a period changes. *)
Definition wave (b : string) (x : list Z) : R := match x with [i; j] => if Z.even (i + j) then 1 else -1 | _ => 0 end.
Lemma wave_alternating : forall b, alternating 2 (wave b).
Proof.
  intros b [|[|d]] [|i [|j [|]]] Hd Lx; cbn in Lx; try lia; cbn [move wave].
  - replace (i + 1 + j)%Z with (i + j + 1)%Z by lia. rewrite (Z.even_add (i + j)). cbn [Z.even]. destruct (Z.even (i + j)); cbn; lra.
  - replace (i + (j + 1))%Z with (i + j + 1)%Z by lia. rewrite (Z.even_add (i + j)). cbn [Z.even]. destruct (Z.even (i + j)); cbn; lra.
Qed.
Lemma stdJ_sigma : sigma_of stdJ = 1.
Proof. reflexivity. Qed.
Lemma wave_point : forall qs M v x, binomial_filter 2 2 = Ok qs -> In v (conservative 2) -> List.length x = 2%nat ->
  fst (run_point stdJ qs M x) v x = (/4 * (M v (move 0 (-1) x) + 2 * M v x + M v (move 0 1 x)) + /4 * (M v (move 1 (-1) x) + 2 * M v x + M v (move 1 1 x))) / 2.
Proof.
  intros qs M v x H Hv Lx. destruct (built _ _ _ H ltac:(lia)) as (Ha & Hn & ->). rewrite (filter_point stdJ stdJ_reals) by auto.
  change (isym stdJ KConst "sigma_filt") with 1. unfold filtered. cbn [seq map fold_right INR]. weights. rewrite !move_0. lra.
Qed.
Theorem C52_order_of_points_refuted : exists qs M pts pts' v x,
  binomial_filter 2 2 = Ok qs /\ In v (conservative 2) /\ Permutation.Permutation pts pts' /\
  run_kernel stdJ qs pts M v x <> run_kernel stdJ qs pts' M v x.
Proof.
  destruct (proj2 (proj1 (C52_accepted 2 2))) as (qs & H); [split; [exists 1%Z; lia | split; [lia | auto]]|].
  exists qs, wave, [[0; 0]; [1; 0]]%Z, [[1; 0]; [0; 0]]%Z, "rho"%string, [1; 0]%Z.
  split; auto. split; [cbn; auto|]. split; [apply Permutation.perm_swap|].
  assert (Hv : In "rho"%string (conservative 2)) by (cbn; auto).
  cbn [run_kernel fold_left].
  assert (Fr : forall M x y, List.length x = 2%nat -> y <> x -> fst (run_point stdJ qs M x) "rho"%string y = M "rho"%string y).
  { intros M x y Lx N. destruct (built _ _ _ H ltac:(lia)) as (Ha & Hn & ->). apply filter_frame; auto. }
  rewrite (wave_point qs (fst (run_point stdJ qs wave [0; 0]%Z))) by auto. cbn [move].
  change (1 + -1)%Z with 0%Z. change (1 + 1)%Z with 2%Z. change (0 + -1)%Z with (-1)%Z. change (0 + 1)%Z with 1%Z.
  rewrite (Fr wave [0; 0]%Z [1; 0]%Z), (Fr wave [0; 0]%Z [2; 0]%Z), (Fr wave [0; 0]%Z [1; -1]%Z), (Fr wave [0; 0]%Z [1; 1]%Z) by (auto; discriminate).
  rewrite (wave_point qs wave "rho"%string [0; 0]%Z) by auto.
  rewrite (Fr _ [0; 0]%Z) by (auto; discriminate). rewrite (wave_point qs wave) by auto. cbn. lra.
Qed.
Print Assumptions C52_order_of_points_refuted.
Theorem C52_in_place_refuted : exists qs M pts x, 
  binomial_filter 2 2 = Ok qs /\ sigma_of stdJ = 1 /\ alternating 2 (M "rho"%string) /\ NoDup pts /\ In x pts /\
  run_kernel stdJ qs pts M "rho"%string x <> (1 - sigma_of stdJ) * M "rho"%string x.
Proof.
  destruct (proj2 (proj1 (C52_accepted 2 2))) as (qs & H); [split; [exists 1%Z; lia | split; [lia | auto]]|].
  exists qs, wave, [[0; 0]; [1; 0]]%Z, [1; 0]%Z.
  split; auto. split; auto. split; [apply wave_alternating|]. split; [repeat constructor; cbn; intuition discriminate|]. split; [cbn; auto|].
  assert (Hv : In "rho"%string (conservative 2)) by (cbn; auto).
  cbn [run_kernel fold_left].
  assert (Fr : forall M x y, List.length x = 2%nat -> y <> x -> fst (run_point stdJ qs M x) "rho"%string y = M "rho"%string y).
  { intros M x y Lx N. destruct (built _ _ _ H ltac:(lia)) as (Ha & Hn & ->). apply filter_frame; auto. }
  rewrite (wave_point qs (fst (run_point stdJ qs wave [0; 0]%Z))) by auto. cbn [move].
  change (1 + -1)%Z with 0%Z. change (1 + 1)%Z with 2%Z. change (0 + -1)%Z with (-1)%Z. change (0 + 1)%Z with 1%Z.
  rewrite (Fr wave [0; 0]%Z [1; 0]%Z), (Fr wave [0; 0]%Z [2; 0]%Z), (Fr wave [0; 0]%Z [1; -1]%Z), (Fr wave [0; 0]%Z [1; 1]%Z) by (auto; discriminate).
  rewrite (wave_point qs wave "rho"%string [0; 0]%Z) by auto.
  rewrite stdJ_sigma. cbn. lra.
Qed.
Print Assumptions C52_in_place_refuted.

(* A negative even order is accepted and has no weights: constants are then scaled by
   1 - sigma. *)
Theorem C52_negative_order_refuted : exists order qs, (order < 0)%Z /\ binomial_filter 2 order = Ok qs /\
  forall J (M : string -> list Z -> R) x v, reals J -> List.length x = 2%nat -> In v (conservative 2) ->
    fst (run_point J qs M x) v x = (1 - sigma_of J) * M v x.
Proof.
  exists (-2)%Z, (filter_eqs 2 (-2) (conservative 2)). split; [lia|]. split; [reflexivity|].
  intros J M x v HJ Lx Hv. rewrite (filter_point J HJ) by auto. fold (sigma_of J). unfold filtered, wsum. cbn. field.
Qed.
Print Assumptions C52_negative_order_refuted.

Example C52_nonvacuous :
  (exists qs, binomial_filter 3 10 = Ok qs) /\ reals stdJ /\ 0 <= sigma_of stdJ <= 1 /\ alternating 2 (wave "rho") /\
  linear_field 2 (fun x => 3 + IZR (nth 0 x 0%Z)) /\ periodic_field [2; 2]%nat (wave "rho").
Proof.
  split; [eexists; reflexivity|]. split; [apply stdJ_reals|]. split; [rewrite stdJ_sigma; lra|]. split; [apply wave_alternating|]. split.
  - exists 3, (fun d => if (d =? 0)%nat then 1 else 0). intros x Lx. cbn. ring.
  - intros [|[|d]] [|i [|j [|]]] Hd Lx; cbn in Lx, Hd; try lia; cbn [move wave nth].
    + replace (i + Z.of_nat 2 + j)%Z with (i + j + 2)%Z by lia. rewrite (Z.even_add (i + j)). cbn [Z.even]. destruct (Z.even (i + j)); cbn; lra.
    + replace (i + (j + Z.of_nat 2))%Z with (i + j + 2)%Z by lia. rewrite (Z.even_add (i + j)). cbn [Z.even]. destruct (Z.even (i + j)); cbn; lra.
Qed.
