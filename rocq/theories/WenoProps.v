(* C32-C35: WENO reconstruction, for every k. *)
From Verif Require Import Base FDModel FDSpec FDForn FDProofs AlgProofs WenoModel WenoSpec WenoPoly WenoProofs.
From Coq Require Import QArith Reals Qreals List ZArith Lia Lra.
Import ListNotations.
Local Open Scope R_scope.

(* C32.  Every candidate stencil of every WENO scheme, left or right, gives the exact
   interface value for the cell averages of every polynomial of degree at most k-1. *)
Theorem C32_candidate_exact :
  forall s k r, (r < k)%nat -> reconstructs_exactly (candidate s k r) (k - 1).
Proof. exact candidate_exact. Qed.
Print Assumptions C32_candidate_exact.
(* cell averages of x^2 *)
Example C32_nonvacuous : degree_at_most [0; 0; 1] (3 - 1) /\
  antiderivative_of (peval [0; 0; 0; 1/3]) (peval [0; 0; 1]) /\
  candidate SRight 3 1 (cell_average (peval [0; 0; 0; 1/3]) 0 1) = 1/4.
Proof.
  assert (A : antiderivative_of (peval [0; 0; 0; 1/3]) (peval [0; 0; 1])).
  { intros x. replace (peval [0; 0; 1] x) with (peval (pderiv [0; 0; 0; 1/3]) x) by (cbn; field). apply pderiv_derives. }
  split; [unfold degree_at_most; cbn; lia|]. split; [exact A|].
  rewrite (candidate_exact SRight 3 1 ltac:(lia) [0; 0; 1] _ 0 1); auto.
  - cbn. field.
  - unfold degree_at_most; cbn; lia.
Qed.

(* C33.  The optimal weights are positive and sum to one ... *)
Theorem C33_weights_positive :
  forall s k, (1 <= k)%nat ->
    List.length (opt_weights s k) = k /\
    (forall r, (r < k)%nat -> 0 < Q2R (nth r (opt_weights s k) 0%Q)) /\
    wtotal k (fun r => Q2R (nth r (opt_weights s k) 0%Q)) = 1.
Proof.
  intros s k Hk. destruct (opt_weights_ok s k Hk) as (P & S1 & _). split; [apply opt_length|]. split; [exact P|].
  rewrite wtotal_rsum. exact S1.
Qed.
Print Assumptions C33_weights_positive.
(* ... and the weighted candidates together are exact up to degree 2k-2, twice the
   degree of a single candidate. *)
Theorem C33_wide_exact :
  forall s k, (1 <= k)%nat ->
    reconstructs_exactly (fun f => wtotal k (fun r => Q2R (nth r (opt_weights s k) 0%Q) * candidate s k r f)) (2 * k - 2).
Proof.
  intros s k Hk p F x h Hd HF Hh. destruct (opt_weights_ok s k Hk) as (_ & _ & E). cbv beta. rewrite wtotal_rsum.
  unfold dw in E. rewrite <- E. apply (candidate_exact s (2 * k - 1) (k - 1) ltac:(lia) p F x h); auto.
  unfold degree_at_most in *. lia.
Qed.
Print Assumptions C33_wide_exact.
Example C33_nonvacuous : map Qred (opt_weights SRight 3) = [3 # 10; 3 # 5; 1 # 10]%Q /\
  map Qred (opt_weights SLeft 4) = [1 # 35; 12 # 35; 18 # 35; 4 # 35]%Q.
Proof. vm_compute. auto. Qed.

(* C34.  Both formulations accept exactly these k ... *)
Theorem C34_supported :
  forall fm s k eps f, (1 <= k)%nat ->
    match reconstruction fm s k eps f with
    | Ok _ => (2 <= k)%nat /\ (fm = WZ -> (k <= 7)%nat)
    | Err e => (k = 1%nat /\ e = AttributeErr) \/ (fm = WZ /\ (8 <= k)%nat /\ e = ValueError)
    end.
Proof.
  intros fm s k eps f Hk. unfold reconstruction. destruct (Nat.eqb_spec k 1); [auto|]. destruct fm; cbn [alphas bind].
  - split; [lia|discriminate].
  - do 8 (destruct k as [|k]; [cbn [global_smoothness bind]; try (split; intros; lia); lia|]).
    cbn [global_smoothness bind]. right. repeat split; lia.
Qed.
Print Assumptions C34_supported.
(* ... and the reconstructed value is a convex combination, with positive weights, of
   the candidate values. *)
Theorem C34_convex :
  forall fm s k eps f v, (2 <= k)%nat -> 0 < eps -> reconstruction fm s k eps f = Ok v ->
    (exists w : nat -> R, (forall r, (r < k)%nat -> 0 < w r) /\ wtotal k w = 1 /\
       v = wtotal k (fun r => w r * candidate s k r f)) /\
    (forall lo hi, (forall r, (r < k)%nat -> lo <= candidate s k r f <= hi) -> lo <= v <= hi).
Proof.
  intros fm s k eps f v Hk He H. apply reconstruction_eq in H. destruct H as (tau & E & _).
  set (b := fun r => smoothness_indicator s k r f) in *.
  destruct (weight_ok (alpha fm s k eps tau b) k ltac:(lia)) as [P S1].
  { intros r Hr. apply alpha_pos; auto. exact (smoothness_nonneg s k r f). }
  split.
  - exists (weight (alpha fm s k eps tau b) k). split; auto. rewrite !wtotal_rsum. auto.
  - intros lo hi B. rewrite E. apply (convex_bounds k (weight (alpha fm s k eps tau b) k) (fun r => candidate s k r f)); auto.
Qed.
Print Assumptions C34_convex.
(* hence polynomials of degree at most k-1, and constants in particular, are reproduced *)
Theorem C34_exact :
  forall fm s k eps p F x h v, (2 <= k)%nat -> 0 < eps -> degree_at_most p (k - 1) ->
    antiderivative_of F (peval p) -> h <> 0 ->
    reconstruction fm s k eps (cell_average F x h) = Ok v -> v = peval p (x + 1/2 * h).
Proof.
  intros fm s k eps p F x h v Hk He Hd HF Hh H.
  destruct (C34_convex fm s k eps _ v Hk He H) as [_ B].
  destruct (B (peval p (x + 1/2 * h)) (peval p (x + 1/2 * h))) as [A C]; [|lra].
  intros r Hr. rewrite (candidate_exact s k r Hr p F x h); auto. lra.
Qed.
Print Assumptions C34_exact.
Theorem C34_constants :
  forall fm s k eps c v, (2 <= k)%nat -> 0 < eps -> reconstruction fm s k eps (fun _ => c) = Ok v -> v = c.
Proof.
  intros fm s k eps c v Hk He H.
  destruct (C34_convex fm s k eps _ v Hk He H) as [_ B].
  destruct (B c c) as [A C]; [|lra]. intros r Hr.
  rewrite (candidate_D s k r (fun _ => c) (fun x => c * IZR x)); auto.
  - rewrite (D_poly _ _ _ _ [0; c]); [cbn; lra|cbn [List.length]; lia|intros; cbn; ring].
  - intros. rewrite plus_IZR. ring.
Qed.
Print Assumptions C34_constants.
(* Where all indicators agree the weights are the optimal ones, so the order is the
   full one; and a rougher candidate never gets a larger share of its optimal weight. *)
Theorem C34_weights_follow_smoothness :
  forall fm s k eps f v, (2 <= k)%nat -> 0 < eps -> reconstruction fm s k eps f = Ok v ->
    exists w : nat -> R, wtotal k w = 1 /\ v = wtotal k (fun r => w r * candidate s k r f) /\
    (forall r q, (r < k)%nat -> (q < k)%nat ->
       smoothness_indicator s k r f <= smoothness_indicator s k q f ->
       w q / Q2R (nth q (opt_weights s k) 0%Q) <= w r / Q2R (nth r (opt_weights s k) 0%Q)) /\
    ((forall r q, (r < k)%nat -> (q < k)%nat -> smoothness_indicator s k r f = smoothness_indicator s k q f) ->
     forall r, (r < k)%nat -> w r = Q2R (nth r (opt_weights s k) 0%Q)).
Proof.
  intros fm s k eps f v Hk He H. apply reconstruction_eq in H. destruct H as (tau & E & _).
  set (b := fun r => smoothness_indicator s k r f) in *. set (a := alpha fm s k eps tau b) in *.
  assert (AP : forall r, (r < k)%nat -> 0 < a r) by (intros r Hr; apply alpha_pos; auto; exact (smoothness_nonneg s k r f)).
  destruct (weight_ok a k ltac:(lia) AP) as [P S1].
  destruct (opt_weights_ok s k ltac:(lia)) as (DP & DS & _).
  assert (SP : 0 < rsumR (map a (seq 0 k))).
  { apply rsumR_pos. destruct k; [lia|discriminate]. intros x I. apply in_map_iff in I. destruct I as (r & <- & I).
    apply in_seq in I. apply AP. lia. }
  assert (Mono : forall r q, (r < k)%nat -> (q < k)%nat -> b r <= b q -> weight a k q / dw s k q <= weight a k r / dw s k r).
  { intros r q Hr Hq Hb. unfold weight. pose proof (DP r Hr) as D1. pose proof (DP q Hq) as D2.
    assert (B1 : 0 <= b r) by exact (smoothness_nonneg s k r f).
    assert (G : a q / dw s k q <= a r / dw s k r).
    { unfold a, alpha. destruct fm.
      - replace (dw s k q / (eps + b q) ^ 2 / dw s k q) with (/ (eps + b q) ^ 2) by (field; split; lra).
        replace (dw s k r / (eps + b r) ^ 2 / dw s k r) with (/ (eps + b r) ^ 2) by (field; split; lra).
        apply Rinv_le_contravar; [apply pow_lt; lra|]. apply pow_incr. lra.
      - replace (dw s k q * (1 + (tau / (eps + b q)) ^ 2) / dw s k q) with (1 + tau ^ 2 * / (eps + b q) ^ 2) by (field; split; lra).
        replace (dw s k r * (1 + (tau / (eps + b r)) ^ 2) / dw s k r) with (1 + tau ^ 2 * / (eps + b r) ^ 2) by (field; split; lra).
        apply Rplus_le_compat_l. apply Rmult_le_compat_l; [apply pow2_ge_0|].
        apply Rinv_le_contravar; [apply pow_lt; lra|]. apply pow_incr. lra. }
    replace (a q * (1 / rsumR (map a (seq 0 k))) / dw s k q) with (/ rsumR (map a (seq 0 k)) * (a q / dw s k q)) by (field; split; lra).
    replace (a r * (1 / rsumR (map a (seq 0 k))) / dw s k r) with (/ rsumR (map a (seq 0 k)) * (a r / dw s k r)) by (field; split; lra).
    apply Rmult_le_compat_l; auto. apply Rlt_le, Rinv_0_lt_compat. auto. }
  exists (weight a k). split; [rewrite wtotal_rsum; auto|]. split; [rewrite wtotal_rsum; auto|]. split; [exact Mono|].
  intros Eq r Hr. pose proof (DP r Hr) as D1. fold (dw s k r).
  set (c := weight a k r / dw s k r).
  assert (C1 : c = 1).
  { rewrite <- S1. rewrite (rsumR_map_ext _ _ (fun q => c * dw s k q)).
    - rewrite rsumR_map_scale, DS. ring.
    - intros q I. apply in_seq in I. assert (Hq : (q < k)%nat) by lia. pose proof (DP q Hq) as D2.
      pose proof (Mono r q Hr Hq (Req_le _ _ (Eq r q Hr Hq))). pose proof (Mono q r Hq Hr (Req_le _ _ (Eq q r Hq Hr))).
      assert (EE : weight a k q / dw s k q = c) by (unfold c; lra). rewrite <- EE. field. lra. }
  unfold c in C1. apply (f_equal (fun t => t * dw s k r)) in C1. field_simplify in C1; lra.
Qed.
Print Assumptions C34_weights_follow_smoothness.
(* both formulations of the fifth-order scheme are defined on every field *)
Example C34_nonvacuous : forall f : Z -> R, (exists v, reconstruction JS SRight 3 (1/1000000) f = Ok v) /\
  (exists v, reconstruction WZ SLeft 3 (1/1000000) f = Ok v).
Proof. intros f. split; eexists; reflexivity. Qed.
(* the indicator does see roughness: on a step the two candidates of k = 2 differ *)
Example C34_step : let f := fun j : Z => if (0 <? j)%Z then 1 else 0 in
  smoothness_indicator SRight 2 0 f = 1 /\ smoothness_indicator SRight 2 1 f = 0.
Proof. cbv -[Rplus Rmult Rminus Ropp Rdiv Rinv IZR INR]. rewrite ?INR_IZR_INZ. cbn. split; field. Qed.

(* C35.  The left reconstruction is the mirror image of the right one, for every k,
   both formulations and every field. *)
Theorem C35_weno_mirror :
  forall fm k eps f, reconstruction fm SLeft k eps f = reconstruction fm SRight k eps (mirrored f).
Proof. exact reconstruction_mirror. Qed.
Print Assumptions C35_weno_mirror.
