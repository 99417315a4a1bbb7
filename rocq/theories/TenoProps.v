(* C35 (TENO part), C36, C64: TENO reconstruction. *)
From Verif Require Import Base FDModel FDSpec FDForn FDProofs AlgProofs WenoModel WenoSpec WenoPoly WenoProofs TenoModel TenoSpec TenoProofs.
From Coq Require Import QArith Reals Qreals List ZArith Lia Lra.
Import ListNotations.
Local Open Scope R_scope.

(* C36.  Orders 5 and 6 are accepted, every other order is rejected. *)
Theorem C36_supported :
  forall s order eps CT f,
    match teno_reconstruction s order eps CT f with
    | Ok _ => order = 5%nat \/ order = 6%nat
    | Err e => order <> 5%nat /\ order <> 6%nat /\ e = NotImplemented
    end.
Proof.
  intros. unfold teno_reconstruction. destruct (Nat.eqb_spec order 5) as [->|N5]; [cbn; auto|].
  destruct (Nat.eqb_spec order 6) as [->|N6]; [cbn; auto|]. cbn. auto.
Qed.
Print Assumptions C36_supported.

(* Each candidate is exact for quadratics, the fourth one for cubics. *)
Theorem C36_candidates_exact :
  forall s order r, order = 5%nat \/ order = 6%nat -> (r < teno_n order)%nat ->
    reconstructs_exactly (fun f => nth r (teno_candidates s order f) 0) (if Nat.eqb r 3 then 3 else 2).
Proof.
  assert (G : forall s r, (r < 4)%nat -> reconstructs_exactly (fun f => nth r (teno_candidates s 6 f) 0) (if Nat.eqb r 3 then 3 else 2)).
  { intros s r Hr p F x h Hd HF Hh. do 4 (destruct r as [|r]; [cbn [Nat.eqb] in Hd; destruct s; cbv beta;
      rewrite ?candidates_left, ?candidates_right; cbn [nth];
      match goal with |- candidate ?s ?k ?r _ = _ => apply (candidate_exact s k r ltac:(lia)); auto end|]). lia. }
  intros s order r [-> | ->] Hr; cbn in Hr; [|apply G; auto].
  intros p F x h Hd HF Hh. cbv beta. rewrite candidates5. specialize (G s r ltac:(lia) p F x h Hd HF Hh). cbv beta in G. rewrite <- G.
  do 3 (destruct r as [|r]; [destruct s; rewrite ?candidates_left, ?candidates_right; reflexivity|]). lia.
Qed.
Print Assumptions C36_candidates_exact.

(* For every field, at least one candidate survives the cut-off, ... *)
Theorem C36_survivor :
  forall s order eps CT f, order = 5%nat \/ order = 6%nat -> 0 < eps -> CT <= 1 / INR (teno_n order) ->
    exists r, (r < teno_n order)%nat /\ nth r (teno_deltas CT (teno_alphas order eps (teno_indicators s order f))) 0 = 1.
Proof.
  intros s order eps CT f Ho He HC. destruct (teno_shape s order Ho) as (opt & E & Lo & Po & So & Li & Lc).
  pose proof (teno_alphas_pos s order eps f Ho He) as SA. set (al := teno_alphas order eps (teno_indicators s order f)) in *.
  assert (La : List.length al = teno_n order) by (unfold al, teno_alphas; rewrite map_length; apply Li).
  assert (A0 : al <> []) by (intros Z0; rewrite Z0 in La; cbn in La; destruct Ho; subst; discriminate).
  destruct (survivor al CT A0 SA ltac:(rewrite La; exact HC)) as (a & I & K).
  apply (In_nth _ _ 0) in I. destruct I as (r & Hr & N). exists r. split; [lia|]. unfold teno_deltas.
  rewrite (nth_indep _ 0 ((fun a => if Rlt_dec (a * (1 / rsumR al)) CT then 0 else 1) 0)) by (rewrite map_length; lia).
  rewrite (map_nth (fun a => if Rlt_dec (a * (1 / rsumR al)) CT then 0 else 1)), N.
  destruct (Rlt_dec (a * (1 / rsumR al)) CT); tauto.
Qed.
Print Assumptions C36_survivor.
(* ... and the value is a combination of the candidates with non-negative weights that
   sum to one, so it lies between the smallest and the largest of them. *)
Theorem C36_partition :
  forall s order eps CT f v, 0 < eps -> CT <= 1 / INR (teno_n order) ->
    teno_reconstruction s order eps CT f = Ok v ->
    (exists w : nat -> R, (forall r, (r < teno_n order)%nat -> 0 <= w r) /\ wtotal (teno_n order) w = 1 /\
       v = wtotal (teno_n order) (fun r => w r * nth r (teno_candidates s order f) 0)) /\
    (forall lo hi, (forall r, (r < teno_n order)%nat -> lo <= nth r (teno_candidates s order f) 0 <= hi) -> lo <= v <= hi).
Proof.
  intros s order eps CT f v He HC H. destruct (teno_weights s order eps CT f v He HC H) as (w & L & P & S1 & E & Ho).
  destruct (teno_shape s order Ho) as (opt & _ & _ & _ & _ & _ & Lc).
  rewrite (zipmul_wtotal _ _ (teno_n order) L (Lc f)) in E.
  assert (P' : forall r, (r < teno_n order)%nat -> 0 <= nth r w 0) by (intros r Hr; apply P, nth_In; lia).
  assert (S' : wtotal (teno_n order) (fun r => nth r w 0) = 1) by (rewrite <- L, <- rsum_nth; auto).
  split.
  - exists (fun r => nth r w 0). auto.
  - intros lo hi B. rewrite E. apply (convex_le _ (fun r => nth r w 0) (fun r => nth r (teno_candidates s order f) 0)); auto.
Qed.
Print Assumptions C36_partition.
(* The bound on the cut-off is needed: with CT = 1/2 and constant data everything is
   cut and the generated code divides by zero. *)
Theorem C36_cutoff_bound_needed :
  exists s order eps CT f, 0 < eps /\ CT < 1 /\
    teno_deltas CT (teno_alphas order eps (teno_indicators s order f)) = [0; 0; 0].
Proof.
  exists SRight, 5%nat, 1, (1/2), (fun _ => 0). split; [lra|]. split; [lra|].
  assert (A : teno_alphas 5 1 (teno_indicators SRight 5 (fun _ => 0)) = [1; 1; 1]).
  { unfold teno_alphas, teno_indicators, teno_tau. cbn [in_6_8 Nat.eqb orb app map nth last].
    replace (1/4 * (0 - 0) ^ 2 + 13/12 * (0 - 2 * 0 + 0) ^ 2) with 0 by field.
    replace (1/4 * (3 * 0 - 4 * 0 + 0) ^ 2 + 13/12 * (0 - 2 * 0 + 0) ^ 2) with 0 by field.
    replace (1/4 * (0 - 4 * 0 + 3 * 0) ^ 2 + 13/12 * (0 - 2 * 0 + 0) ^ 2) with 0 by field.
    rewrite Rminus_0_r, Rabs_R0. repeat (apply cons_eq; [field|]). auto. }
  rewrite A. unfold teno_deltas, rsumR. cbn [map fold_right].
  destruct (Rlt_dec (1 * (1 / (1 + (1 + (1 + 0))))) (1/2)) as [_|N]; auto. exfalso. apply N.
  replace (1 * (1 / (1 + (1 + (1 + 0))))) with (1/3) by field. lra.
Qed.
Print Assumptions C36_cutoff_bound_needed.

(* Smooth regions: if the global indicator is at most c times every (shifted) local
   one, with c small enough for the cut-off, the scheme is its linear scheme. *)
Theorem C36_smooth_linear :
  forall s order eps CT f v c, 0 < eps -> 0 <= c -> CT * (INR (teno_n order) * (1 + c) ^ 6) <= 1 ->
    teno_reconstruction s order eps CT f = Ok v ->
    (forall b, In b (teno_indicators s order f) -> 0 < eps + b /\ teno_tau order (teno_indicators s order f) <= c * (eps + b)) ->
    v = teno_linear s order f.
Proof. exact teno_smooth_linear. Qed.
Print Assumptions C36_smooth_linear.
(* constant fields are reproduced *)
Theorem C36_constants :
  forall s order eps CT a v, 0 < eps -> CT <= 1 / INR (teno_n order) ->
    teno_reconstruction s order eps CT (fun _ => a) = Ok v -> v = a.
Proof.
  intros s order eps CT a v He HC H. assert (a <= v <= a); [|lra].
  apply (proj2 (C36_partition s order eps CT (fun _ => a) v He HC H) a a).
  pose proof (C36_supported s order eps CT (fun _ => a)) as Ho. rewrite H in Ho.
  intros r Hr. enough (nth r (teno_candidates s order (fun _ => a)) 0 = a) by lra.
  assert (A : antiderivative_of (peval [0; a]) (peval [a])).
  { intros x. replace (peval [a] x) with (peval (pderiv [0; a]) x) by (cbn; ring). apply pderiv_derives. }
  pose proof (C36_candidates_exact s order r Ho Hr [a] (peval [0; a]) 0 1) as X. cbv beta in X.
  replace (teno_candidates s order (fun _ => a)) with (teno_candidates s order (cell_average (peval [0; a]) 0 1)).
  - rewrite X; [cbn; ring| |exact A|lra]. unfold degree_at_most. destruct (Nat.eqb r 3); cbn; lia.
  - unfold teno_candidates, teno_candidate. apply map_ext. intros pc. f_equal. f_equal. apply map_ext. intros j. unfold cell_average. cbn. field.
Qed.
Print Assumptions C36_constants.

(* The smoothness indicators of TENO5, and the left-sided ones of TENO6, are the
   Jiang-Shu integrals of the candidate polynomials ... *)
Theorem C36_indicators_are_integrals :
  forall f,
    teno_indicators SRight 5 f = [smoothness_indicator SRight 3 1 f; smoothness_indicator SRight 3 0 f; smoothness_indicator SRight 3 2 f] /\
    teno_indicators SLeft 5 f = [smoothness_indicator SLeft 3 1 f; smoothness_indicator SLeft 3 2 f; smoothness_indicator SLeft 3 0 f] /\
    teno_indicators SLeft 6 f = [smoothness_indicator SLeft 3 1 f; smoothness_indicator SLeft 3 2 f; smoothness_indicator SLeft 3 0 f; smoothness_indicator SLeft 4 3 f].
Proof. intros f. split; [apply indicators_right5|]. split; [|apply indicators_left6]. rewrite indicators_left5, indicators_left6. reflexivity. Qed.
Print Assumptions C36_indicators_are_integrals.
(* ... but the fourth right-sided one of TENO6 is not (teno.py 167 misses a square):
   it vanishes, and can be negative, on fields that are not smooth. *)
Theorem C36_right6_indicator_refuted :
  exists f g, nth 3 (teno_indicators SRight 6 f) 0 = 0 /\ 0 < smoothness_indicator SRight 4 0 f /\
              nth 3 (teno_indicators SRight 6 g) 0 < 0.
Proof.
  exists kink, (fun j => if Z.eqb j 3 then - (1/2) else 0). rewrite right6_true.
  unfold teno_indicators, kink. cbn. repeat split; lra.
Qed.
Print Assumptions C36_right6_indicator_refuted.

(* The adaptive cut-off is always admissible *)
Theorem C36_adaptive_cutoff :
  forall a1 a2 m order, order = 5%nat \/ order = 6%nat -> 0 <= m <= 1 -> 0 <= a2 -> 1 <= a1 - a2 ->
    0 < adaptive_CT a1 a2 m <= 1 / INR (teno_n order).
Proof.
  intros a1 a2 m order Ho Hm Ha H1. destruct (adaptive_bound a1 a2 m Hm Ha H1) as [P U]. split; auto.
  destruct Ho as [-> | ->]; cbn; lra.
Qed.
Print Assumptions C36_adaptive_cutoff.
Example C36_nonvacuous :
  let f := fun j => IZR j in
  exists v, teno_reconstruction SLeft 5 (1/1000000) (1/100000) f = Ok v /\ v = 1/2 /\ 1/100000 <= 1 / INR (teno_n 5) /\
  adaptive_CT (105/10) (45/10) (1/2) <= 1/10.
Proof.
  cbn zeta. destruct (teno_reconstruction SLeft 5 (1/1000000) (1/100000) (fun j => IZR j)) as [v|] eqn:E; [|discriminate].
  exists v. split; auto. split; [|split; [cbn; lra|apply adaptive_bound; lra]].
  rewrite (C36_smooth_linear SLeft 5 (1/1000000) (1/100000) _ v 0 ltac:(lra) ltac:(lra) ltac:(cbn; lra) E).
  - unfold teno_linear, teno_candidates, teno_candidate. cbn. unfold Q2R. cbn. field.
  - intros b I. unfold teno_indicators in *. cbn [in_6_8 Nat.eqb orb app In] in *. unfold teno_tau. cbn [Nat.eqb nth last].
    replace (Rabs _) with 0 by (symmetry; match goal with |- Rabs ?z = 0 => replace z with 0 by field end; apply Rabs_R0).
    repeat (destruct I as [<-|I]; [lra|]). tauto.
Qed.

(* C35 for TENO5: left- and right-biased reconstructions are mirror images. *)
Theorem C35_teno5_mirror :
  forall eps CT f, teno_reconstruction SLeft 5 eps CT f = teno_reconstruction SRight 5 eps CT (mirrored f).
Proof. exact teno5_mirror. Qed.
Print Assumptions C35_teno5_mirror.
(* For TENO6 only the candidates mirror; because of the missing square the
   reconstructions do not, shown for eps = 1e-15 and CT = 1e-5. *)
Theorem C35_teno6_candidates_mirror :
  forall f, teno_candidates SLeft 6 f = teno_candidates SRight 6 (mirrored f).
Proof. intros. apply teno_candidates_mirror. auto. Qed.
Print Assumptions C35_teno6_candidates_mirror.
Theorem C35_teno6_mirror_refuted :
  exists f, teno_reconstruction SLeft 6 (1 / 10 ^ 15) (1 / 10 ^ 5) f <> teno_reconstruction SRight 6 (1 / 10 ^ 15) (1 / 10 ^ 5) (mirrored f).
Proof.
  exists (mirrored kink).
  replace (1 / 10 ^ 5) with (1/100000) by lra.
  rewrite kink_left by lra.
  assert (E : teno_reconstruction SRight 6 (1 / 10 ^ 15) (1/100000) (mirrored (mirrored kink)) = teno_reconstruction SRight 6 (1 / 10 ^ 15) (1/100000) kink) by reflexivity.
  rewrite E, kink_right by lra. intros X. inversion X as [Y]. lra.
Qed.
Print Assumptions C35_teno6_mirror_refuted.

(* C64.  The linear scheme of TENO of order n is exact up to degree n-2, i.e. of order
   n-1, ... *)
Theorem C64_linear_order :
  forall s order, order = 5%nat \/ order = 6%nat -> reconstructs_exactly (teno_linear s order) (order - 2).
Proof. exact linear_exact. Qed.
Print Assumptions C64_linear_order.
(* ... and not up to degree n-1 as its name says. *)
Theorem C64_nominal_order_refuted :
  forall s order, order = 5%nat \/ order = 6%nat -> ~ reconstructs_exactly (teno_linear s order) (order - 1).
Proof. exact linear_not_exact. Qed.
Print Assumptions C64_nominal_order_refuted.
(* C34.  What the WENO smoothness indicator of candidate r measures: if p is the
   polynomial of degree k-1 with the cell averages of the candidate stencil, it is the
   sum over l = 1..k-1 of the integral over the upwind cell of the square of the l-th
   derivative of p (unit spacing; the upwind cell is [0,1], cell 0 for the right-biased
   and cell 1 for the left-biased reconstruction). *)
Theorem C34_indicator_integral :
  forall s k r f p F (q G : nat -> R -> R), (1 <= k)%nat ->
    degree_at_most p (k - 1) -> antiderivative_of F (peval p) ->
    (forall j, (point_shift s - Z.of_nat r <= j < point_shift s - Z.of_nat r + Z.of_nat k)%Z ->
       f j = cell_average F (1/2 - IZR (point_shift s)) 1 j) ->
    (forall l, (1 <= l < k)%nat -> nth_derivative l (peval p) (q l) /\ antiderivative_of (G l) (fun x => q l x * q l x)) ->
    smoothness_indicator s k r f = wtotal (k - 1) (fun l => G (S l) 1 - G (S l) 0).
Proof.
  intros s k r f p F q G Hk Hd HF Hf HG. unfold smoothness_indicator. rewrite (smoothness_poly k r _ p).
  - rewrite wtotal_rsum. rewrite <- seq_shift, map_map. apply rsumR_map_ext. intros l I. apply in_seq in I.
    destruct (HG (S l) ltac:(lia)) as [Q A]. unfold integral01.
    apply (same_derivative _ _ (fun x => q (S l) x * q (S l) x)); [|exact A].
    intros x. rewrite (nth_derivative_unique (S l) _ _ _ Q (pderivs_spec (S l) p) x). rewrite <- pmulR_eval. apply primitive_derives.
  - unfold degree_at_most in Hd. lia.
  - intros x I. rewrite (Hf (x + point_shift s)%Z) by (destruct s; cbn [point_shift] in *; lia). unfold cell_average.
    replace (1 / 2 - IZR (point_shift s) + (IZR (x + point_shift s) + 1 / 2) * 1) with (IZR (x + 1)) by (rewrite !plus_IZR; field).
    replace (1 / 2 - IZR (point_shift s) + (IZR (x + point_shift s) - 1 / 2) * 1) with (IZR x) by (rewrite plus_IZR; field).
    rewrite (same_derivative (peval (pprimitive p)) F (peval p) (primitive_derives p) HF (IZR (x + 1)) (IZR x)). field.
Qed.
Print Assumptions C34_indicator_integral.
Example C34_indicator_nonvacuous :
  exists f p F, degree_at_most p 2 /\ antiderivative_of F (peval p) /\
    (forall j, f j = cell_average F (1/2) 1 j) /\ smoothness_indicator SRight 3 1 f = 13/3 + 1.
Proof.
  exists (cell_average (peval [0; 0; 0; 1/3]) (1/2) 1), [0; 0; 1], (peval [0; 0; 0; 1/3]).
  assert (A : antiderivative_of (peval [0; 0; 0; 1/3]) (peval [0; 0; 1])).
  { intros x. replace (peval [0; 0; 1] x) with (peval (pderiv [0; 0; 0; 1/3]) x) by (cbn; field). apply pderiv_derives. }
  split; [unfold degree_at_most; cbn; lia|]. split; [exact A|]. split; [auto|].
  pose proof (C36_indicators_are_integrals (cell_average (peval [0; 0; 0; 1/3]) (1/2) 1)) as (E & _).
  apply (f_equal (fun l => nth 0 l 0)) in E. cbn [nth] in E. rewrite <- E. unfold teno_indicators, cell_average. cbn. field.
Qed.
