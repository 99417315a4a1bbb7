(* C26, C27: central differences of any even order. *)
From Coq Require Import QArith Reals Qreals List ZArith Lia Lra.
From Verif Require Import Base FDModel FDSpec FDForn FDProofs.
Import ListNotations.
Local Open Scope R_scope.

(* C26.  The scheme of order 2k gives the exact m-th derivative of every polynomial
   of degree at most 2k, at every point and for every spacing. *)
Theorem C26_polynomials_exact :
  forall (k m : nat) p g x h, degree_at_most p (2 * k) -> nth_derivative m (peval p) g -> h <> 0 ->
    central_formula (2 * Z.of_nat k) m (peval p) x h = g x.
Proof.
  intros k m p g x h Hp Hg Hh.
  rewrite (nth_derivative_unique m (peval p) g (peval (pderivs m p)) Hg (pderivs_spec m p) x).
  apply (formula_exact_upto k m (2 * k)); auto. intros i Hi. apply moment. auto.
Qed.
Print Assumptions C26_polynomials_exact.
(* every polynomial has the derivatives the theorem speaks about *)
Example C26_nonvacuous : exists g, nth_derivative 2 (peval [1; 0; 3; 5; 7]) g /\
  degree_at_most [1; 0; 3; 5; 7] (2 * 2) /\ g 1 = 120.
Proof.
  exists (peval (pderivs 2 [1; 0; 3; 5; 7])). split; [apply pderivs_spec|]. split; [unfold degree_at_most; cbn; lia|].
  cbn. lra.
Qed.

(* Nominal order for smooth functions: F 0, F 1, ... are a function and its
   derivatives, K bounds the (2k+m)-th on the stencil; C depends on the scheme only. *)
Theorem C26_order :
  forall (k m : nat), (1 <= k)%nat -> m = 1%nat \/ m = 2%nat -> exists C : R,
    forall (F : nat -> R -> R) x h K, 0 < h ->
      (forall j y, (j < 2 * k + m)%nat -> derivable_pt_lim (F j) y (F (S j) y)) ->
      (forall y, Rabs (y - x) <= INR k * h -> Rabs (F (2 * k + m)%nat y) <= K) ->
      Rabs (central_formula (2 * Z.of_nat k) m (F 0%nat) x h - F m x) <= C * K * h ^ (2 * k).
Proof.
  intros k m Hk Hm.
  exists (absum (generate_weights (2 * Z.of_nat k) m) (central_points (2 * Z.of_nat k)) (2 * k + m)).
  intros F x h K Hh HF HK. destruct Hm as [-> | ->].
  - replace (2 * k + 1)%nat with (S (2 * k)) in * by lia.
    replace (h ^ (2 * k)) with (h ^ (S (2 * k) - 1)) by (f_equal; lia).
    apply formula_order; auto; try lia.
    + intros i Hi. apply moment. auto.
    + intros j y Hj. apply HF. lia.
  - replace (2 * k + 2)%nat with (S (2 * k + 1)) in * by lia.
    replace (h ^ (2 * k)) with (h ^ (S (2 * k + 1) - 2)) by (f_equal; lia).
    apply formula_order; auto; try lia.
    + intros i Hi. apply moments_even; auto. lia.
    + intros j y Hj. apply HF. lia.
Qed.
Print Assumptions C26_order.
Example C26_order_nonvacuous : exists F : nat -> R -> R,
  (forall j y, derivable_pt_lim (F j) y (F (S j) y)) /\ (forall y, Rabs (y - 0) <= 1 -> Rabs (F 5%nat y) <= 3) /\ F 0%nat 0 = 1.
Proof.
  exists (fun _ => exp). split; [intros; apply derivable_pt_lim_exp|]. split; [|apply exp_0].
  intros y Hy. rewrite Rminus_0_r in Hy. rewrite Rabs_right by (left; apply exp_pos).
  eapply Rle_trans; [|apply exp_le_3]. 
  destruct (Rle_lt_or_eq_dec y 1) as [L | ->]; [pose proof (Rle_abs y); lra | left; apply exp_increasing; auto | lra].
Qed.

(* An odd order is accepted and silently rounded down to the even order below. *)
Theorem C26_odd_order_rounds_down :
  forall k m h u i, (0 <= k)%Z -> grid_formula (2 * k + 1) m h u i = grid_formula (2 * k) m h u i.
Proof.
  intros k m h u i Hk.
  assert (E : central_points (2 * k + 1) = central_points (2 * k)).
  { unfold central_points, pyint_half. f_equal.
    - rewrite !Z.quot_opp_l by lia. f_equal. rewrite !Z.quot_div_nonneg by lia.
      Z.div_mod_to_equations. lia.
    - rewrite !Z.quot_div_nonneg by lia. Z.div_mod_to_equations. lia. }
  unfold grid_formula, generate_weights. rewrite E. reflexivity.
Qed.
Print Assumptions C26_odd_order_rounds_down.

(* C27. *)
Theorem C27_conservation :
  forall (k n : nat) h u, periodic n u -> total n (grid_formula (2 * Z.of_nat k) 1 h u) = 0.
Proof. intros. apply conservation; auto. Qed.
Print Assumptions C27_conservation.

Theorem C27_summation_by_parts :
  forall (k n : nat) h a b, periodic n a -> periodic n b ->
    total n (fun i => a i * grid_formula (2 * Z.of_nat k) 1 h b i) =
    - total n (fun i => b i * grid_formula (2 * Z.of_nat k) 1 h a i).
Proof. intros. rewrite by_parts by auto. unfold signR. cbn [Nat.even]. ring. Qed.
Print Assumptions C27_summation_by_parts.

(* Second derivatives: conservation and symmetry of the diffusion operator. *)
Theorem C27_second_derivative :
  forall (k n : nat) h a b, periodic n a -> periodic n b ->
    total n (grid_formula (2 * Z.of_nat k) 2 h a) = 0 /\
    total n (fun i => a i * grid_formula (2 * Z.of_nat k) 2 h b i) =
    total n (fun i => b i * grid_formula (2 * Z.of_nat k) 2 h a i).
Proof.
  intros. split; [apply conservation; auto|]. rewrite by_parts by auto. unfold signR. cbn [Nat.even]. ring.
Qed.
Print Assumptions C27_second_derivative.

(* With mass flux a and transported quantity v, the evolution r' = - D a and
   (r v)' = - skew (a, v) changes the energy r v^2 / 2 at the rate
   v (r v)' - v^2/2 r', whose sum over the grid vanishes; so does the sum of the
   convective term itself. *)
Theorem C27_skew_conserves :
  forall (k n : nat) h a v, periodic n a -> periodic n v ->
    total n (skew_form k h a v) = 0 /\
    total n (fun i => v i * - skew_form k h a v i - v i * v i / 2 * - grid_formula (2 * Z.of_nat k) 1 h a i) = 0.
Proof.
  intros k n h a v Pa Pv. set (D := grid_formula (2 * Z.of_nat k) 1 h).
  assert (Pav : periodic n (fun i => a i * v i)) by (intros i; rewrite Pa, Pv; reflexivity).
  split.
  - rewrite (total_ext _ _ (fun i => / 2 * (D (fun i => a i * v i) i + (v i * D a i + a i * D v i))))
      by (intros; unfold skew_form; fold D; ring).
    rewrite total_scale, !total_plus. unfold D. rewrite (C27_conservation k n h _ Pav).
    rewrite (C27_summation_by_parts k n h a v) by auto. ring.
  - rewrite (total_ext _ _ (fun i => (- / 2) * (v i * D (fun i => a i * v i) i + a i * v i * D v i)))
      by (intros; unfold skew_form; fold D; field).
    rewrite total_scale, total_plus. unfold D.
    rewrite (C27_summation_by_parts k n h v (fun i => a i * v i)) by auto. ring.
Qed.
Print Assumptions C27_skew_conserves.
Example C27_nonvacuous : exists u, periodic 8 u /\ u 1%Z <> u 2%Z /\ grid_formula 4 1 1 u 0 <> 0.
Proof.
  exists (fun i => IZR (i mod 8)). split.
  - intros i. f_equal. change (Z.of_nat 8) with (1 * 8)%Z. apply Z.mod_add. lia.
  - split.
    + cbn. lra.
    + unfold grid_formula. change (combine (central_points 4) (generate_weights 4 1)) with
        [((-2)%Z, (1 # 12)%Q); ((-1)%Z, (-2 # 3)%Q); (0%Z, 0%Q); (1%Z, (2 # 3)%Q); (2%Z, (-1 # 12)%Q)].
      cbn -[Q2R Rmult Rplus Rinv]. unfold Q2R. cbn. lra.
Qed.

(* C16, the part on central schemes.  For every order the halo depths the scheme asks
   for are exactly what its stencil reads: no stencil point lies outside them, and no
   smaller depth would do. *)
Theorem C16_central_halos_exact_partial :
  forall order i, (0 <= order)%Z ->
    (In i (central_points order) <-> (fst (central_halos order) <= i <= snd (central_halos order))%Z).
Proof.
  intros order i H. unfold central_points, central_halos, pyint_half, zrange. cbn [fst snd].
  rewrite in_map_iff. replace (order + 2)%Z with (order + 1 * 2)%Z by lia.
  rewrite Z.quot_add by lia. rewrite Z.quot_opp_l by lia.
  split.
  - intros (j & <- & I). apply in_seq in I. lia.
  - intros I. exists (Z.to_nat (i - - (order ÷ 2))). split; [lia|]. apply in_seq. lia.
Qed.
Print Assumptions C16_central_halos_exact_partial.
Example C16_central_nonvacuous : central_points 4 = [-2; -1; 0; 1; 2]%Z /\ central_halos 4 = (-2, 2)%Z.
Proof. vm_compute. auto. Qed.
