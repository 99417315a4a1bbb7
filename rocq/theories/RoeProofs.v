(* Proofs about the Roe average. *)
From Coq Require Import Reals List Lra Lia.
From Verif Require Import EulerSpec EulerModel EulerProofs.
Import ListNotations.
Local Open Scope R_scope.

Definition hat_u (x y : R) (uL uR : list R) : list R := map (fun pq => mean x y (fst pq) (snd pq)) (combine uL uR).
Definition enth (g : R) (u : list R) (a : R) : R := a ^ 2 / (g - 1) + dot u u / 2.
Definition hat_a2 (g x y : R) (uL uR : list R) (aL aR : R) : R :=
  (g - 1) * (mean x y (enth g uL aL) (enth g uR aR) - dot (hat_u x y uL uR) (hat_u x y uL uR) / 2).
Ltac unroe := unfold vsub, flux, pressure, jacobian, density, momenta, energy, conserved; cbn [map combine removelast tl hd last app fst snd dot].
Lemma jump1 : forall g k0 x y uL uR aL aR a, 0 < x -> 0 < y -> g <> 0 -> g - 1 <> 0 ->
  a ^ 2 = hat_a2 g x y [uL] [uR] aL aR ->
  jacobian g [k0] (hat_u x y [uL] [uR]) a (vsub (conserved g (y * y) [uR] aR) (conserved g (x * x) [uL] aL))
  = vsub (flux g [k0] (conserved g (y * y) [uR] aR)) (flux g [k0] (conserved g (x * x) [uL] aL)).
Proof.
  intros g k0 x y uL uR aL aR a Hx Hy Hg Hg1 Ha. unroe. rewrite Ha. unfold hat_a2, enth, hat_u, mean. cbn [map combine fst snd dot].
  entries ltac:(field; repeat split; auto; lra).
Qed.
Lemma jump2 : forall g k0 k1 x y uL vL uR vR aL aR a, 0 < x -> 0 < y -> g <> 0 -> g - 1 <> 0 ->
  a ^ 2 = hat_a2 g x y [uL; vL] [uR; vR] aL aR ->
  jacobian g [k0; k1] (hat_u x y [uL; vL] [uR; vR]) a (vsub (conserved g (y * y) [uR; vR] aR) (conserved g (x * x) [uL; vL] aL))
  = vsub (flux g [k0; k1] (conserved g (y * y) [uR; vR] aR)) (flux g [k0; k1] (conserved g (x * x) [uL; vL] aL)).
Proof.
  intros g k0 k1 x y uL vL uR vR aL aR a Hx Hy Hg Hg1 Ha. unroe. rewrite Ha. unfold hat_a2, enth, hat_u, mean. cbn [map combine fst snd dot].
  entries ltac:(field; repeat split; auto; lra).
Qed.
Lemma jump3 : forall g k0 k1 k2 x y uL vL wL uR vR wR aL aR a, 0 < x -> 0 < y -> g <> 0 -> g - 1 <> 0 ->
  a ^ 2 = hat_a2 g x y [uL; vL; wL] [uR; vR; wR] aL aR ->
  jacobian g [k0; k1; k2] (hat_u x y [uL; vL; wL] [uR; vR; wR]) a (vsub (conserved g (y * y) [uR; vR; wR] aR) (conserved g (x * x) [uL; vL; wL] aL))
  = vsub (flux g [k0; k1; k2] (conserved g (y * y) [uR; vR; wR] aR)) (flux g [k0; k1; k2] (conserved g (x * x) [uL; vL; wL] aL)).
Proof.
  intros g k0 k1 k2 x y uL vL wL uR vR wR aL aR a Hx Hy Hg Hg1 Ha. unroe. rewrite Ha. unfold hat_a2, enth, hat_u, mean. cbn [map combine fst snd dot].
  entries ltac:(field; repeat split; auto; lra).
Qed.
(* the averaged sound speed is real and positive *)
Lemma hat_a2_pos : forall g x y uL uR aL aR, 0 < x -> 0 < y -> 1 < g -> aL <> 0 -> List.length uL = List.length uR ->
  0 < hat_a2 g x y uL uR aL aR.
Proof.
  intros g x y uL uR aL aR Hx Hy Hg HaL L. unfold hat_a2, enth.
  assert (K : forall uL uR, List.length uL = List.length uR ->
     dot (hat_u x y uL uR) (hat_u x y uL uR) <= mean x y (dot uL uL) (dot uR uR)).
  { clear - Hx Hy. induction uL as [|p uL IH]; intros [|q uR] L; try discriminate.
    - cbn. unfold mean. right. field. lra.
    - cbn [hat_u combine map fst snd dot]. cbn in L. specialize (IH uR ltac:(lia)).
      assert (mean x y p q * mean x y p q <= mean x y (p * p) (q * q)).
      { unfold mean. assert (E : (x * (p * p) + y * (q * q)) / (y + x) - (x * p + y * q) / (y + x) * ((x * p + y * q) / (y + x)) = x * y * (p - q) ^ 2 * (/ (y + x)) ^ 2) by (field; lra).
        assert (0 <= x * y * (p - q) ^ 2 * (/ (y + x)) ^ 2).
        { apply Rmult_le_pos; [|apply pow2_ge_0]. apply Rmult_le_pos; [nra|apply pow2_ge_0]. } lra. }
      replace (mean x y (p * p + dot uL uL) (q * q + dot uR uR)) with (mean x y (p * p) (q * q) + mean x y (dot uL uL) (dot uR uR)) by (unfold mean; field; lra).
      unfold hat_u in IH. lra. }
  specialize (K uL uR L). set (Q := dot (hat_u x y uL uR) (hat_u x y uL uR)) in *.
  replace (mean x y (aL ^ 2 / (g - 1) + dot uL uL / 2) (aR ^ 2 / (g - 1) + dot uR uR / 2) - Q / 2)
    with (mean x y (aL ^ 2) (aR ^ 2) / (g - 1) + (mean x y (dot uL uL) (dot uR uR) - Q) / 2) by (unfold mean; field; lra).
  assert (P : 0 < mean x y (aL ^ 2) (aR ^ 2)).
  { unfold mean. apply Rdiv_lt_0_compat; [|lra]. assert (0 < aL ^ 2) by nra. pose proof (pow2_ge_0 aR). nra. }
  apply Rmult_lt_0_compat; [lra|]. assert (0 < mean x y (aL ^ 2) (aR ^ 2) / (g - 1)) by (apply Rdiv_lt_0_compat; lra). lra.
Qed.
(* the model's formulas in terms of the square roots *)
Lemma roe_velocity_eq : forall rL rR uL uR, 0 < rL -> 0 < rR -> roe_velocity rL rR uL uR = hat_u (sqrt rL) (sqrt rR) uL uR.
Proof. reflexivity. Qed.
Lemma sum_sq : forall u, fold_right Rplus 0 (map (fun x => x ^ 2) u) = dot u u.
Proof. induction u; cbn; [auto|]. rewrite <- IHu. cbn. ring. Qed.
Lemma roe_sound_eq : forall g rL rR uL uR aL aR, 0 < rL -> 0 < rR -> 1 < g -> aL <> 0 -> List.length uL = List.length uR ->
  let UL := conserved g rL uL aL in let UR := conserved g rR uR aR in
  let a := roe_sound g rL rR uL uR (energy UL) (energy UR) (pressure g UL) (pressure g UR) in
  0 < a /\ a ^ 2 = hat_a2 g (sqrt rL) (sqrt rR) uL uR aL aR.
Proof.
  intros g rL rR uL uR aL aR HL HR Hg Ha L UL UR a.
  assert (XL : 0 < sqrt rL) by (apply sqrt_lt_R0; auto). assert (XR : 0 < sqrt rR) by (apply sqrt_lt_R0; auto).
  pose proof (hat_a2_pos g (sqrt rL) (sqrt rR) uL uR aL aR XL XR Hg Ha L) as P.
  assert (E : a = sqrt (hat_a2 g (sqrt rL) (sqrt rR) uL uR aL aR)).
  { unfold a, roe_sound, roe_enthalpy, UL, UR. rewrite !enthalpy_of by lra. rewrite roe_mean_eq by auto.
    rewrite sum_sq, roe_velocity_eq by auto. unfold hat_a2, enth. f_equal. field. }
  rewrite E. split; [apply sqrt_lt_R0; auto|]. cbn. rewrite Rmult_1_r. apply sqrt_sqrt. lra.
Qed.
