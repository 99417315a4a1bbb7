(* Proofs about the Euler eigensystems and the Roe average. *)
From Coq Require Import Reals List Lra Lia.
From Verif Require Import EulerSpec EulerModel.
Import ListNotations.
Local Open Scope R_scope.

(* ---------- derivatives ---------- *)
Lemma dl_eq : forall f x a b, derivable_pt_lim f x a -> a = b -> derivable_pt_lim f x b.
Proof. intros; subst; auto. Qed.
Lemma dl_const : forall c x, derivable_pt_lim (fun _ => c) x 0.
Proof. intros. exact (derivable_pt_lim_const c x). Qed.
Lemma dl_id : forall x, derivable_pt_lim (fun t => t) x 1.
Proof. intros. exact (derivable_pt_lim_id x). Qed.
Lemma dl_plus : forall f g x a b, derivable_pt_lim f x a -> derivable_pt_lim g x b -> derivable_pt_lim (fun t => f t + g t) x (a + b).
Proof. intros. exact (derivable_pt_lim_plus f g x a b H H0). Qed.
Lemma dl_minus : forall f g x a b, derivable_pt_lim f x a -> derivable_pt_lim g x b -> derivable_pt_lim (fun t => f t - g t) x (a - b).
Proof. intros. exact (derivable_pt_lim_minus f g x a b H H0). Qed.
Lemma dl_mult : forall f g x a b, derivable_pt_lim f x a -> derivable_pt_lim g x b -> derivable_pt_lim (fun t => f t * g t) x (a * g x + f x * b).
Proof. intros. exact (derivable_pt_lim_mult f g x a b H H0). Qed.
Lemma dl_div : forall f g x a b, derivable_pt_lim f x a -> derivable_pt_lim g x b -> g x <> 0 ->
  derivable_pt_lim (fun t => f t / g t) x ((a * g x - b * f x) / Rsqr (g x)).
Proof. intros. exact (derivable_pt_lim_div f g x a b H H0 H1). Qed.
Ltac dstep := first [apply dl_const | apply dl_id | lazymatch goal with
  | |- derivable_pt_lim (fun t => @?f t + @?g t) _ _ => apply (dl_plus f g)
  | |- derivable_pt_lim (fun t => @?f t - @?g t) _ _ => apply (dl_minus f g)
  | |- derivable_pt_lim (fun t => @?f t * @?g t) _ _ => apply (dl_mult f g)
  | |- derivable_pt_lim (fun t => @?f t / @?g t) _ _ => apply (dl_div f g)
  end].

(* the Jacobian of the flux, applied to r, in primitive variables *)
Definition jacobian (g : R) (k : list R) (u : list R) (a : R) (r : list R) : list R :=
  let th := dot k u in
  let rdth := dot k (momenta r) - th * density r in
  let dp := (g - 1) * (energy r - dot u (momenta r) + dot u u / 2 * density r) in
  let H := a ^ 2 / (g - 1) + dot u u / 2 in
  dot k (momenta r) :: map (fun mkr => fst (fst mkr) * th + snd (fst mkr) * rdth + snd mkr * dp) (combine (combine (momenta r) u) k)
  ++ [(energy r + dp) * th + H * rdth].
Ltac dflux Hr Hg :=
  unfold flux, pressure; cbn; eapply dl_eq; [repeat dstep; cbn; intro; apply Hr; lra
                     | cbn; unfold Rsqr; field; repeat split; first [assumption | intro; apply Hr; lra]].
Lemma flux_deriv1 : forall g k0 rho u0 a r0 r1 r2, rho <> 0 -> g <> 0 -> g - 1 <> 0 ->
  directional_derivative (flux g [k0]) (conserved g rho [u0] a) [r0; r1; r2] (jacobian g [k0] [u0] a [r0; r1; r2]).
Proof.
  intros g k0 rho u0 a r0 r1 r2 Hr Hg Hg1. split; [reflexivity|]. intros i Hi. cbn in Hi.
  do 3 (destruct i as [|i]; [dflux Hr Hg|]). lia.
Qed.
Lemma flux_deriv2 : forall g k0 k1 rho u0 u1 a r0 r1 r2 r3, rho <> 0 -> g <> 0 -> g - 1 <> 0 ->
  directional_derivative (flux g [k0; k1]) (conserved g rho [u0; u1] a) [r0; r1; r2; r3] (jacobian g [k0; k1] [u0; u1] a [r0; r1; r2; r3]).
Proof.
  intros g k0 k1 rho u0 u1 a r0 r1 r2 r3 Hr Hg Hg1. split; [reflexivity|]. intros i Hi. cbn in Hi.
  do 4 (destruct i as [|i]; [dflux Hr Hg|]). lia.
Qed.
Lemma flux_deriv3 : forall g k0 k1 k2 rho u0 u1 u2 a r0 r1 r2 r3 r4, rho <> 0 -> g <> 0 -> g - 1 <> 0 ->
  directional_derivative (flux g [k0; k1; k2]) (conserved g rho [u0; u1; u2] a) [r0; r1; r2; r3; r4] (jacobian g [k0; k1; k2] [u0; u1; u2] a [r0; r1; r2; r3; r4]).
Proof.
  intros g k0 k1 k2 rho u0 u1 u2 a r0 r1 r2 r3 r4 Hr Hg Hg1. split; [reflexivity|]. intros i Hi. cbn in Hi.
  do 5 (destruct i as [|i]; [dflux Hr Hg|]). lia.
Qed.

(* ---------- the metric factor ---------- *)
Lemma metric2 : forall k0 k1, (k0 <> 0 \/ k1 <> 0) -> exists K n0 n1, 0 < K /\ metric_factor [k0; k1] = K /\
  k0 / K = n0 /\ k1 / K = n1 /\ k0 = n0 * K /\ k1 = n1 * K /\ n0 * n0 = 1 - n1 * n1.
Proof.
  intros k0 k1 N. assert (P : 0 < k0 ^ 2 + (k1 ^ 2 + 0)) by nra.
  assert (K0 : 0 < metric_factor [k0; k1]) by (apply sqrt_lt_R0; exact P).
  exists (metric_factor [k0; k1]), (k0 / metric_factor [k0; k1]), (k1 / metric_factor [k0; k1]).
  assert (E : metric_factor [k0; k1] * metric_factor [k0; k1] = k0 ^ 2 + (k1 ^ 2 + 0)) by (apply sqrt_sqrt; apply Rlt_le, P).
  set (K := metric_factor [k0; k1]) in *. clearbody K.
  repeat split; auto; try (field; lra).
  apply Rmult_eq_reg_r with (K * K); [|nra].
  replace (k0 / K * (k0 / K) * (K * K)) with (k0 * k0) by (field; lra).
  replace ((1 - k1 / K * (k1 / K)) * (K * K)) with (K * K - k1 * k1) by (field; lra). lra.
Qed.
Lemma metric3 : forall k0 k1 k2, (k0 <> 0 \/ k1 <> 0 \/ k2 <> 0) -> exists K n0 n1 n2, 0 < K /\ metric_factor [k0; k1; k2] = K /\
  k0 / K = n0 /\ k1 / K = n1 /\ k2 / K = n2 /\ k0 = n0 * K /\ k1 = n1 * K /\ k2 = n2 * K /\ n0 * n0 = 1 - n1 * n1 - n2 * n2.
Proof.
  intros k0 k1 k2 N. assert (P : 0 < k0 ^ 2 + (k1 ^ 2 + (k2 ^ 2 + 0))) by (destruct N as [N|[N|N]]; nra).
  assert (K0 : 0 < metric_factor [k0; k1; k2]) by (apply sqrt_lt_R0; exact P).
  exists (metric_factor [k0; k1; k2]), (k0 / metric_factor [k0; k1; k2]), (k1 / metric_factor [k0; k1; k2]), (k2 / metric_factor [k0; k1; k2]).
  assert (E : metric_factor [k0; k1; k2] * metric_factor [k0; k1; k2] = k0 ^ 2 + (k1 ^ 2 + (k2 ^ 2 + 0))) by (apply sqrt_sqrt; apply Rlt_le, P).
  set (K := metric_factor [k0; k1; k2]) in *. clearbody K.
  repeat split; auto; try (field; lra).
  apply Rmult_eq_reg_r with (K * K); [|nra].
  replace (k0 / K * (k0 / K) * (K * K)) with (k0 * k0) by (field; lra).
  replace ((1 - k1 / K * (k1 / K) - k2 / K * (k2 / K)) * (K * K)) with (K * K - k1 * k1 - k2 * k2) by (field; lra). lra.
Qed.
Lemma root2 : exists s, sqrt 2 = s /\ s <> 0 /\ s * s = 2.
Proof.
  exists (sqrt 2). split; [auto|]. assert (0 < sqrt 2) by (apply sqrt_lt_R0; lra). split; [lra|]. apply sqrt_sqrt. lra.
Qed.
Lemma cons_eq : forall (A : Type) (a b : A) l m, a = b -> l = m -> a :: l = b :: m.
Proof. intros; subst; auto. Qed.
Ltac entries tac := repeat (apply cons_eq; [tac|]); auto.

Lemma inverse1 : forall g u0 a, a <> 0 -> g - 1 <> 0 -> inverse_of 3 (LEV1 g u0 a) (REV1 g u0 a).
Proof.
  intros g u0 a Ha Hg. unfold inverse_of, LEV1, REV1. set (H := H1 g u0 a).
  assert (E : 2 * H - u0 ^ 2 = 2 * a ^ 2 / (g - 1)) by (unfold H, H1; field; auto).
  assert (N : 2 * H - u0 ^ 2 <> 0).
  { rewrite E. unfold Rdiv. apply Rmult_integral_contrapositive_currified; [nra|apply Rinv_neq_0_compat; auto]. }
  assert (N' : - 2 * H + u0 ^ 2 <> 0) by lra.
  clearbody H. clear E.
  split; unfold mulmat, identity, column; cbn [seq map dot nth Nat.eqb]; entries ltac:(entries ltac:(field; repeat split; auto; try lra)).
Qed.
Lemma inverse2 : forall g k0 k1 rho u0 u1 a, rho <> 0 -> a <> 0 -> g - 1 <> 0 -> (k0 <> 0 \/ k1 <> 0) ->
  inverse_of 4 (LEV2 g k0 k1 rho u0 u1 a) (REV2 g k0 k1 rho u0 u1 a).
Proof.
  intros g k0 k1 rho u0 u1 a Hr Ha Hg N. destruct (metric2 k0 k1 N) as (K & n0 & n1 & K0 & E & E0 & E1 & _ & _ & Hn).
  destruct root2 as (s & Es & Hs & Hss).
  unfold inverse_of, LEV2, REV2. rewrite E, E0, E1, Es. clear E E0 E1 Es.
  split; unfold mulmat, identity, column; cbn [seq map dot nth Nat.eqb];
    entries ltac:(entries ltac:(field [Hn Hss]; repeat split; auto)).
Qed.
Lemma inverse3 : forall g k0 k1 k2 rho u0 u1 u2 a, rho <> 0 -> a <> 0 -> g - 1 <> 0 -> (k0 <> 0 \/ k1 <> 0 \/ k2 <> 0) ->
  inverse_of 5 (LEV3 g k0 k1 k2 rho u0 u1 u2 a) (REV3 g k0 k1 k2 rho u0 u1 u2 a).
Proof.
  intros g k0 k1 k2 rho u0 u1 u2 a Hr Ha Hg N. destruct (metric3 k0 k1 k2 N) as (K & n0 & n1 & n2 & K0 & E & E0 & E1 & E2 & _ & _ & _ & Hn).
  destruct root2 as (s & Es & Hs & Hss).
  unfold inverse_of, LEV3, REV3. rewrite E, E0, E1, E2, Es. clear E E0 E1 E2 Es.
  split; unfold mulmat, identity, column; cbn [seq map dot nth Nat.eqb];
    entries ltac:(entries ltac:(field [Hn Hss]; repeat split; auto)).
Qed.

(* ---------- eigenvectors ---------- *)
Lemma eigen1 : forall g rho u0 a j, rho <> 0 -> g <> 0 -> g - 1 <> 0 -> (j < 3)%nat ->
  right_eigenvector (flux g [1]) (conserved g rho [u0] a) (column j (REV1 g u0 a)) (nth j (ev1 u0 a) 0).
Proof.
  intros g rho u0 a j Hr Hg Hg1 Hj. unfold right_eigenvector.
  do 3 (destruct j as [|j]; [cbn [column map nth ev1 REV1];
    match goal with |- directional_derivative _ _ ?r ?v =>
      replace v with (jacobian g [1] [u0] a r); [apply flux_deriv1; auto|];
      unfold jacobian, vscale, density, momenta, energy, H1; cbn [map combine removelast tl hd last app fst snd dot];
      entries ltac:(field; auto) end|]). lia.
Qed.
Lemma eigen2 : forall g k0 k1 rho u0 u1 a j, rho <> 0 -> a <> 0 -> g <> 0 -> g - 1 <> 0 -> (k0 <> 0 \/ k1 <> 0) -> (j < 4)%nat ->
  right_eigenvector (flux g [k0; k1]) (conserved g rho [u0; u1] a) (column j (REV2 g k0 k1 rho u0 u1 a)) (nth j (ev2 k0 k1 u0 u1 a) 0).
Proof.
  intros g k0 k1 rho u0 u1 a j Hr Ha Hg Hg1 N Hj. unfold right_eigenvector.
  destruct (metric2 k0 k1 N) as (K & n0 & n1 & K0 & E & E0 & E1 & F0 & F1 & Hn).
  destruct root2 as (s & Es & Hs & Hss).
  unfold REV2, ev2. rewrite E, E0, E1, Es. clear E E0 E1 Es.
  do 4 (destruct j as [|j]; [cbn [column map nth];
    match goal with |- directional_derivative _ _ ?r ?v =>
      replace v with (jacobian g [k0; k1] [u0; u1] a r); [apply flux_deriv2; auto|];
      unfold jacobian, vscale, density, momenta, energy; cbn [map combine removelast tl hd last app fst snd dot];
      rewrite F0, F1; entries ltac:(field [Hn Hss]; auto) end|]). lia.
Qed.
Lemma eigen3 : forall g k0 k1 k2 rho u0 u1 u2 a j, rho <> 0 -> a <> 0 -> g <> 0 -> g - 1 <> 0 -> (k0 <> 0 \/ k1 <> 0 \/ k2 <> 0) -> (j < 5)%nat ->
  right_eigenvector (flux g [k0; k1; k2]) (conserved g rho [u0; u1; u2] a) (column j (REV3 g k0 k1 k2 rho u0 u1 u2 a)) (nth j (ev3 k0 k1 k2 u0 u1 u2 a) 0).
Proof.
  intros g k0 k1 k2 rho u0 u1 u2 a j Hr Ha Hg Hg1 N Hj. unfold right_eigenvector.
  destruct (metric3 k0 k1 k2 N) as (K & n0 & n1 & n2 & K0 & E & E0 & E1 & E2 & F0 & F1 & F2 & Hn).
  destruct root2 as (s & Es & Hs & Hss).
  unfold REV3, ev3. rewrite E, E0, E1, E2, Es. clear E E0 E1 E2 Es.
  do 5 (destruct j as [|j]; [cbn [column map nth];
    match goal with |- directional_derivative _ _ ?r ?v =>
      replace v with (jacobian g [k0; k1; k2] [u0; u1; u2] a r); [apply flux_deriv3; auto|];
      unfold jacobian, vscale, density, momenta, energy; cbn [map combine removelast tl hd last app fst snd dot];
      rewrite F0, F1, F2; entries ltac:(field [Hn Hss]; auto) end|]). lia.
Qed.

(* ---------- R Lambda L is the Jacobian ---------- *)
Ltac unjac := unfold through_characteristics, jacobian, density, momenta, energy, mulvec; cbn [map combine removelast tl hd last app fst snd dot].
Lemma through1 : forall g u0 a v0 v1 v2, a <> 0 -> g - 1 <> 0 ->
  through_characteristics (REV1 g u0 a) (ev1 u0 a) (LEV1 g u0 a) [v0; v1; v2] = jacobian g [1] [u0] a [v0; v1; v2].
Proof.
  intros g u0 a v0 v1 v2 Ha Hg. unfold REV1, LEV1, ev1. set (H := H1 g u0 a).
  assert (E : H = a ^ 2 / (g - 1) + u0 ^ 2 / 2) by reflexivity.
  assert (E2 : 2 * H - u0 ^ 2 = 2 * a ^ 2 / (g - 1)) by (rewrite E; field; auto).
  assert (E3 : - 2 * H + u0 ^ 2 = - 2 * a ^ 2 / (g - 1)) by (rewrite E; field; auto).
  rewrite E2, E3, E. unjac. entries ltac:(field; repeat split; auto).
Qed.
Lemma through2 : forall g k0 k1 rho u0 u1 a v0 v1 v2 v3, rho <> 0 -> a <> 0 -> g - 1 <> 0 -> (k0 <> 0 \/ k1 <> 0) ->
  through_characteristics (REV2 g k0 k1 rho u0 u1 a) (ev2 k0 k1 u0 u1 a) (LEV2 g k0 k1 rho u0 u1 a) [v0; v1; v2; v3]
  = jacobian g [k0; k1] [u0; u1] a [v0; v1; v2; v3].
Proof.
  intros g k0 k1 rho u0 u1 a v0 v1 v2 v3 Hr Ha Hg N.
  destruct (metric2 k0 k1 N) as (K & n0 & n1 & K0 & E & E0 & E1 & F0 & F1 & Hn).
  destruct root2 as (s & Es & Hs & Hss).
  unfold REV2, LEV2, ev2. rewrite E, E0, E1, Es. clear E E0 E1 Es. unjac. rewrite F0, F1.
  entries ltac:(field [Hn Hss]; repeat split; auto).
Qed.
Lemma through3 : forall g k0 k1 k2 rho u0 u1 u2 a v0 v1 v2 v3 v4, rho <> 0 -> a <> 0 -> g - 1 <> 0 -> (k0 <> 0 \/ k1 <> 0 \/ k2 <> 0) ->
  through_characteristics (REV3 g k0 k1 k2 rho u0 u1 u2 a) (ev3 k0 k1 k2 u0 u1 u2 a) (LEV3 g k0 k1 k2 rho u0 u1 u2 a) [v0; v1; v2; v3; v4]
  = jacobian g [k0; k1; k2] [u0; u1; u2] a [v0; v1; v2; v3; v4].
Proof.
  intros g k0 k1 k2 rho u0 u1 u2 a v0 v1 v2 v3 v4 Hr Ha Hg N.
  destruct (metric3 k0 k1 k2 N) as (K & n0 & n1 & n2 & K0 & E & E0 & E1 & E2 & F0 & F1 & F2 & Hn).
  destruct root2 as (s & Es & Hs & Hss).
  unfold REV3, LEV3, ev3. rewrite E, E0, E1, E2, Es. clear E E0 E1 E2 Es. unjac. rewrite F0, F1, F2.
  entries ltac:(field [Hn Hss]; repeat split; auto).
Qed.

(* ---------- the Roe average ---------- *)
(* everything is expressed with the square roots x, y of the two densities *)
Definition mean (x y p q : R) : R := (x * p + y * q) / (y + x).
Lemma roe_mean_eq : forall rL rR p q, 0 < rL -> 0 < rR -> roe_mean rL rR p q = mean (sqrt rL) (sqrt rR) p q.
Proof. intros. unfold roe_mean, roe_inv, mean. reflexivity. Qed.
Lemma enthalpy_of : forall g rho u a, rho <> 0 -> g <> 0 -> g - 1 <> 0 ->
  (energy (conserved g rho u a) + pressure g (conserved g rho u a)) / rho = a ^ 2 / (g - 1) + dot u u / 2.
Proof.
  intros g rho u a Hr Hg Hg1. unfold pressure, energy, momenta, density, conserved.
  cbn [tl hd]. rewrite app_comm_cons, last_last, removelast_last.
  replace (dot (map (Rmult rho) u) (map (Rmult rho) u)) with (rho * rho * dot u u).
  - field. auto.
  - clear. induction u; cbn; [ring|rewrite <- IHu; ring].
Qed.
