(* Proofs about the shock filter. *)
From Verif Require Import Base FDModel FDSpec FDProofs WenoModel WenoSpec WenoPoly WenoProofs EulerSpec EulerModel LLFModel LLFProofs ShiftSpec ShiftProofs WFModel WFSpec.
From Coq Require Import QArith Reals Qreals List ZArith Lia Lra.
Import ListNotations.
Local Open Scope R_scope.

(* x^n is convex on the nonnegative reals *)
Lemma pow_convex : forall n x y t, 0 <= x -> 0 <= y -> 0 <= t <= 1 -> (t * x + (1 - t) * y) ^ n <= t * x ^ n + (1 - t) * y ^ n.
Proof.
  induction n as [|n IH]; intros x y t Hx Hy Ht; cbn [pow]; [lra|].
  specialize (IH x y t Hx Hy Ht). set (z := t * x + (1 - t) * y) in *.
  assert (Z0 : 0 <= z) by (unfold z; apply Rplus_le_le_0_compat; apply Rmult_le_pos; lra).
  apply Rle_trans with (z * (t * x ^ n + (1 - t) * y ^ n)); [apply Rmult_le_compat_l; auto|].
  assert (M : 0 <= (x - y) * (x ^ n - y ^ n)).
  { destruct (Rle_dec x y).
    - pose proof (pow_incr x y n (conj Hx r)). replace ((x - y) * (x ^ n - y ^ n)) with ((y - x) * (y ^ n - x ^ n)) by ring. apply Rmult_le_pos; lra.
    - assert (H : y <= x) by lra. pose proof (pow_incr y x n (conj Hy H)). apply Rmult_le_pos; lra. }
  assert (E : t * (x * x ^ n) + (1 - t) * (y * y ^ n) - z * (t * x ^ n + (1 - t) * y ^ n) = t * (1 - t) * ((x - y) * (x ^ n - y ^ n))) by (unfold z; ring).
  assert (0 <= t * (1 - t)) by (apply Rmult_le_pos; lra).
  pose proof (Rmult_le_pos _ _ H M). lra.
Qed.
Lemma least_ok : forall l x, In x l -> least l <= x.
Proof.
  assert (F : forall l a, fold_left Rmin l a <= a /\ forall x, In x l -> fold_left Rmin l a <= x).
  { induction l as [|b l IH]; intros a; cbn [fold_left]; [split; [lra|intros x []]|].
    destruct (IH (Rmin a b)) as [A B]. pose proof (Rmin_l a b). pose proof (Rmin_r a b). split; [lra|]. intros x [<- | H1]; [lra|auto]. }
  intros [|a l] x []; cbn [least]; destruct (F l a); subst; auto.
Qed.
Lemma least_in : forall l, l <> [] -> In (least l) l.
Proof.
  assert (F : forall l a, fold_left Rmin l a = a \/ In (fold_left Rmin l a) l).
  { induction l as [|b l IH]; intros a; cbn [fold_left]; [auto|]. destruct (IH (Rmin a b)) as [-> | H]; [|right; right; auto].
    unfold Rmin. destruct (Rle_dec a b); [auto|right; left; auto]. }
  intros [|a l] H; [congruence|]. cbn [least]. destruct (F l a) as [-> | K]; [left; auto|right; auto].
Qed.

Notation ideal s k := (fun r => Q2R (nth r (opt_weights s k) 0%Q)).
Lemma weight_le_sum : forall k (w : nat -> R), (forall r, (r < k)%nat -> 0 <= w r) -> forall r, (r < k)%nat -> w r <= rsumR (map w (seq 0 k)).
Proof.
  intros k w P r Hr.
  assert (G : forall n, (n <= k)%nat -> (forall i, (i < n)%nat -> w i <= rsumR (map w (seq 0 n))) /\ 0 <= rsumR (map w (seq 0 n))).
  { induction n as [|n IH]; intros Hn; [split; [intros; lia|cbn; lra]|]. destruct (IH ltac:(lia)) as [A B]. rewrite rsum_seq_S.
    specialize (P n ltac:(lia)). split; [|lra]. intros i Hi. destruct (Nat.eq_dec i n) as [-> |]; [lra|]. specialize (A i ltac:(lia)). lra. }
  apply (proj1 (G k ltac:(lia))). auto.
Qed.
Lemma ideal_range : forall s k r, (2 <= k)%nat -> (r < k)%nat -> 0 < Q2R (nth r (opt_weights s k) 0%Q) <= 1.
Proof.
  intros s k r Hk Hr. destruct (opt_weights_ok s k ltac:(lia)) as (P & S1 & _). split; [apply P; auto|]. rewrite <- S1.
  apply (weight_le_sum k (dw s k)); auto. intros. apply Rlt_le, P. auto.
Qed.
Lemma rsum_le : forall A (f g : A -> R) l, (forall x, In x l -> f x <= g x) -> rsumR (map f l) <= rsumR (map g l).
Proof. intros A f g l H. induction l; cbn; [lra|]. apply Rplus_le_compat; [apply H; left; auto|apply IHl; intros; apply H; right; auto]. Qed.
Lemma rsum_zero : forall A (f : A -> R) l, (forall x, In x l -> 0 <= f x) -> rsumR (map f l) = 0 -> forall x, In x l -> f x = 0.
Proof.
  intros A f l H. induction l as [|a l IH]; cbn [map rsumR fold_right]; intros E x []; fold (rsumR (map f l)) in E.
  - subst. assert (0 <= rsumR (map f l)) by (apply rsumR_nonneg; intros y Hy; apply in_map_iff in Hy; destruct Hy as (z & <- & Hz); apply H; right; auto).
    specialize (H x (or_introl eq_refl)). lra.
  - assert (0 <= rsumR (map f l)) by (apply rsumR_nonneg; intros y Hy; apply in_map_iff in Hy; destruct Hy as (z & <- & Hz); apply H; right; auto).
    specialize (H a (or_introl eq_refl)) as Ha. apply IH; auto; [intros; apply H; right; auto|lra].
Qed.
Lemma rsum_const : forall k c, rsumR (map (fun _ => c) (seq 0 k)) = INR k * c.
Proof. induction k; intros; [cbn; ring|]. rewrite rsum_seq_S, IHk, S_INR. ring. Qed.

Section sensor.
  Variables (s : side) (k theta : nat).
  Hypotheses (Hk : (2 <= k)%nat) (Ht : (1 <= theta)%nat).
  Let d := ideal s k.
  Let mn := least (map d (seq 0 k)).
  Lemma mn_ok : 0 < mn <= 1 /\ forall r, (r < k)%nat -> mn <= d r.
  Proof.
    assert (I : In mn (map d (seq 0 k))) by (apply least_in; destruct k; [lia|discriminate]).
    split.
    - apply in_map_iff in I. destruct I as (r & <- & Hr). apply in_seq in Hr. apply ideal_range; auto. lia.
    - intros r Hr. apply least_ok. apply in_map. apply in_seq. lia.
  Qed.
  Lemma k1 : 1 <= INR k - 1.
  Proof. assert (INR 2 <= INR k) by (apply le_INR; auto). cbn in *. lra. Qed.
  Lemma denominator_pos : 0 < Rabs (1 / mn - 1) ^ theta + (INR k - 1).
  Proof. pose proof k1. pose proof (pow_le (Rabs (1 / mn - 1)) theta (Rabs_pos _)). lra. Qed.
  Lemma sensor_nonneg : forall om, 0 <= sensor s k theta om.
  Proof.
    intros om. unfold sensor. apply Rmult_le_pos; [|apply Rlt_le, Rinv_0_lt_compat, denominator_pos].
    apply rsumR_nonneg. intros x Hx. apply in_map_iff in Hx. destruct Hx as (r & <- & _). apply pow_le, Rabs_pos.
  Qed.
  Lemma sensor_le_1 : forall om, convex_weights k (fun r => nth r om 0) -> sensor s k theta om <= 1.
  Proof.
    intros om [P S1]. unfold sensor. fold d. fold mn. pose proof denominator_pos as Dp. destruct mn_ok as [[M0 M1] Mr].
    apply Rmult_le_reg_r with (Rabs (1 / mn - 1) ^ theta + (INR k - 1)); auto.
    match goal with |- ?N / ?X * _ <= _ => replace (N / X * X) with N by (field; lra) end. rewrite Rmult_1_l.
    assert (W1 : forall r, (r < k)%nat -> nth r om 0 <= 1).
    { intros r Hr. rewrite <- S1. apply (weight_le_sum k (fun r => nth r om 0)); auto. }
    set (K := Rabs (1 / mn - 1) ^ theta) in *.
    assert (M : 0 <= 1 / mn - 1).
    { assert (1 <= 1 / mn); [|lra]. apply Rmult_le_reg_r with mn; auto. unfold Rdiv. rewrite !Rmult_1_l, Rinv_l by lra. lra. }
    apply Rle_trans with (rsumR (map (fun r => nth r om 0 * K + (1 - nth r om 0)) (seq 0 k))).
    - apply rsum_le. intros r Hr. apply in_seq in Hr. assert (Rk : (r < k)%nat) by lia. specialize (P r Rk). specialize (W1 r Rk). specialize (Mr r Rk).
      set (w := nth r om 0) in *. assert (D0 : 0 < d r) by lra.
      assert (Dr : 0 <= 1 / d r - 1 <= 1 / mn - 1).
      { destruct (ideal_range s k r Hk Rk) as [A B]. fold d in A, B. split.
        - assert (1 <= 1 / d r); [|lra]. apply Rmult_le_reg_r with (d r); auto. unfold Rdiv. rewrite !Rmult_1_l, Rinv_l by lra. unfold d. lra.
        - unfold Rdiv. rewrite !Rmult_1_l. assert (/ d r <= / mn) by (apply Rinv_le_contravar; lra). lra. }
      apply Rle_trans with ((w * (1 / mn - 1) + (1 - w) * 1) ^ theta).
      + apply pow_incr. split; [apply Rabs_pos|].
        change (Rabs (w / d r - 1) <= w * (1 / mn - 1) + (1 - w) * 1). replace (w / d r - 1) with (w * (1 / d r - 1) + (1 - w) * -1) by (field; lra).
        apply Rle_trans with (Rabs (w * (1 / d r - 1)) + Rabs ((1 - w) * -1)); [apply Rabs_triang|].
        rewrite !Rabs_mult, (Rabs_pos_eq w), (Rabs_pos_eq (1 / d r - 1)), (Rabs_pos_eq (1 - w)), (Rabs_left (-1)) by lra. replace (- -1) with 1 by lra.
        apply Rplus_le_compat_r. apply Rmult_le_compat_l; lra.
      + pose proof (pow_convex theta (1 / mn - 1) 1 w M ltac:(lra) ltac:(lra)) as C. rewrite pow1 in C.
        unfold K. rewrite Rabs_pos_eq by lra. lra.
    - rewrite (rsumR_map_ext _ _ (fun r => (K - 1) * nth r om 0 + 1)) by (intros; ring).
      rewrite (rsumR_map_plus _ (fun r => (K - 1) * nth r om 0) (fun _ => 1)), rsumR_map_scale, rsum_const.
      change (fold_right Rplus 0 (map (fun r => nth r om 0) (seq 0 k))) with (rsumR (map (fun r => nth r om 0) (seq 0 k))) in S1. rewrite S1. lra.
  Qed.
  Lemma sensor_zero : forall om, sensor s k theta om = 0 <-> forall r, (r < k)%nat -> nth r om 0 = d r.
  Proof.
    intros om. unfold sensor. fold d. fold mn. pose proof denominator_pos as Dp. split.
    - intros E r Hr. assert (N : rsumR (map (fun r => Rabs (nth r om 0 / d r - 1) ^ theta) (seq 0 k)) = 0).
      { apply Rmult_integral in E. destruct E as [E | E]; auto. exfalso. apply Rinv_neq_0_compat in E; [auto|lra]. }
      apply rsum_zero with (x := r) in N; [|intros; apply pow_le, Rabs_pos|apply in_seq; lia].
      destruct (ideal_range s k r Hk Hr) as [A _]. change (0 < d r) in A.
      assert (Z0 : Rabs (nth r om 0 / d r - 1) = 0).
      { destruct (Req_dec (Rabs (nth r om 0 / d r - 1)) 0) as [|Nz]; auto. exfalso. exact (pow_nonzero _ theta Nz N). }
      destruct (Req_dec (nth r om 0 / d r - 1) 0) as [E1|N1]; [|exfalso; exact (Rabs_no_R0 _ N1 Z0)].
      assert (E2 : nth r om 0 / d r = 1) by lra. apply (f_equal (fun z => z * d r)) in E2. unfold Rdiv in E2. rewrite Rmult_assoc, Rinv_l, Rmult_1_r, Rmult_1_l in E2 by lra. exact E2.
    - intros H. rewrite (rsumR_map_0 _ _ (seq 0 k)); [unfold Rdiv; ring|]. intros r Hr. apply in_seq in Hr. rewrite H by lia.
      destruct (ideal_range s k r Hk ltac:(lia)) as [A _]. change (0 < d r) in A. change (Rabs (d r / d r - 1) ^ theta = 0). replace (d r / d r - 1) with 0 by (field; lra). rewrite Rabs_R0. apply pow_i. lia.
  Qed.
End sensor.

(* the nonlinear weights are convex *)
Lemma weno_weights_ok : forall s k eps f, (2 <= k)%nat -> 0 < eps -> exists om, weno_weights s k eps f = Ok om /\
  convex_weights k (fun r => nth r om 0) /\
  om = omegas (map (alpha JS s k eps 0 (fun r => smoothness_indicator s k r f)) (seq 0 k)).
Proof.
  intros s k eps f Hk He. eexists. split; [reflexivity|]. split; [|reflexivity].
  set (a := alpha JS s k eps 0 (fun r => smoothness_indicator s k r f)).
  destruct (weight_ok a k ltac:(lia)) as [P S1].
  { intros r Hr. apply alpha_pos; auto. apply smoothness_nonneg. }
  assert (E : forall r, (r < k)%nat -> nth r (omegas (map a (seq 0 k))) 0 = weight a k r) by (intros r Hr; rewrite omega_nth; auto).
  split.
  - intros r Hr. apply Rlt_le. change (0 < nth r (omegas (map a (seq 0 k))) 0). rewrite E by auto. auto.
  - rewrite <- S1. apply rsumR_map_ext. intros r Hr. apply in_seq in Hr. apply E. lia.
Qed.
Lemma omegas_ideal : forall s k eps b c, (2 <= k)%nat -> 0 < eps -> (forall r, (r < k)%nat -> b r = c) -> 0 <= c ->
  forall r, (r < k)%nat -> nth r (omegas (map (alpha JS s k eps 0 b) (seq 0 k))) 0 = dw s k r.
Proof.
  intros s k eps b c Hk He Hb Hc r Hr. rewrite omega_nth by auto. cbn [alpha]. destruct (opt_weights_ok s k ltac:(lia)) as (P & S1 & _).
  assert (C2 : 0 < (eps + c) ^ 2) by (apply pow_lt; lra).
  rewrite (rsumR_map_ext _ _ (fun r => / (eps + c) ^ 2 * dw s k r)).
  - rewrite rsumR_map_scale, S1, Hb by auto. field. lra.
  - intros q Hq. apply in_seq in Hq. cbn [alpha]. rewrite Hb by lia. unfold Rdiv. ring.
Qed.
(* the indicators of a linear function *)
Lemma smoothness_affine : forall k r f a b, (2 <= k)%nat -> (r < k)%nat -> (forall j, f j = a + b * IZR j) -> smoothness k r f = b ^ 2.
Proof.
  intros k r f a b Hk Hr Hf. unfold smoothness.
  set (nodes := zrange (- Z.of_nat r) (Z.of_nat k + 1 - Z.of_nat r)).
  set (G := fun x : R => (a - b / 2) * x + b / 2 * x ^ 2). set (g0 := G (- INR r)).
  assert (RS : forall n, running_sum r f (- Z.of_nat r + Z.of_nat n) = G (IZR (- Z.of_nat r + Z.of_nat n)) - g0).
  { unfold running_sum. induction n as [|n IH].
    - rewrite Z.add_0_r, zrange_empty by lia. cbn [map rsumR fold_right]. unfold g0. rewrite opp_IZR, <- INR_IZR_INZ. ring.
    - replace (- Z.of_nat r + Z.of_nat (S n))%Z with (- Z.of_nat r + Z.of_nat n + 1)%Z by lia. rewrite zrange_snoc by lia.
      rewrite map_app, rsumR_app, IH. cbn [map rsumR fold_right]. rewrite Hf. rewrite (plus_IZR _ 1). unfold G. field. }
  assert (Q : peq (interpolating_poly nodes (running_sum r f)) [- g0; a - b / 2; b / 2]).
  { apply interp_unique; [apply NoDup_zrange| |].
    - unfold nodes. replace (Z.of_nat k + 1 - Z.of_nat r)%Z with (- Z.of_nat r + Z.of_nat k + 1)%Z by lia. rewrite nodes_length. cbn. lia.
    - intros x Hx. apply In_zrange in Hx. replace x with (- Z.of_nat r + Z.of_nat (Z.to_nat (x + Z.of_nat r)))%Z by lia. rewrite RS. unfold G. cbn [peval]. ring. }
  apply peq_pderiv in Q.
  destruct k as [|[|k]]; [lia|lia|]. replace (S (S k) - 1)%nat with (S k) by lia. cbn [seq map rsumR fold_right].
  assert (I : forall l, integral01 (pmulR (pderivs l (pderiv (interpolating_poly nodes (running_sum r f)))) (pderivs l (pderiv (interpolating_poly nodes (running_sum r f)))))
                = integral01 (pmulR (pderivs l (pderiv [- g0; a - b / 2; b / 2])) (pderivs l (pderiv [- g0; a - b / 2; b / 2])))).
  { intros l. pose proof (peq_pderivs l _ _ Q) as Ql. unfold integral01. rewrite !primitive_0. f_equal.
    revert Ql. generalize (pderivs l (pderiv (interpolating_poly nodes (running_sum r f)))) (pderivs l (pderiv [- g0; a - b / 2; b / 2])). intros p q Ql.
    apply peq_eval. assert (E : peq (pmulR p p) (pmulR q q)) by (apply eval_peq; intros t; rewrite !pmulR_eval, (peq_eval p q t Ql); auto).
    intros i. destruct i; [reflexivity|]. cbn [pprimitive nth]. rewrite !nth_primitive_from. rewrite (E i). auto. }
  rewrite I. rewrite (rsumR_map_0 _ _ (seq 2 k)).
  - cbn. unfold integral01. cbn. field.
  - intros l Hl. apply in_seq in Hl. rewrite I. destruct l as [|[|l]]; [lia|lia|].
    assert (Z0 : forall t, peval (pderivs (S (S l)) (pderiv [- g0; a - b / 2; b / 2])) t = 0).
    { intros t. cbn [pderivs].
      assert (N : peq (pderiv (pderiv (pderiv [- g0; a - b / 2; b / 2]))) []) by (apply eval_peq; intros u; cbn; ring).
      rewrite (peq_eval _ _ t (peq_pderivs l _ _ N)). clear. induction l; cbn; auto. }
    unfold integral01. rewrite primitive_0.
    assert (E : peq (pmulR (pderivs (S (S l)) (pderiv [- g0; a - b / 2; b / 2])) (pderivs (S (S l)) (pderiv [- g0; a - b / 2; b / 2]))) [])
      by (apply eval_peq; intros t; rewrite pmulR_eval, !Z0; cbn; ring).
    assert (E' : peq (pprimitive (pmulR (pderivs (S (S l)) (pderiv [- g0; a - b / 2; b / 2])) (pderivs (S (S l)) (pderiv [- g0; a - b / 2; b / 2])))) []).
    { intros i. destruct i; [reflexivity|]. cbn [pprimitive nth]. rewrite nth_primitive_from, (E i). destruct i; cbn [nth]; unfold Rdiv; ring. }
    rewrite (peq_eval _ _ 1 E'). cbn. ring.
Qed.

(* the interface formula *)
Lemma orders : forall order ws, central_weights order = Ok ws -> order = 3%nat \/ order = 5%nat \/ order = 7%nat.
Proof. intros order ws H. do 8 (destruct order as [|order]; [try discriminate; auto|]). exfalso. unfold central_weights in H. replace (S (S (S (S (S (S (S (S order))))))) + 1)%nat with (9 + order)%nat in H by lia. discriminate. Qed.
Ltac literal L := let t := eval vm_compute in L in change L with t.
Lemma central_difference : forall order ws eps f i, central_weights order = Ok ws ->
  let pts := stencil_points (weno_scheme JS (Nat.div (order + 1) 2) eps) in
  central_flux ws pts (fun p => f (i + p)%Z) - central_flux ws pts (fun p => f (i - 1 + p)%Z) = grid_formula (Z.of_nat (order + 1)) 1 1 f i.
Proof.
  intros order ws eps f i H pts. unfold grid_formula. unfold pts. clear pts.
  destruct (orders order ws H) as [-> | [-> | ->]]; injection H as <-.
  all: match goal with |- context [stencil_points ?s] => let t := eval vm_compute in (stencil_points s) in replace (stencil_points s) with t by (vm_compute; reflexivity) end.
  all: match goal with |- context [combine (central_points ?a) ?b] => literal (combine (central_points a) b) end.
  all: unfold central_flux; cbn [combine seq List.length map rsumR fold_right fst snd nth pow];
    repeat match goal with |- context [(?j - 1 + ?z)%Z] => lazymatch z with Zpos _ => idtac | Zneg _ => idtac | Z0 => idtac end;
      let w := eval vm_compute in (z - 1)%Z in replace (j - 1 + z)%Z with (j + w)%Z by lia end;
    unfold Q2R; cbn [Qnum Qden]; lra.
Qed.

(* with the ideal weights the reconstruction is the wide candidate *)
Lemma recon_ideal : forall s k eps f, (2 <= k)%nat ->
  (exists om, weno_weights s k eps f = Ok om /\ forall r, (r < k)%nat -> nth r om 0 = Q2R (nth r (opt_weights s k) 0%Q)) ->
  reconstruction JS s k eps f = Ok (candidate s (2 * k - 1) (k - 1) f).
Proof.
  intros s k eps f Hk (om & W & I). unfold reconstruction. destruct (Nat.eqb_spec k 1); [lia|]. unfold weno_weights in W.
  destruct (alphas JS s k eps (fun r => smoothness_indicator s k r f)) as [al|] eqn:A; [|discriminate]. cbn [bind] in W |- *. injection W as W. f_equal.
  destruct (opt_weights_ok s k ltac:(lia)) as (_ & _ & E). rewrite E. apply rsumR_map_ext. intros r Hr. apply in_seq in Hr. unfold dw. rewrite W, I by lia. auto.
Qed.
Definition wide (s : side) (k : nat) : list (Q * Z) :=
  map (fun j => (Qred (eno_coefficient s (2 * k - 1) (k - 1) j), nth ((k - 1) * (2 * k - 1) + j) (func_points s (2 * k - 1)) 0%Z)) (seq 0 (2 * k - 1)).
Lemma candidate_wide : forall s k f, candidate s (2 * k - 1) (k - 1) f = rsumR (map (fun cp => Q2R (fst cp) * f (snd cp)) (wide s k)).
Proof. intros. unfold candidate, wide. rewrite map_map. apply rsumR_map_ext. intros j _. cbn [fst snd]. f_equal. symmetry. apply Qeq_eqR, Qred_correct. Qed.
Lemma dissipation : forall order ws lam CF CS, central_weights order = Ok ws ->
  let k := Nat.div (order + 1) 2 in
  0 + candidate SRight (2 * k - 1) (k - 1) (positive_flux lam CF CS) + candidate SLeft (2 * k - 1) (k - 1) (negative_flux lam CF CS)
    - central_flux ws (stencil_points (weno_scheme JS k 1)) CF
  = - Q2R (nth 0 ws 0%Q) * lam * difference order CS (1 - Z.of_nat k).
Proof.
  intros order ws lam CF CS H k. rewrite !candidate_wide. unfold k. clear k.
  destruct (orders order ws H) as [-> | [-> | ->]]; injection H as <-.
  all: match goal with |- context [stencil_points ?s] => let t := eval vm_compute in (stencil_points s) in replace (stencil_points s) with t by (vm_compute; reflexivity) end.
  all: match goal with |- context [wide SRight ?n] => literal (wide SRight n); literal (wide SLeft n); literal (1 - Z.of_nat n)%Z end.
  all: unfold central_flux; cbn [combine seq List.length map rsumR fold_right fst snd nth difference];
    repeat match goal with |- context [(?y + 1)%Z] => lazymatch y with Zpos _ => idtac | Zneg _ => idtac | Z0 => idtac end; literal (y + 1)%Z end;
    unfold Q2R, positive_flux, negative_flux; cbn [Qnum Qden]; lra.
Qed.

(* linear data *)
Lemma func_points_range : forall s k p, In p (func_points s k) -> (1 - Z.of_nat k <= p <= Z.of_nat k)%Z.
Proof.
  intros s k p H. unfold func_points in H. apply in_flat_map in H. destruct H as (r & Hr & H). apply in_map_iff in H. destruct H as (j & <- & Hj).
  apply in_seq in Hr, Hj. destruct s; cbn [point_shift]; lia.
Qed.
Lemma affine_ideal : forall s k eps f, (2 <= k)%nat -> 0 < eps -> affine (1 - Z.of_nat k) (Z.of_nat k) f ->
  exists om, weno_weights s k eps f = Ok om /\ forall r, (r < k)%nat -> nth r om 0 = Q2R (nth r (opt_weights s k) 0%Q).
Proof.
  intros s k eps f Hk He (a & b & Hf). destruct (weno_weights_ok s k eps f Hk He) as (om & W & _ & E). exists om. split; auto. intros r Hr.
  rewrite E. apply (omegas_ideal s k eps _ (b ^ 2)); auto; [|apply pow2_ge_0]. intros q Hq.
  rewrite (smoothness_local s k q f (fun j => a + b * IZR j) Hq) by (intros p Hp; apply Hf, (func_points_range s k p Hp)).
  apply (smoothness_affine k q _ (a + b * IZR (point_shift s)) b Hk Hq). intros j. rewrite plus_IZR. ring.
Qed.
Lemma filter_wave_ok : forall order theta eps ws pts lam CF CS, central_weights order = Ok ws ->
  exists v, filter_wave order theta eps ws pts lam CF CS = Ok v.
Proof.
  intros order theta eps ws pts lam CF CS H. unfold filter_wave.
  assert (K : (2 <= Nat.div (order + 1) 2)%nat) by (destruct (orders order ws H) as [-> | [-> | ->]]; cbn; lia).
  set (k := Nat.div (order + 1) 2) in *. clearbody k.
  destruct (weno_ok JS SRight k eps (positive_flux lam CF CS) K ltac:(discriminate)) as (r & R1).
  destruct (weno_ok JS SLeft k eps (negative_flux lam CF CS) K ltac:(discriminate)) as (l & L1).
  unfold combined. cbn [weno_scheme sch_rec]. rewrite R1, L1. cbn [bind]. eexists. reflexivity.
Qed.
Lemma affine_split : forall lo hi lam F G, affine lo hi F -> affine lo hi G -> affine lo hi (positive_flux lam F G) /\ affine lo hi (negative_flux lam F G).
Proof.
  intros lo hi lam F G (a & b & Hf) (c & e & Hg). split.
  - exists (1 / 2 * (a + lam * c)), (1 / 2 * (b + lam * e)). intros j Hj. unfold positive_flux. rewrite Hf, Hg by auto. lra.
  - exists (1 / 2 * (a - lam * c)), (1 / 2 * (b - lam * e)). intros j Hj. unfold negative_flux. rewrite Hf, Hg by auto. lra.
Qed.
Lemma filter_wave_affine : forall order theta eps ws pts lam CF CS v, central_weights order = Ok ws -> (1 <= theta)%nat -> 0 < eps ->
  affine (1 - Z.of_nat (Nat.div (order + 1) 2)) (Z.of_nat (Nat.div (order + 1) 2)) CF ->
  affine (1 - Z.of_nat (Nat.div (order + 1) 2)) (Z.of_nat (Nat.div (order + 1) 2)) CS -> filter_wave order theta eps ws pts lam CF CS = Ok v -> v = 0.
Proof.
  intros order theta eps ws pts lam CF CS v H Ht He AF AS. unfold filter_wave.
  assert (K : (2 <= Nat.div (order + 1) 2)%nat) by (destruct (orders order ws H) as [-> | [-> | ->]]; cbn; lia).
  set (k := Nat.div (order + 1) 2) in *. clearbody k. destruct (affine_split _ _ lam CF CS AF AS) as [P N].
  destruct (affine_ideal SRight k eps _ K He P) as (omr & WR & IR). destruct (affine_ideal SLeft k eps _ K He N) as (oml & WL & IL).
  destruct (combined (weno_scheme JS k eps) (positive_flux lam CF CS) (negative_flux lam CF CS)) as [rc|]; [|discriminate].
  unfold wave_sensor. cbn [bind]. rewrite WR. cbn [bind]. rewrite WL. cbn [bind]. intros E. injection E as <-.
  rewrite (proj2 (sensor_zero SRight k theta K Ht omr) IR), (proj2 (sensor_zero SLeft k theta K Ht oml) IL).
  rewrite Rmax_left by lra. ring.
Qed.
Lemma dot_affine : forall lo hi row (V : Z -> list R) n, (forall j, (lo <= j <= hi)%Z -> List.length (V j) = n) ->
  (forall m, affine lo hi (fun j => nth m (V j) 0)) -> affine lo hi (fun j => dot row (V j)).
Proof.
  induction row as [|y row IH]; intros V n L A.
  - exists 0, 0. intros j _. cbn. ring.
  - destruct n as [|n].
    + exists 0, 0. intros j Hj. specialize (L j Hj). destruct (V j); [cbn; ring|discriminate].
    + destruct (IH (fun j => tl (V j)) n) as (a & b & T).
      { intros j Hj. specialize (L j Hj). destruct (V j); [discriminate|cbn in *; lia]. }
      { intros m. destruct (A (S m)) as (a & b & T). exists a, b. intros j Hj. specialize (T j Hj). specialize (L j Hj). destruct (V j); [discriminate|exact T]. }
      destruct (A 0%nat) as (c & e & T0). exists (y * c + a), (y * e + b). intros j Hj. specialize (T j Hj). specialize (T0 j Hj). specialize (L j Hj).
      destruct (V j) as [|z l]; [discriminate|]. cbn [dot]. cbn in T0, T. rewrite T, T0. ring.
Qed.
Lemma affine_shift : forall lo hi f i, affine (lo + i) (hi + i) f -> affine lo hi (fun p => f (i + p)%Z).
Proof. intros lo hi f i (a & b & H). exists (a + b * IZR i), b. intros j Hj. rewrite H by lia. rewrite plus_IZR. ring. Qed.
Lemma collect_ok : forall A (l : list (result A)), (forall r, In r l -> exists v, r = Ok v) -> exists vs, collect l = Ok vs.
Proof.
  induction l as [|r l IH]; intros H; cbn [collect]; [eauto|]. destruct (H r (or_introl eq_refl)) as (v & ->). destruct IH as (vs & E); [intros; apply H; right; auto|].
  cbn [bind]. rewrite E. cbn [bind]. eauto.
Qed.
Lemma collect_all : forall A (P : A -> Prop) (l : list (result A)) vs, (forall v, In (Ok v) l -> P v) -> collect l = Ok vs -> Forall P vs.
Proof.
  induction l as [|r l IH]; intros vs H E; cbn [collect] in E; [injection E as <-; constructor|]. destruct r as [v|]; [|discriminate]. cbn [bind] in E.
  destruct (collect l) as [t|]; [|discriminate]. cbn [bind] in E. injection E as <-. constructor; [apply H; left; auto|apply IH; auto; intros; apply H; right; auto].
Qed.
Lemma dot_zero : forall row v, Forall (fun y => y = 0) v -> dot row v = 0.
Proof. induction row as [|y row IH]; intros [|z v] F; cbn [dot]; auto. inversion F; subst. rewrite IH by auto. ring. Qed.
Lemma filter_flux_ok : forall order theta eps g line i ws, central_weights order = Ok ws -> exists w, filter_flux order theta eps g line i = Ok w.
Proof.
  intros order theta eps g line i ws H. unfold filter_flux. rewrite H. cbn [bind].
  match goal with |- context [collect ?l] => destruct (collect_ok R l) as (vs & E) end.
  { intros r Hr. apply in_map_iff in Hr. destruct Hr as (m & <- & _). apply (filter_wave_ok order theta eps ws). auto. }
  rewrite E. cbn [bind]. eauto.
Qed.
Lemma filter_flux_affine : forall order theta eps g line i w nF, (1 <= theta)%nat -> 0 < eps ->
  let lo := (1 - Z.of_nat (Nat.div (order + 1) 2) + i)%Z in let hi := (Z.of_nat (Nat.div (order + 1) 2) + i)%Z in
  (forall j, (lo <= j <= hi)%Z -> List.length (c_F (line j)) = nF /\ List.length (c_U (line j)) = nF) ->
  (forall m, affine lo hi (fun j => nth m (c_F (line j)) 0) /\ affine lo hi (fun j => nth m (c_U (line j)) 0)) ->
  filter_flux order theta eps g line i = Ok w -> forall m, nth m w 0 = 0.
Proof.
  intros order theta eps g line i w nF Ht He lo hi LN AF E m. unfold filter_flux in E. destruct (central_weights order) as [ws|] eqn:H; [|discriminate]. cbn [bind] in E.
  match type of E with context [collect ?l] => destruct (collect l) as [vs|] eqn:C; [|discriminate] end. cbn [bind] in E. injection E as <-.
  apply (collect_all R (fun v => v = 0)) in C.
  - unfold mulvec. destruct (Nat.lt_ge_cases m (List.length (right_matrix g (s_k (average g Simple (line i) (line (i + 1)%Z))) (s_rho (average g Simple (line i) (line (i + 1)%Z))) (s_u (average g Simple (line i) (line (i + 1)%Z))) (s_a (average g Simple (line i) (line (i + 1)%Z)))))) as [L|L].
    + rewrite (nth_indep _ 0 (dot [] vs)) by (rewrite map_length; auto). rewrite (map_nth (fun row => dot row vs)). apply dot_zero. auto.
    + rewrite nth_overflow; auto. rewrite map_length. auto.
  - intros v Hv. apply in_map_iff in Hv. destruct Hv as (q & Ev & _). refine (filter_wave_affine _ _ _ _ _ _ _ _ _ H Ht He _ _ Ev); unfold characteristic.
    + apply (dot_affine _ _ _ (fun p => c_F (line (i + p)%Z)) nF); [intros j Hj; apply LN; unfold lo, hi; lia|]. intros n. apply (affine_shift _ _ (fun j => nth n (c_F (line j)) 0)), AF.
    + apply (dot_affine _ _ _ (fun p => c_U (line (i + p)%Z)) nF); [intros j Hj; apply LN; unfold lo, hi; lia|]. intros n. apply (affine_shift _ _ (fun j => nth n (c_U (line j)) 0)), AF.
Qed.

(* sums over a block *)
Lemma bt_ext : forall sizes f h, (forall x, List.length x = List.length sizes -> f x = h x) -> block_total sizes f = block_total sizes h.
Proof. induction sizes as [|n sizes IH]; intros f h H; cbn [block_total]; [apply H; auto|]. apply total_ext. intros i. apply IH. intros x L. apply H. cbn. lia. Qed.
Lemma bt_plus : forall sizes f h, block_total sizes (fun x => f x + h x) = block_total sizes f + block_total sizes h.
Proof. induction sizes as [|n sizes IH]; intros f h; cbn [block_total]; [auto|]. rewrite <- total_plus. apply total_ext. intros i. apply IH. Qed.
Lemma bt_scale : forall sizes c f, block_total sizes (fun x => c * f x) = c * block_total sizes f.
Proof. induction sizes as [|n sizes IH]; intros c f; cbn [block_total]; [auto|]. rewrite <- total_scale. apply total_ext. intros i. apply IH. Qed.
Lemma bt_sum : forall sizes l (f : nat -> list Z -> R), block_total sizes (fun x => rsumR (map (fun d => f d x) l)) = rsumR (map (fun d => block_total sizes (f d)) l).
Proof.
  intros sizes l f. induction l as [|d l IH]; cbn [map rsumR fold_right].
  - rewrite (bt_ext sizes _ (fun x => 0 * 0)) by (intros; ring). rewrite bt_scale. ring.
  - rewrite bt_plus. f_equal. apply IH.
Qed.
Lemma bt_shift : forall sizes d j f, (d < List.length sizes)%nat -> block_periodic sizes f -> block_total sizes (fun x => f (move d j x)) = block_total sizes f.
Proof.
  induction sizes as [|n sizes IH]; intros d j f Hd P; [cbn in Hd; lia|]. destruct d as [|d]; cbn [block_total move].
  - apply (total_shift n (fun i => block_total sizes (fun x => f (i :: x)))). intros i. apply bt_ext. intros x L. apply (P 0%nat (i :: x)); [lia|cbn; lia].
  - apply total_ext. intros i. apply (IH d j (fun x => f (i :: x))); [cbn in Hd; lia|]. intros e x He L. apply (P (S e) (i :: x)); cbn; lia.
Qed.
Lemma filtered_total : forall sizes ds (c : list Z -> R) (w : nat -> list Z -> R) delta a,
  (forall d, In d ds -> (d < List.length sizes)%nat) -> block_periodic sizes c -> (forall d, In d ds -> block_periodic sizes (w d)) ->
  block_total sizes (fun x => a * c x * rsumR (map (fun d => - ((w d x - w d (move d (-1) x)) / delta d)) ds))
  = a * rsumR (map (fun d => block_total sizes (fun x => (c (move d 1 x) - c x) * w d x) / delta d) ds).
Proof.
  intros sizes ds c w delta a Hds Pc Pw.
  rewrite (bt_ext sizes _ (fun x => a * rsumR (map (fun d => - (c x * ((w d x - w d (move d (-1) x)) / delta d))) ds))).
  2: { intros x _. rewrite Rmult_assoc. f_equal. rewrite <- rsumR_map_scale. apply rsumR_map_ext. intros. ring. }
  rewrite bt_scale, bt_sum. f_equal. apply rsumR_map_ext. intros d Id. specialize (Hds d Id). specialize (Pw d Id).
  rewrite (bt_ext sizes _ (fun x => / delta d * (- 1 * (c x * w d x) + c x * w d (move d (-1) x)))) by (intros; unfold Rdiv; ring).
  rewrite bt_scale, bt_plus, bt_scale.
  rewrite <- (bt_shift sizes d 1 (fun x => c x * w d (move d (-1) x)) Hds).
  2: { intros e x He L. assert (E : move d (-1) (move e (Z.of_nat (nth e sizes 0%nat)) x) = move e (Z.of_nat (nth e sizes 0%nat)) (move d (-1) x)).
       { clear. revert e x sizes. generalize (-1)%Z. induction d as [|d IH]; intros v [|e] [|i x] sizes; cbn [move]; auto.
         - f_equal. lia.
         - f_equal. destruct sizes as [|s sizes]; cbn [nth]; [|apply IH]. specialize (IH v e x []). replace (nth e [] 0%nat) with 0%nat in IH by (destruct e; auto). apply IH. }
       rewrite E, Pc by auto. rewrite (Pw e (move d (-1) x)) by (rewrite ?move_length; auto). auto. }
  rewrite (bt_ext sizes (fun x => c (move d 1 x) * _) (fun x => c (move d 1 x) * w d x)).
  2: { intros x L. rewrite move_move. f_equal. f_equal. clear. revert x. induction d as [|d IH]; intros [|i x]; cbn [move]; auto; [f_equal; lia|f_equal; apply IH]. }
  rewrite (bt_ext sizes (fun x => (c (move d 1 x) - c x) * w d x) (fun x => - 1 * (c x * w d x) + c (move d 1 x) * w d x)) by (intros; ring).
  rewrite bt_plus, bt_scale. unfold Rdiv. ring.
Qed.

(* sensors *)
Lemma tanh_exp : forall x, tanh x = 1 - 2 / (exp (2 * x) + 1).
Proof.
  intros x. unfold tanh, sinh, cosh. replace (2 * x) with (x + x) by ring. rewrite exp_plus, exp_Ropp. pose proof (exp_pos x).
  assert (0 < exp x * exp x + 1) by nra. field. repeat split; nra.
Qed.
Lemma tanh_range : forall x, -1 < tanh x < 1.
Proof.
  intros x. rewrite tanh_exp. pose proof (exp_pos (2 * x)). assert (I : 0 < 2 / (exp (2 * x) + 1) < 2); [|lra].
  assert (J : 0 < / (exp (2 * x) + 1)) by (apply Rinv_0_lt_compat; lra). assert (K : (exp (2 * x) + 1) * / (exp (2 * x) + 1) = 1) by (apply Rinv_r; lra).
  unfold Rdiv. nra.
Qed.
Lemma tanh_le : forall x y, x <= y -> tanh x <= tanh y.
Proof.
  intros x y L. rewrite !tanh_exp. assert (E : exp (2 * x) <= exp (2 * y)) by (destruct L as [L | ->]; [left; apply exp_increasing; lra|lra]).
  pose proof (exp_pos (2 * x)). assert (I : / (exp (2 * y) + 1) <= / (exp (2 * x) + 1)) by (apply Rinv_le_contravar; lra). unfold Rdiv. lra.
Qed.
Lemma tanh_filter_range : forall dv, 0 < tanh_filter dv < 1.
Proof. intros dv. unfold tanh_filter. pose proof (tanh_range (25 / 10 * (1 + 100 * dv))). lra. Qed.
Lemma tanh_filter_le : forall a b, a <= b -> tanh_filter b <= tanh_filter a.
Proof. intros a b L. unfold tanh_filter. pose proof (tanh_le (25 / 10 * (1 + 100 * a)) (25 / 10 * (1 + 100 * b)) ltac:(lra)). lra. Qed.
Lemma vorticity_ok : forall ndim grad, (ndim = 2 \/ ndim = 3)%nat -> exists w2, vorticity_sq ndim grad = Ok w2 /\ 0 <= w2.
Proof. intros ndim grad [-> | ->]; cbn [vorticity_sq]; eexists; (split; [reflexivity|]); repeat apply Rplus_le_le_0_compat; apply pow2_ge_0. Qed.
Lemma ducros_range : forall eps ndim grad, 0 < eps -> (ndim = 2 \/ ndim = 3)%nat ->
  exists v, ducros eps ndim grad = Ok v /\ 0 <= v < 1 /\ (v = 0 <-> divergence ndim grad = 0).
Proof.
  intros eps ndim grad He Hn. destruct (vorticity_ok ndim grad Hn) as (w2 & W & P). unfold ducros. rewrite W. cbn [bind]. set (dv := divergence ndim grad).
  pose proof (tanh_filter_range dv) as T. set (t := tanh_filter dv) in *. clearbody t dv. eexists. split; [reflexivity|].
  assert (D : 0 < dv ^ 2 + w2 + eps) by (pose proof (pow2_ge_0 dv); lra). pose proof (pow2_ge_0 dv) as S2.
  split; [split|].
  - apply Rmult_le_pos; [apply Rmult_le_pos; lra|left; apply Rinv_0_lt_compat; lra].
  - apply Rmult_lt_reg_r with (dv ^ 2 + w2 + eps); [lra|]. replace (t * dv ^ 2 / (dv ^ 2 + w2 + eps) * (dv ^ 2 + w2 + eps)) with (t * dv ^ 2) by (field; lra). nra.
  - split; intros E.
    + assert (Z : t * dv ^ 2 = 0) by (replace (t * dv ^ 2) with (t * dv ^ 2 / (dv ^ 2 + w2 + eps) * (dv ^ 2 + w2 + eps)) by (field; lra); rewrite E; ring).
      destruct (Rmult_integral _ _ Z) as [A|A]; [lra|]. destruct (Req_dec dv 0) as [?|N]; auto. exfalso. apply (pow_nonzero dv 2 N A).
    + subst dv. unfold Rdiv. ring.
Qed.
Lemma divergence_opp : forall ndim grad, divergence ndim (fun i j => - grad i j) = - divergence ndim grad.
Proof. intros. unfold divergence. generalize (seq 0 ndim). induction l; cbn; [ring|]. unfold rsumR in IHl. rewrite IHl. ring. Qed.
Lemma ducros_compression : forall eps ndim grad v v', 0 < eps -> 0 <= divergence ndim grad ->
  ducros eps ndim grad = Ok v -> ducros eps ndim (fun i j => - grad i j) = Ok v' -> v <= v'.
Proof.
  intros eps ndim grad v v' He D E E'. unfold ducros in *. rewrite divergence_opp in E'.
  assert (V : vorticity_sq ndim (fun i j => - grad i j) = vorticity_sq ndim grad) by (destruct ndim as [|[|[|[|?]]]]; cbn [vorticity_sq]; auto; f_equal; ring).
  rewrite V in E'. assert (P : forall w2, vorticity_sq ndim grad = Ok w2 -> 0 <= w2).
  { intros w2 H. destruct ndim as [|[|[|[|?]]]]; cbn [vorticity_sq] in H; try discriminate; injection H as <-; repeat apply Rplus_le_le_0_compat; apply pow2_ge_0. }
  destruct (vorticity_sq ndim grad) as [w2|]; [|discriminate]. cbn [bind] in *. injection E as <-. injection E' as <-. specialize (P w2 eq_refl).
  set (dv := divergence ndim grad) in *. clearbody dv. change (tanh_filter dv * dv ^ 2 / (dv ^ 2 + w2 + eps) <= tanh_filter (- dv) * (- dv) ^ 2 / ((- dv) ^ 2 + w2 + eps)). assert (E2 : (- dv) ^ 2 = dv ^ 2) by ring. rewrite !E2. pose proof (pow2_ge_0 dv).
  unfold Rdiv. apply Rmult_le_compat_r; [left; apply Rinv_0_lt_compat; lra|]. apply Rmult_le_compat_r; auto. apply tanh_filter_le. lra.
Qed.

Lemma kappa_max_ok : forall ndim kappa x, (forall d l, (d < ndim)%nat -> (-2 <= l <= 2)%Z -> kappa (move d l x) <= kappa_max ndim kappa x) /\ kappa x <= kappa_max ndim kappa x /\
  (kappa_max ndim kappa x = kappa x \/ exists d l, (d < ndim)%nat /\ (-2 <= l <= 2)%Z /\ kappa_max ndim kappa x = kappa (move d l x)).
Proof.
  intros ndim kappa x. unfold kappa_max.
  assert (F : forall l a, a <= fold_left (fun (f : R) (dl : nat * Z) => Rmax f (kappa (move (fst dl) (snd dl) x))) l a /\
    (forall p, In p l -> kappa (move (fst p) (snd p) x) <= fold_left (fun (f : R) (dl : nat * Z) => Rmax f (kappa (move (fst dl) (snd dl) x))) l a) /\
    (fold_left (fun (f : R) (dl : nat * Z) => Rmax f (kappa (move (fst dl) (snd dl) x))) l a = a \/
     exists p, In p l /\ fold_left (fun (f : R) (dl : nat * Z) => Rmax f (kappa (move (fst dl) (snd dl) x))) l a = kappa (move (fst p) (snd p) x))).
  { induction l as [|p l IH]; intros a; cbn [fold_left]; [split; [lra|split; [intros p []|auto]]|].
    destruct (IH (Rmax a (kappa (move (fst p) (snd p) x)))) as (A & B & C). split; [|split].
    - apply Rle_trans with (2 := A). apply Rmax_l.
    - intros q [<- | Hq]; [apply Rle_trans with (2 := A); apply Rmax_r|auto].
    - destruct C as [-> | (q & Hq & ->)]; [|right; exists q; split; [right; auto|auto]]. unfold Rmax. destruct Rle_dec; [right; exists p; split; [left; auto|auto]|left; auto]. }
  destruct (F (list_prod (seq 0 ndim) [-2; -1; 0; 1; 2]%Z) (kappa x)) as (A & B & C). split; [|split; auto].
  - intros d l Hd Hl. apply (B (d, l)). apply in_prod; [apply in_seq; lia|]. assert (H : (l = -2 \/ l = -1 \/ l = 0 \/ l = 1 \/ l = 2)%Z) by lia. cbn. intuition.
  - destruct C as [-> | ((d, l) & I & ->)]; [left; auto|]. right. apply in_prod_iff in I. destruct I as [Id Il]. apply in_seq in Id. exists d, l. split; [lia|]. split; [|auto].
    cbn in Il. intuition lia.
Qed.

Lemma yee_ok : forall g rho rhoE mom, 0 < g -> 0 < rho -> 0 < (g - 1) * (rhoE - 1/2 * rsumR (map (fun y => y ^ 2) mom) * (1 / rho)) ->
  0 <= yee_sensor g rho rhoE mom <= 1 /\ (yee_sensor g rho rhoE mom = 0 <-> Forall (fun y => y = 0) mom).
Proof.
  intros g rho rhoE mom Hg Hr Hp. unfold yee_sensor. set (p := (g - 1) * (rhoE - 1/2 * rsumR (map (fun y => y ^ 2) mom) * (1 / rho))) in *. clearbody p.
  set (v2 := rsumR (map (fun y => y ^ 2) (map (fun y => y * (1 / rho)) mom))).
  assert (V : 0 <= v2). { unfold v2. apply rsumR_nonneg. intros y Hy. apply in_map_iff in Hy. destruct Hy as (z & <- & _). apply pow2_ge_0. }
  assert (I : 0 < 1 / rho) by (apply Rdiv_lt_0_compat; lra).
  assert (VZ : v2 = 0 <-> Forall (fun y => y = 0) mom).
  { unfold v2. rewrite map_map. split; intros H.
    - apply Forall_forall. intros y Hy. pose proof (rsum_zero R (fun y => (y * (1 / rho)) ^ 2) mom (fun z _ => pow2_ge_0 _) H y Hy) as E. cbv beta in E.
      destruct (Req_dec y 0) as [?|N]; auto. exfalso. apply (pow_nonzero (y * (1 / rho)) 2); auto. apply Rmult_integral_contrapositive_currified; lra.
    - apply rsumR_map_0. intros y Hy. rewrite (proj1 (Forall_forall _ _) H y Hy). ring. }
  assert (A : 0 < 1 / sqrt (g * p * (1 / rho))) by (apply Rdiv_lt_0_compat; [lra|]; apply sqrt_lt_R0; repeat apply Rmult_lt_0_compat; lra).
  set (ia := 1 / sqrt (g * p * (1 / rho))) in *. clearbody ia v2.
  assert (M2 : (sqrt v2 * ia) ^ 2 = v2 * ia ^ 2) by (rewrite Rpow_mult_distr, pow2_sqrt; auto). rewrite M2. set (m := v2 * ia ^ 2) in *.
  assert (Ia : 0 < ia ^ 2) by (apply pow_lt; auto).
  assert (P : 0 <= m) by (unfold m; apply Rmult_le_pos; lra).
  assert (MZ : m = 0 <-> v2 = 0). { unfold m. split; intros H; [destruct (Rmult_integral _ _ H); lra|rewrite H; ring]. }
  clearbody m. set (sq := sqrt (4 + (1 - m) ^ 2)). assert (S0 : 0 < sq) by (apply sqrt_lt_R0; pose proof (pow2_ge_0 (1 - m)); lra). clearbody sq.
  assert (Q : 0 <= 1 / 2 * m * sq / (1 + m)) by (apply Rmult_le_pos; [apply Rmult_le_pos; lra|left; apply Rinv_0_lt_compat; lra]).
  split; [split; [apply Rmin_glb; lra|apply Rmin_r]|]. rewrite <- VZ, <- MZ. split; intros H.
  - unfold Rmin in H. destruct Rle_dec; [|lra]. assert (Z : 1 / 2 * m * sq = 0) by (replace (1 / 2 * m * sq) with (1 / 2 * m * sq / (1 + m) * (1 + m)) by (field; lra); rewrite H; ring).
    destruct (Rmult_integral _ _ Z); lra.
  - rewrite H. unfold Rdiv. rewrite Rmin_left; [ring|]. replace (1 * / 2 * 0 * sq * / (1 + 0)) with 0 by ring. lra.
Qed.

(* the sensor of a single candidate *)
Lemma sum_one : forall k r0 A B, (r0 < k)%nat -> rsumR (map (fun r => if Nat.eqb r r0 then A else B) (seq 0 k)) = A + (INR k - 1) * B.
Proof.
  induction k as [|k IH]; intros r0 A B H; [lia|]. rewrite rsum_seq_S, S_INR. destruct (Nat.eqb_spec k r0) as [->|N].
  - rewrite (rsumR_map_ext _ _ (fun _ => B)), rsum_const; [ring|]. intros r Hr. apply in_seq in Hr. destruct (Nat.eqb_spec r r0); [lia|auto].
  - rewrite IH by lia. ring.
Qed.
Lemma sensor_one : forall s k theta r0, (2 <= k)%nat -> (1 <= theta)%nat -> (r0 < k)%nat ->
  (forall r, (r < k)%nat -> Q2R (nth r0 (opt_weights s k) 0%Q) <= Q2R (nth r (opt_weights s k) 0%Q)) ->
  sensor s k theta (map (fun r => if Nat.eqb r r0 then 1 else 0) (seq 0 k)) = 1.
Proof.
  intros s k theta r0 Hk Ht Hr Hm. unfold sensor. set (d := fun r => Q2R (nth r (opt_weights s k) 0%Q)) in *.
  assert (Lm : least (map d (seq 0 k)) = d r0).
  { apply Rle_antisym; [apply least_ok, in_map_iff; exists r0; split; [auto|apply in_seq; lia]|].
    assert (I : In (least (map d (seq 0 k))) (map d (seq 0 k))) by (apply least_in; destruct k; [lia|discriminate]).
    apply in_map_iff in I. destruct I as (r & <- & I). apply in_seq in I. apply Hm. lia. }
  rewrite Lm. rewrite (rsumR_map_ext _ _ (fun r => if Nat.eqb r r0 then Rabs (1 / d r0 - 1) ^ theta else 1)).
  - rewrite sum_one by auto. rewrite Rmult_1_r. apply Rinv_r. assert (0 <= Rabs (1 / d r0 - 1) ^ theta) by (apply pow_le, Rabs_pos). apply le_INR in Hk. replace (INR 2) with 2 in Hk by (cbn; lra). lra.
  - intros r Hr'. apply in_seq in Hr'. rewrite (nth_indep _ 0 (if Nat.eqb 0 r0 then 1 else 0)) by (rewrite map_length, seq_length; lia).
    rewrite (map_nth (fun r => if Nat.eqb r r0 then 1 else 0)), seq_nth by lia. cbn [plus]. destruct (Nat.eqb_spec r r0) as [->|N]; auto.
    unfold Rdiv. rewrite Rmult_0_l, Rminus_0_l, Rabs_Ropp, Rabs_R1, pow1. auto.
Qed.
