(* C54: cubic splines. *)
From Coq Require Import Reals Lia Lra.
From Verif Require Import Base SplineModel SplineProofs.
Open Scope R_scope.

Lemma splint_piece : forall x y m n t, (2 <= n)%nat -> increasing n x -> splint x y m n t = Ok (piece x y m (index x n t) t).
Proof.
  intros x y m n t Hn Hx. unfold splint. destruct (index_bracket x n t Hn) as [(B1 & _) E]. rewrite E.
  destruct (Req_EM_T (x (index x n t + 1)%nat - x (index x n t)) 0) as [Z | Z]; [exfalso; specialize (Hx _ B1); lra|]. reflexivity.
Qed.

(* The computed interpolant is a cubic spline through the data: it passes through every
   knot, is a cubic polynomial between knots, is twice continuously differentiable
   everywhere, and has the requested slope, or no curvature, at the ends.  A slope above
   0.99e30 asks for the natural end condition. *)
Theorem C54_spline : forall (x y : nat -> R) n y_start y_end, (2 <= n)%nat -> (forall i, (i + 1 < n)%nat -> x i < x (i + 1)%nat) ->
  exists S S1 S2 : R -> R,
    (forall t, splint x y (spline x y n y_start y_end) n t = Ok (S t)) /\
    (forall i, (i < n)%nat -> S (x i) = y i) /\
    (forall i, (i + 1 < n)%nat -> exists a b c d, forall t, x i <= t <= x (i + 1)%nat -> S t = a + b * t + c * t ^ 2 + d * t ^ 3) /\
    (forall t, derivable_pt_lim S t (S1 t) /\ derivable_pt_lim S1 t (S2 t) /\ continuity_pt S2 t) /\
    (y_start <= 99 * 10 ^ 28 -> S1 (x 0%nat) = y_start) /\ (y_start > 99 * 10 ^ 28 -> S2 (x 0%nat) = 0) /\
    (y_end <= 99 * 10 ^ 28 -> S1 (x (n - 1)%nat) = y_end) /\ (y_end > 99 * 10 ^ 28 -> S2 (x (n - 1)%nat) = 0).
Proof.
  intros x y n ys ye Hn Hx. set (m := spline x y n ys ye).
  destruct (spline_equations x y n ys ye Hn Hx) as (E1 & E2 & E3). fold m in E1, E2, E3.
  exists (fun t => piece x y m (index x n t) t), (fun t => piece1 x y m (index x n t) t), (fun t => piece2 x m (index x n t) t).
  assert (hp : forall i, (i + 1 < n)%nat -> 0 < x (i + 1)%nat - x i) by (intros i Hi; specialize (Hx i Hi); lra).
  assert (Bk : forall t, (index x n t + 1 < n)%nat) by (intros t; apply (index_bracket x n t Hn)).
  assert (Lf : forall i, (i + 1 < n)%nat -> piece x y m i (x i) = y i /\ piece2 x m i (x i) = m i).
  { intros i Hi. specialize (hp i Hi). unfold piece, piece2. split; field; lra. }
  assert (Rt : forall i, (i + 1 < n)%nat -> piece x y m i (x (i + 1)%nat) = y (i + 1)%nat /\ piece2 x m i (x (i + 1)%nat) = m (i + 1)%nat).
  { intros i Hi. specialize (hp i Hi). unfold piece, piece2. split; field; lra. }
  assert (Jn : forall j, (j + 2 < n)%nat -> piece1 x y m j (x (j + 1)%nat) = piece1 x y m (j + 1) (x (j + 1)%nat)).
  { intros j Hj. specialize (E1 (j + 1)%nat ltac:(lia) ltac:(lia)). pose proof (hp j ltac:(lia)) as h1. pose proof (hp (j + 1)%nat ltac:(lia)) as h2.
    replace (j + 1 - 1)%nat with j in E1 by lia. unfold piece1.
    replace (x (j + 1)%nat - x (j + 1)%nat) with 0 by ring.
    replace ((x (j + 1)%nat - x j) / (x (j + 1)%nat - x j)) with 1 by (field; lra).
    replace ((x (j + 1 + 1)%nat - x (j + 1)%nat) / (x (j + 1 + 1)%nat - x (j + 1)%nat)) with 1 by (field; lra).
    unfold Rdiv at 2 8. rewrite !Rmult_0_l. lra. }
  assert (Kn : forall i, (i < n)%nat -> index x n (x i) = (if (i =? n - 1)%nat then n - 2 else i)%nat).
  { intros i Hi. apply (bracket_unique n x (x i) _ _ Hx); [apply index_bracket; auto|].
    destruct (Nat.eqb_spec i (n - 1)) as [-> | N].
    - split; [lia|]. split; [right; apply (increasing_le n x Hx); lia | left; lia].
    - split; [lia|]. split; [right; lra|]. right. apply Hx. lia. }
  split; [intros t; apply splint_piece; auto|]. split; [|split; [|split]].
  - intros i Hi. rewrite (Kn i Hi). destruct (Nat.eqb_spec i (n - 1)) as [-> | N].
    + replace (n - 1)%nat with (n - 2 + 1)%nat by lia. apply (Rt (n - 2)%nat). lia.
    + apply Lf. lia.
  - intros i Hi. pose proof (hp i Hi) as h. set (H := x (i + 1)%nat - x i) in *.
    assert (Pc : forall t, x i <= t <= x (i + 1)%nat -> piece x y m (index x n t) t = piece x y m i t).
    { intros t Ht. destruct (Req_dec t (x (i + 1)%nat)) as [-> | N].
      - rewrite (Kn (i + 1)%nat Hi). destruct (Nat.eqb_spec (i + 1) (n - 1)) as [Q | Q]; [replace (n - 2)%nat with i by lia; auto|].
        rewrite (proj1 (Rt i Hi)). apply Lf. lia.
      - f_equal. apply (bracket_unique n x t _ _ Hx); [apply index_bracket; auto|]. split; [auto|]. split; right; lra. }
    set (c1 := (y (i + 1)%nat - y i) / H - H / 3 * m i - H / 6 * m (i + 1)%nat). set (c2 := m i / 2). set (c3 := (m (i + 1)%nat - m i) / (6 * H)).
    exists (y i - c1 * x i + c2 * (x i) ^ 2 - c3 * (x i) ^ 3), (c1 - 2 * c2 * x i + 3 * c3 * (x i) ^ 2), (c2 - 3 * c3 * x i), c3.
    intros t Ht. rewrite (Pc t Ht). unfold piece. fold H. replace (x (i + 1)%nat - t) with (H - (t - x i)) by (unfold H; ring).
    transitivity (y i + c1 * (t - x i) + c2 * (t - x i) ^ 2 + c3 * (t - x i) ^ 3); [|ring].
    generalize (t - x i). intros z. unfold c1, c2, c3. field. lra.
  - intros t. destruct (near n x t Hn Hx) as (del & j & Pd & Nr & Cs). set (k := index x n t) in *.
    assert (Pk : x (k + 1)%nat - x k <> 0) by (pose proof (hp k (Bk t)); lra).
    assert (Pj : x (j + 1)%nat - x j <> 0). { destruct Cs as [-> | (K & _ & L)]; auto. pose proof (hp j ltac:(lia)). lra. }
    assert (Ag : piece x y m k t = piece x y m j t /\ piece1 x y m k t = piece1 x y m j t /\ piece2 x m k t = piece2 x m j t).
    { destruct Cs as [-> | (K & -> & L)]; auto. rewrite <- K. destruct (Rt j ltac:(lia)) as [R1 R2]. destruct (Lf (j + 1)%nat ltac:(lia)) as [L1 L2].
      rewrite R1, R2, L1, L2, (Jn j L). auto. }
    destruct Ag as (A0 & A1 & A2).
    split; [|split].
    + apply (glue_derivable _ (piece x y m k) (piece x y m j)); auto.
      * exists del. split; auto. intros s Hs. destruct (Nr s Hs) as [-> | ->]; auto.
      * apply piece_deriv; auto.
      * rewrite A1. apply piece_deriv; auto.
    + apply (glue_derivable _ (piece1 x y m k) (piece1 x y m j)); auto.
      * exists del. split; auto. intros s Hs. destruct (Nr s Hs) as [-> | ->]; auto.
      * apply piece1_deriv; auto.
      * rewrite A2. apply piece1_deriv; auto.
    + apply (glue_continuous _ (piece2 x m k) (piece2 x m j)); auto.
      * exists del. split; auto. intros s Hs. destruct (Nr s Hs) as [-> | ->]; auto.
      * apply piece2_cont; auto.
      * apply piece2_cont; auto.
  - rewrite (Kn 0%nat), (Kn (n - 1)%nat) by lia. rewrite Nat.eqb_refl. destruct (Nat.eqb_spec 0 (n - 1)) as [Z | _]; [lia|].
    pose proof (hp 0%nat ltac:(lia)) as h0. pose proof (hp (n - 2)%nat ltac:(lia)) as hl. replace (n - 2 + 1)%nat with (n - 1)%nat in hl by lia.
    unfold above, huge in E2, E3. destruct (Rt (n - 2)%nat ltac:(lia)) as [_ R2]. replace (n - 2 + 1)%nat with (n - 1)%nat in R2 by lia.
    split; [|split; [|split]].
    + intros L. destruct (Rlt_dec (99 * 10 ^ 28) ys) as [G | _]; [lra|]. rewrite <- E2. unfold piece1. cbn [Nat.add].
      replace (x 0%nat - x 0%nat) with 0 by ring. replace ((x 1%nat - x 0%nat) / (x 1%nat - x 0%nat)) with 1 by (field; cbn in h0; lra).
      unfold Rdiv. rewrite !Rmult_0_l. lra.
    + intros L. destruct (Rlt_dec (99 * 10 ^ 28) ys) as [_ | G]; [|lra]. rewrite (proj2 (Lf 0%nat ltac:(lia))). auto.
    + intros L. destruct (Rlt_dec (99 * 10 ^ 28) ye) as [G | _]; [lra|]. rewrite <- E3. unfold piece1. replace (n - 2 + 1)%nat with (n - 1)%nat by lia.
      replace (x (n - 1)%nat - x (n - 1)%nat) with 0 by ring. replace ((x (n - 1)%nat - x (n - 2)%nat) / (x (n - 1)%nat - x (n - 2)%nat)) with 1 by (field; lra).
      unfold Rdiv. rewrite !Rmult_0_l. lra.
    + intros L. destruct (Rlt_dec (99 * 10 ^ 28) ye) as [_ | G]; [|lra]. rewrite R2. auto.
Qed.
Print Assumptions C54_spline.

(* the spline equations have one solution *)
Lemma homogeneous_zero : forall n (h e : nat -> R), (2 <= n)%nat -> (forall i, (i + 1 < n)%nat -> 0 < h i) ->
  (forall i, (1 <= i)%nat -> (i + 1 < n)%nat -> h (i - 1)%nat * e (i - 1)%nat + 2 * (h (i - 1)%nat + h i) * e i + h i * e (i + 1)%nat = 0) ->
  2 * e 0%nat + e 1%nat = 0 -> e (n - 2)%nat + 2 * e (n - 1)%nat = 0 -> forall i, (i < n)%nat -> e i = 0.
Proof.
  intros n h e Hn Hh Hi H0 HL.
  assert (F : forall i, (i + 1 < n)%nat -> exists c, -1 <= c <= 0 /\ e i = c * e (i + 1)%nat).
  { induction i as [|i IH]; intros L.
    - exists (-(1/2)). split; [lra|]. cbn. lra.
    - destruct (IH ltac:(lia)) as (c & Hc & E). specialize (Hi (S i) ltac:(lia) ltac:(lia)). replace (S i - 1)%nat with i in Hi by lia.
      pose proof (Hh i ltac:(lia)). pose proof (Hh (S i) ltac:(lia)). replace (i + 1)%nat with (S i) in E by lia. rewrite E in Hi.
      set (P := h i * c + 2 * (h i + h (S i))). assert (HP : h (S i) < P) by (unfold P; nra).
      exists (- h (S i) / P). split.
      + assert (Q : 0 < / P) by (apply Rinv_0_lt_compat; lra). assert (Q1 : P * / P = 1) by (apply Rinv_r; lra). unfold Rdiv. split; nra.
      + apply (Rmult_eq_reg_l P); [|lra]. transitivity (- h (S i) * e (S i + 1)%nat); [|field; lra]. unfold P. lra. }
  assert (Z : e (n - 1)%nat = 0).
  { destruct (F (n - 2)%nat ltac:(lia)) as (c & Hc & E). replace (n - 2 + 1)%nat with (n - 1)%nat in E by lia. rewrite E in HL. nra. }
  assert (G : forall k, (k < n)%nat -> e (n - 1 - k)%nat = 0).
  { induction k as [|k IH]; intros L; [rewrite Nat.sub_0_r; auto|]. destruct (F (n - 1 - S k)%nat ltac:(lia)) as (c & _ & E). rewrite E.
    replace (n - 1 - S k + 1)%nat with (n - 1 - k)%nat by lia. rewrite IH by lia. ring. }
  intros i Li. replace i with (n - 1 - (n - 1 - i))%nat by lia. apply G. lia.
Qed.

(* Interpolating a cubic polynomial, with its slopes at the ends, reproduces it everywhere. *)
Theorem C54_reproduces_cubics : forall (x : nat -> R) n a b c d, (2 <= n)%nat -> (forall i, (i + 1 < n)%nat -> x i < x (i + 1)%nat) ->
  let p t := a + b * t + c * t ^ 2 + d * t ^ 3 in
  let p' t := b + 2 * c * t + 3 * d * t ^ 2 in
  let y i := p (x i) in
  p' (x 0%nat) <= 99 * 10 ^ 28 -> p' (x (n - 1)%nat) <= 99 * 10 ^ 28 ->
  forall t, splint x y (spline x y n (p' (x 0%nat)) (p' (x (n - 1)%nat))) n t = Ok (p t).
Proof.
  intros x n a b c d Hn Hx p p' y L0 LL t. set (m := spline x y n (p' (x 0%nat)) (p' (x (n - 1)%nat))).
  destruct (spline_equations x y n (p' (x 0%nat)) (p' (x (n - 1)%nat)) Hn Hx) as (E1 & E2 & E3). fold m in E1, E2, E3.
  assert (hp : forall i, (i + 1 < n)%nat -> 0 < x (i + 1)%nat - x i) by (intros i Hi; specialize (Hx i Hi); lra).
  set (q := fun t => 2 * c + 6 * d * t).
  assert (Z : forall i, (i < n)%nat -> m i - q (x i) = 0).
  { apply (homogeneous_zero n (fun i => x (i + 1)%nat - x i) (fun i => m i - q (x i))); auto.
    - intros i H1 H2. specialize (E1 i H1 H2). cbv beta in E1. pose proof (hp (i - 1)%nat ltac:(lia)) as h1. pose proof (hp i H2) as h2.
      replace (i - 1 + 1)%nat with i in * by lia. unfold y, p in E1. unfold q.
      set (u := x (i - 1)%nat) in *. set (v := x i) in *. set (w := x (i + 1)%nat) in *.
      assert (S1 : (a + b * w + c * w ^ 2 + d * w ^ 3 - (a + b * v + c * v ^ 2 + d * v ^ 3)) / (w - v) = b + c * (w + v) + d * (w ^ 2 + w * v + v ^ 2)) by (field; lra).
      assert (S2 : (a + b * v + c * v ^ 2 + d * v ^ 3 - (a + b * u + c * u ^ 2 + d * u ^ 3)) / (v - u) = b + c * (v + u) + d * (v ^ 2 + v * u + u ^ 2)) by (field; lra).
      rewrite S1, S2 in E1. clear S1 S2. nra.
    - unfold above, huge in E2. destruct (Rlt_dec (99 * 10 ^ 28) (p' (x 0%nat))) as [G | _]; [lra|]. pose proof (hp 0%nat ltac:(lia)) as h. cbn [Nat.add] in *.
      unfold y, p, p', q in *. set (u := x 0%nat) in *. set (v := x 1%nat) in *.
      assert (S2 : (a + b * v + c * v ^ 2 + d * v ^ 3 - (a + b * u + c * u ^ 2 + d * u ^ 3)) / (v - u) = b + c * (v + u) + d * (v ^ 2 + v * u + u ^ 2)) by (field; lra).
      rewrite S2 in E2. apply (Rmult_eq_reg_l (v - u)); [|lra]. nra.
    - unfold above, huge in E3. destruct (Rlt_dec (99 * 10 ^ 28) (p' (x (n - 1)%nat))) as [G | _]; [lra|]. pose proof (hp (n - 2)%nat ltac:(lia)) as h.
      replace (n - 2 + 1)%nat with (n - 1)%nat in * by lia. unfold y, p, p', q in *. set (u := x (n - 2)%nat) in *. set (v := x (n - 1)%nat) in *.
      assert (S2 : (a + b * v + c * v ^ 2 + d * v ^ 3 - (a + b * u + c * u ^ 2 + d * u ^ 3)) / (v - u) = b + c * (v + u) + d * (v ^ 2 + v * u + u ^ 2)) by (field; lra).
      rewrite S2 in E3. apply (Rmult_eq_reg_l (v - u)); [|lra]. nra. }
  rewrite splint_piece by auto. f_equal. pose proof (proj1 (proj1 (index_bracket x n t Hn))) as Bk. pose proof (hp _ Bk) as h.
  set (k := index x n t) in *. unfold piece. replace (m k) with (q (x k)) by (pose proof (Z k ltac:(lia)); lra).
  replace (m (k + 1)%nat) with (q (x (k + 1)%nat)) by (pose proof (Z (k + 1)%nat ltac:(lia)); lra). unfold y, p, q. field. lra.
Qed.
Print Assumptions C54_reproduces_cubics.

(* Equal abscissae in the bracketing interval are reported. *)
Theorem C54_repeated_knot : forall (x y m : nat -> R) t, x 0%nat = x 1%nat -> splint x y m 2 t = Err ValueError.
Proof. intros x y m t E. unfold splint. cbn. rewrite E. destruct (Req_EM_T (x 1%nat - x 1%nat) 0); auto. exfalso. lra. Qed.
Print Assumptions C54_repeated_knot.

Example C54_nonvacuous : (2 <= 5)%nat /\ (forall i, (i + 1 < 5)%nat -> INR i < INR (i + 1)) /\
  (let p' t := 1 + 2 * 1 * t + 3 * 1 * t ^ 2 in p' (INR 0) <= 99 * 10 ^ 28 /\ p' (INR 4) <= 99 * 10 ^ 28).
Proof. split; [lia|]. split; [intros; apply lt_INR; lia|]. cbn. split; lra. Qed.
