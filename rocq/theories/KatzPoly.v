(* Bounds of the built-in profiles (C83): a polynomial is bounded on an interval by its
   expansion around the midpoint. *)
From Verif Require Import Base KatzModel KatzSpec KatzProofs.
From Coq Require Import QArith Qabs ZArith Reals Qreals Lia Lra.
Local Close Scope Q_scope.
Local Open Scope list_scope.
Open Scope R_scope.

(* lowest power first, integer coefficients *)
Definition value_of (p : list Z) (y : R) : R := fold_right (fun c v => IZR c + y * v) 0 p.
Fixpoint addp (p q : list Z) : list Z :=
  match p, q with
  | [], _ => q
  | _, [] => p
  | a :: p, b :: q => (a + b)%Z :: addp p q
  end.
Definition shift (m : Z) (p : list Z) : list Z :=
  fold_right (fun c q => addp [c] (addp (map (Z.mul m) q) (0%Z :: q))) [] p.
Definition spread (r : Z) (p : list Z) : Z := fold_right (fun c v => (r * (Z.abs c + v))%Z) 0%Z p.
Definition within (lo hi r : Z) (p : list Z) (m : Z) : bool :=
  match shift m p with
  | [] => false
  | c :: p' => (lo <=? c - spread r p')%Z && (c + spread r p' <=? hi)%Z
  end.
(* halve the interval of radius 2^k r around m until the bounds hold *)
Fixpoint bisect (k : nat) (lo hi r : Z) (p : list Z) (m : Z) : bool :=
  if within lo hi (2 ^ Z.of_nat k * r) p m then true
  else match k with
       | O => false
       | S k => bisect k lo hi r p (m - 2 ^ Z.of_nat k * r) && bisect k lo hi r p (m + 2 ^ Z.of_nat k * r)
       end.

Lemma value_add : forall p q y, value_of (addp p q) y = value_of p y + value_of q y.
Proof.
  induction p as [|a p IH]; intros [|b q] y; cbn [addp value_of fold_right]; try lra.
  fold (value_of (addp p q) y). fold (value_of p y). fold (value_of q y). rewrite IH, plus_IZR. ring.
Qed.
Lemma value_scale : forall m p y, value_of (map (Z.mul m) p) y = IZR m * value_of p y.
Proof.
  induction p as [|a p IH]; intros y; cbn [map value_of fold_right]; [lra|].
  fold (value_of (map (Z.mul m) p) y). fold (value_of p y). rewrite IH, mult_IZR. ring.
Qed.
Lemma value_shift : forall m p t, value_of (shift m p) t = value_of p (IZR m + t).
Proof.
  induction p as [|a p IH]; intros t; [reflexivity|]. cbn [shift fold_right]. fold (shift m p). rewrite !value_add, value_scale.
  cbn [value_of fold_right]. fold (value_of (shift m p) t). fold (value_of p (IZR m + t)). rewrite IH. ring.
Qed.
Lemma spread_ok : forall r p t, Rabs t <= IZR r -> Rabs (t * value_of p t) <= IZR (spread r p) /\ 0 <= IZR (spread r p).
Proof.
  intros r p t Ht. pose proof (Rabs_pos t) as P.
  induction p as [|c p [IH IH0]]; cbn [value_of spread fold_right].
  - rewrite Rmult_0_r, Rabs_R0. lra.
  - fold (value_of p t). fold (spread r p). rewrite mult_IZR, plus_IZR, abs_IZR. rewrite Rabs_mult.
    pose proof (Rabs_pos (IZR c)). pose proof (Rabs_triang (IZR c) (t * value_of p t)). pose proof (Rabs_pos (IZR c + t * value_of p t)). split; nra.
Qed.
Lemma within_ok : forall lo hi r p m, within lo hi r p m = true -> forall y, Rabs (y - IZR m) <= IZR r -> IZR lo <= value_of p y <= IZR hi.
Proof.
  intros lo hi r p m H y Hy. unfold within in H. pose proof (value_shift m p (y - IZR m)) as V. replace (IZR m + (y - IZR m)) with y in V by ring.
  destruct (shift m p) as [|c q]; [discriminate|]. apply andb_true_iff in H. destruct H as [H1 H2].
  apply Z.leb_le in H1. apply Z.leb_le in H2. apply IZR_le in H1. apply IZR_le in H2. rewrite minus_IZR in H1. rewrite plus_IZR in H2.
  cbn [value_of fold_right] in V. fold (value_of q (y - IZR m)) in V. destruct (spread_ok r q _ Hy) as [S _]. unfold Rabs in S; destruct (Rcase_abs _); lra.
Qed.
Lemma bisect_ok : forall k lo hi r p m, bisect k lo hi r p m = true -> forall y, Rabs (y - IZR m) <= IZR (2 ^ Z.of_nat k * r) -> IZR lo <= value_of p y <= IZR hi.
Proof.
  induction k as [|k IH]; intros lo hi r p m H y Hy; cbn [bisect] in H.
  - destruct (within _ _ _ _ _) eqn:E in H; [|discriminate]. exact (within_ok _ _ _ _ _ E y Hy).
  - destruct (within _ _ _ _ _) eqn:E in H; [exact (within_ok _ _ _ _ _ E y Hy)|]. apply andb_true_iff in H. destruct H as [H1 H2].
    rewrite Nat2Z.inj_succ, Z.pow_succ_r, <- Z.mul_assoc, mult_IZR in Hy by lia. set (h := (2 ^ Z.of_nat k * r)%Z) in *.
    destruct (Rle_dec y (IZR m)) as [L | L]; [apply (IH _ _ _ _ _ H1) | apply (IH _ _ _ _ _ H2)]; fold h; rewrite ?minus_IZR, ?plus_IZR; unfold Rabs in *; repeat destruct (Rcase_abs _); lra.
Qed.
(* a polynomial whose coefficients are multiples of 10^-6, in multiples t of 10^-3 *)
Fixpoint scaled (cs : list Z) : list Z :=
  match cs with
  | [] => []
  | c :: cs => (c * 1000 ^ Z.of_nat (List.length cs))%Z :: scaled cs
  end.
Lemma scaled_value : forall cs y, value_of (scaled cs) (1000 * y) = 1000 ^ (List.length cs - 1) * fold_right (fun c v => IZR c + y * v) 0 cs.
Proof.
  induction cs as [|c cs IH]; intros y; [cbn; lra|]. cbn [scaled value_of fold_right]. fold (value_of (scaled cs) (1000 * y)). rewrite IH.
  rewrite mult_IZR, <- pow_IZR. cbn [List.length]. replace (S (List.length cs) - 1)%nat with (List.length cs) by lia.
  destruct cs as [|c' cs]; [cbn; lra|]. cbn [List.length]. replace (S (List.length cs) - 1)%nat with (List.length cs) by lia. cbn [pow]. ring.
Qed.
Lemma horner_value : forall cs y, horner cs y = fold_right (fun c v => Q2R c + y * v) 0 (rev cs).
Proof.
  intros cs y. induction cs as [|c cs IH] using rev_ind; [reflexivity|]. rewrite horner_snoc, rev_app_distr. cbn [rev app fold_right].
  rewrite IH. ring.
Qed.
Lemma micro_value : forall cs y, horner (rev (map micro cs)) y * 1000000 = fold_right (fun c v => IZR c + y * v) 0 cs.
Proof.
  intros cs y. rewrite horner_value, rev_involutive. induction cs as [|c cs IH]; [cbn; lra|]. cbn [map fold_right]. rewrite <- IH.
  unfold micro, Q2R. cbn [Qnum Qden]. field.
Qed.
(* the bounds over the interval of radius 2^k r/1000 around m/1000, in multiples of 10^-6 *)
Definition bounded (k : nat) (lo hi r m : Z) (cs : list Z) : bool :=
  let f := (1000 ^ (Z.of_nat (List.length cs) - 1))%Z in
  bisect k (lo * f) (hi * f) r (scaled cs) m.
Lemma bounded_ok : forall k lo hi r m cs, bounded k lo hi r m cs = true -> cs <> [] ->
  forall y, Rabs (1000 * y - IZR m) <= IZR (2 ^ Z.of_nat k * r) -> IZR lo <= horner (rev (map micro cs)) y * 1000000 <= IZR hi.
Proof.
  intros k lo hi r m cs H N y Hy. pose proof (bisect_ok _ _ _ _ _ _ H _ Hy) as B. rewrite scaled_value in B. rewrite micro_value.
  destruct cs as [|c cs]; [congruence|]. cbn [List.length] in B. replace (S (List.length cs) - 1)%nat with (List.length cs) in B by lia.
  rewrite Nat2Z.inj_succ in B. replace (Z.succ (Z.of_nat (List.length cs)) - 1)%Z with (Z.of_nat (List.length cs)) in B by lia.
  rewrite !mult_IZR, <- !pow_IZR in B. assert (P : 0 < 1000 ^ List.length cs) by (apply pow_lt; lra). set (v := fold_right _ _ _) in *. clearbody v. nra.
Qed.
Ltac bound k lo hi r m cs :=
  let C := fresh in let X := fresh in
  assert (C : bounded k lo hi r m cs = true) by (vm_compute; reflexivity);
  pose proof (bounded_ok k lo hi r m cs C ltac:(discriminate)) as X;
  clear C; change (IZR (2 ^ Z.of_nat k * r)) with (IZR (ltac:(let v := eval vm_compute in (2 ^ Z.of_nat k * r)%Z in exact v))) in X;
  revert X.

Definition rhou_coeffs : list Z := [-661; 456679; -378541; 1829143; -4060705; 5261448; -4002925; 1796903; -469165; 66022; -3878]%Z.
Definition rhov_coeffs : list Z := [-19; 759; -6145; 29622; -61263; 72858; -51201; 21523; -5326; 717; -41]%Z.
Definition T_coeffs : list Z := [1675785; 11027; -346234; 31632; 310312; -838071; 945210; -530435; 158965; -24521; 1537]%Z.
Lemma near : forall y m r, m - r <= 1000 * y <= m + r -> Rabs (1000 * y - m) <= r.
Proof. intros y m r H. unfold Rabs. destruct (Rcase_abs _); lra. Qed.
Lemma T_range : forall y, - (1 / 5) <= y <= 2316 / 1000 -> 1 <= horner simple_T y <= 168 / 100.
Proof.
  intros y Hy. change simple_T with (rev (map micro T_coeffs)).
  destruct (Rle_dec (1000 * y) 824) as [L | L]; [|destruct (Rle_dec (1000 * y) 1848) as [L' | L']].
  - bound 6%nat 1000000%Z 1680000%Z 8%Z 312%Z T_coeffs. intros X. specialize (X y ltac:(apply near; lra)). lra.
  - bound 6%nat 1000000%Z 1680000%Z 8%Z 1336%Z T_coeffs. intros X. specialize (X y ltac:(apply near; lra)). lra.
  - bound 4%nat 1000000%Z 1680000%Z 15%Z 2082%Z T_coeffs. intros X. specialize (X y ltac:(apply near; lra)). lra.
Qed.
Lemma rhov_range : forall y, - (1 / 5) <= y <= 2316 / 1000 -> - (1 / 1000) <= horner simple_rhov y <= 5 / 1000.
Proof.
  intros y Hy. change simple_rhov with (rev (map micro rhov_coeffs)).
  destruct (Rle_dec (1000 * y) 824) as [L | L]; [|destruct (Rle_dec (1000 * y) 1848) as [L' | L']].
  - bound 6%nat (-1000)%Z 5000%Z 8%Z 312%Z rhov_coeffs. intros X. specialize (X y ltac:(apply near; lra)). lra.
  - bound 6%nat (-1000)%Z 5000%Z 8%Z 1336%Z rhov_coeffs. intros X. specialize (X y ltac:(apply near; lra)). lra.
  - bound 4%nat (-1000)%Z 5000%Z 15%Z 2082%Z rhov_coeffs. intros X. specialize (X y ltac:(apply near; lra)). lra.
Qed.
Lemma rhou_inside : forall y, 0 <= y <= 2316 / 1000 -> - (1 / 1000) <= horner simple_rhou y <= 1.
Proof.
  intros y Hy. change simple_rhou with (rev (map micro rhou_coeffs)).
  destruct (Rle_dec (1000 * y) 1024) as [L | L]; [|destruct (Rle_dec (1000 * y) 1848) as [L' | L']].
  - bound 7%nat (-1000)%Z 1000000%Z 4%Z 512%Z rhou_coeffs. intros X. specialize (X y ltac:(apply near; lra)). lra.
  - bound 6%nat (-1000)%Z 1000000%Z 8%Z 1336%Z rhou_coeffs. intros X. specialize (X y ltac:(apply near; lra)). lra.
  - bound 4%nat (-1000)%Z 1000000%Z 15%Z 2082%Z rhou_coeffs. intros X. specialize (X y ltac:(apply near; lra)). lra.
Qed.
Lemma rhou_range : forall y, - (1 / 5) <= y <= 2316 / 1000 -> - (14 / 100) <= horner simple_rhou y <= 1.
Proof.
  intros y Hy. destruct (Rle_dec 0 y) as [L | L]; [pose proof (rhou_inside y ltac:(lra)); lra|].
  change simple_rhou with (rev (map micro rhou_coeffs)).
  bound 2%nat (-140000)%Z 1000000%Z 25%Z (-100)%Z rhou_coeffs. intros X. specialize (X y ltac:(apply near; lra)). lra.
Qed.
