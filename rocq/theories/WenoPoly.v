(* Polynomial interpolation through integer nodes, with real coefficients. *)
From Verif Require Import Base FDModel FDSpec FDForn FDProofs WenoModel.
From Coq Require Import QArith Reals Qreals List ZArith Lia Lra Permutation.
Import ListNotations.
Local Open Scope R_scope.

(* coefficientwise equality *)
Definition peq (p q : list R) : Prop := forall i, nth i p 0 = nth i q 0.
Lemma peq_eval : forall p q x, peq p q -> peval p x = peval q x.
Proof. intros. apply peval_ext. exact H. Qed.
Lemma peq_refl : forall p, peq p p. Proof. intros p i. auto. Qed.
Lemma peq_sym : forall p q, peq p q -> peq q p. Proof. intros p q H i. auto. Qed.
Lemma peq_trans : forall p q r, peq p q -> peq q r -> peq p r. Proof. intros p q r H K i. rewrite H; auto. Qed.
Lemma peq_pderiv : forall p q, peq p q -> peq (pderiv p) (pderiv q).
Proof. intros p q H i. rewrite !nth_pderiv. rewrite H. auto. Qed.
Lemma peq_pderivs : forall l p q, peq p q -> peq (pderivs l p) (pderivs l q).
Proof. induction l as [|l IH]; cbn; intros p q H; auto. apply IH. apply peq_pderiv. auto. Qed.

(* ---------- sums ---------- *)
Lemma rsumR_nil : rsumR [] = 0. Proof. reflexivity. Qed.
Lemma rsumR_cons : forall a l, rsumR (a :: l) = a + rsumR l. Proof. reflexivity. Qed.
Ltac rs := cbn [app map]; rewrite ?rsumR_cons, ?rsumR_nil.
Lemma rsumR_app : forall a b, rsumR (a ++ b) = rsumR a + rsumR b.
Proof. induction a as [|x a IH]; intros; rs; [lra|]. rewrite IH. lra. Qed.
Lemma rsumR_map_ext : forall A (f g : A -> R) l, (forall x, In x l -> f x = g x) -> rsumR (map f l) = rsumR (map g l).
Proof. intros A f g l H. f_equal. apply map_ext_in. auto. Qed.
Lemma rsumR_map_plus : forall A (f g : A -> R) l, rsumR (map (fun x => f x + g x) l) = rsumR (map f l) + rsumR (map g l).
Proof. induction l as [|x l IH]; rs; [lra|]. rewrite IH. lra. Qed.
Lemma rsumR_map_scale : forall A (f : A -> R) c l, rsumR (map (fun x => c * f x) l) = c * rsumR (map f l).
Proof. induction l as [|x l IH]; rs; [lra|]. rewrite IH. lra. Qed.
Lemma rsumR_map_0 : forall A (f : A -> R) l, (forall x, In x l -> f x = 0) -> rsumR (map f l) = 0.
Proof. induction l as [|x l IH]; intros H; rs; [lra|]. rewrite H, IH; cbn; auto. lra. intros; apply H; cbn; auto. Qed.
Lemma rsumR_perm : forall a b, Permutation a b -> rsumR a = rsumR b.
Proof. induction 1; rs; lra. Qed.
Lemma rsumR_swap : forall A B (f : A -> B -> R) la lb,
  rsumR (map (fun a => rsumR (map (f a) lb)) la) = rsumR (map (fun b => rsumR (map (fun a => f a b) la)) lb).
Proof.
  induction la as [|a la IH]; intros lb; rs.
  - symmetry. apply rsumR_map_0. auto.
  - rewrite IH. rewrite <- rsumR_map_plus. auto.
Qed.
Lemma rsumR_single : forall A (f : A -> R) l x, NoDup l -> In x l -> (forall y, In y l -> y <> x -> f y = 0) -> rsumR (map f l) = f x.
Proof.
  induction l as [|a l IH]; intros x N I H; rs; [inversion I|]. inversion N; subst.
  destruct I as [->|I].
  - rewrite (rsumR_map_0 _ f l); [lra|]. intros y Hy. apply H; cbn; auto. intros ->. tauto.
  - rewrite (H a); cbn; auto. rewrite (IH x); cbn; auto. lra. intros; apply H; cbn; auto. intros ->. tauto.
Qed.
Lemma rsumR_pos : forall l, l <> [] -> (forall x, In x l -> 0 < x) -> 0 < rsumR l.
Proof.
  intros l N H. assert (G : forall l, (forall x, In x l -> 0 < x) -> 0 <= rsumR l).
  { induction l0 as [|a l0 IH]; intros K; rs; [lra|]. pose proof (K a (or_introl eq_refl)).
    pose proof (IH (fun x h => K x (or_intror h))). lra. }
  destruct l as [|a l]; [tauto|]. rs. pose proof (H a (or_introl eq_refl)).
  pose proof (G l (fun x h => H x (or_intror h))). lra.
Qed.
Lemma rsumR_nonneg : forall l, (forall x, In x l -> 0 <= x) -> 0 <= rsumR l.
Proof.
  induction l as [|a l IH]; intros K; rs; [lra|]. pose proof (K a (or_introl eq_refl)).
  pose proof (IH (fun x h => K x (or_intror h))). lra.
Qed.

(* ---------- integer ranges ---------- *)
Lemma In_zrange : forall a b x, In x (zrange a b) <-> (a <= x < b)%Z.
Proof.
  intros a b x. unfold zrange. rewrite in_map_iff. split.
  - intros (i & <- & H). apply in_seq in H. lia.
  - intros H. exists (Z.to_nat (x - a)). split; [lia|]. apply in_seq. lia.
Qed.
Lemma NoDup_zrange : forall a b, NoDup (zrange a b).
Proof.
  intros a b. unfold zrange. generalize (seq_NoDup (Z.to_nat (b - a)) 0).
  generalize (seq 0 (Z.to_nat (b - a))). induction l as [|i l IH]; cbn; intros N; constructor; inversion N; subst; auto.
  rewrite in_map_iff. intros (j & E & I). assert (j = i) by lia. subst. tauto.
Qed.
Lemma zrange_empty : forall a b, (b <= a)%Z -> zrange a b = [].
Proof. intros a b H. unfold zrange. replace (Z.to_nat (b - a)) with 0%nat by lia. auto. Qed.
Lemma zrange_snoc : forall a b, (a <= b)%Z -> zrange a (b + 1) = zrange a b ++ [b].
Proof.
  intros a b H. unfold zrange. replace (Z.to_nat (b + 1 - a)) with (S (Z.to_nat (b - a))) by lia.
  rewrite seq_S, map_app. cbn. f_equal. f_equal. lia.
Qed.
Lemma zrange_cons : forall a b, (a < b)%Z -> zrange a b = a :: zrange (a + 1) b.
Proof.
  intros a b H. unfold zrange. replace (Z.to_nat (b - a)) with (S (Z.to_nat (b - (a + 1)))) by lia.
  cbn [seq map]. f_equal; [lia|]. rewrite <- seq_shift, map_map. apply map_ext. intros i. lia.
Qed.
Lemma zrange_shift : forall a b s, zrange (a + s) (b + s) = map (fun x => x + s)%Z (zrange a b).
Proof.
  intros a b s. unfold zrange. rewrite map_map. replace (b + s - (a + s))%Z with (b - a)%Z by lia.
  apply map_ext. intros. lia.
Qed.
Lemma zrange_seq : forall n, zrange 0 (Z.of_nat n) = map Z.of_nat (seq 0 n).
Proof. intros n. unfold zrange. replace (Z.to_nat (Z.of_nat n - 0)) with n by lia. apply map_ext. intros. lia. Qed.

Lemma In_without : forall m l x, In x (without m l) <-> In x l /\ x <> m.
Proof. intros. unfold without. rewrite filter_In. destruct (Z.eqb_spec x m); cbn; intuition congruence. Qed.
Lemma NoDup_without : forall m l, NoDup l -> NoDup (without m l).
Proof. intros. apply NoDup_filter. auto. Qed.
Lemma without_notin : forall m l, ~ In m l -> without m l = l.
Proof.
  induction l as [|a l IH]; cbn; intros H; auto. destruct (Z.eqb_spec a m); cbn; [subst; tauto|].
  f_equal. apply IH. tauto.
Qed.
Lemma without_length : forall m l, NoDup l -> In m l -> S (List.length (without m l)) = List.length l.
Proof.
  induction l as [|a l IH]; cbn; intros N H; [tauto|]. inversion N; subst.
  destruct (Z.eqb_spec a m); cbn.
  - subst. fold (without m l). rewrite without_notin; auto.
  - f_equal. apply IH; auto. destruct H; congruence.
Qed.

(* ---------- roots ---------- *)
Fixpoint pdivR (c : R) (p : list R) : list R :=   (* quotient of p by (x - c) *)
  match p with [] => [] | _ :: p => peval p c :: pdivR c p end.
Lemma pdivR_eval : forall p c x, peval p x = peval p c + (x - c) * peval (pdivR c p) x.
Proof. induction p as [|a p IH]; cbn [peval pdivR]; intros c x; [ring|]. rewrite (IH c x) at 1. ring. Qed.
Lemma pdivR_length : forall p c, List.length (pdivR c p) = List.length p.
Proof. induction p; cbn; auto. Qed.
Lemma pdivR_last : forall p c i, (List.length p <= S i)%nat -> nth i (pdivR c p) 0 = 0.
Proof.
  induction p as [|a p IH]; cbn [pdivR nth List.length]; intros c i H; [destruct i; auto|].
  destruct i as [|i]; [|apply IH; lia].
  destruct p; cbn in *; [auto|lia].
Qed.
(* p = p(c) + (x-c) q coefficientwise *)
Lemma pdivR_coef : forall p c i, nth i p 0 = nth i (paddR [peval p c] (monoR c (pdivR c p))) 0.
Proof.
  induction p as [|a p IH]; intros c i.
  - destruct i as [|[|i]]; cbn; lra.
  - unfold monoR in *. rewrite !nth_paddR, nth_pscaleR. cbn [pdivR].
    destruct i as [|i]; [cbn; lra|]. cbn [nth]. rewrite (IH c i). rewrite !nth_paddR, nth_pscaleR.
    destruct i as [|i]; cbn [nth]; [lra|]. destruct i; cbn; lra.
Qed.
Lemma peval_mono : forall c p x, peval (monoR c p) x = (x - c) * peval p x.
Proof. intros. unfold monoR. rewrite peval_add, peval_scale. cbn [peval]. ring. Qed.

Lemma roots_zero : forall xs p, NoDup xs -> (List.length p <= List.length xs)%nat ->
  (forall x, In x xs -> peval p (IZR x) = 0) -> forall i, nth i p 0 = 0.
Proof.
  induction xs as [|c xs IH]; intros p N L H i.
  - destruct p; cbn in L; [|lia]. destruct i; auto.
  - inversion N; subst. set (q := firstn (List.length xs) (pdivR (IZR c) p)).
    assert (Q : peq q (pdivR (IZR c) p)).
    { intros j. unfold q. rewrite <- (firstn_skipn (List.length xs) (pdivR (IZR c) p)) at 2.
      destruct (Nat.lt_ge_cases j (List.length xs)) as [J|J].
      - destruct (Nat.lt_ge_cases j (List.length (firstn (List.length xs) (pdivR (IZR c) p)))) as [K|K].
        + rewrite app_nth1; auto.
        + rewrite (nth_overflow _ _ K). rewrite app_nth2; auto. rewrite firstn_length, pdivR_length in K.
          rewrite nth_overflow; auto. rewrite skipn_length, pdivR_length. lia.
      - rewrite nth_overflow; [|rewrite firstn_length; lia].
        rewrite firstn_skipn. symmetry. apply pdivR_last. cbn in L. lia. }
    assert (Z0 : forall j, nth j q 0 = 0).
    { apply IH; auto.
      - unfold q. rewrite firstn_length. lia.
      - intros x Ix. rewrite (peq_eval _ _ _ Q).
        pose proof (pdivR_eval p (IZR c) (IZR x)) as E. rewrite (H c), (H x) in E; cbn; auto.
        assert (IZR x - IZR c <> 0). { intros D. apply H2. assert (x = c) by (apply eq_IZR; lra). subst. auto. }
        rewrite Rplus_0_l in E. symmetry in E. apply Rmult_integral in E. destruct E; tauto. }
    rewrite (pdivR_coef p (IZR c) i). rewrite nth_paddR. unfold monoR. rewrite nth_paddR, nth_pscaleR.
    rewrite (H c) by (cbn; auto). rewrite <- Q, Z0. destruct i as [|i]; cbn [nth]; [lra|].
    rewrite <- Q, Z0. destruct i; lra.
Qed.

Lemma poly_unique : forall xs p q, NoDup xs -> (List.length p <= List.length xs)%nat ->
  (List.length q <= List.length xs)%nat ->
  (forall x, In x xs -> peval p (IZR x) = peval q (IZR x)) -> peq p q.
Proof.
  intros xs p q N Lp Lq H i.
  pose proof (roots_zero xs (paddR p (pscaleR (-1) q)) N) as Z0.
  assert (G : nth i (paddR p (pscaleR (-1) q)) 0 = 0).
  { apply Z0.
    - rewrite paddR_length. unfold pscaleR. rewrite map_length. lia.
    - intros x I. rewrite peval_add, peval_scale, H; auto. lra. }
  rewrite nth_paddR, nth_pscaleR in G. lra.
Qed.

(* ---------- products ---------- *)
Definition rprod (l : list R) : R := fold_right Rmult 1 l.
Lemma prodR_eval : forall qs y, peval (prodR qs) y = rprod (map (fun q => y - IZR q) qs).
Proof.
  induction qs as [|q qs IH]; intros y; cbn [prodR fold_right map rprod]; [cbn; ring|].
  fold (prodR qs). rewrite peval_mono, IH. reflexivity.
Qed.
Lemma monoR_length : forall c p, List.length (monoR c p) = S (List.length p).
Proof. intros. unfold monoR. rewrite paddR_length. unfold pscaleR. rewrite map_length. cbn. lia. Qed.
Lemma prodR_length : forall qs, List.length (prodR qs) = S (List.length qs).
Proof. induction qs; cbn [prodR fold_right]; auto. fold (prodR qs). rewrite monoR_length, IHqs. auto. Qed.
Lemma rprod_zero : forall l, In 0 l -> rprod l = 0.
Proof. induction l; cbn; intros H; [tauto|]. destruct H as [->|H]; [ring|]. fold (rprod l). rewrite IHl; auto. ring. Qed.
Lemma rprod_nonzero : forall l, ~ In 0 l -> rprod l <> 0.
Proof.
  induction l; cbn; intros H; [lra|]. apply Rmult_integral_contrapositive_currified; [|apply IHl]; intuition.
Qed.
Lemma IZR_zprod : forall l, IZR (zprodZ l) = rprod (map IZR l).
Proof. induction l; cbn [zprodZ fold_right map rprod]; auto. fold (zprodZ l). rewrite mult_IZR, IHl. auto. Qed.
Lemma IZR_zsum : forall l, IZR (zsumZ l) = rsumR (map IZR l).
Proof. induction l; cbn [zsumZ fold_right map rsumR]; auto. fold (zsumZ l). rewrite plus_IZR, IHl. auto. Qed.

Lemma pderiv_mono : forall c p x, peval (pderiv (monoR c p)) x = peval p x + (x - c) * peval (pderiv p) x.
Proof.
  intros c p x. unfold monoR. rewrite pderiv_paddR, peval_add.
  assert (E : peval (pderiv (pscaleR (- c) p)) x = - c * peval (pderiv p) x).
  { rewrite <- peval_scale. apply peval_ext. intros i. rewrite nth_pscaleR, !nth_pderiv, nth_pscaleR. ring. }
  rewrite E. cbn [pderiv]. rewrite peval_add. cbn [peval]. ring.
Qed.
Lemma pderiv_scale : forall c p x, peval (pderiv (pscaleR c p)) x = c * peval (pderiv p) x.
Proof. intros c p x. rewrite <- peval_scale. apply peval_ext. intros i. rewrite nth_pscaleR, !nth_pderiv, nth_pscaleR. ring. Qed.

Lemma prodR_deriv : forall qs y, NoDup qs ->
  peval (pderiv (prodR qs)) y = rsumR (map (fun l => rprod (map (fun q => y - IZR q) (without l qs))) qs).
Proof.
  induction qs as [|a qs IH]; intros y N; [cbn; lra|]. inversion N; subst.
  cbn [prodR fold_right]. fold (prodR qs). rewrite pderiv_mono, IH, prodR_eval by auto.
  cbn [map rsumR fold_right]. cbn [without filter]. rewrite Z.eqb_refl. cbn [negb]. fold (without a qs).
  rewrite without_notin by auto. f_equal. rewrite <- rsumR_map_scale. fold (rsumR (map (fun l => rprod (map (fun q => y - IZR q) (if negb (Z.eqb a l) then a :: filter (fun x => negb (Z.eqb x l)) qs else filter (fun x => negb (Z.eqb x l)) qs))) qs)).
  apply rsumR_map_ext. intros l I. destruct (Z.eqb_spec a l); [subst; tauto|]. reflexivity.
Qed.

(* ---------- interpolation ---------- *)
Definition denom (xs : list Z) (m : Z) : R := IZR (zprodZ (map (fun l => m - l)%Z (without m xs))).
Lemma denom_eval : forall xs m, denom xs m = peval (prodR (without m xs)) (IZR m).
Proof.
  intros. unfold denom. rewrite IZR_zprod, prodR_eval, map_map. f_equal. apply map_ext. intros. apply minus_IZR.
Qed.
Lemma denom_nonzero : forall xs m, denom xs m <> 0.
Proof.
  intros. unfold denom. rewrite IZR_zprod. apply rprod_nonzero. rewrite map_map, in_map_iff.
  intros (l & E & I). apply In_without in I. apply eq_IZR in E. lia.
Qed.
(* value of the derivative-or-value functional of the interpolant *)
Lemma interp_eval_gen : forall ms xs y t,
  peval (fold_right (fun m acc => paddR (pscaleR (y m / denom xs m) (prodR (without m xs))) acc) [] ms) t =
  rsumR (map (fun m => y m / denom xs m * peval (prodR (without m xs)) t) ms).
Proof. induction ms; intros; cbn [fold_right]; rs; auto. rewrite peval_add, peval_scale, IHms. auto. Qed.
Lemma interp_eval : forall xs y t, peval (interpolating_poly xs y) t =
  rsumR (map (fun m => y m / denom xs m * peval (prodR (without m xs)) t) xs).
Proof. intros. apply interp_eval_gen. Qed.
Lemma interp_deriv_gen : forall ms xs y t,
  peval (pderiv (fold_right (fun m acc => paddR (pscaleR (y m / denom xs m) (prodR (without m xs))) acc) [] ms)) t =
  rsumR (map (fun m => y m / denom xs m * peval (pderiv (prodR (without m xs))) t) ms).
Proof.
  induction ms; intros; cbn [fold_right]; rs; auto. rewrite pderiv_paddR, peval_add, pderiv_scale, IHms. auto.
Qed.
Lemma interp_deriv : forall xs y t, peval (pderiv (interpolating_poly xs y)) t =
  rsumR (map (fun m => y m / denom xs m * peval (pderiv (prodR (without m xs))) t) xs).
Proof. intros. apply interp_deriv_gen. Qed.
Lemma interp_node : forall xs y x, NoDup xs -> In x xs -> peval (interpolating_poly xs y) (IZR x) = y x.
Proof.
  intros xs y x N I. rewrite interp_eval. rewrite (rsumR_single _ _ xs x N I).
  - rewrite <- denom_eval. field. apply denom_nonzero.
  - intros m Im Hm. rewrite prodR_eval. rewrite rprod_zero; [ring|]. apply in_map_iff. exists x. split; [ring|].
    apply In_without. auto.
Qed.
Lemma interp_length_gen : forall ms xs y, NoDup xs -> incl ms xs ->
  (List.length (fold_right (fun m acc => paddR (pscaleR (y m / denom xs m) (prodR (without m xs))) acc) [] ms) <= List.length xs)%nat.
Proof.
  induction ms as [|m ms IH]; cbn [fold_right]; intros xs y N I; [cbn; lia|].
  rewrite paddR_length. unfold pscaleR at 1. rewrite map_length, prodR_length, without_length; auto.
  - pose proof (IH xs y N (fun x h => I x (or_intror h))). lia.
  - apply I. cbn; auto.
Qed.
Lemma interp_length : forall xs y, NoDup xs -> (List.length (interpolating_poly xs y) <= List.length xs)%nat.
Proof. intros. apply interp_length_gen; auto. intros x; auto. Qed.

Lemma interp_unique : forall xs y p, NoDup xs -> (List.length p <= List.length xs)%nat ->
  (forall x, In x xs -> peval p (IZR x) = y x) -> peq (interpolating_poly xs y) p.
Proof.
  intros xs y p N L H. apply (poly_unique xs); auto. apply interp_length; auto.
  intros x I. rewrite interp_node; auto. symmetry. auto.
Qed.

(* the derivative of the interpolant through the nodes a, ..., a+n at y *)
Definition D (a : Z) (n : nat) (y : R) (G : Z -> R) : R :=
  peval (pderiv (interpolating_poly (zrange a (a + Z.of_nat n + 1)) G)) y.
Lemma nodes_length : forall a n, List.length (zrange a (a + Z.of_nat n + 1)) = S n.
Proof. intros. rewrite zrange_length. lia. Qed.
Lemma D_poly : forall a n y G p, (List.length p <= S n)%nat ->
  (forall x, (a <= x <= a + Z.of_nat n)%Z -> peval p (IZR x) = G x) -> D a n y G = peval (pderiv p) y.
Proof.
  intros a n y G p L H. unfold D. apply peq_eval. apply peq_pderiv. apply interp_unique.
  - apply NoDup_zrange.
  - rewrite nodes_length. auto.
  - intros x I. apply In_zrange in I. apply H. lia.
Qed.
Definition itp (a : Z) (n : nat) (G : Z -> R) : list R := interpolating_poly (zrange a (a + Z.of_nat n + 1)) G.
Lemma itp_node : forall a n G x, (a <= x <= a + Z.of_nat n)%Z -> peval (itp a n G) (IZR x) = G x.
Proof. intros. unfold itp. apply interp_node. apply NoDup_zrange. apply In_zrange. lia. Qed.
Lemma itp_length : forall a n G, (List.length (itp a n G) <= S n)%nat.
Proof. intros. unfold itp. rewrite <- (nodes_length a n). apply interp_length. apply NoDup_zrange. Qed.
Lemma D_ext : forall a n y G G', (forall x, (a <= x <= a + Z.of_nat n)%Z -> G x = G' x) -> D a n y G = D a n y G'.
Proof. intros a n y G G' H. apply (D_poly a n y G (itp a n G')). apply itp_length. intros x I. rewrite itp_node; auto. symmetry; auto. Qed.
Lemma D_lin : forall a n y c e G H, D a n y (fun x => c * G x + e * H x) = c * D a n y G + e * D a n y H.
Proof.
  intros. rewrite (D_poly a n y _ (paddR (pscaleR c (itp a n G)) (pscaleR e (itp a n H)))).
  - rewrite pderiv_paddR, peval_add, !pderiv_scale. reflexivity.
  - rewrite paddR_length. unfold pscaleR. rewrite !map_length. pose proof (itp_length a n G). pose proof (itp_length a n H). lia.
  - intros x I. rewrite peval_add, !peval_scale, !itp_node; auto.
Qed.
Lemma D_const : forall a n y c, D a n y (fun _ => c) = 0.
Proof. intros. rewrite (D_poly a n y _ [c]). cbn; ring. cbn; lia. intros; cbn; ring. Qed.
(* affine change of variable x -> s + e x with e = 1 or -1 *)
Lemma pderiv_pshift : forall p x h t, peval (pderiv (pshift x h p)) t = h * peval (pderiv p) (x + t * h).
Proof.
  intros p x h t. eapply uniqueness_limite. apply pderiv_derives.
  assert (E : forall u, peval (pshift x h p) u = comp (peval p) (fun u => x + u * h) u).
  { intros. unfold comp. apply peval_pshift. }
  assert (K : derivable_pt_lim (comp (peval p) (fun u => x + u * h)) t (peval (pderiv p) (x + t * h) * h)).
  { apply derivable_pt_lim_comp; [|apply pderiv_derives].
    assert (L : derivable_pt_lim (fun u => x + u * h) t (0 + (1 * h + t * 0))).
    { apply (derivable_pt_lim_plus (fun _ => x) (fun u => u * h)). apply derivable_pt_lim_const.
      apply (derivable_pt_lim_mult (fun u => u) (fun _ => h)). apply derivable_pt_lim_id. apply derivable_pt_lim_const. }
    replace h with (0 + (1 * h + t * 0)) by ring. replace (0 + (1 * h + t * 0)) with h in L at 1 by ring.
    intros e He. destruct (L e He) as [d Hd]. exists d. intros u U1 U2. specialize (Hd u U1 U2).
    replace (0 + (1 * h + t * 0)) with h in * by ring. exact Hd. }
  rewrite Rmult_comm. intros eps He. destruct (K eps He) as [d Hd]. exists d. intros u Hu Hu'. rewrite !E. apply Hd; auto.
Qed.
Lemma D_shift : forall a n y G s, D (a + s) n (y + IZR s) G = D a n y (fun x => G (x + s)%Z).
Proof.
  intros. rewrite (D_poly a n y _ (pshift (IZR s) 1 (itp (a + s) n G))).
  - rewrite pderiv_pshift. rewrite Rmult_1_l. replace (IZR s + y * 1) with (y + IZR s) by ring. reflexivity.
  - rewrite pshift_length. apply itp_length.
  - intros x I. rewrite peval_pshift. replace (IZR s + IZR x * 1) with (IZR (x + s)) by (rewrite plus_IZR; ring).
    apply itp_node. lia.
Qed.
Lemma D_reflect : forall a n y G c, D (c - a - Z.of_nat n) n (IZR c - y) G = - D a n y (fun x => G (c - x)%Z).
Proof.
  intros. rewrite (D_poly a n y _ (pshift (IZR c) (-1) (itp (c - a - Z.of_nat n) n G))).
  - rewrite pderiv_pshift. replace (IZR c + y * -1) with (IZR c - y) by ring. unfold D, itp. ring.
  - rewrite pshift_length. apply itp_length.
  - intros x I. rewrite peval_pshift. replace (IZR c + IZR x * -1) with (IZR (c - x)) by (rewrite minus_IZR; ring).
    apply itp_node. lia.
Qed.

(* Neville's recurrence for the derivative at a node *)
Lemma D_neville : forall a n (y : Z) G, (a < y < a + Z.of_nat n + 1)%Z ->
  D a (S n) (IZR y) G = IZR (y - a) / INR (S n) * D (a + 1) n (IZR y) G
                      + IZR (a + Z.of_nat n + 1 - y) / INR (S n) * D a n (IZR y) G.
Proof.
  intros a n y G H. assert (N0 : INR (S n) <> 0) by (apply not_0_INR; lia).
  set (b := (a + Z.of_nat n + 1)%Z). set (P := itp (a + 1) n G). set (Q := itp a n G).
  rewrite (D_poly a (S n) (IZR y) G (pscaleR (/ INR (S n)) (paddR (monoR (IZR a) P) (pscaleR (-1) (monoR (IZR b) Q))))).
  - rewrite pderiv_scale, pderiv_paddR, peval_add, pderiv_scale, !pderiv_mono.
    assert (EP : peval P (IZR y) = G y) by (apply itp_node; lia).
    assert (EQ : peval Q (IZR y) = G y) by (apply itp_node; lia).
    rewrite EP, EQ. change (D (a + 1) n (IZR y) G) with (peval (pderiv P) (IZR y)).
    change (D a n (IZR y) G) with (peval (pderiv Q) (IZR y)). rewrite !minus_IZR. field. auto.
  - unfold pscaleR. rewrite map_length, paddR_length, map_length, !monoR_length.
    pose proof (itp_length (a + 1) n G). pose proof (itp_length a n G). unfold P, Q. lia.
  - intros x I. rewrite peval_scale, peval_add, peval_scale, !peval_mono.
    assert (EN : INR (S n) = IZR b - IZR a). { rewrite INR_IZR_INZ. rewrite <- minus_IZR. f_equal. unfold b. lia. }
    destruct (Z.eq_dec x a) as [->|Na]; [|destruct (Z.eq_dec x b) as [->|Nb]].
    + unfold Q. rewrite (itp_node a n G a) by lia. rewrite EN in *. field. auto.
    + unfold P. rewrite (itp_node (a + 1) n G b) by (unfold b; lia). rewrite EN in *. field. auto.
    + unfold P, Q. rewrite (itp_node (a + 1) n G x), (itp_node a n G x) by (unfold b in Nb; lia).
      rewrite EN in *. field. auto.
Qed.

(* ---------- integrals ---------- *)
Lemma pmulR_eval : forall p q x, peval (pmulR p q) x = peval p x * peval q x.
Proof. induction p; cbn [pmulR peval]; intros; [ring|]. rewrite peval_add, peval_scale. cbn [peval]. rewrite IHp. ring. Qed.
Lemma nth_primitive_from : forall p i j, nth j (primitive_from i p) 0 = nth j p 0 / INR (S (i + j)).
Proof.
  induction p as [|a p IH]; intros i j; cbn [primitive_from].
  - destruct j; cbn [nth]; unfold Rdiv; ring.
  - destruct j as [|j]; cbn [nth]; [rewrite Nat.add_0_r; auto|]. rewrite IH. do 2 f_equal. lia.
Qed.
Lemma primitive_pderiv : forall p, peq (pderiv (pprimitive p)) p.
Proof.
  intros p i. rewrite nth_pderiv. unfold pprimitive. cbn [nth]. rewrite nth_primitive_from. cbn [Nat.add].
  field. apply not_0_INR. lia.
Qed.
Lemma primitive_derives : forall p x, derivable_pt_lim (peval (pprimitive p)) x (peval p x).
Proof. intros. rewrite <- (peq_eval _ _ x (primitive_pderiv p)). apply pderiv_derives. Qed.
Lemma primitive_0 : forall p, peval (pprimitive p) 0 = 0.
Proof. intros. unfold pprimitive. cbn. ring. Qed.
Lemma primitive_length : forall p, List.length (pprimitive p) = S (List.length p).
Proof.
  intros. unfold pprimitive. cbn. f_equal. generalize 0%nat. induction p; cbn; auto.
Qed.
Lemma integral_square_nonneg : forall q, 0 <= integral01 (pmulR q q).
Proof.
  intros q. unfold integral01.
  destruct (MVT_cor2 (peval (pprimitive (pmulR q q))) (peval (pmulR q q)) 0 1) as (c & E & _); [lra| |].
  - intros. apply primitive_derives.
  - rewrite E. rewrite pmulR_eval. nra.
Qed.
Lemma same_derivative : forall f g h, (forall x, derivable_pt_lim f x (h x)) -> (forall x, derivable_pt_lim g x (h x)) ->
  forall x y, f x - f y = g x - g y.
Proof.
  intros f g h Hf Hg. assert (K : forall a b, a < b -> f b - f a = g b - g a).
  { intros a b L. destruct (MVT_cor2 (fun x => f x - g x) (fun x => h x - h x) a b L) as (c & E & _).
    - intros. apply derivable_pt_lim_minus; auto.
    - assert (f b - g b - (f a - g a) = 0) by (rewrite E; ring). lra. }
  intros x y. destruct (Rtotal_order x y) as [L|[->|L]]; [|lra|apply K; lra].
  pose proof (K x y L). lra.
Qed.
Lemma integral_reflect : forall p q, (forall x, peval p x = peval q (1 - x)) -> integral01 p = integral01 q.
Proof.
  intros p q H. unfold integral01.
  assert (E := same_derivative (peval (pprimitive p)) (fun x => - peval (pprimitive q) (1 - x)) (peval p)
             (primitive_derives p)).
  assert (K : forall x, derivable_pt_lim (fun x => - peval (pprimitive q) (1 - x)) x (peval p x)).
  { intros x. rewrite H. replace (peval q (1 - x)) with (- (peval q (1 - x) * (0 - 1))) by ring.
    apply derivable_pt_lim_opp. apply (derivable_pt_lim_comp (fun x => 1 - x) (peval (pprimitive q))).
    - apply (derivable_pt_lim_minus (fun _ => 1) (fun x => x)). apply derivable_pt_lim_const. apply derivable_pt_lim_id.
    - apply primitive_derives. }
  rewrite (E K 1 0). replace (1 - 1) with 0 by ring. replace (1 - 0) with 1 by ring. ring.
Qed.
