(* Proofs for the one-sided schemes *)
From Verif Require Import Base Expr FDModel FDSpec FDForn FDProofs ShiftModel BCModel OneModel OneSpec OneLin OneNorm.
From Coq Require Import QArith Reals Qreals List ZArith Lia Lra.
Import ListNotations.
Local Close Scope Q_scope.
Local Open Scope R_scope.

(* ---- exactness from moments ---- *)
Definition ssum (s : stencil) (f : R -> R) : R := fold_right (fun p acc => fst p * f (IZR (snd p)) + acc) 0 s.
Definition moments (s : stencil) (m d : nat) : Prop :=
  forall i, (i <= d)%nat -> ssum s (fun t => t ^ i) = if Nat.eqb i m then INR (fact m) else 0.
Lemma ssum_ext : forall s f g, (forall p, In p s -> f (IZR (snd p)) = g (IZR (snd p))) -> ssum s f = ssum s g.
Proof. induction s as [|p s IH]; intros f g H; cbn; auto. f_equal; [rewrite H by (left; auto); auto | apply IH; intros; apply H; right; auto]. Qed.
Lemma ssum_scale : forall s a f, ssum s (fun t => a * f t) = a * ssum s f.
Proof. induction s as [|p s IH]; intros a f; cbn; [ring|]. unfold ssum in IH. rewrite IH. ring. Qed.
Lemma ssum_plus : forall s f g, ssum s (fun t => f t + g t) = ssum s f + ssum s g.
Proof. induction s as [|p s IH]; intros f g; cbn; [ring|]. unfold ssum in IH. rewrite IH. ring. Qed.
Lemma ssum_peval : forall s m d, moments s m d -> forall c i, (List.length c + i <= d + 1)%nat ->
  ssum s (fun t => t ^ i * peval c t) = INR (fact m) * nth m (repeat 0 i ++ c) 0.
Proof.
  intros s m d Hd. induction c as [|a c IH]; intros i Hi.
  - rewrite (ssum_ext _ _ (fun t => 0 * 1)) by (intros; cbn; ring). rewrite ssum_scale, app_nil_r.
    replace (nth m (repeat 0 i) 0) with 0; [ring|]. clear.
    revert m. induction i; intros [|q]; cbn; auto.
  - cbn [List.length] in Hi.
    rewrite (ssum_ext _ _ (fun t => a * t ^ i + t ^ S i * peval c t)) by (intros; cbn [peval pow]; ring).
    rewrite ssum_plus, ssum_scale, IH, Hd by lia.
    replace (repeat 0 (S i) ++ c) with (repeat 0 i ++ 0 :: c) by (clear; induction i; cbn in *; congruence).
    destruct (Nat.eqb_spec i m) as [-> | Hne].
    + rewrite !app_nth2 by (rewrite repeat_length; lia). rewrite repeat_length, Nat.sub_diag. cbn [nth]. ring.
    + replace (nth m (repeat 0 i ++ 0 :: c) 0) with (nth m (repeat 0 i ++ a :: c) 0); [ring|].
      destruct (Nat.lt_ge_cases m i).
      * rewrite !app_nth1 by (rewrite repeat_length; lia). reflexivity.
      * rewrite !app_nth2 by (rewrite repeat_length; lia). rewrite repeat_length.
        destruct (m - i)%nat eqn:E; [lia | reflexivity].
Qed.
Lemma stencil_exact : forall s m d p x0 h i, moments s m d -> (List.length p <= d + 1)%nat -> h <> 0 ->
  apply_stencil s (samples (peval p) x0 h) i * / h ^ m = peval (pderivs m p) (x0 + IZR i * h).
Proof.
  intros s m d p x0 h i Hs Hp Hh. set (x := x0 + IZR i * h).
  assert (E : apply_stencil s (samples (peval p) x0 h) i = ssum s (fun t => peval p (x + t * h))).
  { unfold apply_stencil, ssum. clear Hs. induction s as [|r s IH]; cbn; auto. rewrite IH. f_equal. f_equal. unfold samples, x. f_equal. rewrite plus_IZR. ring. }
  rewrite E. rewrite (ssum_ext _ _ (fun t => t ^ 0 * peval (pshift x h p) t)).
  - rewrite (ssum_peval s m d Hs) by (rewrite pshift_length; lia). cbn [repeat app]. rewrite coef_pshift.
    field. apply pow_nonzero. auto.
  - intros q _. rewrite peval_pshift. cbn. ring.
Qed.
Definition mirrored (c : R) (s : stencil) : stencil := map (fun p => (c * fst p, (- snd p)%Z)) s.
Lemma pow_opp : forall t i, (- t) ^ i = signR i * t ^ i.
Proof.
  intros. replace (- t) with (-1 * t) by ring. rewrite Rpow_mult_distr. f_equal. unfold signR.
  induction i; cbn [pow]; [reflexivity|]. rewrite IHi, Nat.even_succ, <- Nat.negb_even. destruct (Nat.even i); cbn; ring.
Qed.
Lemma mirrored_moments : forall s m d, moments s m d -> moments (mirrored (signR m) s) m d.
Proof.
  intros s m d H i Hi. specialize (H i Hi).
  assert (E : ssum (mirrored (signR m) s) (fun t => t ^ i) = signR m * signR i * ssum s (fun t => t ^ i)).
  { clear H. induction s as [|p s IH]; cbn; [ring|]. unfold ssum, mirrored in IH. rewrite IH. unfold ssum.
    rewrite opp_IZR, pow_opp. ring. }
  rewrite E, H. destruct (Nat.eqb_spec i m) as [E2 | ]; [|ring]. rewrite E2. unfold signR. destruct (Nat.even m); ring.
Qed.

(* ---- the Carpenter coefficients ---- *)
Definition sum4 (f : nat -> R) : R := f 0%nat + f 1%nat + f 2%nat + f 3%nat.
Definition sum6 (f : nat -> R) : R := f 0%nat + f 1%nat + f 2%nat + f 3%nat + f 4%nat + f 5%nat.
Lemma fold_sum4 : forall f, fold_right Rplus 0 (map f (seq 0 4)) = sum4 f.
Proof. intros. unfold sum4. cbn. ring. Qed.
Lemma nth_map_seq : forall {A} (f : nat -> A) n i d, (i < n)%nat -> nth i (map f (seq 0 n)) d = f i.
Proof.
  intros A f n i d H. rewrite (nth_indep _ d (f 0%nat)) by (rewrite map_length, seq_length; auto).
  rewrite map_nth, seq_nth by auto. reflexivity.
Qed.
Lemma nth_map_default : forall {A B} (f : A -> B) l i d d', (i < List.length l)%nat -> nth i (map f l) d = f (nth i l d').
Proof. intros. rewrite (nth_indep _ d (f d')) by (rewrite map_length; auto). apply map_nth. Qed.
Lemma minv_row : forall m i, (i < List.length m)%nat -> List.length (nth i (minv m) []) = List.length m.
Proof. intros m i H. unfold minv. rewrite nth_map_seq by auto. rewrite map_length, seq_length. reflexivity. Qed.
Lemma minv_length : forall m, List.length (minv m) = List.length m.
Proof. intros m. unfold minv. rewrite map_length, seq_length. reflexivity. Qed.
Lemma bc4_entry : forall i j, (i < 4)%nat -> (j < 6)%nat ->
  entry bc4 i j = sum4 (fun k => entry (minv al4) i k * entry ar4 k j).
Proof.
  intros i j Hi Hj. unfold bc4. rewrite <- fold_sum4.
  assert (L : List.length al4 = 4%nat) by reflexivity.
  pose proof (minv_row al4 i) as Lr. pose proof (minv_length al4) as Lm. rewrite L in *. specialize (Lr Hi).
  unfold entry at 1, mmul. rewrite (nth_map_default _ (minv al4) i [] []) by lia.
  rewrite nth_map_seq by auto. rewrite Lr. reflexivity.
Qed.
Lemma al4_det : det 4 al4 <> 0.
Proof.
  destruct pivot_values as (A & B & C & D). rewrite al4_sem, form_det by auto. apply Rgt_not_eq.
  repeat apply Rmult_lt_0_compat; auto.
Qed.
Lemma al4_left : forall i j, (i < 4)%nat -> (j < 4)%nat -> sum4 (fun k => entry (minv al4) i k * entry al4 k j) = delta i j.
Proof.
  intros i j Hi Hj. rewrite <- fold_sum4. pose proof al4_det as D. revert D. rewrite al4_sem. intros D.
  exact (minv_left _ _ _ _ _ _ _ _ _ _ _ _ _ _ _ _ D i j Hi Hj).
Qed.
Lemma al4_right : forall i j, (i < 4)%nat -> (j < 4)%nat -> sum4 (fun k => entry al4 i k * entry (minv al4) k j) = delta i j.
Proof.
  intros i j Hi Hj. rewrite <- fold_sum4. pose proof al4_det as D. revert D. rewrite al4_sem. intros D.
  exact (minv_right _ _ _ _ _ _ _ _ _ _ _ _ _ _ _ _ D i j Hi Hj).
Qed.
Lemma sum4_ext : forall f g, (forall i, (i < 4)%nat -> f i = g i) -> sum4 f = sum4 g.
Proof. intros f g H. unfold sum4. rewrite !H by lia. reflexivity. Qed.
Lemma sum6_ext : forall f g, (forall i, (i < 6)%nat -> f i = g i) -> sum6 f = sum6 g.
Proof. intros f g H. unfold sum6. rewrite !H by lia. reflexivity. Qed.
Lemma sum4_delta : forall i f, (i < 4)%nat -> sum4 (fun k => delta i k * f k) = f i.
Proof. intros i f Hi. do 4 (destruct i as [|i]; [unfold sum4, delta; cbn; ring|]). lia. Qed.
Lemma sum4_swap : forall (f : nat -> nat -> R), sum4 (fun i => sum4 (fun j => f i j)) = sum4 (fun j => sum4 (fun i => f i j)).
Proof. intros. unfold sum4. ring. Qed.
Lemma sum4_scale : forall a f, a * sum4 f = sum4 (fun i => a * f i).
Proof. intros. unfold sum4. ring. Qed.
Lemma sum46 : forall (f : nat -> nat -> R), sum6 (fun i => sum4 (fun j => f i j)) = sum4 (fun j => sum6 (fun i => f i j)).
Proof. intros. unfold sum4, sum6. ring. Qed.
Lemma sum6_scale : forall a f, a * sum6 f = sum6 (fun i => a * f i).
Proof. intros. unfold sum6. ring. Qed.
Lemma sum4_scale_r : forall a f, sum4 f * a = sum4 (fun i => f i * a).
Proof. intros. unfold sum4. ring. Qed.

Lemma bc4_solves : forall i v, (i < 4)%nat ->
  sum4 (fun k => entry al4 i k * sum6 (fun j => entry bc4 k j * v j)) = sum6 (fun j => entry ar4 i j * v j).
Proof.
  intros i v Hi.
  transitivity (sum6 (fun j => sum4 (fun l => delta i l * entry ar4 l j) * v j)).
  - rewrite (sum6_ext _ (fun j => sum4 (fun l => sum4 (fun k => entry al4 i k * entry (minv al4) k l) * entry ar4 l j) * v j)).
    2:{ intros j Hj. f_equal. apply sum4_ext. intros l Hl. rewrite al4_right by auto. reflexivity. }
    rewrite (sum4_ext _ (fun k => entry al4 i k * sum6 (fun j => sum4 (fun l => entry (minv al4) k l * entry ar4 l j) * v j))).
    2:{ intros k Hk. f_equal. apply sum6_ext. intros j Hj. rewrite bc4_entry by auto. reflexivity. }
    generalize (entry al4) (entry (minv al4)) (entry ar4). intros a b c. unfold sum4, sum6. ring.
  - apply sum6_ext. intros j Hj. rewrite sum4_delta by auto. reflexivity.
Qed.
Lemma bc4_apply : forall v q, (forall l, (l < 4)%nat -> sum6 (fun j => entry ar4 l j * v j) = sum4 (fun k => entry al4 l k * q k)) ->
  forall i, (i < 4)%nat -> sum6 (fun j => entry bc4 i j * v j) = q i.
Proof.
  intros v q H i Hi.
  rewrite (sum6_ext _ (fun j => sum4 (fun l => entry (minv al4) i l * entry ar4 l j) * v j)).
  2:{ intros j Hj. rewrite bc4_entry by auto. reflexivity. }
  transitivity (sum4 (fun l => entry (minv al4) i l * sum6 (fun j => entry ar4 l j * v j))).
  { generalize (entry (minv al4)) (entry ar4). intros b c. unfold sum4, sum6. ring. }
  rewrite (sum4_ext _ (fun l => entry (minv al4) i l * sum4 (fun k => entry al4 l k * q k))) by (intros; rewrite H; auto).
  transitivity (sum4 (fun k => sum4 (fun l => entry (minv al4) i l * entry al4 l k) * q k)).
  { generalize (entry (minv al4)) (entry al4). intros b c. unfold sum4. ring. }
  rewrite (sum4_ext _ (fun k => delta i k * q k)) by (intros; rewrite al4_left; auto). apply sum4_delta. auto.
Qed.
(* the moments of al4 and ar4, for any R1 and R2 *)
Definition dpow (e : nat) (t : R) : R := match e with O => 0 | S e' => INR e * t ^ e' end.
Ltac entries := unfold sum6, sum4, dpow, ar4, al4, ar4_of, al4_of, entry; cbn [nth INR pow].
Lemma closure_moments : forall e l, (e <= 3)%nat -> (l < 4)%nat ->
  sum6 (fun j => entry ar4 l j * INR j ^ e) = sum4 (fun k => entry al4 l k * dpow e (INR k)).
Proof.
  intros e l He Hl. generalize cR1 cR2.
  do 4 (destruct e as [|e]; [do 4 (destruct l as [|l]; [entries; generalize cR1 cR2; intros; field|]); lia|]). lia.
Qed.
Lemma bc4_moments : forall e i, (e <= 3)%nat -> (i < 4)%nat -> sum6 (fun j => entry bc4 i j * INR j ^ e) = dpow e (INR i).
Proof. intros e i He Hi. apply (bc4_apply _ (fun k => dpow e (INR k))); auto. intros l Hl. apply closure_moments; auto. Qed.
Definition carp_row (i : nat) : stencil := map (fun j => (1 * entry bc4 i j, point false j i)) (seq 0 6).
Lemma carp_row_moments : forall i, (i < 4)%nat -> moments (carp_row i) 1 3.
Proof.
  intros i Hi e He.
  assert (E : ssum (carp_row i) (fun t => t ^ e) = sum6 (fun j => entry bc4 i j * (INR j - INR i) ^ e)).
  { unfold ssum, carp_row, sum6. cbn [map seq fold_right fst snd]. unfold point. rewrite !minus_IZR, <- !INR_IZR_INZ.
    generalize (entry bc4). intros b. generalize (INR i). intros x. cbn [INR]. rewrite ?Rplus_0_l. ring_simplify.
    ring. }
  rewrite E. pose proof (bc4_moments 0 i ltac:(lia) Hi) as M0. pose proof (bc4_moments 1 i ltac:(lia) Hi) as M1.
  pose proof (bc4_moments 2 i ltac:(lia) Hi) as M2. pose proof (bc4_moments 3 i ltac:(lia) Hi) as M3.
  assert (B : forall x, sum6 (fun j => entry bc4 i j * (INR j - x) ^ e) =
    match e with
    | 0%nat => sum6 (fun j => entry bc4 i j * INR j ^ 0)
    | 1%nat => sum6 (fun j => entry bc4 i j * INR j ^ 1) - x * sum6 (fun j => entry bc4 i j * INR j ^ 0)
    | 2%nat => sum6 (fun j => entry bc4 i j * INR j ^ 2) - 2 * x * sum6 (fun j => entry bc4 i j * INR j ^ 1)
           + x ^ 2 * sum6 (fun j => entry bc4 i j * INR j ^ 0)
    | _ => sum6 (fun j => entry bc4 i j * INR j ^ 3) - 3 * x * sum6 (fun j => entry bc4 i j * INR j ^ 2)
           + 3 * x ^ 2 * sum6 (fun j => entry bc4 i j * INR j ^ 1) - x ^ 3 * sum6 (fun j => entry bc4 i j * INR j ^ 0)
    end).
  { intros x. generalize (entry bc4 i). intros b. unfold sum6. destruct e as [|[|[|[|e]]]]; [| | | |lia]; ring. }
  rewrite B, M0, M1, M2, M3. generalize (INR i). intros x.
  destruct e as [|[|[|[|e]]]]; [| | | |lia]; cbn; ring.
Qed.

(* ---- all rows ---- *)
Lemma carp_rows_eq : forall side, carpenter_rows 1 side =
  Ok (if side then map (fun i => map (fun j => (-1 * entry bc4 i j, point true j i)) (seq 0 6)) (seq 0 4) else map carp_row (seq 0 4)).
Proof. intros [|]; reflexivity. Qed.
Lemma carp_upper : forall i, map (fun j => (-1 * entry bc4 i j, point true j i)) (seq 0 6) = mirrored (signR 1) (carp_row i).
Proof.
  intros i. unfold mirrored, carp_row. rewrite map_map. apply map_ext. intros j. cbn [fst snd]. unfold point, signR. cbn [Nat.even].
  f_equal; [ring | lia].
Qed.
(* degree up to which the formulas of a scheme are exact; None: not at all *)
Definition exact_degree (s : bscheme) (order : nat) : nat :=
  match s, order with
  | Carpenter, 1%nat => 3 | Carpenter, _ => 4
  | ReducedAccess, _ => 4
  | ReducedOrder, 1%nat => 2 | ReducedOrder, _ => 3
  end%nat.
Ltac moments_tac := let e := fresh "e" in let He := fresh "He" in intros e He;
  do 5 (destruct e as [|e]; [first [lia | cbn; lra]|]); lia.
Lemma ok_inj : forall {A} (a b : A), Ok a = Ok b -> a = b.
Proof. intros A a b H. congruence. Qed.
Lemma rows_moments : forall s order side l st, order = 1%nat \/ order = 2%nat ->
  ~ (s = ReducedOrder /\ order = 2%nat /\ side = true) ->
  rows s order side = Ok l -> In st l -> moments st order (exact_degree s order).
Proof.
  intros s order side l st Ho Hx E Hin. destruct s; cbn [rows exact_degree] in *.
  - destruct Ho as [-> | ->].
    + rewrite carp_rows_eq in E. apply ok_inj in E. subst l. destruct side.
      * apply in_map_iff in Hin. destruct Hin as (i & <- & Hi). apply in_seq in Hi. rewrite carp_upper.
        apply mirrored_moments. apply carp_row_moments. lia.
      * apply in_map_iff in Hin. destruct Hin as (i & <- & Hi). apply in_seq in Hi. apply carp_row_moments. lia.
    + injection E as <-. destruct side; cbn [map seq In] in Hin; repeat destruct Hin as [<- | Hin]; try contradiction; moments_tac.
  - destruct Ho as [-> | ->]; injection E as <-; destruct side; cbn [map seq In] in Hin; repeat destruct Hin as [<- | Hin]; try contradiction; moments_tac.
  - destruct Ho as [-> | ->]; injection E as <-; destruct side; try (exfalso; apply Hx; auto; fail);
      cbn [map seq In] in Hin; repeat destruct Hin as [<- | Hin]; try contradiction; moments_tac.
Qed.

Definition supported (o : option bscheme) (order : nat) (upper : bool) (d : nat) : Prop :=
  match o with
  | None => True
  | Some s => (d <= exact_degree s order)%nat /\ ~ (s = ReducedOrder /\ order = 2%nat /\ upper = true)
  end.
Lemma moments_weaken : forall s m d d', moments s m d -> (d' <= d)%nat -> moments s m d'.
Proof. intros s m d d' H Hd i Hi. apply H. lia. Qed.
Lemma pairs_ok : forall o order side n, order = 1%nat \/ order = 2%nat -> exists l, pairs_of o order side n = Ok l /\
  forall d, supported o order side d -> forall c, In c l -> moments (fst c) order d.
Proof.
  intros [s|] order side n Ho; cbn [pairs_of].
  - unfold expr_cond_pairs. assert (exists rs, rows s order side = Ok rs) as (rs & E).
    { destruct s, Ho as [-> | ->]; cbn [rows]; eexists; reflexivity. }
    rewrite E. cbn [bind]. eexists. split; [reflexivity|]. intros d [Hd Hx] c Hc.
    apply in_map_iff in Hc. destruct Hc as ([no st] & <- & Hin). cbn [fst snd].
    apply moments_weaken with (d := exact_degree s order); auto.
    apply (rows_moments s order side rs); auto. apply in_combine_r in Hin. auto.
  - exists []. split; auto. intros d _ c [].
Qed.
Lemma boundary_exact : forall k order h mods n p x0 i d,
  order = 1%nat \/ order = 2%nat -> (d <= 2 * k)%nat ->
  supported (fst mods) order false d -> supported (snd mods) order true d ->
  (List.length p <= d + 1)%nat -> h <> 0 ->
  boundary_derivative k order h mods n (samples (peval p) x0 h) i = Ok (peval (pderivs order p) (x0 + IZR i * h)).
Proof.
  intros k order h mods n p x0 i d Ho Hk Hl Hr Hp Hh. unfold boundary_derivative.
  destruct (pairs_ok (fst mods) order false n Ho) as (l & El & Ml).
  destruct (pairs_ok (snd mods) order true n Ho) as (r & Er & Mr).
  rewrite El, Er. cbn [bind]. f_equal. specialize (Ml d Hl). specialize (Mr d Hr).
  destruct (find _ _) as [[st a]|] eqn:F.
  - apply find_some in F. destruct F as [F _]. apply in_app_iff in F.
    apply stencil_exact with (d := d); auto. destruct F as [F | F]; [apply (Ml _ F) | apply (Mr _ F)].
  - rewrite <- (formula_exact_upto k order d) with (h := h); auto.
    + unfold central_formula. rewrite !grid_zsum. f_equal. apply zsum_ext. intros z. unfold samples. f_equal. rewrite plus_IZR, Z.add_0_l. ring.
    + intros e He. apply moment. lia.
Qed.

(* ---- summation by parts ---- *)
Section SBP.
Variables (n : Z) (h : R).
Hypothesis Hn : (8 <= n)%Z.
Hypothesis Hh : 0 < h.
Local Notation CC := (Some Carpenter, Some Carpenter).
Definition central4 (v : Z -> R) (i : Z) : R := (v (i - 2)%Z - 8 * v (i - 1)%Z + 8 * v (i + 1)%Z - v (i + 2)%Z) / 12.
Lemma grid4 : forall v i, grid_formula 4 1 h v i = central4 v i * / h.
Proof.
  intros v i. unfold grid_formula, central4.
  assert (E : combine (central_points 4) (generate_weights 4 1) =
     [((-2)%Z, (1 # 12)%Q); ((-1)%Z, (-2 # 3)%Q); (0%Z, 0%Q); (1%Z, (2 # 3)%Q); (2%Z, (-1 # 12)%Q)]) by (vm_compute; reflexivity).
  rewrite E. cbn [fold_right fst snd]. unfold Q2R. cbn [Qnum Qden pow].
  rewrite Z.add_0_r. change (i + -2)%Z with (i - 2)%Z. change (i + -1)%Z with (i - 1)%Z. field. lra.
Qed.
Definition low (v : Z -> R) (i : nat) : R := sum6 (fun j => entry bc4 i j * v (Z.of_nat j)).
Definition high (v : Z -> R) (i : nat) : R := - sum6 (fun j => entry bc4 i j * v (n - 1 - Z.of_nat j)%Z).
Definition carp_up (i : nat) : stencil := map (fun j => (-1 * entry bc4 i j, point true j i)) (seq 0 6).
Lemma pairs_low : pairs_of (Some Carpenter) 1 false n = Ok (map (fun i => (carp_row i, Z.of_nat i)) (seq 0 4)).
Proof. reflexivity. Qed.
Lemma pairs_high : pairs_of (Some Carpenter) 1 true n = Ok (map (fun i => (carp_up i, (n - 1 + -1 * Z.of_nat i)%Z)) (seq 0 4)).
Proof. reflexivity. Qed.
Lemma low_value : forall v i, apply_stencil (carp_row i) v (Z.of_nat i) = low v i.
Proof.
  intros v x. unfold low, apply_stencil, carp_row, sum6. cbn [map seq fold_right fst snd]. unfold point.
  repeat match goal with |- context [v (Z.of_nat x + (Z.of_nat ?j - Z.of_nat x))%Z] =>
     replace (Z.of_nat x + (Z.of_nat j - Z.of_nat x))%Z with (Z.of_nat j) by lia end. ring.
Qed.
Lemma high_value : forall v i, apply_stencil (carp_up i) v (n - 1 - Z.of_nat i) = high v i.
Proof.
  intros v x. unfold high, apply_stencil, carp_up, sum6. cbn [map seq fold_right fst snd]. unfold point.
  repeat match goal with |- context [v (n - 1 - Z.of_nat x + (Z.of_nat x - Z.of_nat ?j))%Z] =>
     replace (n - 1 - Z.of_nat x + (Z.of_nat x - Z.of_nat j))%Z with (n - 1 - Z.of_nat j)%Z by lia end. ring.
Qed.
Lemma D_values : forall v i, (0 <= i < n)%Z -> boundary_derivative 2 1 h CC n v i =
  Ok ((if Z.ltb i 4 then low v (Z.to_nat i) else if Z.ltb i (n - 4) then central4 v i else high v (Z.to_nat (n - 1 - i))) * / h).
Proof.
  intros v i Hi. unfold boundary_derivative. cbn [fst snd]. rewrite pairs_low, pairs_high. cbn [bind]. f_equal.
  change (2 * Z.of_nat 2)%Z with 4%Z. rewrite grid4.
  cbn [map seq app find fst snd].
  destruct (Z.ltb_spec i 4).
  - assert (i = 0 \/ i = 1 \/ i = 2 \/ i = 3)%Z as [-> | [-> | [-> | ->]]] by lia;
      cbn [Z.eqb Z.of_nat Pos.eqb Pos.of_succ_nat Pos.succ Z.to_nat Pos.to_nat Pos.iter_op]; rewrite pow_1, <- low_value; reflexivity.
  - repeat match goal with |- context [Z.eqb i (Z.of_nat ?j)] => destruct (Z.eqb_spec i (Z.of_nat j)); [lia|] end.
    destruct (Z.ltb_spec i (n - 4)).
    + repeat match goal with |- context [Z.eqb i ?j] => destruct (Z.eqb_spec i j); [lia|] end. reflexivity.
    + assert (Hc : exists j, (j < 4)%nat /\ i = (n - 1 - Z.of_nat j)%Z) by (exists (Z.to_nat (n - 1 - i)); lia).
      destruct Hc as (j & Hj & ->). replace (Z.to_nat (n - 1 - (n - 1 - Z.of_nat j))) with j by lia.
      rewrite <- high_value, pow_1.
      destruct (Z.eqb_spec (n - 1 - Z.of_nat j) (n - 1 + -1 * Z.of_nat 0)); [replace j with 0%nat by lia; reflexivity|].
      destruct (Z.eqb_spec (n - 1 - Z.of_nat j) (n - 1 + -1 * Z.of_nat 1)); [replace j with 1%nat by lia; reflexivity|].
      destruct (Z.eqb_spec (n - 1 - Z.of_nat j) (n - 1 + -1 * Z.of_nat 2)); [replace j with 2%nat by lia; reflexivity|].
      destruct (Z.eqb_spec (n - 1 - Z.of_nat j) (n - 1 + -1 * Z.of_nat 3)); [replace j with 3%nat by lia; reflexivity|]. lia.
Qed.

(* the inner product *)
Fixpoint isum (a : Z) (m : nat) (f : Z -> R) : R := match m with O => 0 | S m => isum a m f + f (a + Z.of_nat m)%Z end.
Definition block (u v : nat -> R) : R := sum4 (fun i => u i * sum4 (fun j => entry al4 i j * v j)).
Definition carp_ip (u v : Z -> R) : R :=
  h * (block (fun i => u (Z.of_nat i)) (fun i => v (Z.of_nat i)) +
       isum 4 (Z.to_nat (n - 8)) (fun i => u i * v i) +
       block (fun i => u (n - 1 - Z.of_nat i)%Z) (fun i => v (n - 1 - Z.of_nat i)%Z)).
Lemma isum_ext : forall a m f g, (forall i, (a <= i < a + Z.of_nat m)%Z -> f i = g i) -> isum a m f = isum a m g.
Proof. induction m; intros f g H; cbn; auto. rewrite (IHm f g), H by (intros; try apply H; lia). reflexivity. Qed.
Lemma isum_plus : forall a m f g, isum a m (fun i => f i + g i) = isum a m f + isum a m g.
Proof. induction m; intros; cbn; [ring|]. rewrite IHm. ring. Qed.
Lemma isum_scale : forall a m c f, isum a m (fun i => c * f i) = c * isum a m f.
Proof. induction m; intros; cbn; [ring|]. rewrite IHm. ring. Qed.
Lemma isum_nonneg : forall a m f, (forall i, 0 <= f i) -> 0 <= isum a m f.
Proof. induction m; intros f H; cbn; [lra|]. pose proof (IHm f H). pose proof (H (a + Z.of_nat m)%Z). lra. Qed.
Lemma isum_zero : forall a m f, (forall i, 0 <= f i) -> isum a m f = 0 -> forall i, (a <= i < a + Z.of_nat m)%Z -> f i = 0.
Proof.
  induction m; intros f H E i Hi; [lia|]. cbn in E. pose proof (isum_nonneg a m f H). pose proof (H (a + Z.of_nat m)%Z).
  destruct (Z.eq_dec i (a + Z.of_nat m)) as [-> | Hne]; [lra|]. apply IHm; auto; [lra | lia].
Qed.
Lemma isum_telescope : forall a m g, isum a m (fun i => g (i + 1)%Z - g i) = g (a + Z.of_nat m)%Z - g a.
Proof.
  induction m; intros g; cbn [isum]; [rewrite Z.add_0_r; ring|]. rewrite IHm.
  replace (a + Z.of_nat (S m))%Z with (a + Z.of_nat m + 1)%Z by lia. ring.
Qed.
Definition flux (u v : Z -> R) (i : Z) : R :=
  8 / 12 * (u i * v (i - 1)%Z + u (i - 1)%Z * v i) -
  1 / 12 * (u i * v (i - 2)%Z + u (i - 2)%Z * v i + u (i + 1)%Z * v (i - 1)%Z + u (i - 1)%Z * v (i + 1)%Z).
Lemma central_flux : forall u v i, u i * central4 v i + v i * central4 u i = flux u v (i + 1) - flux u v i.
Proof.
  intros. unfold central4, flux.
  replace (i + 1 - 1)%Z with i by lia. replace (i + 1 - 2)%Z with (i - 1)%Z by lia. replace (i + 1 + 1)%Z with (i + 2)%Z by lia. field.
Qed.
Lemma block_ext : forall u v u' v', (forall i, (i < 4)%nat -> u i = u' i) -> (forall i, (i < 4)%nat -> v i = v' i) -> block u v = block u' v'.
Proof. intros u v u' v' H1 H2. unfold block. apply sum4_ext. intros i Hi. rewrite H1 by auto. f_equal. apply sum4_ext. intros j Hj. rewrite H2 by auto. reflexivity. Qed.
Lemma al4_sym : forall i j, (i < 4)%nat -> (j < 4)%nat -> entry al4 i j = entry al4 j i.
Proof. intros i j Hi Hj. do 4 (destruct i as [|i]; [do 4 (destruct j as [|j]; [reflexivity|]); lia|]). lia. Qed.
Lemma block_sym : forall u v, block u v = block v u.
Proof.
  intros. transitivity (sum4 (fun i => sum4 (fun j => entry al4 i j * u i * v j))).
  { unfold block, sum4. ring. }
  rewrite (sum4_ext _ (fun i => sum4 (fun j => entry al4 j i * u i * v j))).
  2:{ intros i Hi. apply sum4_ext. intros j Hj. rewrite al4_sym by auto. reflexivity. }
  unfold block, sum4. ring.
Qed.
Lemma block_lin : forall a u v w, block (fun i => a * u i + v i) w = a * block u w + block v w.
Proof. intros. unfold block, sum4. ring. Qed.
Lemma block_form : forall u, block u u = form (sem q11) (sem q12) (sem q13) (sem q14) (sem q22) (sem q23) (sem q24) (sem q33) (sem q34) (sem q44)
   (u 0%nat) (u 1%nat) (u 2%nat) (u 3%nat).
Proof. intros. unfold block, form. rewrite al4_sem. unfold sum4, entry, mat4. cbn [nth]. ring. Qed.
Lemma block_nonneg : forall u, 0 <= block u u.
Proof. intros. rewrite block_form. destruct pivot_values as (A & B & C & D). apply form_nonneg; auto. Qed.
Lemma block_definite : forall u, block u u = 0 -> forall i, (i < 4)%nat -> u i = 0.
Proof.
  intros u E i Hi. rewrite block_form in E. destruct pivot_values as (A & B & C & D). apply form_definite in E; auto.
  destruct E as (E0 & E1 & E2 & E3). do 4 (destruct i as [|i]; [auto|]). lia.
Qed.
(* the identity of the closure, for any R1 and R2 *)
Lemma closure_identity : forall u v : nat -> R,
  sum4 (fun i => u i * sum6 (fun j => entry ar4 i j * v j)) + sum4 (fun i => v i * sum6 (fun j => entry ar4 i j * u j)) =
  - (u 0%nat * v 0%nat) + 8 / 12 * (u 4%nat * v 3%nat + u 3%nat * v 4%nat) -
  1 / 12 * (u 4%nat * v 2%nat + u 2%nat * v 4%nat + u 5%nat * v 3%nat + u 3%nat * v 5%nat).
Proof. intros. entries. generalize cR1 cR2. intros. field. Qed.
Lemma low_sbp : forall u v, sum4 (fun i => u (Z.of_nat i) * sum4 (fun j => entry al4 i j * low v j)) =
  sum4 (fun i => u (Z.of_nat i) * sum6 (fun j => entry ar4 i j * v (Z.of_nat j))).
Proof. intros. apply sum4_ext. intros i Hi. f_equal. unfold low. apply (bc4_solves i (fun j => v (Z.of_nat j)) Hi). Qed.
Lemma high_sbp : forall u v, sum4 (fun i => u (n - 1 - Z.of_nat i)%Z * sum4 (fun j => entry al4 i j * high v j)) =
  - sum4 (fun i => u (n - 1 - Z.of_nat i)%Z * sum6 (fun j => entry ar4 i j * v (n - 1 - Z.of_nat j)%Z)).
Proof.
  intros. transitivity (sum4 (fun i => -1 * (u (n - 1 - Z.of_nat i)%Z * sum6 (fun j => entry ar4 i j * v (n - 1 - Z.of_nat j)%Z)))).
  2:{ unfold sum4. ring. }
  apply sum4_ext. intros i Hi. rewrite <- (bc4_solves i (fun j => v (n - 1 - Z.of_nat j)%Z) Hi). unfold high, sum4. ring.
Qed.
Lemma carp_inner : inner_product n carp_ip.
Proof.
  unfold carp_ip. repeat apply conj.
  - intros. rewrite !block_lin.
    rewrite (isum_ext _ _ (fun i => (a * u i + v i) * w i) (fun i => a * (u i * w i) + v i * w i)) by (intros; ring).
    rewrite isum_plus, isum_scale. ring.
  - intros. rewrite (block_sym (fun i => u (Z.of_nat i))), (block_sym (fun i => u (n - 1 - Z.of_nat i)%Z)).
    rewrite (isum_ext _ _ (fun i => u i * v i) (fun i => v i * u i)) by (intros; ring). reflexivity.
  - intros u v w H. f_equal. f_equal; [f_equal|].
    + apply block_ext; auto. intros. apply H. lia.
    + apply isum_ext. intros i Hi. rewrite H by lia. reflexivity.
    + apply block_ext; auto. intros. apply H. lia.
  - intros. apply Rmult_le_pos; [lra|]. apply Rplus_le_le_0_compat; [apply Rplus_le_le_0_compat|]; try apply block_nonneg.
    apply isum_nonneg. intros. apply Rle_0_sqr.
  - intros u E i Hi. apply Rmult_integral in E. destruct E as [E | E]; [lra|].
    pose proof (block_nonneg (fun i => u (Z.of_nat i))) as P1. pose proof (block_nonneg (fun i => u (n - 1 - Z.of_nat i)%Z)) as P3.
    pose proof (isum_nonneg 4 (Z.to_nat (n - 8)) (fun i => u i * u i) (fun i => Rle_0_sqr (u i))) as P2.
    destruct (Z.lt_ge_cases i 4).
    + assert (E1 : block (fun i => u (Z.of_nat i)) (fun i => u (Z.of_nat i)) = 0) by lra.
      pose proof (block_definite _ E1 (Z.to_nat i) ltac:(lia)) as G. cbn beta in G. rewrite Z2Nat.id in G by lia. auto.
    + destruct (Z.lt_ge_cases i (n - 4)).
      * assert (E2 : isum 4 (Z.to_nat (n - 8)) (fun i => u i * u i) = 0) by lra.
        pose proof (isum_zero _ _ _ (fun i => Rle_0_sqr (u i)) E2 i ltac:(lia)) as G. apply Rsqr_0_uniq. auto.
      * assert (E1 : block (fun i => u (n - 1 - Z.of_nat i)%Z) (fun i => u (n - 1 - Z.of_nat i)%Z) = 0) by lra.
        pose proof (block_definite _ E1 (Z.to_nat (n - 1 - i)) ltac:(lia)) as G. cbn beta in G. rewrite Z2Nat.id in G by lia.
        replace (n - 1 - (n - 1 - i))%Z with i in G by lia. auto.
Qed.
Lemma half_sbp : forall u v Dv, (forall i, (0 <= i < n)%Z -> boundary_derivative 2 1 h CC n v i = Ok (Dv i)) ->
  carp_ip u Dv = sum4 (fun i => u (Z.of_nat i) * sum6 (fun j => entry ar4 i j * v (Z.of_nat j))) +
    isum 4 (Z.to_nat (n - 8)) (fun i => u i * central4 v i) -
    sum4 (fun i => u (n - 1 - Z.of_nat i)%Z * sum6 (fun j => entry ar4 i j * v (n - 1 - Z.of_nat j)%Z)).
Proof.
  intros u v Dv H. unfold carp_ip.
  rewrite (block_ext (fun i => u (Z.of_nat i)) (fun i => Dv (Z.of_nat i)) (fun i => u (Z.of_nat i)) (fun i => low v i * / h)).
  2: auto. 2:{ intros i Hi. specialize (H (Z.of_nat i) ltac:(lia)). rewrite D_values in H by lia. apply ok_inj in H.
    rewrite <- H. destruct (Z.ltb_spec (Z.of_nat i) 4); [|lia]. rewrite Nat2Z.id. reflexivity. }
  rewrite (block_ext (fun i => u (n - 1 - Z.of_nat i)%Z) (fun i => Dv (n - 1 - Z.of_nat i)%Z) (fun i => u (n - 1 - Z.of_nat i)%Z) (fun i => high v i * / h)).
  2: auto. 2:{ intros i Hi. specialize (H (n - 1 - Z.of_nat i)%Z ltac:(lia)). rewrite D_values in H by lia. apply ok_inj in H.
    rewrite <- H. destruct (Z.ltb_spec (n - 1 - Z.of_nat i) 4); [lia|]. destruct (Z.ltb_spec (n - 1 - Z.of_nat i) (n - 4)); [lia|].
    replace (Z.to_nat (n - 1 - (n - 1 - Z.of_nat i))) with i by lia. reflexivity. }
  rewrite (isum_ext _ _ (fun i => u i * Dv i) (fun i => / h * (u i * central4 v i))).
  2:{ intros i Hi. specialize (H i ltac:(lia)). rewrite D_values in H by lia. apply ok_inj in H. rewrite <- H.
    destruct (Z.ltb_spec i 4); [lia|]. destruct (Z.ltb_spec i (n - 4)); [|lia]. ring. }
  rewrite isum_scale.
  rewrite <- low_sbp.
  replace (sum4 (fun i => u (n - 1 - Z.of_nat i)%Z * sum6 (fun j => entry ar4 i j * v (n - 1 - Z.of_nat j)%Z)))
    with (- sum4 (fun i => u (n - 1 - Z.of_nat i)%Z * sum4 (fun j => entry al4 i j * high v j))) by (rewrite high_sbp; ring).
  unfold block. generalize (isum 4 (Z.to_nat (n - 8)) (fun i => u i * central4 v i)). intros I.
  generalize (entry al4) (low v) (high v). intros A l r. unfold sum4. field. lra.
Qed.
Lemma carp_sbp : forall u v Du Dv,
  (forall i, (0 <= i < n)%Z -> boundary_derivative 2 1 h CC n u i = Ok (Du i)) ->
  (forall i, (0 <= i < n)%Z -> boundary_derivative 2 1 h CC n v i = Ok (Dv i)) ->
  carp_ip u Dv + carp_ip Du v = u (n - 1)%Z * v (n - 1)%Z - u 0%Z * v 0%Z.
Proof.
  intros u v Du Dv HU HV. destruct carp_inner as (_ & Sy & _). rewrite (Sy Du v), (half_sbp u v Dv HV), (half_sbp v u Du HU).
  pose proof (closure_identity (fun j => u (Z.of_nat j)) (fun j => v (Z.of_nat j))) as C1.
  pose proof (closure_identity (fun j => u (n - 1 - Z.of_nat j)%Z) (fun j => v (n - 1 - Z.of_nat j)%Z)) as C2.
  cbn beta in C1, C2.
  assert (E : isum 4 (Z.to_nat (n - 8)) (fun i => u i * central4 v i) + isum 4 (Z.to_nat (n - 8)) (fun i => v i * central4 u i)
     = flux u v (n - 4) - flux u v 4).
  { rewrite <- isum_plus. rewrite (isum_ext _ _ _ (fun i => flux u v (i + 1) - flux u v i)) by (intros; apply central_flux).
    rewrite isum_telescope. f_equal. f_equal. lia. }
  assert (F1 : flux u v 4 = 8 / 12 * (u (Z.of_nat 4) * v (Z.of_nat 3) + u (Z.of_nat 3) * v (Z.of_nat 4)) -
    1 / 12 * (u (Z.of_nat 4) * v (Z.of_nat 2) + u (Z.of_nat 2) * v (Z.of_nat 4) + u (Z.of_nat 5) * v (Z.of_nat 3) + u (Z.of_nat 3) * v (Z.of_nat 5)))
    by reflexivity.
  assert (F2 : flux u v (n - 4) = 8 / 12 * (u (n - 1 - Z.of_nat 4)%Z * v (n - 1 - Z.of_nat 3)%Z + u (n - 1 - Z.of_nat 3)%Z * v (n - 1 - Z.of_nat 4)%Z) -
    1 / 12 * (u (n - 1 - Z.of_nat 4)%Z * v (n - 1 - Z.of_nat 2)%Z + u (n - 1 - Z.of_nat 2)%Z * v (n - 1 - Z.of_nat 4)%Z +
              u (n - 1 - Z.of_nat 5)%Z * v (n - 1 - Z.of_nat 3)%Z + u (n - 1 - Z.of_nat 3)%Z * v (n - 1 - Z.of_nat 5)%Z)).
  { unfold flux. replace (n - 1 - Z.of_nat 4)%Z with (n - 4 - 1)%Z by lia. replace (n - 1 - Z.of_nat 3)%Z with (n - 4)%Z by lia.
    replace (n - 1 - Z.of_nat 2)%Z with (n - 4 + 1)%Z by lia. replace (n - 1 - Z.of_nat 5)%Z with (n - 4 - 2)%Z by lia. ring. }
  replace (n - 1 - Z.of_nat 0)%Z with (n - 1)%Z in C2 by lia. change (Z.of_nat 0) with 0%Z in C1.
  rewrite F1, F2 in E. lra.
Qed.
End SBP.
