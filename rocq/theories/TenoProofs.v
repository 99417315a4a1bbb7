(* Proofs about the TENO reconstruction. *)
From Verif Require Import Base FDModel FDSpec FDForn FDProofs AlgProofs WenoModel WenoSpec WenoPoly WenoProofs TenoModel TenoSpec.
From Coq Require Import QArith Reals Qreals List ZArith Lia Lra.
Import ListNotations.
Local Open Scope R_scope.

(* ---------- indicators are Jiang-Shu integrals ---------- *)
Lemma integral_ext : forall p q, (forall x, peval p x = peval q x) -> integral01 p = integral01 q.
Proof.
  intros p q H. unfold integral01.
  apply (same_derivative (peval (pprimitive p)) (peval (pprimitive q)) (peval p)).
  - apply primitive_derives.
  - intros x. rewrite H. apply primitive_derives.
Qed.
Lemma smoothness_poly : forall k r f p, (List.length p <= k)%nat ->
  (forall x, (- Z.of_nat r <= x < Z.of_nat k - Z.of_nat r)%Z ->
     peval (pprimitive p) (IZR (x + 1)) - peval (pprimitive p) (IZR x) = f x) ->
  smoothness k r f = rsumR (map (fun l => integral01 (pmulR (pderivs l p) (pderivs l p))) (seq 1 (k - 1))).
Proof.
  intros k r f p L H. unfold smoothness.
  set (P := interpolating_poly _ _). set (c := peval (pprimitive p) (IZR (- Z.of_nat r))).
  assert (E : peq P (paddR [- c] (pprimitive p))).
  { apply interp_unique.
    - apply NoDup_zrange.
    - rewrite paddR_length, zrange_length, primitive_length. cbn [List.length]. lia.
    - intros x I. apply In_zrange in I. rewrite peval_add. cbn [peval].
      assert (exists n, x = (- Z.of_nat r + Z.of_nat n)%Z /\ (n <= k)%nat) as (n & -> & Hn) by (exists (Z.to_nat (x + Z.of_nat r)); lia).
      clear I. induction n as [|n IH].
      + replace (- Z.of_nat r + Z.of_nat 0)%Z with (- Z.of_nat r)%Z by lia. unfold running_sum. rewrite zrange_empty by lia.
        rs. fold c. ring.
      + replace (- Z.of_nat r + Z.of_nat (S n))%Z with (- Z.of_nat r + Z.of_nat n + 1)%Z by lia.
        specialize (IH ltac:(lia)). specialize (H (- Z.of_nat r + Z.of_nat n)%Z ltac:(lia)).
        unfold running_sum in *. rewrite zrange_snoc, map_app, rsumR_app by lia. rs. lra. }
  apply rsumR_map_ext. intros l _. apply integral_ext. intros x. rewrite !pmulR_eval.
  assert (Q : peq (pderivs l (pderiv P)) (pderivs l p)).
  { apply peq_pderivs. apply peq_trans with (pderiv (paddR [- c] (pprimitive p))); [apply peq_pderiv; auto|].
    apply peq_trans with (pderiv (pprimitive p)); [|apply primitive_pderiv].
    intros i. rewrite !nth_pderiv, nth_paddR. cbn [nth]. destruct i; cbn [nth]; ring. }
  rewrite (peq_eval _ _ x Q). auto.
Qed.
(* polynomial A + B (z-1/2) + C (z-1/2)^2 + D (z-1/2)^3 *)
Definition cubic (A B C D : R) : list R :=
  [A - B / 2 + C / 4 - D / 8; B - C + 3 / 4 * D; C - 3 / 2 * D; D].
Definition quad (A B C : R) : list R := [A - B / 2 + C / 4; B - C; C].
Lemma quad_average : forall A B C x, peval (pprimitive (quad A B C)) (x + 1) - peval (pprimitive (quad A B C)) x
  = A + B * x + C * (x * x + 1 / 12).
Proof. intros. cbn [quad pprimitive primitive_from peval INR]. field. Qed.
Lemma cubic_average : forall A B C D x, peval (pprimitive (cubic A B C D)) (x + 1) - peval (pprimitive (cubic A B C D)) x
  = A + B * x + C * (x * x + 1 / 12) + D * (x * x * x + x / 4).
Proof. intros. cbn [cubic pprimitive primitive_from peval INR]. field. Qed.
Lemma smooth3 : forall r f A B C,
  (forall x, (- Z.of_nat r <= x < 3 - Z.of_nat r)%Z -> A + B * IZR x + C * (IZR x * IZR x + 1 / 12) = f x) ->
  smoothness 3 r f = B * B + 13 / 3 * (C * C).
Proof.
  intros r f A B C H. rewrite (smoothness_poly 3 r f (quad A B C)).
  - unfold integral01, pprimitive. cbn. field.
  - cbn; lia.
  - intros x I. rewrite plus_IZR. replace (IZR x + IZR 1) with (IZR x + 1) by ring. rewrite quad_average. apply H. lia.
Qed.
Lemma smooth4 : forall r f A B C D,
  (forall x, (- Z.of_nat r <= x < 4 - Z.of_nat r)%Z ->
     A + B * IZR x + C * (IZR x * IZR x + 1 / 12) + D * (IZR x * IZR x * IZR x + IZR x / 4) = f x) ->
  smoothness 4 r f = (B + D / 4) * (B + D / 4) + 13 / 3 * (C * C) + 781 / 20 * (D * D).
Proof.
  intros r f A B C D H. rewrite (smoothness_poly 4 r f (cubic A B C D)).
  - unfold integral01, pprimitive. cbn. field.
  - cbn; lia.
  - intros x I. rewrite plus_IZR. replace (IZR x + IZR 1) with (IZR x + 1) by ring. rewrite cubic_average. apply H. lia.
Qed.

Lemma cons_eq : forall (a b : R) l m, a = b -> l = m -> a :: l = b :: m.
Proof. intros; subst; auto. Qed.
(* cell values around the interface *)
Ltac cells H := let x := fresh "x" in let I := fresh "I" in intros x I;
  match type of I with (?a <= x < ?b)%Z =>
    first [ assert (x = a \/ x = a + 1 \/ x = a + 2)%Z as [-> | [-> | ->]] by lia
          | assert (x = a \/ x = a + 1 \/ x = a + 2 \/ x = a + 3)%Z as [-> | [-> | [-> | ->]]] by lia ] end;
  cbn [Z.of_nat Pos.of_succ_nat Pos.succ Z.opp Z.add Z.sub Pos.add Pos.sub Z.pos_sub Pos.pred_double Z.succ_double Z.pred_double Z.double]; try field.

Lemma indicators_right5 : forall f, teno_indicators SRight 5 f =
  [smoothness_indicator SRight 3 1 f; smoothness_indicator SRight 3 0 f; smoothness_indicator SRight 3 2 f].
Proof.
  intros f. unfold teno_indicators, smoothness_indicator. cbn [point_shift in_6_8 Nat.eqb orb app].
  rewrite (smooth3 1 _ (f 0%Z - (f (-1)%Z - 2 * f 0%Z + f 1%Z) / 2 / 12) ((f 1%Z - f (-1)%Z) / 2) ((f (-1)%Z - 2 * f 0%Z + f 1%Z) / 2)) by cells H.
  rewrite (smooth3 0 _ (f 0%Z - (f 0%Z - 2 * f 1%Z + f 2%Z) / 2 / 12) ((-3 * f 0%Z + 4 * f 1%Z - f 2%Z) / 2) ((f 0%Z - 2 * f 1%Z + f 2%Z) / 2)) by cells H.
  rewrite (smooth3 2 _ (f 0%Z - (f (-2)%Z - 2 * f (-1)%Z + f 0%Z) / 2 / 12) ((f (-2)%Z - 4 * f (-1)%Z + 3 * f 0%Z) / 2) ((f (-2)%Z - 2 * f (-1)%Z + f 0%Z) / 2)) by cells H.
  repeat (apply cons_eq; [field|]). auto.
Qed.
Lemma indicators_left6 : forall f, teno_indicators SLeft 6 f =
  [smoothness_indicator SLeft 3 1 f; smoothness_indicator SLeft 3 2 f; smoothness_indicator SLeft 3 0 f; smoothness_indicator SLeft 4 3 f].
Proof.
  intros f. unfold teno_indicators, smoothness_indicator. cbn [point_shift in_6_8 Nat.eqb orb app].
  rewrite (smooth3 1 _ (f 1%Z - (f 0%Z - 2 * f 1%Z + f 2%Z) / 2 / 12) ((f 2%Z - f 0%Z) / 2) ((f 0%Z - 2 * f 1%Z + f 2%Z) / 2)) by cells H.
  rewrite (smooth3 0 _ (f 1%Z - (f 1%Z - 2 * f 2%Z + f 3%Z) / 2 / 12) ((-3 * f 1%Z + 4 * f 2%Z - f 3%Z) / 2) ((f 1%Z - 2 * f 2%Z + f 3%Z) / 2)) by cells H.
  rewrite (smooth3 2 _ (f 1%Z - (f (-1)%Z - 2 * f 0%Z + f 1%Z) / 2 / 12) ((f (-1)%Z - 4 * f 0%Z + 3 * f 1%Z) / 2) ((f (-1)%Z - 2 * f 0%Z + f 1%Z) / 2)) by cells H.
  set (D3 := (f 1%Z - 3 * f 0%Z + 3 * f (-1)%Z - f (-2)%Z) / 6).
  set (C3 := (2 * f 1%Z - 5 * f 0%Z + 4 * f (-1)%Z - f (-2)%Z) / 2).
  rewrite (smooth4 3 _ (f 1%Z - C3 / 12) (f 1%Z - f 0%Z + C3 - 5 / 4 * D3) C3 D3) by (unfold C3, D3; cells H).
  unfold C3, D3. repeat (apply cons_eq; [field|]). auto.
Qed.
Lemma indicators_left5 : forall f, teno_indicators SLeft 5 f = firstn 3 (teno_indicators SLeft 6 f).
Proof. reflexivity. Qed.
Lemma indicators_right6 : forall f, firstn 3 (teno_indicators SRight 6 f) = teno_indicators SRight 5 f.
Proof. reflexivity. Qed.
(* what the fourth right-sided indicator should have been *)
Lemma right6_true : forall f, smoothness_indicator SRight 4 0 f =
  1/36 * (-11 * f 0%Z + 18 * f 1%Z - 9 * f 2%Z + 2 * f 3%Z) ^ 2
  + 13/12 * (2 * f 0%Z - 5 * f 1%Z + 4 * f 2%Z - f 3%Z) ^ 2 + 781/720 * (- f 0%Z + 3 * f 1%Z - 3 * f 2%Z + f 3%Z) ^ 2.
Proof.
  intros f. unfold smoothness_indicator. cbn [point_shift].
  set (D3 := (- f 0%Z + 3 * f 1%Z - 3 * f 2%Z + f 3%Z) / 6). set (C3 := (2 * f 0%Z - 5 * f 1%Z + 4 * f 2%Z - f 3%Z) / 2).
  rewrite (smooth4 0 _ (f 0%Z - C3 / 12) (f 1%Z - f 0%Z - C3 - 5 / 4 * D3) C3 D3) by (unfold C3, D3; cells H).
  unfold C3, D3. field.
Qed.

(* ---------- candidates are WENO candidates ---------- *)
Lemma teno_candidate_weno : forall s k r pts cs f, (r < k)%nat -> pts = map (fun j => start s r + Z.of_nat j)%Z (seq 0 k) ->
  Forall2 Qeq cs (map (eno_coefficient s k r) (seq 0 k)) -> teno_candidate pts cs f = candidate s k r f.
Proof.
  intros s k r pts cs f Hr -> H. rewrite candidate_sum by auto. unfold teno_candidate.
  revert cs H. generalize (seq 0 k). induction l as [|j l IH]; intros cs H.
  - reflexivity.
  - cbn [map] in H. destruct cs as [|c cs]; [inversion H|]. inversion H as [|? ? ? ? E H']; subst. cbn [map zipmul].
    rewrite !rsumR_cons, (IH cs H'). rewrite (Qeq_eqR _ _ E). ring.
Qed.
Ltac qlist := repeat (constructor; [vm_compute; reflexivity|]); constructor.
Lemma candidates_right : forall f, teno_candidates SRight 6 f =
  [candidate SRight 3 1 f; candidate SRight 3 0 f; candidate SRight 3 2 f; candidate SRight 4 0 f].
Proof.
  intros f. unfold teno_candidates. cbn [teno_points all_points firstn Nat.sub teno_coeffs in_6_8 Nat.eqb orb app combine map fst snd].
  rewrite (teno_candidate_weno SRight 3 1) by (first [lia|reflexivity|qlist]).
  rewrite (teno_candidate_weno SRight 3 0) by (first [lia|reflexivity|qlist]).
  rewrite (teno_candidate_weno SRight 3 2) by (first [lia|reflexivity|qlist]).
  rewrite (teno_candidate_weno SRight 4 0) by (first [lia|reflexivity|qlist]). auto.
Qed.
Lemma candidates_left : forall f, teno_candidates SLeft 6 f =
  [candidate SLeft 3 1 f; candidate SLeft 3 2 f; candidate SLeft 3 0 f; candidate SLeft 4 3 f].
Proof.
  intros f. unfold teno_candidates. cbn [teno_points all_points firstn Nat.sub teno_coeffs in_6_8 Nat.eqb orb app combine map fst snd].
  rewrite (teno_candidate_weno SLeft 3 1) by (first [lia|reflexivity|qlist]).
  rewrite (teno_candidate_weno SLeft 3 2) by (first [lia|reflexivity|qlist]).
  rewrite (teno_candidate_weno SLeft 3 0) by (first [lia|reflexivity|qlist]).
  rewrite (teno_candidate_weno SLeft 4 3) by (first [lia|reflexivity|qlist]). auto.
Qed.
Lemma candidates5 : forall s f, teno_candidates s 5 f = firstn 3 (teno_candidates s 6 f).
Proof. intros [] f; reflexivity. Qed.

(* ---------- cut-off and weights ---------- *)
Lemma zipmul_length : forall a b, List.length a = List.length b -> List.length (zipmul a b) = List.length a.
Proof. induction a; destruct b; cbn; intros; auto; try lia. Qed.
Lemma zipmul_nth : forall a b r, List.length a = List.length b -> nth r (zipmul a b) 0 = nth r a 0 * nth r b 0.
Proof.
  induction a as [|x a IH]; destruct b as [|y b]; cbn; intros r H; try lia; destruct r; try ring; auto.
Qed.
Lemma rsum_nth : forall l, rsumR l = wtotal (List.length l) (fun r => nth r l 0).
Proof.
  intros l. rewrite wtotal_rsum. f_equal. induction l as [|x l IH]; [reflexivity|].
  cbn [List.length seq map nth]. f_equal. rewrite <- seq_shift, map_map. exact IH.
Qed.
Lemma zipmul_wtotal : forall a b n, List.length a = n -> List.length b = n ->
  rsumR (zipmul a b) = wtotal n (fun r => nth r a 0 * nth r b 0).
Proof.
  intros a b n Ha Hb. rewrite rsum_nth, zipmul_length by lia. rewrite Ha, !wtotal_rsum. apply rsumR_map_ext.
  intros r _. apply zipmul_nth. lia.
Qed.
Lemma rsum_all_lt : forall l c, l <> [] -> (forall x, In x l -> x < c) -> rsumR l < INR (List.length l) * c.
Proof.
  induction l as [|x l IH]; intros c N H; [tauto|]. cbn [List.length]. rewrite S_INR, rsumR_cons.
  pose proof (H x (or_introl eq_refl)). destruct l as [|y l].
  - cbn [rsumR fold_right List.length INR]. change (rsumR []) with 0. lra.
  - assert (rsumR (y :: l) < INR (List.length (y :: l)) * c) by (apply IH; [discriminate|]; intros; apply H; right; auto). lra.
Qed.
(* at least one candidate survives the cut-off *)
Lemma survivor : forall al CT, al <> [] -> 0 < rsumR al -> CT <= 1 / INR (List.length al) ->
  exists a, In a al /\ ~ a * (1 / rsumR al) < CT.
Proof.
  intros al CT N S0 HC.
  assert (L : 0 < INR (List.length al)) by (apply lt_0_INR; destruct al; [tauto|cbn; lia]).
  assert (K : rsumR (map (fun a => 1 / rsumR al * a) al) = 1) by (rewrite (rsumR_map_scale _ (fun a => a)), map_id; field; lra).
  set (inv := 1 / rsumR al) in *. clearbody inv.
  assert (D : (exists a, In a al /\ ~ a * inv < CT) \/ (forall a, In a al -> a * inv < CT)).
  { clear. induction al as [|a al IH]; [right; intros a []|]. destruct (Rlt_dec (a * inv) CT) as [H|H].
    - destruct IH as [(b & I & K)|IH]; [left; exists b; split; [right; exact I|exact K]|right; intros b [<-|I]; [exact H|apply IH; exact I]].
    - left. exists a. split; [left; auto|exact H]. }
  destruct D as [D|D]; [exact D|exfalso].
  assert (rsumR (map (fun a => inv * a) al) < INR (List.length (map (fun a => inv * a) al)) * CT).
  { apply rsum_all_lt. destruct al; [tauto|discriminate]. intros x I. apply in_map_iff in I. destruct I as (a & <- & I).
    rewrite Rmult_comm. auto. }
  rewrite map_length in H. rewrite K in H.
  assert (INR (List.length al) * CT <= 1).
  { apply Rle_trans with (INR (List.length al) * (1 / INR (List.length al))); [apply Rmult_le_compat_l; lra|]. right. field. lra. }
  lra.
Qed.
Lemma zipmul_delta : forall (O al : list R) CT inv, (forall x, In x O -> 0 < x) -> List.length O = List.length al ->
  let W := zipmul O (map (fun a => if Rlt_dec (a * inv) CT then 0 else 1) al) in
  (forall x, In x W -> 0 <= x) /\ ((exists a, In a al /\ ~ a * inv < CT) -> 0 < rsumR W).
Proof.
  induction O as [|o O IH]; intros al CT inv P L; destruct al as [|a al]; cbn in L; try discriminate.
  - cbn. split; [tauto|]. intros (a & [] & _).
  - destruct (IH al CT inv (fun x h => P x (or_intror h)) ltac:(lia)) as [A B]. cbv zeta in *. cbn [map zipmul].
    set (W := zipmul O (map (fun a => if Rlt_dec (a * inv) CT then 0 else 1) al)) in *.
    pose proof (P o (or_introl eq_refl)) as Po. pose proof (rsumR_nonneg W A) as Wn. split.
    + intros x [<-|I]; auto. destruct (Rlt_dec (a * inv) CT); lra.
    + intros (b & [<-|I] & K); rewrite rsumR_cons.
      * destruct (Rlt_dec (a * inv) CT); [tauto|lra].
      * assert (0 < rsumR W) by (apply B; exists b; auto). destruct (Rlt_dec (a * inv) CT); lra.
Qed.
Lemma teno_shape : forall s order, order = 5%nat \/ order = 6%nat -> exists opt, teno_opt order = Ok opt /\
  List.length opt = teno_n order /\ (forall x, In x (map Q2R opt) -> 0 < x) /\ rsumR (map Q2R opt) = 1 /\
  (forall f, List.length (teno_indicators s order f) = teno_n order) /\
  (forall f, List.length (teno_candidates s order f) = teno_n order).
Proof.
  intros s order [-> | ->]; cbn [teno_opt]; eexists; (split; [reflexivity|]); (split; [reflexivity|]); (split; [|split; [|split]]).
  1,5: intros x; cbn [map In]; intros I; repeat (destruct I as [<-|I]; [unfold Q2R; cbn; lra|]); tauto.
  1,4: unfold Q2R; cbn; field.
  1-4: intros f; destruct s; reflexivity.
Qed.
Lemma teno_alphas_pos : forall s order eps f, order = 5%nat \/ order = 6%nat -> 0 < eps ->
  0 < rsumR (teno_alphas order eps (teno_indicators s order f)).
Proof.
  intros s order eps f Ho He. unfold teno_alphas.
  assert (P6 : forall z, 0 <= z ^ 6) by (intros z; replace (z ^ 6) with ((z ^ 3) ^ 2) by ring; apply pow2_ge_0).
  assert (H0 : exists b l, teno_indicators s order f = b :: l /\ 0 <= b).
  { destruct Ho as [-> | ->], s; unfold teno_indicators; cbn [in_6_8 Nat.eqb orb app]; do 2 eexists; (split; [reflexivity|]);
    match goal with |- 0 <= 1/4 * ?a ^ 2 + 13/12 * ?b ^ 2 => pose proof (pow2_ge_0 a); pose proof (pow2_ge_0 b); lra end. }
  destruct H0 as (b & l & E & Hb). rewrite E. set (tau := teno_tau order (b :: l)).
  assert (T : 0 <= tau) by (unfold tau, teno_tau; destruct (Nat.eqb order 5); apply Rabs_pos).
  cbn [map]. rewrite rsumR_cons.
  assert (0 <= rsumR (map (fun br => (1 + tau / (eps + br)) ^ 6) l)).
  { apply rsumR_nonneg. intros x I. apply in_map_iff in I. destruct I as (y & <- & _). apply P6. }
  assert (0 < (1 + tau / (eps + b)) ^ 6).
  { apply pow_lt. assert (0 <= tau / (eps + b)) by (apply Rmult_le_pos; auto; apply Rlt_le, Rinv_0_lt_compat; lra). lra. }
  lra.
Qed.
Lemma teno_weights : forall s order eps CT f v, 0 < eps -> CT <= 1 / INR (teno_n order) ->
  teno_reconstruction s order eps CT f = Ok v ->
  exists w : list R, List.length w = teno_n order /\ (forall x, In x w -> 0 <= x) /\ rsumR w = 1 /\
    v = rsumR (zipmul w (teno_candidates s order f)) /\ (order = 5%nat \/ order = 6%nat).
Proof.
  intros s order eps CT f v He HC H. unfold teno_reconstruction in H.
  destruct (Nat.eqb_spec order 5) as [O5|N5]; cbn [orb] in H.
  - rename O5 into O. assert (Ho : order = 5%nat \/ order = 6%nat) by auto. clear O.
    destruct (teno_shape s order Ho) as (opt & E & Lo & Po & So & Li & Lc). rewrite E in H. cbn [bind] in H. inversion H; subst v; clear H.
    set (al := teno_alphas order eps (teno_indicators s order f)).
    assert (La : List.length al = teno_n order) by (unfold al, teno_alphas; rewrite map_length; apply Li).
    assert (A0 : al <> []) by (intros Z0; rewrite Z0 in La; cbn in La; destruct Ho; subst; discriminate).
    pose proof (teno_alphas_pos s order eps f Ho He) as SA. fold al in SA.
    destruct (zipmul_delta (map Q2R opt) al CT (1 / rsumR al) Po ltac:(rewrite map_length; lia)) as [NN PP].
    cbv zeta in *. set (W := zipmul (map Q2R opt) (map (fun a => if Rlt_dec (a * (1 / rsumR al)) CT then 0 else 1) al)) in *.
    assert (SW : 0 < rsumR W) by (apply PP, survivor; auto; rewrite La; auto).
    exists (map (fun x => x * (1 / rsumR W)) W). split; [|split; [|split; [|split]]]; auto.
    + rewrite map_length. unfold W. rewrite zipmul_length; rewrite ?map_length; lia.
    + intros x I. apply in_map_iff in I. destruct I as (y & <- & I). apply Rmult_le_pos; auto. apply Rlt_le, Rdiv_lt_0_compat; lra.
    + rewrite (map_ext _ (fun x => 1 / rsumR W * x)) by (intros; ring).
      rewrite (rsumR_map_scale _ (fun x => x)), map_id. field. lra.
  - destruct (Nat.eqb_spec order 6) as [O6|N6]; [|discriminate].
    rename O6 into O. assert (Ho : order = 5%nat \/ order = 6%nat) by auto. clear O.
    destruct (teno_shape s order Ho) as (opt & E & Lo & Po & So & Li & Lc). rewrite E in H. cbn [bind] in H. inversion H; subst v; clear H.
    set (al := teno_alphas order eps (teno_indicators s order f)).
    assert (La : List.length al = teno_n order) by (unfold al, teno_alphas; rewrite map_length; apply Li).
    assert (A0 : al <> []) by (intros Z0; rewrite Z0 in La; cbn in La; destruct Ho; subst; discriminate).
    pose proof (teno_alphas_pos s order eps f Ho He) as SA. fold al in SA.
    destruct (zipmul_delta (map Q2R opt) al CT (1 / rsumR al) Po ltac:(rewrite map_length; lia)) as [NN PP].
    cbv zeta in *. set (W := zipmul (map Q2R opt) (map (fun a => if Rlt_dec (a * (1 / rsumR al)) CT then 0 else 1) al)) in *.
    assert (SW : 0 < rsumR W) by (apply PP, survivor; auto; rewrite La; auto).
    exists (map (fun x => x * (1 / rsumR W)) W). split; [|split; [|split; [|split]]]; auto.
    + rewrite map_length. unfold W. rewrite zipmul_length; rewrite ?map_length; lia.
    + intros x I. apply in_map_iff in I. destruct I as (y & <- & I). apply Rmult_le_pos; auto. apply Rlt_le, Rdiv_lt_0_compat; lra.
    + rewrite (map_ext _ (fun x => 1 / rsumR W * x)) by (intros; ring).
      rewrite (rsumR_map_scale _ (fun x => x)), map_id. field. lra.
Qed.
Lemma convex_le : forall n (w c : nat -> R) lo hi, (forall r, (r < n)%nat -> 0 <= w r) -> wtotal n w = 1 ->
  (forall r, (r < n)%nat -> lo <= c r <= hi) -> lo <= wtotal n (fun r => w r * c r) <= hi.
Proof.
  intros n w c lo hi P S1 H.
  assert (G : forall m, (m <= n)%nat -> lo * wtotal m w <= wtotal m (fun r => w r * c r) <= hi * wtotal m w).
  { induction m as [|m IH]; intros Hm; cbn [wtotal]; [lra|]. specialize (IH ltac:(lia)).
    specialize (P m ltac:(lia)). specialize (H m ltac:(lia)). nra. }
  specialize (G n ltac:(lia)). rewrite S1 in G. lra.
Qed.
(* all indicators equal: nothing is cut *)
Lemma rsum_repeat : forall n c, rsumR (repeat c n) = INR n * c.
Proof. induction n; intros c; [cbn; change (rsumR []) with 0; ring|]. cbn [repeat]. rewrite rsumR_cons, IHn, S_INR. ring. Qed.
Lemma all_same : forall A (l : list A) c, (forall x, In x l -> x = c) -> l = repeat c (List.length l).
Proof. induction l; intros c H; cbn; auto. rewrite (H a (or_introl eq_refl)) at 1. f_equal. apply IHl. intros; apply H; cbn; auto. Qed.
Lemma zipmul_ones : forall a n, List.length a = n -> zipmul a (repeat 1 n) = a.
Proof. induction a; destruct n; cbn; intros; try lia; auto. rewrite IHa by lia. f_equal. ring. Qed.
Lemma teno_smooth : forall s order eps CT f v opt b, 0 < eps -> CT <= 1 / INR (teno_n order) ->
  teno_opt order = Ok opt -> teno_reconstruction s order eps CT f = Ok v ->
  (forall x, In x (teno_indicators s order f) -> x = b) ->
  v = wtotal (teno_n order) (fun r => Q2R (nth r opt 0%Q) * nth r (teno_candidates s order f) 0).
Proof.
  intros s order eps CT f v opt b He HC E H Hb. pose proof (teno_weights s order eps CT f v He HC H) as (_ & _ & _ & _ & _ & Ho).
  destruct (teno_shape s order Ho) as (opt' & E' & Lo & Po & So & Li & Lc). rewrite E in E'. inversion E'; subst opt'; clear E'.
  unfold teno_reconstruction in H. rewrite E in H. replace (Nat.eqb order 5 || Nat.eqb order 6) with true in H by (destruct Ho; subst; reflexivity).
  cbn [bind] in H. inversion H; subst v; clear H.
  pose proof (teno_alphas_pos s order eps f Ho He) as SA. set (al := teno_alphas order eps (teno_indicators s order f)) in *.
  assert (La : List.length al = teno_n order) by (unfold al, teno_alphas; rewrite map_length; apply Li).
  assert (AE : exists c, al = repeat c (teno_n order)).
  { exists ((1 + teno_tau order (teno_indicators s order f) / (eps + b)) ^ 6). rewrite <- La. apply all_same.
    intros x I. unfold al, teno_alphas in I. apply in_map_iff in I. destruct I as (y & <- & I). rewrite (Hb y I). auto. }
  destruct AE as (c & AE).
  assert (N0 : 0 < INR (teno_n order)) by (apply lt_0_INR; destruct Ho; subst; cbn; lia).
  assert (DE : teno_deltas CT al = repeat 1 (teno_n order)).
  { unfold teno_deltas. replace (teno_n order) with (List.length (map (fun a => if Rlt_dec (a * (1 / rsumR al)) CT then 0 else 1) al)) by (rewrite map_length; auto).
    apply all_same. intros x I. apply in_map_iff in I. destruct I as (a & <- & I).
    destruct (Rlt_dec (a * (1 / rsumR al)) CT) as [L|L]; auto. exfalso.
    rewrite AE in I. apply repeat_spec in I. subst a. rewrite AE, rsum_repeat in L. rewrite AE, rsum_repeat in SA.
    assert (c <> 0) by (intros ->; lra).
    replace (c * (1 / (INR (teno_n order) * c))) with (1 / INR (teno_n order)) in L by (field; split; auto; lra). lra. }
  rewrite DE. unfold teno_omegas. rewrite zipmul_ones by (rewrite map_length; auto). rewrite So.
  rewrite (zipmul_wtotal _ _ (teno_n order)).
  - rewrite !wtotal_rsum. apply rsumR_map_ext. intros r I. apply in_seq in I. f_equal. rewrite map_map.
    rewrite (nth_indep _ 0 ((fun x => Q2R x * (1 / 1)) 0%Q)) by (rewrite map_length; lia). rewrite (map_nth (fun x => Q2R x * (1 / 1))). field.
  - rewrite !map_length. auto.
  - apply Lc.
Qed.

(* ---------- the linear schemes ---------- *)
Definition on4 (s : side) (r : nat) (cs : list Q) (f : Z -> R) : R := teno_candidate (map (fun j => start s r + Z.of_nat j)%Z (seq 0 4)) cs f.
Lemma on4_eq : forall s r cs f, (r < 4)%nat -> Forall2 Qeq cs (map (eno_coefficient s 4 r) (seq 0 4)) -> candidate s 4 r f = on4 s r cs f.
Proof. intros. symmetry. apply teno_candidate_weno; auto. Qed.
Lemma linear5 : forall s f, teno_linear s 5 f = wtotal 2 (fun i => nth i [4/5; 1/5] 0 * candidate s 4 (nth i (match s with SRight => [1; 2] | SLeft => [2; 1] end)%nat 0%nat) f).
Proof.
  intros s f. destruct s; cbn [wtotal nth].
  - rewrite (on4_eq SRight 1 [-1 # 12; 7 # 12; 7 # 12; -1 # 12]%Q), (on4_eq SRight 2 [1 # 12; -5 # 12; 13 # 12; 1 # 4]%Q) by (first [lia|qlist]).
    unfold teno_linear, on4, teno_candidates, teno_candidate. cbn. unfold Q2R. cbn. field.
  - rewrite (on4_eq SLeft 2 [-1 # 12; 7 # 12; 7 # 12; -1 # 12]%Q), (on4_eq SLeft 1 [1 # 4; 13 # 12; -5 # 12; 1 # 12]%Q) by (first [lia|qlist]).
    unfold teno_linear, on4, teno_candidates, teno_candidate. cbn. unfold Q2R. cbn. field.
Qed.
Definition on5 (s : side) (r : nat) (cs : list Q) (f : Z -> R) : R := teno_candidate (map (fun j => start s r + Z.of_nat j)%Z (seq 0 5)) cs f.
Lemma on5_eq : forall s r cs f, (r < 5)%nat -> Forall2 Qeq cs (map (eno_coefficient s 5 r) (seq 0 5)) -> candidate s 5 r f = on5 s r cs f.
Proof. intros. symmetry. apply teno_candidate_weno; auto. Qed.
Lemma linear6 : forall s f, teno_linear s 6 f = wtotal 2 (fun i => nth i [23/50; 27/50] 0 * candidate s 5 (nth i (match s with SRight => [1; 2] | SLeft => [3; 2] end)%nat 0%nat) f).
Proof.
  intros s f. destruct s; cbn [wtotal nth].
  - rewrite (on5_eq SRight 1 [-1 # 20; 9 # 20; 47 # 60; -13 # 60; 1 # 30]%Q), (on5_eq SRight 2 [1 # 30; -13 # 60; 47 # 60; 9 # 20; -1 # 20]%Q) by (first [lia|qlist]).
    unfold teno_linear, on5, teno_candidates, teno_candidate. cbn. unfold Q2R. cbn. field.
  - rewrite (on5_eq SLeft 2 [-1 # 20; 9 # 20; 47 # 60; -13 # 60; 1 # 30]%Q), (on5_eq SLeft 3 [1 # 30; -13 # 60; 47 # 60; 9 # 20; -1 # 20]%Q) by (first [lia|qlist]).
    unfold teno_linear, on5, teno_candidates, teno_candidate. cbn. unfold Q2R. cbn. field.
Qed.
Lemma linear_exact : forall s order, order = 5%nat \/ order = 6%nat -> reconstructs_exactly (teno_linear s order) (order - 2).
Proof.
  intros s order Ho p F x h Hd HF Hh. destruct Ho as [-> | ->].
  - rewrite linear5. destruct s; cbn [wtotal nth]; rewrite !(fun r H => candidate_exact _ 4 r H p F x h) by (auto; lia); field.
  - rewrite linear6. destruct s; cbn [wtotal nth]; rewrite !(fun r H => candidate_exact _ 5 r H p F x h) by (auto; lia); field.
Qed.
Lemma x5_antiderivative : antiderivative_of (peval [0; 0; 0; 0; 0; 0; 1/6]) (peval [0; 0; 0; 0; 0; 1]).
Proof.
  intros x. replace (peval [0; 0; 0; 0; 0; 1] x) with (peval (pderiv [0; 0; 0; 0; 0; 0; 1/6]) x) by (cbn; field). apply pderiv_derives.
Qed.
Lemma x4_antiderivative : antiderivative_of (peval [0; 0; 0; 0; 0; 1/5]) (peval [0; 0; 0; 0; 1]).
Proof.
  intros x. replace (peval [0; 0; 0; 0; 1] x) with (peval (pderiv [0; 0; 0; 0; 0; 1/5]) x) by (cbn; field). apply pderiv_derives.
Qed.
Lemma linear_not_exact : forall s order, order = 5%nat \/ order = 6%nat -> ~ reconstructs_exactly (teno_linear s order) (order - 1).
Proof.
  intros s order [-> | ->] H.
  - specialize (H [0; 0; 0; 0; 1] (peval [0; 0; 0; 0; 0; 1/5]) 0 1 ltac:(unfold degree_at_most; cbn; lia) x4_antiderivative ltac:(lra)).
    destruct s; unfold teno_linear, teno_candidates, teno_candidate, cell_average in H; cbn in H; unfold Q2R in H; cbn in H; lra.
  - specialize (H [0; 0; 0; 0; 0; 1] (peval [0; 0; 0; 0; 0; 0; 1/6]) 0 1 ltac:(unfold degree_at_most; cbn; lia) x5_antiderivative ltac:(lra)).
    destruct s; unfold teno_linear, teno_candidates, teno_candidate, cell_average in H; cbn in H; unfold Q2R in H; cbn in H; lra.
Qed.

(* ---------- mirror ---------- *)
Lemma teno5_indicators_mirror : forall f, teno_indicators SLeft 5 f = teno_indicators SRight 5 (mirrored f).
Proof.
  intros f. unfold teno_indicators, mirrored. cbn [in_6_8 Nat.eqb orb app Z.sub Z.add Z.opp Pos.add Z.pos_sub Pos.pred_double Pos.succ].
  repeat (apply cons_eq; [ring|]). auto.
Qed.
Lemma teno_candidates_mirror : forall order f, order = 5%nat \/ order = 6%nat ->
  teno_candidates SLeft order f = teno_candidates SRight order (mirrored f).
Proof.
  intros order f Ho.
  assert (E : teno_candidates SLeft 6 f = teno_candidates SRight 6 (mirrored f)).
  { rewrite candidates_left, candidates_right. rewrite !candidate_mirror by lia. reflexivity. }
  destruct Ho as [-> | ->]; auto. rewrite !candidates5, E. auto.
Qed.
Lemma teno5_mirror : forall eps CT f,
  teno_reconstruction SLeft 5 eps CT f = teno_reconstruction SRight 5 eps CT (mirrored f).
Proof.
  intros. unfold teno_reconstruction. cbn [Nat.eqb orb teno_opt bind].
  rewrite teno5_indicators_mirror, teno_candidates_mirror by auto. auto.
Qed.
(* TENO6: a kink the right-sided scheme does not see *)
Definition kink : Z -> R := fun j => if Z.eqb j 3 then - (781/860) else 0.
Lemma kink_right : forall eps CT, 0 < eps -> CT <= 1/4 -> teno_reconstruction SRight 6 eps CT kink = Ok (23/125 * (1/12 * (- (781/860)))).
Proof.
  intros eps CT He HC.
  destruct (teno_reconstruction SRight 6 eps CT kink) as [v|] eqn:E; [|discriminate].
  f_equal. rewrite (teno_smooth SRight 6 eps CT kink v _ 0 He ltac:(cbn; lra) eq_refl E).
  - unfold teno_candidates, teno_candidate, kink. cbn. unfold Q2R. cbn. field.
  - intros x I. unfold teno_indicators, kink in I. cbn [in_6_8 Nat.eqb orb app In] in I. cbn in I.
    repeat (destruct I as [<-|I]; [field|]). tauto.
Qed.
Lemma kink_mirror_right : mirrored (mirrored kink) = mirrored (fun j => kink (1 - j)%Z).
Proof. reflexivity. Qed.
Lemma kink_left : forall eps, 0 < eps -> eps <= 1/1000000 -> teno_reconstruction SLeft 6 eps (1/100000) (mirrored kink) = Ok 0.
Proof.
  intros eps He He'. unfold teno_reconstruction. cbn [Nat.eqb orb teno_opt bind]. f_equal.
  set (b3 := 1/36 * (-2 * - (781/860)) ^ 2 + 13/12 * (- -(781/860)) ^ 2 + 781/720 * (- -(781/860)) ^ 2).
  assert (I4 : teno_indicators SLeft 6 (mirrored kink) = [0; 0; 0; b3]).
  { unfold teno_indicators, mirrored, kink. cbn [in_6_8 Nat.eqb orb app]. cbn. repeat (apply cons_eq; [unfold b3; field|]). auto. }
  rewrite I4. unfold teno_alphas. cbn [map].
  assert (B3 : 1 < b3 < 3) by (unfold b3; lra).
  assert (T : teno_tau 6 [0; 0; 0; b3] = b3).
  { unfold teno_tau. cbn [Nat.eqb nth]. rewrite Rabs_right by lra. lra. }
  rewrite T. set (A := (1 + b3 / (eps + 0)) ^ 6). set (B := (1 + b3 / (eps + b3)) ^ 6).
  assert (HA : 1000000000000 <= A).
  { unfold A. apply Rle_trans with (100 ^ 6); [lra|]. apply pow_incr. split; [lra|].
    assert (100 <= b3 / (eps + 0)).
    { apply Rmult_le_reg_r with (eps + 0); [lra|]. unfold Rdiv. rewrite Rmult_assoc, Rinv_l by lra. lra. }
    lra. }
  assert (HB : 0 < B <= 64).
  { assert (0 < b3 / (eps + b3) <= 1).
    { split; [apply Rdiv_lt_0_compat; lra|]. apply Rmult_le_reg_r with (eps + b3); [lra|]. unfold Rdiv.
      rewrite Rmult_assoc, Rinv_l by lra. lra. }
    split; [apply pow_lt; lra|]. unfold B. apply Rle_trans with (2 ^ 6); [apply pow_incr; lra|lra]. }
  set (S := rsumR [A; A; A; B]). assert (HS : S = 3 * A + B) by (unfold S, rsumR; cbn; ring).
  assert (SA : A * (1 / S) >= 1/100000).
  { apply Rle_ge. apply Rmult_le_reg_r with S; [lra|]. unfold Rdiv at 2. rewrite Rmult_1_l, Rmult_assoc, Rinv_l by lra. lra. }
  assert (SB : B * (1 / S) < 1/100000).
  { apply Rmult_lt_reg_r with S; [lra|]. unfold Rdiv at 1. rewrite Rmult_1_l, Rmult_assoc, Rinv_l by lra. lra. }
  unfold teno_deltas. fold S. cbn [map].
  destruct (Rlt_dec (A * (1 / S)) (1 / 100000)) as [L|_]; [lra|]. destruct (Rlt_dec (B * (1 / S)) (1 / 100000)) as [_|L]; [|lra].
  unfold teno_candidates, teno_candidate, teno_omegas, mirrored, kink. cbn. ring.
Qed.

(* ---------- adaptive cut-off ---------- *)
Lemma adaptive_bound : forall a1 a2 m, 0 <= m <= 1 -> 0 <= a2 -> 1 <= a1 - a2 -> 0 < adaptive_CT a1 a2 m <= 1/10.
Proof.
  intros a1 a2 m Hm Ha H1. unfold adaptive_CT.
  set (g := (1 - m) ^ 4 * (1 + 4 * m)).
  assert (G : 0 <= g <= 1).
  { unfold g. split.
    - apply Rmult_le_pos; [|lra]. apply pow_le. lra.
    - assert (0 <= m ^ 2 * (1 + 2 * (1 - m) + 3 * (1 - m) ^ 2 + 4 * (1 - m) ^ 3)).
      { apply Rmult_le_pos; [apply pow2_ge_0|]. assert (0 <= (1 - m) ^ 2) by (apply pow_le; lra). assert (0 <= (1 - m) ^ 3) by (apply pow_le; lra). lra. }
      assert (1 - (1 - m) ^ 4 * (1 + 4 * m) = m ^ 2 * (1 + 2 * (1 - m) + 3 * (1 - m) ^ 2 + 4 * (1 - m) ^ 3)) by ring. lra. }
  set (beta := a1 - a2 * (1 - g)).
  assert (B : 1 <= beta) by (unfold beta; nra).
  assert (N : (1 <= Int_part beta)%Z).
  { unfold Int_part. destruct (archimed beta) as [U _]. assert (IZR 1 < IZR (up beta)) by lra. apply lt_IZR in H. lia. }
  destruct (Int_part beta) as [|q|q] eqn:E; try lia. cbn [powerRZ].
  assert (P : 10 <= 10 ^ Pos.to_nat q).
  { rewrite <- (pow_1 10) at 1. apply Rle_pow; [lra|]. lia. }
  split; [apply Rdiv_lt_0_compat; lra|]. unfold Rdiv. rewrite !Rmult_1_l. apply Rinv_le_contravar; lra.
Qed.

(* ---------- when nothing is cut ---------- *)
Lemma teno_all_kept : forall s order eps CT f v, 0 < eps -> CT <= 1 / INR (teno_n order) ->
  teno_reconstruction s order eps CT f = Ok v ->
  (forall d, In d (teno_deltas CT (teno_alphas order eps (teno_indicators s order f))) -> d = 1) ->
  v = teno_linear s order f.
Proof.
  intros s order eps CT f v He HC H Hd. pose proof (teno_weights s order eps CT f v He HC H) as (_ & _ & _ & _ & _ & Ho).
  destruct (teno_shape s order Ho) as (opt & E & Lo & Po & So & Li & Lc).
  unfold teno_reconstruction in H. rewrite E in H. replace (Nat.eqb order 5 || Nat.eqb order 6) with true in H by (destruct Ho; subst; reflexivity).
  cbn [bind] in H. inversion H; subst v; clear H.
  apply all_same in Hd. rewrite Hd. unfold teno_linear. rewrite E.
  unfold teno_deltas, teno_alphas. rewrite !map_length, (Li f).
  unfold teno_omegas. rewrite zipmul_ones by (rewrite map_length; auto). rewrite So.
  rewrite (zipmul_wtotal _ _ (teno_n order)).
  - rewrite !wtotal_rsum. apply rsumR_map_ext. intros r I. apply in_seq in I. f_equal. rewrite map_map.
    rewrite (nth_indep _ 0 ((fun x => Q2R x * (1 / 1)) 0%Q)) by (rewrite map_length; lia). rewrite (map_nth (fun x => Q2R x * (1 / 1))). field.
  - rewrite !map_length. auto.
  - apply Lc.
Qed.
Lemma rsum_upper : forall l M, (forall x, In x l -> x <= M) -> rsumR l <= INR (List.length l) * M.
Proof.
  induction l as [|a l IH]; intros M H; cbn [List.length]. { cbn. unfold rsumR; cbn. lra. }
  rewrite rsumR_cons, S_INR. specialize (IH M (fun x I => H x (or_intror I))). specialize (H a (or_introl eq_refl)). lra.
Qed.
Lemma rsum_lower : forall l M, (forall x, In x l -> M <= x) -> INR (List.length l) * M <= rsumR l.
Proof.
  induction l as [|a l IH]; intros M H; cbn [List.length]. { cbn. unfold rsumR; cbn. lra. }
  rewrite rsumR_cons, S_INR. specialize (IH M (fun x I => H x (or_intror I))). specialize (H a (or_introl eq_refl)). lra.
Qed.
Lemma deltas_kept : forall CT al M, al <> [] -> (forall a, In a al -> 1 <= a <= M) -> CT * (INR (List.length al) * M) <= 1 ->
  forall d, In d (teno_deltas CT al) -> d = 1.
Proof.
  intros CT al M N H HC d I. unfold teno_deltas in I. apply in_map_iff in I. destruct I as (a & <- & I).
  destruct (Rlt_dec (a * (1 / rsumR al)) CT) as [L|_]; auto. exfalso.
  pose proof (rsum_upper al M (fun x I => proj2 (H x I))) as U.
  pose proof (rsum_lower al 1 (fun x I => proj1 (H x I))) as Lw.
  assert (0 < INR (List.length al)) by (apply lt_0_INR; destruct al; [tauto|cbn; lia]).
  assert (S0 : 0 < rsumR al) by lra.
  apply Rmult_lt_compat_r with (r := rsumR al) in L; auto.
  replace (a * (1 / rsumR al) * rsumR al) with a in L by (field; lra). destruct (H a I).
  destruct (Rle_or_lt CT 0) as [C0|C0]; [nra|].
  assert (CT * rsumR al <= CT * (INR (List.length al) * M)) by (apply Rmult_le_compat_l; lra). lra.
Qed.
Lemma teno_smooth_linear : forall s order eps CT f v c, 0 < eps -> 0 <= c -> CT * (INR (teno_n order) * (1 + c) ^ 6) <= 1 ->
  teno_reconstruction s order eps CT f = Ok v ->
  (forall b, In b (teno_indicators s order f) -> 0 < eps + b /\ teno_tau order (teno_indicators s order f) <= c * (eps + b)) ->
  v = teno_linear s order f.
Proof.
  intros s order eps CT f v c He Hc HC H Hb.
  assert (Ho : order = 5%nat \/ order = 6%nat).
  { unfold teno_reconstruction in H. destruct (Nat.eqb_spec order 5); auto. destruct (Nat.eqb_spec order 6); auto. discriminate. }
  assert (N0 : 1 <= INR (teno_n order)) by (destruct Ho; subst; cbn; lra).
  assert (C1 : 1 <= (1 + c) ^ 6) by (apply pow_R1_Rle; lra).
  assert (HC' : CT <= 1 / INR (teno_n order)).
  { apply Rmult_le_reg_r with (INR (teno_n order)); [lra|]. unfold Rdiv. rewrite Rmult_1_l, Rinv_l by lra.
    destruct (Rle_or_lt CT 0); [nra|]. apply Rle_trans with (CT * (INR (teno_n order) * (1 + c) ^ 6)); auto.
    apply Rmult_le_compat_l; [lra|]. rewrite <- (Rmult_1_r (INR (teno_n order))) at 1. apply Rmult_le_compat_l; lra. }
  apply (teno_all_kept s order eps CT f v He HC' H).
  destruct (teno_shape s order Ho) as (opt & E & Lo & Po & So & Li & Lc).
  apply (deltas_kept CT _ ((1 + c) ^ 6)).
  - unfold teno_alphas. intros Z0. apply map_eq_nil in Z0. specialize (Li f). rewrite Z0 in Li. destruct Ho; subst; discriminate.
  - intros a I. unfold teno_alphas in I. apply in_map_iff in I. destruct I as (b & <- & I). destruct (Hb b I) as [P T].
    assert (T0 : 0 <= teno_tau order (teno_indicators s order f)) by (unfold teno_tau; destruct (Nat.eqb order 5); apply Rabs_pos).
    set (tau := teno_tau order (teno_indicators s order f)) in *.
    assert (Q : 0 <= tau / (eps + b) <= c).
    { split; [apply Rmult_le_pos; auto; apply Rlt_le, Rinv_0_lt_compat; lra|].
      apply Rmult_le_reg_r with (eps + b); [lra|]. unfold Rdiv. rewrite Rmult_assoc, Rinv_l by lra. lra. }
    split; [apply pow_R1_Rle; lra|apply pow_incr; lra].
  - unfold teno_alphas. rewrite map_length, (Li f). auto.
Qed.
