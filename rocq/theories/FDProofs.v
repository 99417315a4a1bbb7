(* Proofs about the central scheme. *)
From Coq Require Import QArith Reals Qreals List ZArith Lia Lra Setoid Field Qfield FinFun.
From Verif Require Import Base FDModel FDSpec FDForn.
Import ListNotations.

Local Open Scope Q_scope.
#[global] Instance pev_proper p : Proper (Qeq ==> Qeq) (pev p).
Proof. induction p; intros x y H; cbn [pev]; [reflexivity|]. rewrite (IHp x y H), H. reflexivity. Qed.
Local Close Scope Q_scope.

(* ---- rational weights: moments and symmetry ---- *)
Section Qpart.
Local Open Scope Q_scope.

Lemma wsum_ext : forall ws xs f g, (forall x, In x xs -> f x == g x) -> wsum ws xs f == wsum ws xs g.
Proof.
  induction ws as [|w ws IH]; intros [|x xs] f g H; cbn [wsum]; try reflexivity.
  rewrite (H x (or_introl eq_refl)), (IH xs f g); [reflexivity|]. intros. apply H. right. auto.
Qed.

Lemma unique : forall ds xs, distinct xs -> List.length ds = List.length xs ->
  (forall p, (List.length p <= List.length xs)%nat -> wsum ds xs (pev p) == 0) -> Forall (fun d => d == 0) ds.
Proof.
  induction ds as [|d ds IH]; intros xs Hd Hl H; [constructor|].
  destruct xs as [|x xs]; [discriminate|]. cbn in Hl. injection Hl as Hl.
  (* the polynomial vanishing at all other points *)
  assert (Hp : exists p, List.length p = S (List.length xs) /\ (forall y, In y xs -> pev p y == 0) /\ ~ pev p x == 0).
  { assert (Hx : forall y, In y xs -> ~ x == y).
    { intros y Hy. apply in_split in Hy. destruct Hy as (l1 & l2 & ->).
      intro E. apply (Hd y l2 (x :: l1) eq_refl x (or_introl eq_refl)). symmetry. exact E. }
    clear - Hx. induction xs as [|y ys IH].
    - exists [1]. split; [reflexivity|]. split; [intros y []|]. cbn. intro E. ring_simplify in E. discriminate.
    - destruct IH as (p & L & V & N). { intros z Hz. apply Hx. right. auto. }
      exists (pmono y p). rewrite pmono_length. split; [cbn; lia|]. split.
      + intros z [-> | Hz]; rewrite pev_pmono; [ring|]. rewrite (V z Hz). ring.
      + rewrite pev_pmono. intro E. apply Qmult_integral in E. destruct E as [E | E]; [|auto].
        apply (Hx y (or_introl eq_refl)). setoid_replace y with (x - (x - y)) by ring. rewrite E. ring. }
  destruct Hp as (p & Lp & V & N).
  assert (Z : forall ws ys, (forall y, In y ys -> In y xs) -> wsum ws ys (pev p) == 0).
  { induction ws as [|w ws IHw]; intros [|y ys] Hy; cbn [wsum]; try reflexivity.
    rewrite V by (apply Hy; left; auto). rewrite IHw; [ring|]. intros. apply Hy. right. auto. }
  assert (E0 : d == 0).
  { pose proof (H p) as Hp. cbn [List.length] in Hp. specialize (Hp ltac:(lia)). cbn [wsum] in Hp.
    rewrite Z in Hp by auto. setoid_replace (d * pev p x + 0) with (d * pev p x) in Hp by ring.
    apply Qmult_integral in Hp. tauto. }
  constructor; [exact E0|]. apply (IH xs); [|exact Hl|].
  - intros a b l E y Hy. apply (Hd a b (x :: l)); [cbn; rewrite E; reflexivity | right; auto].
  - intros q Hq. specialize (H q). cbn [List.length wsum] in H. rewrite E0 in H.
    setoid_replace (wsum ds xs (pev q)) with (0 * pev q x + wsum ds xs (pev q)) by ring. apply H. lia.
Qed.

Lemma wsum_app : forall ws1 ws2 xs1 xs2 f, List.length ws1 = List.length xs1 ->
  wsum (ws1 ++ ws2) (xs1 ++ xs2) f == wsum ws1 xs1 f + wsum ws2 xs2 f.
Proof.
  induction ws1; intros ws2 [|x xs1] xs2 f H; cbn in *; try discriminate; [ring|].
  rewrite IHws1 by lia. ring.
Qed.
Lemma wsum_rev : forall ws xs f, List.length ws = List.length xs -> wsum (rev ws) (rev xs) f == wsum ws xs f.
Proof.
  induction ws; intros [|x xs] f H; cbn [rev wsum List.length] in *; try discriminate; [reflexivity|].
  rewrite wsum_app by (rewrite !rev_length; lia). cbn [wsum]. rewrite IHws by lia. ring.
Qed.
Lemma wsum_map : forall ws xs f g, wsum ws (map g xs) f == wsum ws xs (fun x => f (g x)).
Proof. induction ws; intros [|x xs] f g; cbn [map wsum]; try reflexivity. rewrite IHws. reflexivity. Qed.
Lemma wsum_scale : forall c ws xs f, wsum (map (Qmult c) ws) xs f == c * wsum ws xs f.
Proof. induction ws; intros [|x xs] f; cbn [map wsum]; try ring. rewrite IHws. ring. Qed.
Lemma wsum_lin : forall ws xs f g, wsum ws xs (fun x => f x + g x) == wsum ws xs f + wsum ws xs g.
Proof. induction ws; intros [|x xs] f g; cbn [wsum]; try ring. rewrite IHws. ring. Qed.

Fixpoint vsub (a b : list Q) : list Q := match a, b with x :: a, y :: b => (x - y) :: vsub a b | _, _ => [] end.
Lemma vsub_length : forall a b, List.length a = List.length b -> List.length (vsub a b) = List.length a.
Proof. induction a; intros [|y b] H; cbn in *; try discriminate; auto. Qed.
Lemma wsum_vsub : forall a b xs f, List.length a = List.length b ->
  wsum (vsub a b) xs f == wsum a xs f - wsum b xs f.
Proof.
  induction a; intros [|y b] [|x xs] f H; cbn in *; try discriminate; try ring. rewrite IHa by lia. ring.
Qed.
Lemma vsub_zero : forall a b, List.length a = List.length b -> Forall (fun d => d == 0) (vsub a b) ->
  Forall2 Qeq a b.
Proof.
  induction a; intros [|y b] H F; cbn in *; try discriminate; constructor; inversion F; subst.
  - setoid_replace a with (y + (a - y)) by ring. rewrite H2. ring.
  - apply IHa; auto.
Qed.

(* p(-y) *)
Fixpoint palt (s : Q) (p : list Q) : list Q := match p with [] => [] | a :: p => s * a :: palt (- s) p end.
Lemma palt_length : forall p s, List.length (palt s p) = List.length p.
Proof. induction p; intros; cbn; auto. Qed.
Lemma pev_palt : forall p s y, pev (palt s p) y == s * pev p (- y).
Proof. induction p; intros; cbn [palt pev]; [ring|]. rewrite IHp. ring. Qed.
Definition sign (m : nat) : Q := if Nat.even m then 1 else -1.
Lemma sign_S : forall m, sign (S m) == - sign m.
Proof. intros. unfold sign. rewrite Nat.even_succ, <- Nat.negb_even. destruct (Nat.even m); reflexivity. Qed.
Lemma sign_sq : forall m, sign m * sign m == 1.
Proof. intros. unfold sign. destruct (Nat.even m); reflexivity. Qed.
Lemma coef_palt : forall p s m, coef (palt s p) m == s * sign m * coef p m.
Proof.
  induction p; intros s m.
  - unfold coef. destruct m; cbn [palt nth]; ring.
  - destruct m; unfold coef in *; cbn [palt nth]; [unfold sign; cbn; ring|]. rewrite IHp, sign_S. ring.
Qed.

Lemma zrange_length : forall a b, List.length (zrange a b) = Z.to_nat (b - a).
Proof. intros. unfold zrange. rewrite map_length, seq_length. reflexivity. Qed.

Lemma zrange_distinct : forall a b, distinct (map inject_Z (zrange a b)).
Proof.
  intros a b x t l E y Hy Eq.
  assert (ND : NoDup (map inject_Z (zrange a b))).
  { unfold zrange. rewrite map_map. apply Injective_map_NoDup; [|apply seq_NoDup].
    intros i j H. injection H. lia. }
  assert (Hin : In x (map inject_Z (zrange a b)) /\ In y (map inject_Z (zrange a b))).
  { rewrite E. split; apply in_app_iff; [right; left; auto | left; auto]. }
  destruct Hin as [H1 H2]. apply in_map_iff in H1. apply in_map_iff in H2.
  destruct H1 as (i & <- & _). destruct H2 as (j & <- & _).
  assert (i = j) by (unfold Qeq in Eq; cbn in Eq; lia). subst j.
  rewrite E in ND. apply NoDup_remove_2 in ND. apply ND. apply in_app_iff. auto.
Qed.

Lemma zrange_sym : forall k, map Z.opp (rev (zrange (- k) (k + 1))) = zrange (- k) (k + 1).
Proof.
  intros k. destruct (Z_lt_le_dec k 0) as [Hk | Hk].
  { unfold zrange. replace (Z.to_nat (k + 1 - - k)) with 0%nat by lia. reflexivity. }
  apply nth_ext with (d := 0%Z) (d' := 0%Z).
  - rewrite map_length, rev_length. reflexivity.
  - intros n Hn. rewrite map_length, rev_length, zrange_length in Hn.
    change 0%Z with (Z.opp 0) at 1. rewrite map_nth, rev_nth by (rewrite zrange_length; auto).
    rewrite zrange_length. unfold zrange.
    rewrite (nth_indep _ 0%Z ((- k) + Z.of_nat 0)%Z) by (rewrite map_length, seq_length; lia).
    rewrite (nth_indep (map _ _) 0%Z ((- k) + Z.of_nat 0)%Z) by (rewrite map_length, seq_length; lia).
    rewrite !(map_nth (fun i => (- k + Z.of_nat i)%Z)), !seq_nth by lia. lia.
Qed.

Lemma central_points_even : forall k, (0 <= k)%Z -> central_points (2 * k) = zrange (- k) (k + 1).
Proof.
  intros k Hk. unfold central_points, pyint_half.
  replace (- (2 * k))%Z with (- k * 2)%Z by lia. replace (2 * k + 2)%Z with ((k + 1) * 2)%Z by lia.
  rewrite !Z.quot_mul by lia. reflexivity.
Qed.

Lemma rev_Forall2 : forall A B (P : A -> B -> Prop) a b, Forall2 P a b -> Forall2 P (rev a) (rev b).
Proof. induction 1; cbn; [constructor|]. apply Forall2_app; auto. Qed.

Lemma weights_symmetric : forall k m, (0 <= k)%Z ->
  Forall2 Qeq (map (Qmult (sign m)) (rev (generate_weights (2 * k) m))) (generate_weights (2 * k) m).
Proof.
  intros k m Hk. unfold generate_weights. rewrite central_points_even by auto.
  set (zs := zrange (- k) (k + 1)). set (xs := map inject_Z zs).
  assert (Hd : distinct xs) by apply zrange_distinct.
  set (ws := finite_diff_weights m xs 0).
  assert (Lw : List.length ws = List.length xs) by (apply weights_length; auto).
  apply vsub_zero; [rewrite map_length, rev_length; auto|].
  apply (unique _ xs Hd).
  - rewrite vsub_length; rewrite map_length, rev_length; auto.
  - intros p Hp. rewrite wsum_vsub by (rewrite map_length, rev_length; auto). rewrite wsum_scale.
    assert (Exs : xs = rev (map Qopp xs)).
    { unfold xs. rewrite map_map, <- map_rev. unfold zs at 1. rewrite <- zrange_sym. fold zs.
      rewrite map_map. reflexivity. }
    assert (E1 : wsum (rev ws) xs (pev p) == sign m * (factQ m * coef p m)).
    { rewrite Exs at 1. rewrite wsum_rev by (rewrite map_length; auto). rewrite wsum_map.
      rewrite (wsum_ext _ _ _ (fun x => pev (palt 1 p) (x - 0))).
      - unfold ws. rewrite weights_exact by (auto; rewrite palt_length; auto). rewrite coef_palt. ring.
      - intros x _. rewrite pev_palt. setoid_replace (- (x - 0)) with (- x) by ring. ring. }
    assert (E2 : wsum ws xs (pev p) == factQ m * coef p m).
    { rewrite <- (weights_exact m xs 0 Hd p Hp). fold ws. apply wsum_ext. intros x _.
      setoid_replace (x - 0) with x by ring. reflexivity. }
    rewrite E1, E2. transitivity ((sign m * sign m - 1) * (factQ m * coef p m)); [ring|]. rewrite sign_sq. ring.
Qed.

Lemma coef_monomial : forall i m, coef (repeat 0 i ++ [1]) m == if Nat.eqb i m then 1 else 0.
Proof.
  unfold coef. induction i; intros [|m]; cbn [repeat app nth Nat.eqb]; try reflexivity.
  - destruct m; reflexivity.
  - apply IHi.
Qed.
End Qpart.

(* ---- real polynomials ---- *)
Local Open Scope R_scope.

Fixpoint paddR (a b : list R) : list R :=
  match a, b with [], b => b | a, [] => a | x :: a, y :: b => (x + y) :: paddR a b end.
Definition pscaleR (c : R) (p : list R) : list R := map (Rmult c) p.
Fixpoint pderiv (p : list R) : list R := match p with [] => [] | _ :: p => paddR p (0 :: pderiv p) end.

Lemma peval_add : forall a b x, peval (paddR a b) x = peval a x + peval b x.
Proof. induction a; intros [|y b] x; cbn [paddR peval]; try ring. rewrite IHa. ring. Qed.
Lemma peval_scale : forall c p x, peval (pscaleR c p) x = c * peval p x.
Proof. induction p; intros; cbn [pscaleR map peval]; [ring|]. fold (pscaleR c p). rewrite IHp. ring. Qed.
Lemma paddR_length : forall a b, List.length (paddR a b) = Nat.max (List.length a) (List.length b).
Proof. induction a; intros [|y b]; cbn; auto. Qed.

Lemma pderiv_derives : forall p x, derivable_pt_lim (peval p) x (peval (pderiv p) x).
Proof.
  induction p as [|a p IH]; intros x.
  - cbn. apply derivable_pt_lim_const.
  - cbn [pderiv]. rewrite peval_add. cbn [peval].
    replace (peval p x + (0 + x * peval (pderiv p) x)) with (0 + (1 * peval p x + x * peval (pderiv p) x)) by ring.
    change (peval (a :: p)) with (plus_fct (fct_cte a) (mult_fct id (peval p))).
    apply derivable_pt_lim_plus; [apply derivable_pt_lim_const|].
    apply derivable_pt_lim_mult; [apply derivable_pt_lim_id | apply IH].
Qed.

Fixpoint pderivs (m : nat) (p : list R) : list R := match m with O => p | S m => pderivs m (pderiv p) end.
Lemma pderivs_spec : forall m p, nth_derivative m (peval p) (peval (pderivs m p)).
Proof.
  induction m; intros p; cbn [pderivs]; [constructor|].
  econstructor; [intros x; apply pderiv_derives | apply IHm].
Qed.

Lemma nth_derivative_unique : forall m f g1 g2, nth_derivative m f g1 -> nth_derivative m f g2 ->
  forall x, g1 x = g2 x.
Proof.
  assert (G : forall m f1 g1, nth_derivative m f1 g1 -> forall f2 g2, (forall x, f1 x = f2 x) ->
     nth_derivative m f2 g2 -> forall x, g1 x = g2 x).
  { induction 1 as [f | m f f' g Hd Hn IH]; intros f2 g2 E H2 x; inversion H2; subst; [apply E|].
    eapply IH; [|eassumption]. intros y.
    apply (uniqueness_limite f y); [apply Hd|]. intros eps He.
    destruct (H0 y eps He) as (dl & D). exists dl. intros h Hh Hl. rewrite !E. apply D; auto. }
  intros; eapply G; eauto.
Qed.

(* m-th derivative at x, through a Leibniz rule for 0 :: p *)
Lemma paddR_nil : forall a, paddR a [] = a. Proof. destruct a; reflexivity. Qed.
Lemma paddR_comm : forall a b, paddR a b = paddR b a.
Proof. induction a; intros [|y b]; cbn; auto. rewrite IHa. f_equal. ring. Qed.
Lemma paddR_assoc : forall a b c, paddR a (paddR b c) = paddR (paddR a b) c.
Proof. induction a; intros [|y b] [|z c]; cbn; auto. rewrite IHa. f_equal. ring. Qed.
Lemma paddR_swap : forall a b c d, paddR (paddR a b) (paddR c d) = paddR (paddR a c) (paddR b d).
Proof.
  intros. rewrite <- (paddR_assoc a b), (paddR_assoc b c d), (paddR_comm b c), <- (paddR_assoc c b d), paddR_assoc.
  reflexivity.
Qed.
Lemma pderiv_paddR : forall a b, pderiv (paddR a b) = paddR (pderiv a) (pderiv b).
Proof.
  induction a as [|x a IH]; intros [|y b]; cbn [paddR pderiv]; auto.
  - rewrite paddR_nil. reflexivity.
  - rewrite IH. rewrite paddR_swap. cbn [paddR]. rewrite Rplus_0_l. reflexivity.
Qed.
Lemma pderivs_paddR : forall m a b, pderivs m (paddR a b) = paddR (pderivs m a) (pderivs m b).
Proof. induction m; intros; cbn [pderivs]; auto. rewrite pderiv_paddR. apply IHm. Qed.
Lemma pderivs_nil : forall m, pderivs m [] = []. Proof. induction m; cbn; auto. Qed.

Lemma leibniz : forall m a p x, peval (pderivs (S m) (a :: p)) x =
  x * peval (pderivs (S m) p) x + INR (S m) * peval (pderivs m p) x.
Proof.
  induction m; intros a p x.
  - cbn. rewrite peval_add. cbn. ring.
  - change (pderivs (S (S m)) (a :: p)) with (pderivs (S m) (paddR p (0 :: pderiv p))).
    rewrite pderivs_paddR, peval_add, IHm.
    change (pderivs (S (S m)) p) with (pderivs (S m) (pderiv p)).
    change (pderivs m (pderiv p)) with (pderivs (S m) p). rewrite (S_INR (S m)). ring.
Qed.

(* p(x + h t) as a polynomial in t *)
Fixpoint pshift (x h : R) (p : list R) : list R :=
  match p with
  | [] => []
  | a :: p => let s := pshift x h p in paddR [a] (paddR (pscaleR x s) (0 :: pscaleR h s))
  end.
Lemma pshift_length : forall p x h, List.length (pshift x h p) = List.length p.
Proof.
  induction p; intros; cbn [pshift]; auto. rewrite !paddR_length. cbn [List.length].
  unfold pscaleR. rewrite !map_length, IHp. lia.
Qed.
Lemma peval_pshift : forall p x h t, peval (pshift x h p) t = peval p (x + t * h).
Proof.
  induction p; intros; cbn [pshift]; auto. rewrite !peval_add. cbn [peval]. rewrite !peval_scale, IHp. ring.
Qed.
Lemma nth_paddR : forall a b m, nth m (paddR a b) 0 = nth m a 0 + nth m b 0.
Proof.
  induction a; intros [|y b] [|m]; cbn [paddR nth]; try ring. apply IHa.
Qed.
Lemma nth_pscaleR : forall c p m, nth m (pscaleR c p) 0 = c * nth m p 0.
Proof. intros. unfold pscaleR. replace 0 with (c * 0) at 1 by ring. apply map_nth. Qed.

Lemma fact_S_R : forall m, INR (fact (S m)) = INR (S m) * INR (fact m).
Proof. intros. change (fact (S m)) with (S m * fact m)%nat. apply mult_INR. Qed.

Lemma coef_pshift : forall p m x h, INR (fact m) * nth m (pshift x h p) 0 = h ^ m * peval (pderivs m p) x.
Proof.
  induction p as [|a p IH]; intros m x h.
  - rewrite pderivs_nil. cbn [pshift peval]. destruct m; cbn [nth]; ring.
  - cbn [pshift]. rewrite !nth_paddR, nth_pscaleR. destruct m.
    + cbn [nth pderivs peval pow]. pose proof (IH 0%nat x h) as E. cbn [pderivs pow] in E.
      change (INR (fact 0)) with 1 in *. replace (nth 0 (pshift x h p) 0) with (peval p x) by lra. ring.
    + change (nth (S m) [a] 0) with (nth m [] 0). replace (nth m [] 0) with 0 by (destruct m; auto).
      cbn [nth]. rewrite nth_pscaleR, leibniz.
      replace (INR (fact (S m)) * (0 + (x * nth (S m) (pshift x h p) 0 + h * nth m (pshift x h p) 0)))
        with (x * (INR (fact (S m)) * nth (S m) (pshift x h p) 0) + h * INR (S m) * (INR (fact m) * nth m (pshift x h p) 0))
        by (rewrite fact_S_R; ring).
      rewrite !IH. cbn [pow]. ring.
Qed.

(* ---- transfer of the moments ---- *)
Fixpoint rsum (ws : list Q) (zs : list Z) (f : R -> R) : R :=
  match ws, zs with w :: ws, z :: zs => Q2R w * f (IZR z) + rsum ws zs f | _, _ => 0 end.
Lemma Q2R_inject_Z : forall z, Q2R (inject_Z z) = IZR z.
Proof. intros. unfold Q2R, inject_Z. cbn. field. Qed.
Lemma Q2R_monomial : forall i y, Q2R (pev (repeat 0%Q i ++ [1%Q]) y) = Q2R y ^ i.
Proof.
  induction i; intros y; cbn [repeat app pev pow].
  - rewrite Q2R_plus, Q2R_mult. unfold Q2R at 1 3. cbn. field.
  - rewrite Q2R_plus, Q2R_mult, IHi. unfold Q2R at 1. cbn. field.
Qed.
Lemma rsum_wsum : forall ws zs i,
  rsum ws zs (fun t => t ^ i) = Q2R (wsum ws (map inject_Z zs) (pev (repeat 0%Q i ++ [1%Q]))).
Proof.
  induction ws; intros [|z zs] i; cbn [map wsum rsum]; try (unfold Q2R; cbn; field).
  rewrite Q2R_plus, Q2R_mult, Q2R_monomial, Q2R_inject_Z, IHws. reflexivity.
Qed.
Lemma Q2R_factQ : forall m, Q2R (factQ m) = INR (fact m).
Proof.
  intros. unfold factQ. rewrite Q2R_inject_Z, INR_IZR_INZ. reflexivity.
Qed.

Lemma wsum_pev0 : forall m xs, distinct xs -> forall p, (List.length p <= List.length xs)%nat ->
  (wsum (finite_diff_weights m xs 0) xs (pev p) == factQ m * coef p m)%Q.
Proof.
  intros m xs Hd p Hp. rewrite <- (weights_exact m xs 0 Hd p Hp). apply wsum_ext. intros x _.
  setoid_replace (x - 0)%Q with x by ring. reflexivity.
Qed.

Section Moments.
Variables (k : nat) (m : nat).
Let n := (2 * Z.of_nat k)%Z.
Let zs := central_points n.
Let ws := generate_weights n m.

Lemma zs_length : List.length zs = (2 * k + 1)%nat.
Proof. unfold zs, n. rewrite central_points_even by lia. rewrite zrange_length. lia. Qed.
Lemma ws_length : List.length ws = List.length zs.
Proof.
  unfold ws, generate_weights. rewrite weights_length, map_length; [reflexivity|].
  fold zs. unfold zs, n. rewrite central_points_even by lia. apply zrange_distinct.
Qed.

Lemma moment : forall i, (i <= 2 * k)%nat ->
  rsum ws zs (fun t => t ^ i) = if Nat.eqb i m then INR (fact m) else 0.
Proof.
  intros i Hi. rewrite rsum_wsum. unfold ws, generate_weights. fold zs.
  rewrite (Qeq_eqR _ (factQ m * coef (repeat 0%Q i ++ [1%Q]) m)%Q).
  - rewrite (Qeq_eqR _ (factQ m * (if Nat.eqb i m then 1 else 0))%Q) by (rewrite coef_monomial; reflexivity).
    rewrite Q2R_mult, Q2R_factQ. destruct (Nat.eqb i m); unfold Q2R; cbn; field.
  - apply wsum_pev0.
    + unfold zs, n. rewrite central_points_even by lia. apply zrange_distinct.
    + rewrite app_length, repeat_length, map_length, zs_length. cbn. lia.
Qed.

Lemma rsum_ext : forall us ys f g, (forall z, In z ys -> f (IZR z) = g (IZR z)) -> rsum us ys f = rsum us ys g.
Proof.
  induction us; intros [|y ys] f g H; cbn [rsum]; auto.
  rewrite (H y) by (left; auto). f_equal. apply IHus. intros. apply H. right. auto.
Qed.
Lemma rsum_plus : forall us ys f g, rsum us ys (fun t => f t + g t) = rsum us ys f + rsum us ys g.
Proof. induction us; intros [|y ys] f g; cbn [rsum]; try ring. rewrite IHus. ring. Qed.
Lemma rsum_scale : forall us ys c f, rsum us ys (fun t => c * f t) = c * rsum us ys f.
Proof. induction us; intros [|y ys] c f; cbn [rsum]; try ring. rewrite IHus. ring. Qed.

Lemma rsum_app : forall us1 us2 ys1 ys2 f, List.length us1 = List.length ys1 ->
  rsum (us1 ++ us2) (ys1 ++ ys2) f = rsum us1 ys1 f + rsum us2 ys2 f.
Proof.
  induction us1; intros us2 [|y ys1] ys2 f H; cbn in *; try discriminate; [ring|].
  rewrite IHus1 by lia. ring.
Qed.
Lemma rsum_rev : forall us ys f, List.length us = List.length ys -> rsum (rev us) (rev ys) f = rsum us ys f.
Proof.
  induction us; intros [|y ys] f H; cbn [rev rsum List.length] in *; try discriminate; [reflexivity|].
  rewrite rsum_app by (rewrite !rev_length; lia). cbn [rsum]. rewrite IHus by lia. ring.
Qed.
Lemma rsum_map : forall us ys g f h, (forall z, IZR (g z) = h (IZR z)) ->
  rsum us (map g ys) f = rsum us ys (fun t => f (h t)).
Proof. induction us; intros [|y ys] g f h H; cbn [map rsum]; auto. rewrite H, (IHus _ _ _ h H). reflexivity. Qed.
Lemma rsum_Qeq : forall us vs ys f, Forall2 Qeq us vs -> rsum us ys f = rsum vs ys f.
Proof.
  intros us vs ys f F. revert ys. induction F; intros [|z ys]; cbn [rsum]; auto.
  rewrite (Qeq_eqR _ _ H), IHF. reflexivity.
Qed.
Definition signR (m : nat) : R := if Nat.even m then 1 else -1.
Lemma rsum_sign : forall us ys f, rsum (map (Qmult (sign m)) us) ys f = signR m * rsum us ys f.
Proof.
  induction us; intros [|y ys] f; cbn [map rsum]; try ring.
  rewrite Q2R_mult, IHus. unfold sign, signR. destruct (Nat.even m); unfold Q2R at 1; cbn; field.
Qed.
Lemma zs_sym : map Z.opp (rev zs) = zs.
Proof. unfold zs, n. rewrite central_points_even by lia. apply zrange_sym. Qed.

(* reflecting the stencil multiplies by (-1)^m *)
Lemma rsum_reflect : forall f, rsum ws zs (fun t => f (- t)) = signR m * rsum ws zs f.
Proof.
  intros f.
  assert (E1 : rsum ws zs (fun t => f (- t)) = rsum (rev ws) zs f).
  { rewrite <- (rsum_rev ws zs) by apply ws_length.
    rewrite <- zs_sym at 2. symmetry. apply rsum_map. apply opp_IZR. }
  assert (E2 : signR m * rsum (rev ws) zs f = rsum ws zs f).
  { rewrite <- rsum_sign. apply rsum_Qeq. apply (weights_symmetric (Z.of_nat k) m). lia. }
  rewrite E1, <- E2, <- Rmult_assoc. unfold signR. destruct (Nat.even m); ring.
Qed.

Lemma odd_moment : Nat.even m = true -> rsum ws zs (fun t => t ^ (2 * k + 1)) = 0.
Proof.
  intros He. pose proof (rsum_reflect (fun t => t ^ (2 * k + 1))) as E.
  rewrite (rsum_ext _ _ _ (fun t => (-1) * t ^ (2 * k + 1))), rsum_scale in E.
  - unfold signR in E. rewrite He in E. lra.
  - intros z _. replace (- IZR z) with (-1 * IZR z) by ring. rewrite Rpow_mult_distr.
    replace (2 * k + 1)%nat with (S (2 * k)) by lia. rewrite pow_1_odd. reflexivity.
Qed.

(* exactness on polynomials in t, up to the degree d where the moments are right *)
Lemma rsum_peval : forall d, (forall i, (i <= d)%nat -> rsum ws zs (fun t => t ^ i) = if Nat.eqb i m then INR (fact m) else 0) ->
  forall c i, (List.length c + i <= d + 1)%nat ->
  rsum ws zs (fun t => t ^ i * peval c t) = INR (fact m) * nth m (repeat 0 i ++ c) 0.
Proof.
  intros d Hd. induction c as [|a c IH]; intros i Hi.
  - rewrite (rsum_ext _ _ _ (fun t => 0 * 1)) by (intros; cbn; ring). rewrite rsum_scale, app_nil_r.
    replace (nth m (repeat 0 i) 0) with 0; [ring|]. clear.
    revert m. induction i; intros [|q]; cbn; auto.
  - cbn [List.length] in Hi.
    rewrite (rsum_ext _ _ _ (fun t => a * t ^ i + t ^ S i * peval c t)) by (intros; cbn [peval pow]; ring).
    rewrite rsum_plus, rsum_scale, IH, Hd by lia.
    replace (repeat 0 (S i) ++ c) with (repeat 0 i ++ 0 :: c) by (clear; induction i; cbn in *; congruence).
    destruct (Nat.eqb_spec i m) as [-> | Hne].
    + rewrite !app_nth2 by (rewrite repeat_length; lia). rewrite repeat_length, Nat.sub_diag. cbn [nth]. ring.
    + replace (nth m (repeat 0 i ++ 0 :: c) 0) with (nth m (repeat 0 i ++ a :: c) 0); [ring|].
      destruct (Nat.lt_ge_cases m i).
      * rewrite !app_nth1 by (rewrite repeat_length; lia). reflexivity.
      * rewrite !app_nth2 by (rewrite repeat_length; lia). rewrite repeat_length.
        destruct (m - i)%nat eqn:E; [lia | reflexivity].
Qed.

Lemma formula_rsum : forall f x h, central_formula n m f x h = rsum ws zs (fun t => f (x + t * h)) * / h ^ m.
Proof.
  intros f x h. unfold central_formula, grid_formula. f_equal. fold zs ws. generalize zs ws.
  induction zs0 as [|z l IH]; intros [|w us]; cbn [combine fold_right rsum fst snd]; auto. rewrite IH. reflexivity.
Qed.

Lemma formula_exact_upto : forall d, (forall i, (i <= d)%nat -> rsum ws zs (fun t => t ^ i) = if Nat.eqb i m then INR (fact m) else 0) ->
  forall p x h, (List.length p <= d + 1)%nat -> h <> 0 ->
  central_formula n m (peval p) x h = peval (pderivs m p) x.
Proof.
  intros d Hd p x h Hp Hh. rewrite formula_rsum.
  rewrite (rsum_ext _ _ _ (fun t => t ^ 0 * peval (pshift x h p) t)).
  - rewrite (rsum_peval d Hd) by (rewrite pshift_length; lia). cbn [repeat app]. rewrite coef_pshift.
    field. apply pow_nonzero. auto.
  - intros z _. rewrite peval_pshift. cbn. ring.
Qed.

Lemma moments_even : (m <= 2 * k)%nat -> Nat.even m = true ->
  forall i, (i <= 2 * k + 1)%nat -> rsum ws zs (fun t => t ^ i) = if Nat.eqb i m then INR (fact m) else 0.
Proof.
  intros Hm He i Hi. destruct (Nat.eq_dec i (2 * k + 1)) as [-> | Hne].
  - rewrite odd_moment by auto. destruct (Nat.eqb_spec (2 * k + 1) m); [lia | reflexivity].
  - apply moment. lia.
Qed.

(* error constant *)
Fixpoint absum (us : list Q) (ys : list Z) (e : nat) : R :=
  match us, ys with u :: us, y :: ys => Rabs (Q2R u) * Rabs (IZR y) ^ e + absum us ys e | _, _ => 0 end.
Lemma absum_nonneg : forall us ys e, 0 <= absum us ys e.
Proof.
  induction us; intros [|y ys] e; cbn [absum]; try lra.
  pose proof (Rabs_pos (Q2R a)). pose proof (pow_le _ e (Rabs_pos (IZR y))). specialize (IHus ys e). nra.
Qed.
Lemma rsum_bound : forall us ys e g K h, (forall z, In z ys -> Rabs (g (IZR z)) <= K * Rabs (IZR z * h) ^ e) ->
  Rabs (rsum us ys g) <= K * Rabs h ^ e * absum us ys e.
Proof.
  induction us; intros [|y ys] e g K h H; cbn [rsum absum]; try (rewrite Rabs_R0; lra).
  eapply Rle_trans; [apply Rabs_triang|]. rewrite Rabs_mult, Rmult_plus_distr_l.
  apply Rplus_le_compat.
  - eapply Rle_trans; [apply Rmult_le_compat_l; [apply Rabs_pos | apply H; left; auto]|].
    rewrite Rabs_mult, Rpow_mult_distr. apply Req_le. ring.
  - apply IHus. intros. apply H. right. auto.
Qed.
End Moments.

(* ---- Taylor ---- *)
Lemma nth_pderiv : forall p i, nth i (pderiv p) 0 = INR (S i) * nth (S i) p 0.
Proof.
  induction p as [|a p IH]; intros i.
  - destruct i; cbn [pderiv nth]; ring.
  - cbn [pderiv]. rewrite nth_paddR. change (nth (S i) (a :: p) 0) with (nth i p 0). destruct i.
    + cbn. ring.
    + change (nth (S i) (0 :: pderiv p) 0) with (nth i (pderiv p) 0). rewrite IH, !S_INR. ring.
Qed.
Lemma peval_zero : forall p x, (forall i, nth i p 0 = 0) -> peval p x = 0.
Proof.
  induction p; intros x H; cbn [peval]; auto. rewrite IHp by (intros i; apply (H (S i))).
  rewrite (H 0%nat : a = 0). ring.
Qed.
Lemma peval_ext : forall p q x, (forall i, nth i p 0 = nth i q 0) -> peval p x = peval q x.
Proof.
  induction p as [|a p IH]; intros [|b q] x H; cbn [peval]; auto.
  - rewrite (peval_zero q) by (intros i; symmetry; apply (H (S i))). rewrite <- (H 0%nat : 0 = b). ring.
  - rewrite (peval_zero p) by (intros i; apply (H (S i))). rewrite (H 0%nat : a = 0). ring.
  - rewrite (IH q x) by (intros i; apply (H (S i))). rewrite (H 0%nat : a = b). ring.
Qed.

Definition tay (F : nat -> R -> R) (x : R) (d : nat) : list R :=
  map (fun i => F i x / INR (fact i)) (seq 0 d).
Lemma nth_tay : forall F x d i, nth i (tay F x d) 0 = if Nat.ltb i d then F i x / INR (fact i) else 0.
Proof.
  intros. unfold tay. destruct (Nat.ltb_spec i d).
  - rewrite (nth_indep _ 0 (F 0%nat x / INR (fact 0))) by (rewrite map_length, seq_length; auto).
    rewrite (map_nth (fun i => F i x / INR (fact i))), seq_nth by auto. reflexivity.
  - apply nth_overflow. rewrite map_length, seq_length. auto.
Qed.
Lemma pderiv_tay : forall F x d s, peval (pderiv (tay F x (S d))) s = peval (tay (fun i => F (S i)) x d) s.
Proof.
  intros. apply peval_ext. intros i. rewrite nth_pderiv, !nth_tay.
  destruct (Nat.ltb_spec (S i) (S d)); destruct (Nat.ltb_spec i d); try lia; [|ring].
  rewrite fact_S_R. field. split; [apply INR_fact_neq_0 | apply not_0_INR; lia].
Qed.

Lemma taylor_bound : forall d F x r K,
  (forall j y, (j < d)%nat -> derivable_pt_lim (F j) y (F (S j) y)) ->
  (forall y, Rabs (y - x) <= r -> Rabs (F d y) <= K) ->
  forall s, Rabs s <= r -> Rabs (F 0%nat (x + s) - peval (tay F x d) s) <= K * Rabs s ^ d.
Proof.
  induction d; intros F x r K HF HK s Hs.
  - cbn [tay seq map peval pow]. rewrite Rmult_1_r, Rminus_0_r. apply HK.
    replace (x + s - x) with s by ring. auto.
  - set (g := fun s => F 0%nat (x + s) - peval (tay F x (S d)) s).
    set (g' := fun s => F 1%nat (x + s) - peval (tay (fun i => F (S i)) x d) s).
    assert (Dg : forall t, derivable_pt_lim g t (g' t)).
    { intros t. unfold g, g'. apply (derivable_pt_lim_minus (fun s => F 0%nat (x + s)) (peval (tay F x (S d)))).
      - replace (F 1%nat (x + t)) with (F 1%nat (x + t) * (0 + 1)) by ring.
        apply (derivable_pt_lim_comp (fun s => x + s) (F 0%nat)).
        + apply (derivable_pt_lim_plus (fct_cte x) id); [apply derivable_pt_lim_const | apply derivable_pt_lim_id].
        + apply HF. lia.
      - rewrite <- pderiv_tay. apply pderiv_derives. }
    assert (Bg : forall t, Rabs t <= r -> Rabs (g' t) <= K * Rabs t ^ d).
    { intros t Ht. apply (IHd (fun i => F (S i)) x r K); auto. intros j y Hj. apply HF. lia. }
    assert (G0 : g 0 = 0).
    { unfold g. rewrite Rplus_0_r. replace (peval (tay F x (S d)) 0) with (F 0%nat x); [ring|].
      unfold tay. cbn [seq map peval]. cbn. field. }
    assert (K0 : 0 <= K).
    { eapply Rle_trans; [apply Rabs_pos|]. apply (HK x). rewrite Rminus_diag_eq, Rabs_R0 by reflexivity.
      eapply Rle_trans; [apply Rabs_pos | exact Hs]. }
    fold (g s). cbn [pow].
    assert (M : exists c, Rabs c <= Rabs s /\ g s = g' c * s).
    { destruct (Rtotal_order 0 s) as [Hp | [<- | Hn]].
      - destruct (MVT_cor2 g g' 0 s Hp) as (c & E & Hc); [intros; apply Dg|]. exists c. split.
        + rewrite !Rabs_right by lra. lra.
        + rewrite G0 in E. lra.
      - exists 0. rewrite G0. split; [lra | ring].
      - destruct (MVT_cor2 g g' s 0 Hn) as (c & E & Hc); [intros; apply Dg|]. exists c. split.
        + rewrite !Rabs_left by lra. lra.
        + rewrite G0 in E. lra. }
    destruct M as (c & Hc & ->). rewrite Rabs_mult.
    assert (Rabs (g' c) <= K * Rabs s ^ d).
    { eapply Rle_trans; [apply Bg; lra|]. apply Rmult_le_compat_l; auto. apply pow_incr.
      split; [apply Rabs_pos | auto]. }
    pose proof (Rabs_pos s). nra.
Qed.

(* order of accuracy for smooth functions *)
Lemma formula_order : forall k m D,
  (forall i, (i <= D)%nat -> rsum (generate_weights (2 * Z.of_nat k) m) (central_points (2 * Z.of_nat k))
                 (fun t => t ^ i) = if Nat.eqb i m then INR (fact m) else 0) -> (m <= D)%nat ->
  forall F x h K, 0 < h ->
  (forall j y, (j <= D)%nat -> derivable_pt_lim (F j) y (F (S j) y)) ->
  (forall y, Rabs (y - x) <= INR k * h -> Rabs (F (S D) y) <= K) ->
  Rabs (central_formula (2 * Z.of_nat k) m (F 0%nat) x h - F m x) <=
    absum (generate_weights (2 * Z.of_nat k) m) (central_points (2 * Z.of_nat k)) (S D) * K * h ^ (S D - m).
Proof.
  intros k m D HD Hm F x h K Hh HF HK. rewrite formula_rsum.
  set (ws := generate_weights _ m) in *. set (zs := central_points _) in *.
  set (T := tay F x (S D)).
  assert (ET : rsum ws zs (fun t => peval T (t * h)) = h ^ m * F m x).
  { rewrite (rsum_ext _ _ _ (fun t => t ^ 0 * peval (pshift 0 h T) t)).
    - rewrite (rsum_peval k m D HD)
        by (rewrite pshift_length; unfold T, tay; rewrite map_length, seq_length; lia).
      cbn [repeat app].
      assert (Ec : nth m (pshift 0 h T) 0 = h ^ m * nth m T 0).
      { generalize T m. clear. induction T as [|a T IH]; intros m.
        - destruct m; cbn; ring.
        - cbn [pshift]. rewrite !nth_paddR, nth_pscaleR. destruct m.
          + cbn [nth pow]. ring.
          + change (nth (S m) [a] 0) with (nth m [] 0). replace (nth m [] 0) with 0 by (destruct m; auto).
            cbn [nth pow]. rewrite nth_pscaleR, (IH m). ring. }
      rewrite Ec. unfold T. rewrite nth_tay. replace (Nat.ltb m (S D)) with true by (symmetry; apply Nat.ltb_lt; lia).
      field. apply INR_fact_neq_0.
    - intros z _. rewrite peval_pshift. cbn [pow]. rewrite Rplus_0_l. ring. }
  assert (Hpow : h ^ m <> 0) by (apply pow_nonzero; lra).
  assert (Ed : rsum ws zs (fun t => F 0%nat (x + t * h)) * / h ^ m - F m x
               = rsum ws zs (fun t => F 0%nat (x + t * h) - peval T (t * h)) * / h ^ m).
  { rewrite (rsum_ext _ _ (fun t => F 0%nat (x + t * h) - _) (fun t => F 0%nat (x + t * h) + (-1) * peval T (t * h)))
      by (intros; ring).
    rewrite rsum_plus, rsum_scale, ET. field. auto. }
  rewrite Ed, Rabs_mult, Rabs_inv, (Rabs_right (h ^ m)) by (apply Rle_ge, pow_le; lra).
  assert (B : Rabs (rsum ws zs (fun t => F 0%nat (x + t * h) - peval T (t * h))) <= K * Rabs h ^ S D * absum ws zs (S D)).
  { apply rsum_bound. intros z Hz. apply (taylor_bound (S D) F x (INR k * h) K).
    - intros j y Hj. apply HF. lia.
    - exact HK.
    - rewrite Rabs_mult, (Rabs_right h) by lra. apply Rmult_le_compat_r; [lra|].
      unfold zs in Hz. rewrite central_points_even in Hz by lia. unfold zrange in Hz.
      apply in_map_iff in Hz. destruct Hz as (i & <- & Hi). apply in_seq in Hi.
      rewrite INR_IZR_INZ, <- abs_IZR. apply IZR_le. lia. }
  rewrite (Rabs_right h) in B by lra.
  replace (absum ws zs (S D) * K * h ^ (S D - m)) with (K * h ^ S D * absum ws zs (S D) * / h ^ m).
  - apply Rmult_le_compat_r; [|exact B]. left. apply Rinv_0_lt_compat, pow_lt. auto.
  - replace (h ^ S D) with (h ^ (S D - m) * h ^ m) by (rewrite <- pow_add; f_equal; lia). field. auto.
Qed.

(* ---- periodic grids ---- *)
Fixpoint zsum (ws : list Q) (zs : list Z) (f : Z -> R) : R :=
  match ws, zs with w :: ws, z :: zs => Q2R w * f z + zsum ws zs f | _, _ => 0 end.
Lemma zsum_app : forall us1 us2 ys1 ys2 f, List.length us1 = List.length ys1 ->
  zsum (us1 ++ us2) (ys1 ++ ys2) f = zsum us1 ys1 f + zsum us2 ys2 f.
Proof.
  induction us1; intros us2 [|y ys1] ys2 f H; cbn in *; try discriminate; [ring|].
  rewrite IHus1 by lia. ring.
Qed.
Lemma zsum_rev : forall us ys f, List.length us = List.length ys -> zsum (rev us) (rev ys) f = zsum us ys f.
Proof.
  induction us; intros [|y ys] f H; cbn [rev zsum List.length] in *; try discriminate; [reflexivity|].
  rewrite zsum_app by (rewrite !rev_length; lia). cbn [zsum]. rewrite IHus by lia. ring.
Qed.
Lemma zsum_map : forall us ys g f, zsum us (map g ys) f = zsum us ys (fun t => f (g t)).
Proof. induction us; intros [|y ys] g f; cbn [map zsum]; auto. rewrite IHus. reflexivity. Qed.
Lemma zsum_Qeq : forall us vs ys f, Forall2 Qeq us vs -> zsum us ys f = zsum vs ys f.
Proof.
  intros us vs ys f F. revert ys. induction F; intros [|z ys]; cbn [zsum]; auto.
  rewrite (Qeq_eqR _ _ H), IHF. reflexivity.
Qed.
Lemma zsum_sign : forall m us ys f, zsum (map (Qmult (sign m)) us) ys f = signR m * zsum us ys f.
Proof.
  induction us; intros [|y ys] f; cbn [map zsum]; try ring.
  rewrite Q2R_mult, IHus. unfold sign, signR. destruct (Nat.even m); unfold Q2R at 1; cbn; field.
Qed.
Lemma zsum_ext : forall us ys f g, (forall z, f z = g z) -> zsum us ys f = zsum us ys g.
Proof. induction us; intros [|y ys] f g H; cbn [zsum]; auto. rewrite H, (IHus ys f g H). reflexivity. Qed.
Lemma zsum_scale : forall us ys c f, zsum us ys (fun t => c * f t) = c * zsum us ys f.
Proof. induction us; intros [|y ys] c f; cbn [zsum]; try ring. rewrite IHus. ring. Qed.
Lemma zsum_reflect : forall k m f,
  let ws := generate_weights (2 * Z.of_nat k) m in let zs := central_points (2 * Z.of_nat k) in
  zsum ws zs (fun t => f (- t)%Z) = signR m * zsum ws zs f.
Proof.
  intros k m f ws zs.
  assert (E1 : zsum ws zs (fun t => f (- t)%Z) = zsum (rev ws) zs f).
  { rewrite <- (zsum_rev ws zs) by apply ws_length.
    pose proof (zs_sym k) as Es. fold zs in Es. rewrite <- Es at 2. symmetry. apply zsum_map. }
  assert (E2 : signR m * zsum (rev ws) zs f = zsum ws zs f).
  { rewrite <- zsum_sign. apply zsum_Qeq. apply (weights_symmetric (Z.of_nat k) m). lia. }
  rewrite E1, <- E2, <- Rmult_assoc. unfold signR. destruct (Nat.even m); ring.
Qed.
Lemma grid_zsum : forall n m h u i, grid_formula n m h u i =
  zsum (generate_weights n m) (central_points n) (fun j => u (i + j)%Z) * / h ^ m.
Proof.
  intros. unfold grid_formula. f_equal. generalize (central_points n) (generate_weights n m).
  induction l as [|z l IH]; intros [|w us]; cbn [combine fold_right zsum fst snd]; auto. rewrite IH. reflexivity.
Qed.

Lemma total_ext : forall n u v, (forall i, u i = v i) -> total n u = total n v.
Proof. intros n u v H. unfold total. f_equal. apply map_ext. intros. apply H. Qed.
Lemma total_plus : forall n u v, total n (fun i => u i + v i) = total n u + total n v.
Proof. intros n u v. unfold total. induction (seq 0 n); cbn; [ring|]. rewrite IHl. ring. Qed.
Lemma total_scale : forall n c u, total n (fun i => c * u i) = c * total n u.
Proof. intros n c u. unfold total. induction (seq 0 n); cbn; [ring|]. rewrite IHl. ring. Qed.
Lemma total_S : forall n u, total (S n) u = total n u + u (Z.of_nat n).
Proof.
  intros. unfold total. rewrite seq_S, map_app. cbn [plus map].
  induction (map (fun i => u (Z.of_nat i)) (seq 0 n)); cbn; [ring|]. rewrite IHl. ring.
Qed.
Lemma total_shift1 : forall n u, total n (fun i => u (i + 1)%Z) = total n u - u 0%Z + u (Z.of_nat n).
Proof.
  induction n; intros u; [unfold total; cbn; ring|]. rewrite !total_S, IHn.
  replace (Z.of_nat n + 1)%Z with (Z.of_nat (S n)) by lia. ring.
Qed.
Lemma total_shift : forall n u j, periodic n u -> total n (fun i => u (i + j)%Z) = total n u.
Proof.
  intros n u j P.
  assert (N : forall q v, periodic n v -> total n (fun i => v (i + Z.of_nat q)%Z) = total n v).
  { induction q; intros v Pv.
    - apply total_ext. intros. f_equal. lia.
    - rewrite (total_ext _ _ (fun i => v ((i + Z.of_nat q) + 1)%Z)) by (intros; f_equal; lia).
      rewrite (IHq (fun i => v (i + 1)%Z)) by (intros i; rewrite <- (Pv (i + 1)%Z); f_equal; lia).
      rewrite total_shift1. rewrite <- (Pv 0%Z). cbn. ring. }
  destruct (Z_le_gt_dec 0 j).
  - rewrite <- (N (Z.to_nat j) u P). apply total_ext. intros. f_equal. lia.
  - rewrite <- (N (Z.to_nat (- j)) (fun i => u (i + j)%Z)).
    + apply total_ext. intros. f_equal. lia.
    + intros i. rewrite <- (P (i + j)%Z). f_equal. lia.
Qed.
Lemma total_zsum : forall n us ys (g : Z -> Z -> R),
  total n (fun i => zsum us ys (g i)) = zsum us ys (fun j => total n (fun i => g i j)).
Proof.
  intros n. induction us; intros [|y ys] g; cbn [zsum].
  - rewrite (total_ext _ _ (fun i => 0 * 1)) by (intros; ring). rewrite total_scale. ring.
  - rewrite (total_ext _ _ (fun i => 0 * 1)) by (intros; ring). rewrite total_scale. ring.
  - rewrite (total_ext _ _ (fun i => 0 * 1)) by (intros; ring). rewrite total_scale. ring.
  - rewrite total_plus, total_scale, IHus. reflexivity.
Qed.

Lemma zsum_const : forall us ys c, zsum us ys (fun _ => c) = c * rsum us ys (fun t => t ^ 0).
Proof. induction us; intros [|y ys] c; cbn [zsum rsum]; try ring. rewrite IHus. cbn. ring. Qed.

Lemma conservation : forall k m n u h, (1 <= m)%nat -> periodic n u ->
  total n (grid_formula (2 * Z.of_nat k) m h u) = 0.
Proof.
  intros k m n u h Hm P.
  rewrite (total_ext _ _ (fun i => / h ^ m * zsum (generate_weights (2 * Z.of_nat k) m) (central_points (2 * Z.of_nat k)) (fun j => u (i + j)%Z)))
    by (intros; rewrite grid_zsum; ring).
  rewrite total_scale, total_zsum.
  rewrite (zsum_ext _ _ _ (fun _ => total n u)) by (intros; apply total_shift; auto).
  rewrite zsum_const, moment by lia. destruct m; [lia|]. cbn. ring.
Qed.

Lemma by_parts : forall k m n a b h, periodic n a -> periodic n b ->
  total n (fun i => a i * grid_formula (2 * Z.of_nat k) m h b i) =
  signR m * total n (fun i => b i * grid_formula (2 * Z.of_nat k) m h a i).
Proof.
  intros k m n a b h Pa Pb.
  set (ws := generate_weights (2 * Z.of_nat k) m). set (zs := central_points (2 * Z.of_nat k)).
  assert (E : forall a b, total n (fun i => a i * grid_formula (2 * Z.of_nat k) m h b i)
      = / h ^ m * zsum ws zs (fun j => total n (fun i => a i * b (i + j)%Z))).
  { intros. rewrite <- total_zsum, <- total_scale. apply total_ext. intros i. rewrite grid_zsum.
    fold ws zs. rewrite zsum_scale. ring. }
  rewrite !E. rewrite <- Rmult_assoc, (Rmult_comm (signR m)), Rmult_assoc. f_equal.
  unfold ws, zs. rewrite <- zsum_reflect. apply zsum_ext. intros j.
  rewrite <- (total_shift n (fun i => a i * b (i + j)%Z) (- j)).
  - apply total_ext. intros i. replace (i + - j + j)%Z with i by lia. ring.
  - intros i. rewrite Pa. f_equal. rewrite <- (Pb (i + j)%Z). f_equal. lia.
Qed.

Lemma grid_ext : forall n m h u v i, (forall i, u i = v i) -> grid_formula n m h u i = grid_formula n m h v i.
Proof. intros. rewrite !grid_zsum. f_equal. apply zsum_ext. auto. Qed.
