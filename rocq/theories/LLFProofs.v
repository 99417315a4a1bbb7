(* Lemmas for the local Lax-Friedrichs flux. *)
From Coq Require Import Reals List ZArith Lra Lia FunctionalExtensionality Permutation.
From Verif Require Import Base FDModel FDSpec FDProofs WenoModel WenoSpec WenoPoly WenoProofs WenoProps
  TenoModel TenoSpec TenoProofs TenoProps EulerSpec EulerModel EulerProofs RoeProofs EulerProps LLFModel LLFSpec.
Import ListNotations.
Local Open Scope R_scope.

(* ---- matrices ---- *)
Lemma dot_nil : forall a, dot a [] = 0. Proof. destruct a; auto. Qed.
Lemma dot_sum : forall n row v, List.length v = n -> List.length row = n ->
  dot row v = rsumR (map (fun j => nth j row 0 * nth j v 0) (seq 0 n)).
Proof.
  induction n; intros [|a row] [|b v] Hv Hr; try discriminate; auto.
  cbn [dot]. cbn [seq map]. rewrite rsumR_cons. cbn [nth]. rewrite <- seq_shift, map_map.
  rewrite (IHn row v) by (cbn in *; lia). f_equal.
Qed.
Lemma nth_map_seq : forall (f : nat -> R) n j, (j < n)%nat -> nth j (map f (seq 0 n)) 0 = f j.
Proof.
  intros f n j H. rewrite (nth_indep _ 0 (f 0%nat)) by (rewrite map_length, seq_length; auto).
  rewrite map_nth, seq_nth by auto. auto.
Qed.
Lemma dot_map_mul : forall B row n v, (forall b, In b B -> List.length b = n) -> List.length v = n ->
  dot row (map (fun b => dot b v) B) = dot (map (fun j => dot row (column j B)) (seq 0 n)) v.
Proof.
  intros B row n v HB Hv.
  rewrite (dot_sum n (map _ _)) by (rewrite ?map_length, ?seq_length; auto).
  rewrite (rsumR_map_ext _ _ (fun j => dot row (column j B) * nth j v 0)) by (intros j Hj; apply in_seq in Hj; rewrite nth_map_seq by lia; auto).
  revert row. induction B as [|b B IH]; intros row.
  - cbn [map]. rewrite dot_nil. symmetry. apply rsumR_map_0. intros j Hj. cbn. rewrite dot_nil. ring.
  - destruct row as [|x row].
    + cbn [map dot]. symmetry. apply rsumR_map_0. intros j Hj. ring.
    + cbn [map dot]. rewrite IH by (intros; apply HB; cbn; auto).
      rewrite (dot_sum n b v) by (auto; apply HB; cbn; auto).
      rewrite <- rsumR_map_scale, <- rsumR_map_plus. apply rsumR_map_ext. intros j Hj.
      change (column j (b :: B)) with (nth j b 0 :: column j B). cbn [dot]. ring.
Qed.
Lemma mulvec_mulmat : forall A B n v, (forall b, In b B -> List.length b = n) -> List.length v = n ->
  mulvec A (mulvec B v) = mulvec (mulmat A B n) v.
Proof.
  intros A B n v HB Hv. unfold mulvec, mulmat. rewrite map_map. apply map_ext. intros row.
  apply dot_map_mul; auto.
Qed.
Lemma mulvec_identity : forall n v, List.length v = n -> mulvec (identity n) v = v.
Proof.
  intros n v Hv. apply (nth_ext _ _ 0 0).
  - unfold mulvec, identity. rewrite !map_length, seq_length. auto.
  - intros i Hi. unfold mulvec, identity in *. rewrite !map_length, seq_length in Hi. rewrite map_map.
    rewrite (nth_indep _ 0 ((fun i => dot (map (fun j => if Nat.eqb i j then 1 else 0) (seq 0 n)) v) 0%nat)) by (rewrite map_length, seq_length; lia).
    rewrite (map_nth (fun i => dot (map (fun j => if Nat.eqb i j then 1 else 0) (seq 0 n)) v)). rewrite seq_nth by lia. cbn [Nat.add].
    rewrite (dot_sum n) by (rewrite ?map_length, ?seq_length; auto).
    rewrite (rsumR_single _ _ _ i).
    + rewrite (nth_indep _ 0 ((fun j => if Nat.eqb i j then 1 else 0) 0%nat)) by (rewrite map_length, seq_length; lia).
      rewrite (map_nth (fun j => if Nat.eqb i j then 1 else 0)). rewrite seq_nth by lia. cbn [Nat.add]. rewrite Nat.eqb_refl. ring.
    + apply seq_NoDup.
    + apply in_seq. lia.
    + intros j Hj N. apply in_seq in Hj.
      rewrite (nth_indep _ 0 ((fun j => if Nat.eqb i j then 1 else 0) 0%nat)) by (rewrite map_length, seq_length; lia).
      rewrite (map_nth (fun j => if Nat.eqb i j then 1 else 0)). rewrite seq_nth by lia. cbn [Nat.add].
      destruct (Nat.eqb_spec i j); [congruence|ring].
Qed.
Lemma matrix_shape : forall g k rho u a, face k u ->
  (List.length (left_matrix g k rho u a) = List.length u + 2)%nat /\
  (forall b, In b (left_matrix g k rho u a) -> List.length b = (List.length u + 2)%nat).
Proof.
  intros g k rho u a F. revert k u F. apply face_cases; intros; cbn [List.length Nat.add left_matrix];
    unfold LEV1, LEV2, LEV3; cbv zeta; (split; [reflexivity|]); cbn [In];
    intros b Hb; repeat (destruct Hb as [<-|Hb]; [reflexivity|]); destruct Hb.
Qed.
Lemma matrices_cancel : forall g k rho u a v, 1 < g -> 0 < rho -> 0 < a -> face k u -> List.length v = (List.length u + 2)%nat ->
  mulvec (right_matrix g k rho u a) (mulvec (left_matrix g k rho u a) v) = v.
Proof.
  intros g k rho u a v Hg Hr Ha F Hv. rewrite (mulvec_mulmat _ _ (List.length u + 2)); auto.
  - destruct (C38_inverse g k rho u a Hg Hr Ha F) as [_ E]. rewrite E. apply mulvec_identity; auto.
  - apply matrix_shape; auto.
Qed.

(* ---- stencil points and wave speeds ---- *)
Lemma insertZ_perm : forall x l, Permutation (x :: l) (insertZ x l).
Proof.
  induction l as [|y l IH]; cbn [insertZ]; [apply Permutation_refl|]. destruct (x <=? y)%Z; [apply Permutation_refl|].
  apply perm_trans with (y :: x :: l); [apply perm_swap|]. apply perm_skip, IH.
Qed.
Lemma sortZ_perm : forall l, Permutation l (sortZ l).
Proof. induction l; cbn; [apply perm_nil|]. apply perm_trans with (a :: sortZ l); [apply perm_skip; auto|apply insertZ_perm]. Qed.
Lemma in_stencil : forall sch p, In p (stencil_points sch) <-> In p (sch_points sch SRight) \/ In p (sch_points sch SLeft).
Proof.
  intros sch p. unfold stencil_points. rewrite <- in_app_iff.
  rewrite <- (nodup_In Z.eq_dec (sch_points sch SRight ++ sch_points sch SLeft)). split; intros H.
  - exact (Permutation_in p (Permutation_sym (sortZ_perm _)) H).
  - exact (Permutation_in p (sortZ_perm _) H).
Qed.
Lemma wave_speed_from : forall (pts : list Z) (lam : Z -> R) m, 0 <= m ->
  let v := fold_left (fun out p => Rmax out (Rabs (lam p))) pts m in
  m <= v /\ (forall p, In p pts -> Rabs (lam p) <= v) /\ (v = m \/ exists p, In p pts /\ v = Rabs (lam p)).
Proof.
  induction pts as [|q pts IH]; intros lam m Hm; cbn [fold_left].
  - cbv zeta. repeat split; [lra|intros p []|auto].
  - pose proof (Rmax_l m (Rabs (lam q))). pose proof (Rmax_r m (Rabs (lam q))).
    destruct (IH lam (Rmax m (Rabs (lam q))) ltac:(lra)) as (A & B & C). cbv zeta in *.
    split; [lra|]. split.
    + intros p [<-|I]; [lra|auto].
    + destruct C as [C|(p & I & C)]; [|right; exists p; split; [right; auto|auto]].
      assert (D : Rmax m (Rabs (lam q)) = m \/ Rmax m (Rabs (lam q)) = Rabs (lam q)) by (unfold Rmax; destruct (Rle_dec m (Rabs (lam q))); auto).
      destruct D as [D|D]; [left|right; exists q; split; [left; auto|]]; rewrite C; exact D.
Qed.

(* ---- what the reconstructions read ---- *)
Lemma in_func_points : forall s k r j, (r < k)%nat -> (j < k)%nat ->
  In (- Z.of_nat r + Z.of_nat j + point_shift s)%Z (func_points s k).
Proof.
  intros. unfold func_points. apply in_flat_map. exists r. split; [apply in_seq; lia|].
  apply in_map_iff. exists j. split; auto. apply in_seq. lia.
Qed.
Lemma func_points_length : forall s k, List.length (func_points s k) = (k * k)%nat.
Proof.
  intros. unfold func_points. assert (G : forall l, List.length (flat_map (fun r => map (fun j => - Z.of_nat r + Z.of_nat j + point_shift s)%Z (seq 0 k)) l) = (List.length l * k)%nat).
  { induction l; cbn [flat_map]; auto. rewrite app_length, map_length, seq_length, IHl. cbn. lia. }
  rewrite G, seq_length. auto.
Qed.
Lemma interpolating_ext : forall xs y z, (forall m, In m xs -> y m = z m) -> interpolating_poly xs y = interpolating_poly xs z.
Proof.
  intros xs y z H. unfold interpolating_poly.
  assert (G : forall l, (forall m, In m l -> In m xs) ->
    fold_right (fun m acc => paddR (pscaleR (y m / IZR (zprodZ (map (fun l => m - l)%Z (without m xs)))) (prodR (without m xs))) acc) [] l =
    fold_right (fun m acc => paddR (pscaleR (z m / IZR (zprodZ (map (fun l => m - l)%Z (without m xs)))) (prodR (without m xs))) acc) [] l).
  { induction l; intros I; cbn [fold_right]; auto. rewrite IHl by (intros; apply I; right; auto).
    rewrite (H a) by (apply I; left; auto). auto. }
  apply G. auto.
Qed.
Lemma smoothness_local : forall s k r f g, (r < k)%nat -> (forall p, In p (func_points s k) -> f p = g p) ->
  smoothness_indicator s k r f = smoothness_indicator s k r g.
Proof.
  intros s k r f g Hr H. unfold smoothness_indicator, smoothness. cbv zeta.
  rewrite (interpolating_ext _ (running_sum r (fun i => f (i + point_shift s)%Z)) (running_sum r (fun i => g (i + point_shift s)%Z))); auto.
  intros m Hm. apply In_zrange in Hm. unfold running_sum. apply rsumR_map_ext. intros x Hx. apply In_zrange in Hx.
  apply H. replace x with (- Z.of_nat r + Z.of_nat (Z.to_nat (x + Z.of_nat r)))%Z by lia.
  apply in_func_points; lia.
Qed.
Lemma alphas_ext : forall fm s k eps b c, (forall r, (r < k)%nat -> b r = c r) -> alphas fm s k eps b = alphas fm s k eps c.
Proof.
  intros fm s k eps b c H.
  assert (G : global_smoothness k b = global_smoothness k c).
  { do 8 (destruct k as [|k]; [cbn [global_smoothness]; auto; rewrite ?H by lia; auto|]). auto. }
  unfold alphas. destruct fm.
  - f_equal. apply map_ext_in. intros r Hr. apply in_seq in Hr. rewrite H by lia. auto.
  - rewrite G. destruct (global_smoothness k c); auto. cbn [bind]. f_equal. apply map_ext_in. intros r Hr. apply in_seq in Hr. rewrite H by lia. auto.
Qed.
Lemma weno_local : forall fm s k eps f g, (forall p, In p (func_points s k) -> f p = g p) ->
  reconstruction fm s k eps f = reconstruction fm s k eps g.
Proof.
  intros fm s k eps f g H. unfold reconstruction. destruct (Nat.eqb k 1); auto.
  rewrite (alphas_ext fm s k eps _ (fun r => smoothness_indicator s k r g)) by (intros; apply smoothness_local; auto).
  destruct (alphas _ _ _ _ _); auto. cbn [bind]. f_equal. apply rsumR_map_ext. intros r Hr. apply in_seq in Hr. f_equal.
  unfold candidate. apply rsumR_map_ext. intros j Hj. apply in_seq in Hj. f_equal. apply H. apply nth_In.
  rewrite func_points_length. nia.
Qed.
Lemma teno_local : forall s order eps CT f g, (forall p, In p (List.concat (teno_points s order)) -> f p = g p) ->
  teno_reconstruction s order eps CT f = teno_reconstruction s order eps CT g.
Proof.
  intros s order eps CT f g H. unfold teno_reconstruction.
  destruct (Nat.eqb_spec order 5) as [->|N5]; [|destruct (Nat.eqb_spec order 6) as [->|N6]; [|reflexivity]];
  cbn [orb bind teno_opt]; cbv zeta.
  - assert (E : teno_indicators s 5 f = teno_indicators s 5 g) by
      (unfold teno_indicators; destruct s; cbn [in_6_8 Nat.eqb orb app]; rewrite ?H by (cbn; tauto); auto).
    assert (E2 : teno_candidates s 5 f = teno_candidates s 5 g) by
      (unfold teno_candidates; destruct s; cbn [teno_points teno_coeffs in_6_8 Nat.eqb orb app all_points Nat.sub firstn combine map fst snd teno_candidate zipmul];
       unfold teno_candidate; cbn [map]; rewrite ?H by (cbn; tauto); auto).
    rewrite E, E2. auto.
  - assert (E : teno_indicators s 6 f = teno_indicators s 6 g) by
      (unfold teno_indicators; destruct s; cbn [in_6_8 Nat.eqb orb app]; rewrite ?H by (cbn; tauto); auto).
    assert (E2 : teno_candidates s 6 f = teno_candidates s 6 g) by
      (unfold teno_candidates; destruct s; cbn [teno_points teno_coeffs in_6_8 Nat.eqb orb app all_points Nat.sub firstn combine map fst snd teno_candidate zipmul];
       unfold teno_candidate; cbn [map]; rewrite ?H by (cbn; tauto); auto).
    rewrite E, E2. auto.
Qed.

(* ---- exactness of the schemes ---- *)
Inductive supported : scheme -> nat -> Prop :=
| sup_weno : forall fm k eps, (2 <= k)%nat -> (fm = WZ -> (k <= 7)%nat) -> 0 < eps -> supported (weno_scheme fm k eps) (k - 1)
| sup_teno : forall order eps CT, order = 5%nat \/ order = 6%nat -> 0 < eps -> CT <= 1 / INR (teno_n order) ->
    supported (teno_scheme order eps CT) 2.
Lemma weno_ok : forall fm s k eps f, (2 <= k)%nat -> (fm = WZ -> (k <= 7)%nat) -> exists v, reconstruction fm s k eps f = Ok v.
Proof.
  intros fm s k eps f Hk HW. unfold reconstruction. destruct (Nat.eqb_spec k 1); [lia|].
  assert (G : exists al, alphas fm s k eps (fun r => smoothness_indicator s k r f) = Ok al).
  { destruct fm; [eexists; reflexivity|]. specialize (HW eq_refl). unfold alphas.
    do 8 (destruct k as [|k]; [try lia; cbn [global_smoothness bind]; eexists; reflexivity|]). lia. }
  destruct G as [al ->]. eexists. reflexivity.
Qed.
Lemma degree_up : forall p m n, degree_at_most p m -> (m <= n)%nat -> degree_at_most p n.
Proof. unfold degree_at_most. intros; lia. Qed.
Lemma scheme_exact : forall sch d s p F x h, supported sch d -> degree_at_most p d -> antiderivative_of F (peval p) -> h <> 0 ->
  sch_rec sch s (cell_average F x h) = Ok (peval p (x + 1/2 * h)).
Proof.
  intros sch d s p F x h S Hd HF Hh. destruct S as [fm k eps Hk HW He | order eps CT Ho He HC]; cbn [sch_rec weno_scheme teno_scheme].
  - destruct (weno_ok fm s k eps (cell_average F x h) Hk HW) as [v E]. rewrite E.
    rewrite (C34_exact fm s k eps p F x h v); auto.
  - destruct (teno_reconstruction s order eps CT (cell_average F x h)) as [v|e] eqn:E.
    + f_equal. destruct (C36_partition s order eps CT _ v He HC E) as [_ B].
      destruct (B (peval p (x + 1/2 * h)) (peval p (x + 1/2 * h))); [|lra].
      intros r Hr. pose proof (C36_candidates_exact s order r Ho Hr p F x h) as G. cbv beta in G. rewrite G; [lra| |auto|auto].
      destruct (Nat.eqb r 3); auto. apply (degree_up _ 2); auto.
    + pose proof (C36_supported s order eps CT (cell_average F x h)) as G. rewrite E in G. destruct Ho; intuition congruence.
Qed.
Lemma scheme_local : forall sch d s f g, supported sch d -> (forall p, In p (sch_points sch s) -> f p = g p) ->
  sch_rec sch s f = sch_rec sch s g.
Proof.
  intros sch d s f g S H. destruct S; cbn [sch_rec sch_points weno_scheme teno_scheme] in *.
  - apply weno_local; auto.
  - apply teno_local; auto.
Qed.

(* f is the sequence of cell averages of a polynomial whose value at the interface is v *)
Definition averages_of (d : nat) (x h : R) (f : Z -> R) (v : R) : Prop :=
  exists q F, degree_at_most q d /\ antiderivative_of F (peval q) /\ (forall j, f j = cell_average F x h j) /\ v = peval q (x + 1/2 * h).
Lemma averages_lin : forall d x h f g v w a b, h <> 0 -> averages_of d x h f v -> averages_of d x h g w ->
  averages_of d x h (fun j => a * f j + b * g j) (a * v + b * w).
Proof.
  intros d x h f g v w a b Hh (q & F & Dq & AF & Ef & ->) (r & G & Dr & AG & Eg & ->).
  exists (paddR (pscaleR a q) (pscaleR b r)), (fun y => a * F y + b * G y). split; [|split; [|split]].
  - unfold degree_at_most in *. rewrite paddR_length. unfold pscaleR. rewrite !map_length. lia.
  - intros y. rewrite peval_add, !peval_scale.
    apply (derivable_pt_lim_plus (fun y => a * F y) (fun y => b * G y)); [apply (derivable_pt_lim_scal F a), AF|apply (derivable_pt_lim_scal G b), AG].
  - intros j. rewrite Ef, Eg. unfold cell_average. field. auto.
  - rewrite peval_add, !peval_scale. auto.
Qed.
Lemma averages_ext : forall d x h f g v w, (forall j, f j = g j) -> v = w -> averages_of d x h f v -> averages_of d x h g w.
Proof. intros d x h f g v w E -> (q & F & A & B & C & D). exists q, F. repeat split; auto. intros. rewrite <- E. auto. Qed.
Lemma averages_0 : forall d x h, h <> 0 -> averages_of d x h (fun _ => 0) 0.
Proof.
  intros d x h Hh. exists [], (fun _ => 0). split; [unfold degree_at_most; cbn; lia|]. split; [|split].
  - intros y. cbn [peval]. apply derivable_pt_lim_const.
  - intros j. unfold cell_average. field. auto.
  - reflexivity.
Qed.
Lemma averages_dot : forall d x h n V W row, h <> 0 -> (forall j, List.length (V j) = n) -> List.length W = n ->
  (forall m, (m < n)%nat -> averages_of d x h (fun j => nth m (V j) 0) (nth m W 0)) ->
  averages_of d x h (fun j => dot row (V j)) (dot row W).
Proof.
  intros d x h n V W row Hh. revert n V W. induction row as [|a row IH]; intros n V W LV LW H.
  - apply averages_0; auto.
  - destruct n as [|n].
    + apply (averages_ext d x h (fun _ => 0) _ 0 _); [| |apply averages_0; auto].
      * intros j. specialize (LV j). destruct (V j); [rewrite dot_nil; auto|discriminate].
      * destruct W; [rewrite dot_nil; auto|discriminate].
    + apply (averages_ext d x h (fun j => a * nth 0 (V j) 0 + 1 * dot row (tl (V j))) _ (a * nth 0 W 0 + 1 * dot row (tl W)) _).
      * intros j. specialize (LV j). destruct (V j); [discriminate|]. cbn [dot nth tl]. ring.
      * destruct W; [discriminate|]. cbn [dot nth tl]. ring.
      * apply averages_lin; auto; [apply H; lia|]. apply (IH n (fun j => tl (V j)) (tl W)).
        -- intros j. specialize (LV j). destruct (V j); [discriminate|]. cbn in *. lia.
        -- destruct W; [discriminate|]. cbn in *. lia.
        -- intros m Hm. apply (averages_ext d x h (fun j => nth (S m) (V j) 0) _ (nth (S m) W 0) _); [| |apply H; lia].
           ++ intros j. specialize (LV j). destruct (V j); [discriminate|]. auto.
           ++ destruct W; [discriminate|]. auto.
Qed.
Lemma averages_rec : forall sch d s x h f v, supported sch d -> h <> 0 -> averages_of d x h f v -> sch_rec sch s f = Ok v.
Proof.
  intros sch d s x h f v S Hh (q & F & D & A & E & ->). replace f with (cell_average F x h) by (apply functional_extensionality; auto).
  eapply scheme_exact; eauto.
Qed.
Lemma collect_ok : forall A (f : nat -> result A) (g : nat -> A) l, (forall i, In i l -> f i = Ok (g i)) ->
  collect (map f l) = Ok (map g l).
Proof.
  induction l; intros H; cbn [map collect]; auto. rewrite (H a) by (left; auto). cbn [bind].
  rewrite IHl by (intros; apply H; right; auto). auto.
Qed.
Lemma map_nth_seq : forall (M : list (list R)) (f : list R -> R), map (fun m => f (nth m M [])) (seq 0 (List.length M)) = map f M.
Proof.
  intros M f. induction M as [|r M IH]; auto. cbn [List.length seq map]. f_equal. rewrite <- seq_shift, map_map. exact IH.
Qed.
(* the state used for the eigenvectors is a gas state *)
Definition good_state (st : state) (n : nat) : Prop :=
  0 < s_rho st /\ 0 < s_a st /\ face (s_k st) (s_u st) /\ (List.length (s_u st) + 2 = n)%nat.
Lemma flux_exact : forall sch d g av line i n x h VF VU,
  supported sch d -> 1 < g -> h <> 0 -> good_state (average g av (line i) (line (i + 1)%Z)) n ->
  (forall j, List.length (c_F (line j)) = n /\ List.length (c_U (line j)) = n) ->
  List.length VF = n -> List.length VU = n ->
  (forall m, (m < n)%nat -> averages_of d x h (fun p => nth m (c_F (line (i + p)%Z)) 0) (nth m VF 0)) ->
  (forall m, (m < n)%nat -> averages_of d x h (fun p => nth m (c_U (line (i + p)%Z)) 0) (nth m VU 0)) ->
  interface_flux sch g av line i = Ok VF.
Proof.
  intros sch d g av line i n x h VF VU S Hg Hh (Hr & Ha & F & Hn) L LF LU AF AU. unfold interface_flux. cbv zeta.
  set (st := average g av (line i) (line (i + 1)%Z)) in *. clearbody st.
  set (Lm := left_matrix g (s_k st) (s_rho st) (s_u st) (s_a st)).
  rewrite (collect_ok _ _ (fun m => dot (nth m Lm []) VF)).
  - cbn [bind]. f_equal. rewrite (map_nth_seq Lm (fun row => dot row VF)).
    change (map (fun row => dot row VF) Lm) with (mulvec Lm VF). unfold Lm. apply matrices_cancel; auto. lia.
  - intros m _. set (lam := wave_speed _ _). clearbody lam. unfold combined.
    assert (CF : averages_of d x h (characteristic Lm m (fun p => c_F (line (i + p)%Z))) (dot (nth m Lm []) VF)).
    { unfold characteristic. apply (averages_dot d x h n (fun p => c_F (line (i + p)%Z)) VF); auto. intros. apply L. }
    assert (CS : averages_of d x h (characteristic Lm m (fun p => c_U (line (i + p)%Z))) (dot (nth m Lm []) VU)).
    { unfold characteristic. apply (averages_dot d x h n (fun p => c_U (line (i + p)%Z)) VU); auto. intros. apply L. }
    set (cf := characteristic Lm m (fun p => c_F (line (i + p)%Z))) in *. set (cs := characteristic Lm m (fun p => c_U (line (i + p)%Z))) in *.
    rewrite (averages_rec sch d SRight x h _ (1/2 * dot (nth m Lm []) VF + lam / 2 * dot (nth m Lm []) VU)); auto.
    + cbn [bind]. rewrite (averages_rec sch d SLeft x h _ (1/2 * dot (nth m Lm []) VF + - lam / 2 * dot (nth m Lm []) VU)); auto.
      * cbn [bind]. f_equal. field.
      * apply (averages_ext d x h (fun j => 1/2 * cf j + - lam / 2 * cs j) _ (1/2 * dot (nth m Lm []) VF + - lam / 2 * dot (nth m Lm []) VU) _); [intros; unfold negative_flux; field|reflexivity|apply averages_lin; auto].
    + apply (averages_ext d x h (fun j => 1/2 * cf j + lam / 2 * cs j) _ (1/2 * dot (nth m Lm []) VF + lam / 2 * dot (nth m Lm []) VU) _); [intros; unfold positive_flux; field|reflexivity|apply averages_lin; auto].
Qed.

(* ---- polynomials are sliding averages of polynomials of the same degree ---- *)
Lemma shift_derives : forall F f c, (forall x, derivable_pt_lim F x (f x)) -> forall x, derivable_pt_lim (fun x => F (x + c)) x (f (x + c)).
Proof.
  intros F f c H x. replace (f (x + c)) with (f (x + c) * (1 + 0)) by ring.
  apply (derivable_pt_lim_comp (fun x => x + c) F x (1 + 0)); [|apply H].
  apply (derivable_pt_lim_plus (fun x => x) (fun _ => c)); [apply derivable_pt_lim_id|apply derivable_pt_lim_const].
Qed.
Lemma pderiv_short : forall p n, (List.length p <= S n)%nat ->
  exists p', (List.length p' <= n)%nat /\ forall x, peval p' x = peval (pderiv p) x.
Proof.
  induction p as [|a p IH]; intros n H; [exists []; split; [cbn; lia|reflexivity]|].
  cbn [List.length] in H. destruct n as [|n].
  - destruct p; [|cbn in H; lia]. exists []. split; auto. intros x. cbn. ring.
  - destruct (IH n ltac:(lia)) as (p' & L & E). exists (paddR p (0 :: p')). split.
    + rewrite paddR_length. cbn [List.length]. lia.
    + intros x. cbn [pderiv]. rewrite !peval_add. cbn [peval]. rewrite E. auto.
Qed.
Lemma sliding : forall h, h <> 0 -> forall n p, (List.length p <= n)%nat ->
  exists q, (List.length q <= n)%nat /\ forall F, antiderivative_of F (peval q) -> forall x, (F (x + h / 2) - F (x - h / 2)) / h = peval p x.
Proof.
  intros h Hh. induction n as [|n IH]; intros p Hp.
  - destruct p; [|cbn in Hp; lia]. exists []. split; auto. intros F HF x.
    rewrite (same_derivative F (fun _ => 0) (fun _ => 0)); [cbn; field; auto|exact HF|intros; apply derivable_pt_lim_const].
  - destruct (pderiv_short p n Hp) as (p' & Lp' & Ep'). destruct (IH p' Lp') as (q' & Lq & Hq).
    set (Q0 := pprimitive q') in *. set (F0 := peval (pprimitive Q0)).
    assert (AQ : antiderivative_of (peval Q0) (peval q')) by (intros y; apply primitive_derives).
    assert (AF : antiderivative_of F0 (peval Q0)) by (intros y; apply primitive_derives).
    set (A := fun x => (F0 (x + h / 2) - F0 (x - h / 2)) / h).
    assert (DA : forall x, derivable_pt_lim A x (peval (pderiv p) x)).
    { intros x. rewrite <- Ep', <- (Hq (peval Q0) AQ x). unfold A, Rdiv.
      replace ((peval Q0 (x + h * / 2) - peval Q0 (x - h * / 2)) * / h) with (/ h * (peval Q0 (x + h / 2) - peval Q0 (x + - (h / 2)))) by (unfold Rdiv, Rminus; ring).
      assert (K : derivable_pt_lim (fun x => / h * (F0 (x + h / 2) - F0 (x + - (h / 2)))) x (/ h * (peval Q0 (x + h / 2) - peval Q0 (x + - (h / 2))))).
      { apply (derivable_pt_lim_scal (fun x => F0 (x + h / 2) - F0 (x + - (h / 2)))).
        apply (derivable_pt_lim_minus (fun x => F0 (x + h / 2)) (fun x => F0 (x + - (h / 2)))); apply shift_derives; auto. }
      replace (fun x0 => (F0 (x0 + h * / 2) - F0 (x0 - h * / 2)) * / h) with (fun x => / h * (F0 (x + h / 2) - F0 (x + - (h / 2)))); auto.
      apply functional_extensionality. intros t. unfold Rdiv, Rminus. ring. }
    set (c := A 0 - peval p 0).
    assert (EA : forall x, A x - c = peval p x).
    { intros x. pose proof (same_derivative A (peval p) (peval (pderiv p)) DA (pderiv_derives p) x 0). unfold c. lra. }
    exists (paddR Q0 [- c]). split.
    + rewrite paddR_length. unfold Q0. rewrite primitive_length. cbn. lia.
    + intros F HF x. rewrite <- EA.
      assert (E : forall y z, F y - F z = (F0 y + - c * y) - (F0 z + - c * z)).
      { apply (same_derivative F (fun y => F0 y + - c * y) (peval (paddR Q0 [- c]))); auto. intros y. rewrite peval_add.
        apply (derivable_pt_lim_plus F0 (fun y => - c * y)); [apply AF|]. cbn [peval].
        replace (- c + y * 0) with (- c * 1) by ring. apply (derivable_pt_lim_scal (fun y => y) (- c)), derivable_pt_lim_id. }
      rewrite E. unfold A. field. auto.
Qed.
