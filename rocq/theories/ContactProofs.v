(* Lemmas for contact waves: constant velocity and pressure, varying density. *)
From Coq Require Import Reals List ZArith Lra Lia FunctionalExtensionality.
From Verif Require Import Base FDModel FDSpec FDProofs WenoModel WenoSpec WenoPoly TenoModel TenoProofs TenoProps EulerSpec EulerModel EulerProofs EulerProps
  LLFModel LLFSpec LLFProofs LLFProps.
Import ListNotations.
Local Open Scope R_scope.

Lemma dot_vadd : forall row a b c, List.length a = List.length b -> dot row (vadd a (vscale c b)) = dot row a + c * dot row b.
Proof.
  induction row as [|r row IH]; intros a b c L; [cbn; ring|]. destruct a as [|x a], b as [|y b]; try discriminate; [cbn; ring|].
  cbn [vadd vscale map combine fst snd dot]. fold (vscale c b). fold (vadd a (vscale c b)). rewrite IH by (cbn in L; lia). ring.
Qed.
Lemma vadd_length : forall a b c, List.length a = List.length b -> List.length (vadd a (vscale c b)) = List.length a.
Proof. intros. unfold vadd, vscale. rewrite map_length, combine_length, map_length. lia. Qed.
Lemma wave_speed_const : forall pts t (lam : Z -> R), pts <> [] -> (forall p, In p pts -> lam p = t) -> wave_speed pts lam = Rabs t.
Proof.
  intros pts t lam N H. destruct (wave_speed_from pts lam 0 ltac:(lra)) as (A & B & C). unfold wave_speed. cbv zeta in *.
  destruct pts as [|q pts]; [congruence|]. pose proof (B q ltac:(left; auto)) as Bq. rewrite H in Bq by (left; auto).
  pose proof (Rabs_pos t). destruct C as [C|(p & I & C)]; [lra|]. rewrite H in C by auto. exact C.
Qed.
Lemma const_averages : forall d v, averages_of d 0 1 (fun _ => v) v.
Proof.
  intros d v. exists [v], (fun y => v * y). split; [unfold degree_at_most; cbn; lia|]. split; [|split].
  - intros y. cbn [peval]. replace (v + y * 0) with (v * 1) by ring. apply (derivable_pt_lim_scal (fun y => y) v), derivable_pt_lim_id.
  - intros j. unfold cell_average. field.
  - cbn. ring.
Qed.
Lemma rec_const : forall sch d s v f, supported sch d -> (forall p, f p = v) -> sch_rec sch s f = Ok v.
Proof.
  intros sch d s v f S H. apply (averages_rec sch d s 0 1 f v S ltac:(lra)).
  apply (averages_ext d 0 1 (fun _ => v) f v v); auto. apply const_averages.
Qed.
Lemma rec_ok : forall sch d s f, supported sch d -> exists v, sch_rec sch s f = Ok v.
Proof.
  intros sch d s f S. destruct S as [fm k eps Hk HW He|order eps CT Ho He HC]; cbn [sch_rec weno_scheme teno_scheme].
  - apply weno_ok; auto.
  - pose proof (C36_supported s order eps CT f) as G. destruct (teno_reconstruction s order eps CT f) as [v|]; [eauto|].
    destruct Ho; intuition congruence.
Qed.
Lemma points_nonempty : forall sch d, supported sch d -> stencil_points sch <> [].
Proof.
  intros sch d S E. assert (I : In 0%Z (stencil_points sch)).
  { apply in_stencil. left. destruct S as [fm k eps Hk HW He|order eps CT Ho He HC]; cbn [sch_points weno_scheme teno_scheme].
    - apply (in_func_points SRight k 0 0); lia.
    - destruct Ho as [-> | ->]; cbn; auto. }
  rewrite E in I. destruct I.
Qed.

(* the side whose reconstruction sees the wave *)
Definition upwind (t : R) : side := if Rlt_dec t 0 then SLeft else SRight.
(* the mass flux carried by the wave m0 with speed t *)
Definition carried (sch : scheme) (Lm : list (list R)) (m0 : nat) (t : R) (E KF KU : list R) (rho : Z -> R) (i : Z) : R :=
  let w := dot (nth m0 Lm []) E in
  let k := 1/2 * (dot (nth m0 Lm []) KF + t * dot (nth m0 Lm []) KU) in
  match sch_rec sch (upwind t) (fun p => t * w * rho (i + p)%Z + k) with Ok r => (r - k) / w | Err _ => 0 end.
Lemma contact_flux : forall sch d g av line i n m0 t E KF KU rho,
  supported sch d -> 1 < g -> good_state (average g av (line i) (line (i + 1)%Z)) n ->
  List.length E = n -> List.length KF = n -> List.length KU = n ->
  (forall j, c_F (line j) = vadd KF (vscale (t * rho j) E) /\ c_U (line j) = vadd KU (vscale (rho j) E)) ->
  let st := average g av (line i) (line (i + 1)%Z) in
  let Lm := left_matrix g (s_k st) (s_rho st) (s_u st) (s_a st) in
  (forall m, m <> m0 -> dot (nth m Lm []) E = 0) -> dot (nth m0 Lm []) E <> 0 ->
  (forall j, nth m0 (eigenvalues (c_k (line j)) (c_u (line j)) (c_a (line j))) 0 = t) ->
  interface_flux sch g av line i = Ok (vadd KF (vscale (carried sch Lm m0 t E KF KU rho i) E)).
Proof.
  intros sch d g av line i n m0 t E KF KU rho S Hg GS LE LF LU HL st Lm Hz Hw Hs.
  pose proof GS as (Hr & Ha & Fc & Hn). unfold interface_flux. cbv zeta. fold st. fold Lm. fold st in Hr, Ha, Fc, Hn.
  set (M := carried sch Lm m0 t E KF KU rho i).
  rewrite (collect_ok _ _ (fun m => dot (nth m Lm []) (vadd KF (vscale M E)))).
  - cbn [bind]. f_equal. rewrite (map_nth_seq Lm (fun row => dot row (vadd KF (vscale M E)))).
    change (map (fun row => dot row (vadd KF (vscale M E))) Lm) with (mulvec Lm (vadd KF (vscale M E))).
    unfold Lm. apply matrices_cancel; auto. rewrite vadd_length; lia.
  - intros m _. rewrite dot_vadd by lia. unfold combined.
    assert (CF : forall p, characteristic Lm m (fun p => c_F (line (i + p)%Z)) p = dot (nth m Lm []) KF + t * rho (i + p)%Z * dot (nth m Lm []) E).
    { intros p. unfold characteristic. rewrite (proj1 (HL _)), dot_vadd by lia. auto. }
    assert (CS : forall p, characteristic Lm m (fun p => c_U (line (i + p)%Z)) p = dot (nth m Lm []) KU + rho (i + p)%Z * dot (nth m Lm []) E).
    { intros p. unfold characteristic. rewrite (proj2 (HL _)), dot_vadd by lia. auto. }
    set (cf := characteristic Lm m (fun p => c_F (line (i + p)%Z))) in *. set (cs := characteristic Lm m (fun p => c_U (line (i + p)%Z))) in *.
    destruct (Nat.eq_dec m m0) as [->|N].
    + rewrite (wave_speed_const _ t) by (try (eapply points_nonempty; eauto); intros p _; unfold speeds; apply Hs).
      set (w := dot (nth m0 Lm []) E) in *. set (a := dot (nth m0 Lm []) KF) in *. set (b := dot (nth m0 Lm []) KU) in *.
      unfold M, carried. cbv zeta. fold w a b. unfold upwind. destruct (Rlt_dec t 0) as [T|T].
      * rewrite Rabs_left by auto.
        rewrite (rec_const sch d SRight (1/2 * (a - t * b))); auto.
        2: { intros p. unfold positive_flux. rewrite CF, CS. field. }
        cbn [bind]. destruct (rec_ok sch d SLeft (negative_flux (- t) cf cs) S) as [v Ev]. rewrite Ev. cbn [bind].
        replace (fun p => t * w * rho (i + p)%Z + 1/2 * (a + t * b)) with (negative_flux (- t) cf cs)
          by (apply functional_extensionality; intros p; unfold negative_flux; rewrite CF, CS; field).
        rewrite Ev. f_equal. field. auto.
      * rewrite Rabs_right by lra.
        destruct (rec_ok sch d SRight (positive_flux t cf cs) S) as [v Ev]. rewrite Ev. cbn [bind].
        rewrite (rec_const sch d SLeft (1/2 * (a - t * b))); auto.
        2: { intros p. unfold negative_flux. rewrite CF, CS. field. }
        cbn [bind].
        replace (fun p => t * w * rho (i + p)%Z + 1/2 * (a + t * b)) with (positive_flux t cf cs)
          by (apply functional_extensionality; intros p; unfold positive_flux; rewrite CF, CS; field).
        rewrite Ev. f_equal. field. auto.
    + set (lam := wave_speed _ _). clearbody lam. rewrite (Hz m N) in *.
      rewrite (rec_const sch d SRight (1/2 * (dot (nth m Lm []) KF + lam * dot (nth m Lm []) KU))); auto.
      2: { intros p. unfold positive_flux. rewrite CF, CS. ring. }
      cbn [bind]. rewrite (rec_const sch d SLeft (1/2 * (dot (nth m Lm []) KF - lam * dot (nth m Lm []) KU))); auto.
      2: { intros p. unfold negative_flux. rewrite CF, CS. ring. }
      cbn [bind]. f_equal. field.
Qed.

(* the contact wave in one, two and three dimensions *)
Definition wave_of (k : list R) : nat :=
  match k with
  | [k0; k1; k2] => if Req_EM_T k0 0 then if Req_EM_T k1 0 then 2%nat else 1%nat else 0%nat
  | [_; _] => 0%nat
  | _ => 1%nat
  end.
(* the metric row of a three-dimensional grid has only one non-zero entry *)
Definition aligned (k : list R) : Prop :=
  List.length k = 3%nat -> exists i, (i < 3)%nat /\ forall j, (j < 3)%nat -> j <> i -> nth j k 0 = 0.
Definition entropy_wave (u : list R) : list R := 1 :: u ++ [dot u u / 2].
Lemma wave1 : forall g u0 a, g - 1 <> 0 -> a <> 0 ->
  mulvec (LEV1 g u0 a) (entropy_wave [u0]) = [0; 1; 0].
Proof.
  intros g u0 a Hg Ha. unfold mulvec, LEV1, entropy_wave. set (H := H1 g u0 a).
  assert (E : 2 * H - u0 ^ 2 = 2 * a ^ 2 / (g - 1)) by (unfold H, H1; field; auto).
  assert (N : 2 * H - u0 ^ 2 <> 0).
  { rewrite E. unfold Rdiv. apply Rmult_integral_contrapositive_currified; [nra|apply Rinv_neq_0_compat; auto]. }
  assert (N' : - 2 * H + u0 ^ 2 <> 0) by lra. clearbody H. clear E.
  cbn [map app dot]. entries ltac:(field; repeat split; auto; try lra).
Qed.
Lemma wave2 : forall g k0 k1 rho u0 u1 a, rho <> 0 -> a <> 0 -> (k0 <> 0 \/ k1 <> 0) ->
  mulvec (LEV2 g k0 k1 rho u0 u1 a) (entropy_wave [u0; u1]) = [1; 0; 0; 0].
Proof.
  intros g k0 k1 rho u0 u1 a Hr Ha N. destruct (metric2 k0 k1 N) as (K & n0 & n1 & K0 & E & E0 & E1 & _ & _ & Hn).
  destruct root2 as (s & Es & Hs & Hss).
  unfold mulvec, LEV2, entropy_wave. rewrite E, E0, E1, Es. clear E E0 E1 Es. cbn [map app dot].
  entries ltac:(field [Hn Hss]; repeat split; auto).
Qed.
Lemma wave3 : forall g k0 k1 k2 rho u0 u1 u2 a, rho <> 0 -> a <> 0 -> (k0 <> 0 \/ k1 <> 0 \/ k2 <> 0) ->
  exists K, K <> 0 /\ mulvec (LEV3 g k0 k1 k2 rho u0 u1 u2 a) (entropy_wave [u0; u1; u2]) = [k0 / K; k1 / K; k2 / K; 0; 0].
Proof.
  intros g k0 k1 k2 rho u0 u1 u2 a Hr Ha N. destruct (metric3 k0 k1 k2 N) as (K & n0 & n1 & n2 & K0 & E & E0 & E1 & E2 & _ & _ & _ & Hn).
  destruct root2 as (s & Es & Hs & Hss). exists K. split; [lra|].
  unfold mulvec, LEV3, entropy_wave. rewrite E, E0, E1, E2, Es. clear E E0 E1 E2 Es. cbn [map app dot].
  entries ltac:(field [Hn Hss]; repeat split; auto).
Qed.
Lemma nth_mulvec : forall M v m, dot (nth m M []) v = nth m (mulvec M v) 0.
Proof. intros M v. unfold mulvec. induction M; intros [|m]; cbn [nth map]; auto. Qed.
Lemma one_wave : forall g k rho u a, 1 < g -> 0 < rho -> 0 < a -> face k u -> aligned k ->
  (forall m, m <> wave_of k -> dot (nth m (left_matrix g k rho u a) []) (entropy_wave u) = 0) /\
  dot (nth (wave_of k) (left_matrix g k rho u a) []) (entropy_wave u) <> 0 /\
  (forall b, nth (wave_of k) (eigenvalues k u b) 0 = dot k u).
Proof.
  intros g k rho u a Hg Hr Ha F. revert k u F. apply (face_cases (fun k u => aligned k -> _ /\ _ /\ _)).
  - intros u0 _. cbn [left_matrix wave_of eigenvalues]. split; [|split].
    + intros m N. rewrite nth_mulvec, wave1 by lra. do 3 (destruct m as [|m]; [cbn; try lia; auto|]). destruct m; auto.
    + rewrite nth_mulvec, wave1 by lra. cbn. lra.
    + intros b. cbn. ring.
  - intros k0 k1 u0 u1 N _. cbn [left_matrix wave_of eigenvalues]. split; [|split].
    + intros m M. rewrite nth_mulvec, wave2 by (auto; lra). do 4 (destruct m as [|m]; [cbn; try lia; auto|]). destruct m; auto.
    + rewrite nth_mulvec, wave2 by (auto; lra). cbn. lra.
    + intros b. cbn. ring.
  - intros k0 k1 k2 u0 u1 u2 N A. cbn [left_matrix eigenvalues].
    destruct (wave3 g k0 k1 k2 rho u0 u1 u2 a) as (K & K0 & E); auto; try lra.
    assert (P : forall c, c <> 0 -> c / K <> 0) by (intros c Hc; unfold Rdiv; apply Rmult_integral_contrapositive_currified; auto; apply Rinv_neq_0_compat; auto).
    destruct (A eq_refl) as (i & Hi & Z). 
    assert (C : (k0 <> 0 /\ k1 = 0 /\ k2 = 0) \/ (k0 = 0 /\ k1 <> 0 /\ k2 = 0) \/ (k0 = 0 /\ k1 = 0 /\ k2 <> 0)).
    { destruct i as [|[|[|]]]; [pose proof (Z 1%nat); pose proof (Z 2%nat)|pose proof (Z 0%nat); pose proof (Z 2%nat)|pose proof (Z 0%nat); pose proof (Z 1%nat)|lia];
        cbn in *; intuition. }
    unfold wave_of. destruct C as [(A0 & -> & ->)|[(-> & A1 & ->)|(-> & -> & A2)]].
    + destruct (Req_EM_T k0 0); [congruence|]. split; [|split].
      * intros m M. rewrite nth_mulvec, E. do 5 (destruct m as [|m]; [cbn; try lia; auto; unfold Rdiv; ring|]). destruct m; auto.
      * rewrite nth_mulvec, E. cbn. auto.
      * intros b. cbn. ring.
    + destruct (Req_EM_T 0 0); [|congruence]. destruct (Req_EM_T k1 0); [congruence|]. split; [|split].
      * intros m M. rewrite nth_mulvec, E. do 5 (destruct m as [|m]; [cbn; try lia; auto; unfold Rdiv; ring|]). destruct m; auto.
      * rewrite nth_mulvec, E. cbn. auto.
      * intros b. cbn. ring.
    + destruct (Req_EM_T 0 0); [|congruence]. split; [|split].
      * intros m M. rewrite nth_mulvec, E. do 5 (destruct m as [|m]; [cbn; try lia; auto; unfold Rdiv; ring|]). destruct m; auto.
      * rewrite nth_mulvec, E. cbn. auto.
      * intros b. cbn. ring.
Qed.
