(* C37: the local Lax-Friedrichs characteristic flux with WENO or TENO reconstruction. *)
From Coq Require Import Reals List ZArith Lra Lia.
From Verif Require Import Base FDModel FDSpec FDProofs WenoModel WenoSpec WenoPoly TenoModel TenoProofs EulerSpec EulerModel EulerProofs EulerProps
  LLFModel LLFSpec LLFProofs.
Import ListNotations.
Local Open Scope R_scope.

(* [supported sch d]: sch is WENO-JS or WENO-Z of order 2k-1 (k at least 2, for WENO-Z at
   most 7), or TENO5/TENO6 with an admissible cut-off; d = k-1 or 2. *)

(* C37.  At every point of the stencil the two parts add up to the characteristic flux,
   and the speed used is at least the local characteristic speed, so one part only moves
   to the right and the other only to the left. *)
Theorem C37_split :
  forall sch line i m p (CF CS : Z -> R), In p (sch_points sch SRight) \/ In p (sch_points sch SLeft) ->
    let c := line (i + p)%Z in
    let local_speed := nth m (eigenvalues (c_k c) (c_u c) (c_a c)) 0 in
    let lam := wave_speed (stencil_points sch) (speeds sch line i m) in
    positive_flux lam CF CS p + negative_flux lam CF CS p = CF p /\
    positive_flux lam CF CS p - negative_flux lam CF CS p = lam * CS p /\
    Rabs local_speed <= lam /\ 0 <= local_speed + lam /\ local_speed - lam <= 0.
Proof.
  intros sch line i m p CF CS H c ls lam. apply in_stencil in H.
  destruct (wave_speed_from (stencil_points sch) (speeds sch line i m) 0 ltac:(lra)) as (_ & B & _).
  specialize (B p H). change (Rabs ls <= lam) in B.
  split; [unfold positive_flux, negative_flux; field|]. split; [unfold positive_flux, negative_flux; field|].
  split; auto. pose proof (Rle_abs ls). pose proof (Rle_abs (- ls)). rewrite Rabs_Ropp in *. lra.
Qed.
Print Assumptions C37_split.
(* It is the smallest such speed: it is attained at a point of the stencil. *)
Theorem C37_speed_attained :
  forall sch d line i m, supported sch d ->
    exists p, (In p (sch_points sch SRight) \/ In p (sch_points sch SLeft)) /\
      let c := line (i + p)%Z in
      wave_speed (stencil_points sch) (speeds sch line i m) = Rabs (nth m (eigenvalues (c_k c) (c_u c) (c_a c)) 0).
Proof.
  intros sch d line i m S.
  assert (I : exists q, In q (stencil_points sch)).
  { destruct S as [fm k eps Hk HW He|order eps CT Ho He HC].
    - exists (- Z.of_nat 0 + Z.of_nat 0 + point_shift SRight)%Z. apply in_stencil. left. cbn [sch_points weno_scheme]. apply in_func_points; lia.
    - exists 0%Z. apply in_stencil. left. cbn [sch_points teno_scheme]. destruct Ho as [-> | ->]; cbn; auto. }
  destruct I as [q Hq].
  destruct (wave_speed_from (stencil_points sch) (speeds sch line i m) 0 ltac:(lra)) as (A & B & [C|(p & I & C)]).
  - exists q. split; [apply in_stencil; auto|]. cbv zeta. specialize (B q Hq).
    unfold wave_speed. rewrite C in *. pose proof (Rabs_pos (speeds sch line i m q)). unfold speeds in *. cbv zeta in *. lra.
  - exists p. split; [apply in_stencil; auto|]. exact C.
Qed.
Print Assumptions C37_speed_attained.
(* The reconstructions read no other points: the flux at i+1/2 is determined by the cells
   i-k+1, ..., i+k (TENO: i-3, ..., i+4 at most). *)
Theorem C37_local :
  forall sch d g av line line' i, supported sch d ->
    (forall p, In p (sch_points sch SRight) \/ In p (sch_points sch SLeft) -> line (i + p)%Z = line' (i + p)%Z) ->
    interface_flux sch g av line i = interface_flux sch g av line' i.
Proof.
  intros sch d g av line line' i S H.
  assert (I : In 0%Z (sch_points sch SRight) /\ In 1%Z (sch_points sch SLeft)).
  { destruct S as [fm k eps Hk HW He|order eps CT Ho He HC].
    - cbn [sch_points weno_scheme]. split; [apply (in_func_points SRight k 0 0)|apply (in_func_points SLeft k 0 0)]; lia.
    - cbn [sch_points teno_scheme]. destruct Ho as [-> | ->]; cbn; auto 10. }
  destruct I as [I0 I1].
  assert (E0 : line i = line' i) by (rewrite <- (Z.add_0_r i); apply H; auto).
  assert (E1 : line (i + 1)%Z = line' (i + 1)%Z) by (apply H; auto).
  unfold interface_flux. cbv zeta. rewrite <- E0, <- E1.
  set (st := average g av (line i) (line (i + 1)%Z)). clearbody st.
  set (Lm := left_matrix g (s_k st) (s_rho st) (s_u st) (s_a st)).
  f_equal. f_equal. apply map_ext. intros m. unfold combined.
  assert (W : wave_speed (stencil_points sch) (speeds sch line i m) = wave_speed (stencil_points sch) (speeds sch line' i m)).
  { unfold wave_speed. assert (G : forall p, In p (stencil_points sch) -> speeds sch line i m p = speeds sch line' i m p).
    { intros p Hp. apply in_stencil in Hp. unfold speeds. rewrite (H p Hp). auto. }
    revert G. generalize 0. generalize (stencil_points sch) as pts.
    induction pts as [|q pts IH]; intros z G; auto. cbn [fold_left]. rewrite (G q) by (left; auto). apply IH.
    intros; apply G; right; auto. }
  rewrite W. set (lam := wave_speed _ _).
  rewrite (scheme_local sch d SRight _ (positive_flux lam (characteristic Lm m (fun p => c_F (line' (i + p)%Z))) (characteristic Lm m (fun p => c_U (line' (i + p)%Z))))); auto.
  2: { intros p Hp. unfold positive_flux, characteristic. rewrite (H p); auto. }
  rewrite (scheme_local sch d SLeft _ (negative_flux lam (characteristic Lm m (fun p => c_F (line' (i + p)%Z))) (characteristic Lm m (fun p => c_U (line' (i + p)%Z))))); auto.
  intros p Hp. unfold negative_flux, characteristic. rewrite (H p); auto.
Qed.
Print Assumptions C37_local.
Theorem C37_stencil_width :
  forall fm k eps s p, In p (sch_points (weno_scheme fm k eps) s) -> (- Z.of_nat k < p <= Z.of_nat k)%Z.
Proof.
  intros fm k eps s p H. cbn [sch_points weno_scheme] in H. unfold func_points in H. apply in_flat_map in H.
  destruct H as (r & Hr & H). apply in_map_iff in H. destruct H as (j & <- & Hj). apply in_seq in Hr. apply in_seq in Hj.
  destruct s; cbn [point_shift]; lia.
Qed.
Print Assumptions C37_stencil_width.

(* The differences telescope over any range of cells, ... *)
Theorem C37_telescopes :
  forall work m delta a n, delta <> 0 ->
    delta * range_total n (wd_derivative work m delta) a = nth m (work (a + Z.of_nat n - 1)%Z) 0 - nth m (work (a - 1)%Z) 0.
Proof.
  intros work m delta a n Hd. induction n as [|n IH]; cbn [range_total].
  - replace (a + Z.of_nat 0 - 1)%Z with (a - 1)%Z by lia. ring.
  - rewrite Rmult_plus_distr_l, IH. unfold wd_derivative. replace (a + Z.of_nat (S n) - 1)%Z with (a + Z.of_nat n)%Z by lia. field. auto.
Qed.
Print Assumptions C37_telescopes.
(* ... so on a periodic line the total of the derivative vanishes: nothing is created. *)
Theorem C37_conservation :
  forall sch g av line n work m delta a, delta <> 0 -> (forall j, line (j + Z.of_nat n)%Z = line j) ->
    (forall j, interface_flux sch g av line j = Ok (work j)) ->
    range_total n (wd_derivative work m delta) a = 0.
Proof.
  intros sch g av line n work m delta a Hd P W.
  assert (E : forall j, work (j + Z.of_nat n)%Z = work j).
  { intros j. assert (X : interface_flux sch g av line (j + Z.of_nat n)%Z = interface_flux sch g av line j).
    { unfold interface_flux, speeds. cbv zeta. rewrite (P j).
      replace (line (j + Z.of_nat n + 1)%Z) with (line (j + 1)%Z) by (rewrite <- (P (j + 1)%Z); f_equal; lia).
      assert (L : forall p, line (j + Z.of_nat n + p)%Z = line (j + p)%Z) by (intros p; rewrite <- (P (j + p)%Z); f_equal; lia).
      assert (LF : (fun p => c_F (line (j + Z.of_nat n + p)%Z)) = (fun p => c_F (line (j + p)%Z)))
        by (apply FunctionalExtensionality.functional_extensionality; intros p; rewrite L; auto).
      assert (LU : (fun p => c_U (line (j + Z.of_nat n + p)%Z)) = (fun p => c_U (line (j + p)%Z)))
        by (apply FunctionalExtensionality.functional_extensionality; intros p; rewrite L; auto).
      f_equal. f_equal. apply map_ext. intros q. rewrite LF, LU. 
      assert (LS : (fun p => nth q (eigenvalues (c_k (line (j + Z.of_nat n + p)%Z)) (c_u (line (j + Z.of_nat n + p)%Z)) (c_a (line (j + Z.of_nat n + p)%Z))) 0)
                 = (fun p => nth q (eigenvalues (c_k (line (j + p)%Z)) (c_u (line (j + p)%Z)) (c_a (line (j + p)%Z))) 0))
        by (apply FunctionalExtensionality.functional_extensionality; intros p; rewrite L; auto).
      rewrite LS. reflexivity. }
    rewrite !W in X. congruence. }
  pose proof (C37_telescopes work m delta a n Hd) as T.
  replace (a + Z.of_nat n - 1)%Z with (a - 1 + Z.of_nat n)%Z in T by lia. rewrite E in T.
  replace (nth m (work (a - 1)%Z) 0 - nth m (work (a - 1)%Z) 0) with 0 in T by ring.
  apply Rmult_integral in T. tauto.
Qed.
Print Assumptions C37_conservation.

(* A cell holding a gas state: the arrays are consistent with each other. *)
Definition gas (g : R) (c : cell) : Prop :=
  0 < c_rho c /\ 0 < c_a c /\ c_U c = conserved g (c_rho c) (c_u c) (c_a c) /\ c_p c = pressure g (c_U c).
Lemma last_energy : forall U, last U 0 = energy U. Proof. reflexivity. Qed.
Lemma good_average : forall g av l r, 1 < g -> gas g l -> gas g r -> List.length (c_u l) = List.length (c_u r) ->
  face (zip_avg (c_k l) (c_k r)) (c_u l) -> good_state (average g av l r) (List.length (c_u l) + 2).
Proof.
  intros g av l r Hg (Rl & Al & Ul & Pl) (Rr & Ar & Ur & Pr) L [F1 F2]. destruct av; unfold good_state; cbn [average s_rho s_a s_k s_u].
  - assert (Lz : List.length (zip_avg (c_u l) (c_u r)) = List.length (c_u l)) by (unfold zip_avg; rewrite map_length, combine_length; lia).
    unfold simple_average. repeat split; [lra|lra|lia|exact F2|lia].
  - assert (Lz : List.length (roe_velocity (c_rho l) (c_rho r) (c_u l) (c_u r)) = List.length (c_u l)) by (unfold roe_velocity; rewrite map_length, combine_length; lia).
    destruct (C39_roe_admissible g (c_rho l) (c_rho r) (c_u l) (c_u r) (c_a l) (c_a r) Hg Rl Rr Al Ar L) as [X Y]. cbv zeta in Y.
    rewrite <- Ul, <- Ur, <- Pl, <- Pr in Y.
    repeat split; [exact X|exact Y|lia|exact F2|lia].
Qed.
(* Along the line: gas states of the same dimension, and the metric at every interface is
   not degenerate. *)
Definition gas_line (g : R) (n : nat) (line : Z -> cell) : Prop :=
  forall j, gas g (line j) /\ (List.length (c_u (line j)) + 2 = n)%nat /\ List.length (c_F (line j)) = n /\
            face (zip_avg (c_k (line j)) (c_k (line (j + 1)%Z))) (c_u (line j)).
Lemma gas_lengths : forall g n line j, gas_line g n line -> List.length (c_F (line j)) = n /\ List.length (c_U (line j)) = n.
Proof.
  intros g n line j H. destruct (H j) as ((_ & _ & E & _) & L & F & _). split; auto. rewrite E. unfold conserved.
  cbn [List.length]. rewrite app_length, map_length. cbn. lia.
Qed.
(* If flux and conserved variables are polynomials of degree at most d along the line, the
   computed derivative is the exact derivative of the flux. *)
Lemma samples_average : forall d n q x h V, h <> 0 -> polynomial_samples d n q x h V ->
  exists rs, List.length rs = n /\
    (forall i m, (m < n)%nat -> averages_of d (x + IZR i * h) h (fun p => nth m (V (i + p)%Z) 0) (peval (nth m rs []) (x + IZR i * h + 1/2 * h))) /\
    (forall m, (m < n)%nat -> forall F, antiderivative_of F (peval (nth m rs [])) -> forall y, (F (y + h / 2) - F (y - h / 2)) / h = peval (q m) y).
Proof.
  intros d n q x h V Hh H.
  assert (G : forall k, (k <= n)%nat -> exists rs, List.length rs = k /\ forall m, (m < k)%nat ->
     (List.length (nth m rs []) <= d + 1)%nat /\ forall F, antiderivative_of F (peval (nth m rs [])) -> forall y, (F (y + h / 2) - F (y - h / 2)) / h = peval (q m) y).
  { induction k as [|k IH]; intros Hk; [exists []; split; auto; intros; lia|].
    destruct (IH ltac:(lia)) as (rs & L & A). destruct (H 0%Z) as [_ B]. destruct (B k ltac:(lia)) as [D _].
    destruct (sliding h Hh (d + 1) (q k) D) as (r & Lr & Er). exists (rs ++ [r]). split; [rewrite app_length; cbn; lia|].
    intros m Hm. destruct (Nat.eq_dec m k) as [->|N].
    - rewrite app_nth2, L, Nat.sub_diag by lia. cbn [nth]. auto.
    - rewrite app_nth1 by lia. apply A. lia. }
  destruct (G n ltac:(lia)) as (rs & L & A).
  exists rs. split; auto. split; [|intros m Hm; apply A; auto].
  intros i m Hm. destruct (A m Hm) as [Ld E]. exists (nth m rs []), (peval (pprimitive (nth m rs []))).
  split; [exact Ld|]. split; [intros y; apply primitive_derives|]. split; [|reflexivity].
  intros j. destruct (H (i + j)%Z) as [_ B]. destruct (B m Hm) as [_ ->]. rewrite <- (E (peval (pprimitive (nth m rs []))) (primitive_derives _)).
  unfold cell_average. rewrite plus_IZR.
  replace (x + (IZR i + IZR j) * h + h / 2) with (x + IZR i * h + (IZR j + 1 / 2) * h) by field.
  replace (x + (IZR i + IZR j) * h - h / 2) with (x + IZR i * h + (IZR j - 1 / 2) * h) by field. auto.
Qed.
Theorem C37_exact :
  forall sch d g av line n qF qU x h,
    supported sch d -> 1 < g -> h <> 0 -> gas_line g n line ->
    polynomial_samples d n qF x h (fun j => c_F (line j)) ->
    polynomial_samples d n qU x h (fun j => c_U (line j)) ->
    exists work, (forall j, interface_flux sch g av line j = Ok (work j)) /\
      forall i m, (m < n)%nat -> derivable_pt_lim (peval (qF m)) (x + IZR i * h) (wd_derivative work m h i).
Proof.
  intros sch d g av line n qF qU x h S Hg Hh GL SF SU.
  destruct (samples_average d n qF x h _ Hh SF) as (rF & LF & AF & EF).
  destruct (samples_average d n qU x h _ Hh SU) as (rU & LU & AU & EU).
  set (val := fun (rs : list (list R)) (i : Z) => map (fun r => peval r (x + IZR i * h + 1/2 * h)) rs).
  assert (N : forall rs i m, (m < List.length rs)%nat -> nth m (val rs i) 0 = peval (nth m rs []) (x + IZR i * h + 1/2 * h)).
  { intros rs i m Hm. unfold val. rewrite (nth_indep _ 0 ((fun r => peval r (x + IZR i * h + 1/2 * h)) [])) by (rewrite map_length; lia).
    rewrite (map_nth (fun r => peval r (x + IZR i * h + 1/2 * h))). auto. }
  exists (val rF). split.
  - intros i. destruct (GL i) as (G1 & L1 & _ & F1). destruct (GL (i + 1)%Z) as (G2 & L2 & _ & _).
    apply (flux_exact sch d g av line i n (x + IZR i * h) h (val rF i) (val rU i)); auto.
    + rewrite <- L1. apply good_average; auto. lia.
    + intros j. apply (gas_lengths g n line j GL).
    + unfold val. rewrite map_length. auto.
    + unfold val. rewrite map_length. auto.
    + intros m Hm. rewrite N by lia. apply AF; auto.
    + intros m Hm. rewrite N by lia. apply AU; auto.
  - intros i m Hm. unfold wd_derivative. rewrite !N by lia.
    set (r := nth m rF []). set (F := peval (pprimitive r)).
    assert (A : antiderivative_of F (peval r)) by (intros y; apply primitive_derives).
    assert (Q : peval (qF m) = (fun y => / h * (F (y + h / 2) - F (y + - (h / 2))))).
    { apply FunctionalExtensionality.functional_extensionality. intros y. rewrite <- (EF m Hm F A y). unfold Rdiv, Rminus. ring. }
    rewrite Q. rewrite minus_IZR.
    replace ((peval r (x + IZR i * h + 1 / 2 * h) - peval r (x + (IZR i - 1) * h + 1 / 2 * h)) / h)
      with (/ h * (peval r (x + IZR i * h + h / 2) - peval r (x + IZR i * h + - (h / 2)))).
    + apply (derivable_pt_lim_scal (fun y => F (y + h / 2) - F (y + - (h / 2)))).
      apply (derivable_pt_lim_minus (fun y => F (y + h / 2)) (fun y => F (y + - (h / 2)))); apply shift_derives; auto.
    + replace (x + IZR i * h + 1 / 2 * h) with (x + IZR i * h + h / 2) by field.
      replace (x + (IZR i - 1) * h + 1 / 2 * h) with (x + IZR i * h + - (h / 2)) by field. field. auto.
Qed.
Print Assumptions C37_exact.
(* Uniform flow: the numerical flux is the flux and the derivative is zero. *)
Theorem C37_uniform :
  forall sch d g av c, supported sch d -> 1 < g -> gas g c -> face (c_k c) (c_u c) -> List.length (c_F c) = (List.length (c_u c) + 2)%nat ->
    forall i, interface_flux sch g av (fun _ => c) i = Ok (c_F c).
Proof.
  intros sch d g av c S Hg G F L i.
  assert (K : zip_avg (c_k c) (c_k c) = c_k c).
  { unfold zip_avg. generalize (c_k c). induction l; cbn; auto. rewrite IHl. unfold simple_average. f_equal. field. }
  assert (LU : List.length (c_U c) = (List.length (c_u c) + 2)%nat).
  { destruct G as (_ & _ & E & _). rewrite E. unfold conserved. cbn [List.length]. rewrite app_length, map_length. cbn. lia. }
  assert (A : forall v, averages_of d 0 1 (fun _ => v) v).
  { intros v. exists [v], (fun y => v * y). split; [unfold degree_at_most; cbn; lia|]. split; [|split].
    - intros y. cbn [peval]. replace (v + y * 0) with (v * 1) by ring. apply (derivable_pt_lim_scal (fun y => y) v), derivable_pt_lim_id.
    - intros j. unfold cell_average. field.
    - cbn. ring. }
  apply (flux_exact sch d g av (fun _ => c) i (List.length (c_u c) + 2) 0 1 (c_F c) (c_U c)); auto.
  apply good_average; auto. rewrite K. auto.
Qed.
Print Assumptions C37_uniform.

(* A density wave carried along by a flow of constant velocity and pressure meets all the
   hypotheses: density 1 + j^2, velocity 1, pressure 1, gamma 2, one dimension, WENO5. *)
Definition contact (j : Z) : cell :=
  let rho := 1 + IZR j * IZR j in
  mkcell [rho; rho; 1 + rho / 2] [rho; rho + 1; rho / 2 + 2] rho [1] (sqrt (2 / rho)) 1 [1].
Example C37_nonvacuous :
  supported (weno_scheme JS 3 (1/1000000)) 2 /\ gas_line 2 3 contact /\
  (forall j, c_F (contact j) = flux 2 [1] (c_U (contact j))) /\
  polynomial_samples 2 3 (fun m => nth m [[1; 0; 1]; [2; 0; 1]; [5/2; 0; 1/2]] []) 0 1 (fun j => c_F (contact j)) /\
  polynomial_samples 2 3 (fun m => nth m [[1; 0; 1]; [1; 0; 1]; [3/2; 0; 1/2]] []) 0 1 (fun j => c_U (contact j)).
Proof.
  assert (P : forall j, 0 < 1 + IZR j * IZR j) by (intros j; pose proof (Rle_0_sqr (IZR j)); unfold Rsqr in *; lra).
  split; [apply (sup_weno JS 3); [lia|discriminate|lra]|].
  assert (A : forall j, sqrt (2 / (1 + IZR j * IZR j)) ^ 2 = 2 / (1 + IZR j * IZR j)).
  { intros j. cbn [pow]. rewrite Rmult_1_r. apply sqrt_sqrt. specialize (P j). apply Rlt_le, Rdiv_lt_0_compat; lra. }
  split; [|split; [|split]].
  - intros j. unfold gas. cbn [contact c_rho c_a c_U c_u c_p c_F c_k List.length zip_avg combine map fst snd]. specialize (P j). specialize (A j).
    split; [|split; [auto|split; [auto|split; [auto|left; apply cons_eq; [unfold simple_average; field|auto]]]]].
    split; [lra|]. split; [apply sqrt_lt_R0, Rdiv_lt_0_compat; lra|]. split.
    + unfold conserved. cbn [map app dot]. rewrite A. apply cons_eq; auto. apply cons_eq; [ring|]. apply cons_eq; [field; lra|auto].
    + unfold pressure, density, momenta, energy. cbn [hd tl removelast last dot]. field. lra.
  - intros j. cbn [contact c_F c_U]. specialize (P j). unfold flux, pressure, density, momenta, energy. cbn [hd tl removelast last dot combine map app fst snd].
    apply cons_eq; [field; lra|]. apply cons_eq; [field; lra|]. apply cons_eq; [field; lra|auto].
  - intros j. split; auto. intros m Hm. do 3 (destruct m as [|m]; [cbn [nth contact c_F]; split; [unfold degree_at_most; cbn; lia|cbn [peval]; field]|]). lia.
  - intros j. split; auto. intros m Hm. do 3 (destruct m as [|m]; [cbn [nth contact c_U]; split; [unfold degree_at_most; cbn; lia|cbn [peval]; field]|]). lia.
Qed.
