(* C47: derivatives next to boundaries that modify the central scheme. *)
From Verif Require Import Base Expr FDModel FDSpec FDForn FDProofs ShiftModel ShiftSpec ShiftProofs BCModel BCSpec BCKern BCMirror BCVec OneModel OneSpec OneLin OneNorm OneProofs.
From Coq Require Import QArith Reals Qreals List ZArith Lia Lra.
Import ListNotations.
Local Close Scope Q_scope.
Local Open Scope R_scope.

(* The degree each scheme is meant to be exact for *)
Definition nominal_degree (s : bscheme) (order : nat) : nat :=
  match s, order with
  | Carpenter, 1 => 3 | Carpenter, _ => 4
  | ReducedAccess, _ => 4
  | ReducedOrder, 1 => 2 | ReducedOrder, _ => 3
  end%nat.

(* C47.  Take any combination of these boundary conditions at the two ends of a direction, a
   central scheme of order 2k inside, any number of points and any polynomial of degree d
   that all schemes in use are meant to be exact for.  Then the discretised first and second
   derivatives are exact at every point, boundary points included.
   Missing (_partial): second derivatives with the reduced-order scheme at the upper end. *)
Theorem C47_exact_partial :
  forall k order h lower upper n p g x0 i d,
    order = 1%nat \/ order = 2%nat -> h <> 0 ->
    (d <= 2 * k)%nat ->
    (forall s, lower = Some s -> (d <= nominal_degree s order)%nat) ->
    (forall s, upper = Some s -> (d <= nominal_degree s order)%nat) ->
    ~ (upper = Some ReducedOrder /\ order = 2%nat) ->
    degree_at_most p d -> nth_derivative order (peval p) g ->
    boundary_derivative k order h (lower, upper) n (samples (peval p) x0 h) i = Ok (g (x0 + IZR i * h)).
Proof.
  intros k order h lower upper n p g x0 i d Ho Hh Hk Hl Hu Hx Hp Hg.
  rewrite (nth_derivative_unique order (peval p) g (peval (pderivs order p)) Hg (pderivs_spec order p)).
  apply boundary_exact with (d := d); auto; cbn [fst snd].
  - destruct lower as [s|]; cbn [supported]; auto. split; [apply Hl; auto|]. intros (_ & _ & C). discriminate.
  - destruct upper as [s|]; cbn [supported]; auto. split; [apply Hu; auto|]. intros (-> & -> & _). apply Hx. auto.
Qed.
Print Assumptions C47_exact_partial.
Example C47_exact_nonvacuous : exists g, nth_derivative 1 (peval [1; 0; 0; 2]) g /\ degree_at_most [1; 0; 0; 2] 3 /\ g 1 = 6 /\
  (forall s, Some Carpenter = Some s -> (3 <= nominal_degree s 1)%nat) /\
  (forall s, Some ReducedAccess = Some s -> (3 <= nominal_degree s 1)%nat).
Proof.
  exists (peval (pderivs 1 [1; 0; 0; 2])). split; [apply pderivs_spec|]. split; [unfold degree_at_most; cbn; lia|].
  split; [cbn; lra|]. split; intros s E; injection E as <-; cbn; lia.
Qed.

(* Other orders of derivatives are refused. *)
Theorem C47_orders :
  forall k order h lower upper n u i, lower <> None \/ upper <> None -> order <> 1%nat -> order <> 2%nat ->
    boundary_derivative k order h (lower, upper) n u i = Err NotImplemented.
Proof.
  intros k order h lower upper n u i H H1 H2.
  assert (E : forall s side, rows s order side = Err NotImplemented).
  { intros s side. destruct s, order as [|[|[|order]]]; try lia; reflexivity. }
  unfold boundary_derivative, pairs_of, expr_cond_pairs. cbn [fst snd].
  destruct lower; [rewrite E; reflexivity|]. destruct upper; [rewrite E; reflexivity|]. destruct H; congruence.
Qed.
Print Assumptions C47_orders.

(* With the reduced-order scheme at the upper end, the second derivative at the last point
   has the wrong sign: of x^2 it is -2. *)
Theorem C47_reduced_order_upper_refuted : exists n p g x0 i,
  (0 <= i < n)%Z /\ degree_at_most p 2 /\ nth_derivative 2 (peval p) g /\ g (x0 + IZR i * 1) = 2 /\
  boundary_derivative 2 2 1 (None, Some ReducedOrder) n (samples (peval p) x0 1) i = Ok (-2).
Proof.
  exists 10%Z, [0; 0; 1], (peval (pderivs 2 [0; 0; 1])), 0, 9%Z.
  split; [lia|]. split; [unfold degree_at_most; cbn; lia|]. split; [apply pderivs_spec|].
  split; [cbn; ring|]. unfold boundary_derivative. cbn. f_equal. unfold samples. cbn [peval snd fst Z.add Z.pos_sub Pos.pred_double]. field.
Qed.
Print Assumptions C47_reduced_order_upper_refuted.

(* Degree 3 is the best the Carpenter first derivative does: degree 4 fails at one of the
   first four points. *)
Theorem C47_carpenter_degree_four_refuted : exists n p g x0 i,
  (0 <= i < n)%Z /\ degree_at_most p 4 /\ nth_derivative 1 (peval p) g /\
  boundary_derivative 2 1 1 (Some Carpenter, Some Carpenter) n (samples (peval p) x0 1) i <> Ok (g (x0 + IZR i * 1)).
Proof.
  set (p := [0; 0; 0; 0; 1]). set (g := peval (pderivs 1 p)).
  assert (C : exists i, (i < 4)%nat /\ low (samples (peval p) 0 1) i <> g (INR i)).
  { assert (D : forall i, {low (samples (peval p) 0 1) i = g (INR i)} + {low (samples (peval p) 0 1) i <> g (INR i)}) by (intros; apply Req_EM_T).
    destruct (D 0%nat) as [E0 | N0]; [|exists 0%nat; split; [lia | auto]].
    destruct (D 1%nat) as [E1 | N1]; [|exists 1%nat; split; [lia | auto]].
    destruct (D 2%nat) as [E2 | N2]; [|exists 2%nat; split; [lia | auto]].
    destruct (D 3%nat) as [E3 | N3]; [|exists 3%nat; split; [lia | auto]].
    exfalso. pose proof (bc4_solves 0 (fun j => samples (peval p) 0 1 (Z.of_nat j)) ltac:(lia)) as S.
    rewrite (sum4_ext _ (fun k => entry al4 0 k * g (INR k))) in S.
    2:{ intros i Hi. f_equal. unfold low in *. do 4 (destruct i as [|i]; [assumption|]). lia. }
    unfold g, p, sum6, sum4, al4, ar4, al4_of, ar4_of, entry, samples in S. cbn [nth] in S.
    rewrite <- !INR_IZR_INZ in S. cbn [pderivs pderiv peval INR] in S. cbn in S.
    assert (cR1 = 7 / 9) by lra. unfold cR1 in H.
    assert (540 < sqrt 295369). { rewrite <- (sqrt_square 540) by lra. apply sqrt_lt_1; lra. } lra. }
  destruct C as (i & Hi & C). exists 20%Z, p, g, 0, (Z.of_nat i).
  split; [lia|]. split; [unfold degree_at_most, p; cbn; lia|]. split; [apply pderivs_spec|].
  rewrite D_values by (try lra; lia). intros E. apply ok_inj in E.
  destruct (Z.ltb_spec (Z.of_nat i) 4); [|lia]. rewrite Nat2Z.id in E. apply C.
  rewrite Rinv_1, Rmult_1_r in E. rewrite E. f_equal. rewrite INR_IZR_INZ. ring.
Qed.
Print Assumptions C47_carpenter_degree_four_refuted.

(* Carpenter boundaries at both ends, fourth order inside, at least eight points: the first
   derivative satisfies the summation by parts rule for an inner product of grid functions.
   The inner product is the usual one for functions that vanish at the four outermost points
   at each end. *)
Theorem C47_carpenter_summation_by_parts :
  forall n h, (8 <= n)%Z -> 0 < h -> exists ip,
    inner_product n ip /\
    (forall u v Du Dv,
       (forall i, (0 <= i < n)%Z -> boundary_derivative 2 1 h (Some Carpenter, Some Carpenter) n u i = Ok (Du i)) ->
       (forall i, (0 <= i < n)%Z -> boundary_derivative 2 1 h (Some Carpenter, Some Carpenter) n v i = Ok (Dv i)) ->
       ip u Dv + ip Du v = u (n - 1)%Z * v (n - 1)%Z - u 0%Z * v 0%Z) /\
    (forall u v, (forall i, (i < 4 \/ n - 4 <= i)%Z -> u i = 0) -> ip u v = h * total (Z.to_nat n) (fun i => u i * v i)).
Proof.
  intros n h Hn Hh. exists (carp_ip n h). split; [apply carp_inner; auto|]. split; [intros; apply carp_sbp; auto|].
  intros u v Hu. unfold carp_ip. f_equal.
  assert (B : forall (a b : nat -> R), (forall i, (i < 4)%nat -> a i = 0) -> block a b = 0).
  { intros a b H. unfold block. rewrite (sum4_ext _ (fun _ => 0)); [unfold sum4; ring|]. intros i Hi. rewrite H by auto. ring. }
  rewrite !B by (intros; apply Hu; lia).
  assert (G : forall m f, total m f = isum 0 m f).
  { intros m f. unfold total. assert (A : forall l c, fold_right Rplus c l = fold_right Rplus 0 l + c) by (induction l as [|x l IH]; intros c; cbn; [ring | rewrite (IH c); ring]).
    induction m; [reflexivity|]. rewrite seq_S, map_app, fold_right_app. cbn [map fold_right isum Nat.add].
    rewrite A, IHm. cbn [Z.add]. ring. }
  assert (S : forall a m1 m2 f, isum a (m1 + m2) f = isum a m1 f + isum (a + Z.of_nat m1) m2 f).
  { intros a m1. induction m2; intros f; [rewrite Nat.add_0_r; cbn; ring|]. rewrite Nat.add_succ_r. cbn [isum]. rewrite IHm2.
    replace (a + Z.of_nat (m1 + m2))%Z with (a + Z.of_nat m1 + Z.of_nat m2)%Z by lia. ring. }
  assert (Z0 : forall a m f, (forall i, (a <= i < a + Z.of_nat m)%Z -> f i = 0) -> isum a m f = 0).
  { intros a m f H. rewrite (isum_ext a m f (fun i => 0 * 0)) by (intros; rewrite H by auto; ring). rewrite isum_scale. ring. }
  rewrite G. replace (Z.to_nat n) with (4 + (Z.to_nat (n - 8) + 4))%nat by lia. rewrite !S.
  rewrite (Z0 0%Z 4%nat) by (intros; rewrite Hu by lia; ring).
  rewrite (Z0 _ 4%nat) by (intros; rewrite Hu by lia; ring).
  change (0 + Z.of_nat 4)%Z with 4%Z. ring.
Qed.
Print Assumptions C47_carpenter_summation_by_parts.
(* its hypotheses hold for every u: the derivative is always defined *)
Example C47_sbp_nonvacuous : forall n h u, (8 <= n)%Z -> 0 < h ->
  exists Du, forall i, (0 <= i < n)%Z -> boundary_derivative 2 1 h (Some Carpenter, Some Carpenter) n u i = Ok (Du i).
Proof. intros n h u Hn Hh. eexists. intros i Hi. rewrite D_values by auto. reflexivity. Qed.

(* So a discrete solution of u_t + u_x = 0 changes its energy only at the two ends, and the
   derivative of any grid function integrates to the difference of its end values. *)
Theorem C47_carpenter_energy_and_mass :
  forall n h, (8 <= n)%Z -> 0 < h -> exists ip, inner_product n ip /\
    forall u Du,
      (forall i, (0 <= i < n)%Z -> boundary_derivative 2 1 h (Some Carpenter, Some Carpenter) n u i = Ok (Du i)) ->
      2 * ip u Du = u (n - 1)%Z ^ 2 - u 0%Z ^ 2 /\ ip (fun _ => 1) Du = u (n - 1)%Z - u 0%Z.
Proof.
  intros n h Hn Hh. destruct (C47_carpenter_summation_by_parts n h Hn Hh) as (ip & I & S & _).
  exists ip. split; auto. intros u Du HD. pose proof I as (L & Sy & Ex & _). split.
  - pose proof (S u u Du Du HD HD) as E. rewrite (Sy Du u) in E. rewrite <- !Rsqr_pow2. unfold Rsqr. lra.
  - assert (H1 : forall i, (0 <= i < n)%Z -> boundary_derivative 2 1 h (Some Carpenter, Some Carpenter) n (fun _ => 1) i = Ok ((fun _ => 0) i)).
    { intros i Hi.
      pose proof (boundary_exact 2 1 h (Some Carpenter, Some Carpenter) n [1] 0 i 3 (or_introl eq_refl) ltac:(lia)
        ltac:(cbn; split; [lia | intros (C & _); discriminate]) ltac:(cbn; split; [lia | intros (C & _); discriminate]) ltac:(cbn; lia) ltac:(lra)) as E.
      assert (E0 : peval (pderivs 1 [1]) (0 + IZR i * h) = 0) by (cbn; ring). rewrite E0 in E. rewrite <- E.
      rewrite !D_values by auto. f_equal. f_equal.
      unfold low, central4, high, samples, sum6. cbn [peval]. rewrite !Rmult_0_r, !Rplus_0_r.
      destruct (Z.ltb i 4); [reflexivity|]. destruct (Z.ltb i (n - 4)); reflexivity. }
    pose proof (S (fun _ => 1) u _ _ H1 HD) as E.
    assert (Z0 : ip (fun _ => 0) u = 0). { pose proof (L (-1) (fun _ => 1) (fun _ => 1) u) as E0. rewrite (Ex (fun _ => -1 * 1 + 1) (fun _ => 0)) in E0 by (intros; ring). lra. }
    rewrite Z0 in E. lra.
Qed.
Print Assumptions C47_carpenter_energy_and_mass.

(* With such a boundary condition at both ends and a central scheme of order 2 or 4, the first
   and second derivatives at the points of the block depend on the points of the block only:
   no halo point is read. *)
Theorem C47_no_halo_points :
  forall k order h lower upper n u v i,
    (1 <= k <= 2)%nat -> order = 1%nat \/ order = 2%nat -> (6 <= n)%Z -> (0 <= i < n)%Z ->
    (forall j, (0 <= j < n)%Z -> u j = v j) ->
    boundary_derivative k order h (Some lower, Some upper) n u i = boundary_derivative k order h (Some lower, Some upper) n v i.
Proof.
  intros k order h lower upper n u v i Hk Ho Hn Hi H.
  assert (P : forall s side, exists l, pairs_of (Some s) order side n = Ok l /\
     (forall c p, In c l -> In p (fst c) -> (0 <= snd c + snd p < n)%Z) /\
     (if side then In (n - 1)%Z (map snd l) /\ In (n - 2)%Z (map snd l) else In 0%Z (map snd l) /\ In 1%Z (map snd l))).
  { assert (K : forall l : list (stencil * Z), (forall c p, In c l -> In p (fst c) -> (0 <= snd c + snd p < n)%Z) <->
       Forall (fun c => Forall (fun z => (0 <= snd c + z < n)%Z) (map snd (fst c))) l).
    { intros l. rewrite Forall_forall. split.
      - intros G c Hc. rewrite Forall_forall. intros z Hz. apply in_map_iff in Hz. destruct Hz as (p & <- & Hp). apply G; auto.
      - intros G c p Hc Hp. specialize (G c Hc). rewrite Forall_forall in G. apply G. apply in_map. auto. }
    intros s side. destruct s; destruct Ho as [-> | ->]; destruct side; (eexists; split; [reflexivity|]; rewrite K; split;
      [cbn [map seq enum combine List.length fst snd point]; repeat constructor; cbn; lia | cbn [map seq enum combine List.length fst snd In Z.of_nat]; lia]). }
  destruct (P lower false) as (l & El & Rl & L0 & L1). destruct (P upper true) as (r & Er & Rr & U0 & U1).
  unfold boundary_derivative. cbn [fst snd]. rewrite El, Er. cbn [bind]. f_equal.
  destruct (find _ _) as [[st a]|] eqn:F.
  - apply find_some in F. destruct F as [F Ea]. apply Z.eqb_eq in Ea. cbn [snd] in Ea. subst a. f_equal.
    assert (R : forall p, In p st -> (0 <= i + snd p < n)%Z).
    { intros p Hp. apply in_app_iff in F. destruct F as [F | F]; [apply (Rl _ p F Hp) | apply (Rr _ p F Hp)]. }
    clear -R H. unfold apply_stencil. induction st as [|p st IH]; cbn; auto. rewrite IH by (intros; apply R; right; auto).
    rewrite H by (apply R; left; auto). reflexivity.
  - assert (N : forall j, In j (map snd l) \/ In j (map snd r) -> i <> j).
    { intros j Hj E. assert (In j (map snd (l ++ r))) as Hin by (rewrite map_app; apply in_app_iff; auto).
      apply in_map_iff in Hin. destruct Hin as (c & Ec & Hc). pose proof (find_none _ _ F c Hc) as E0. cbn beta in E0.
      apply Z.eqb_neq in E0. congruence. }
    pose proof (N 0%Z (or_introl L0)). pose proof (N 1%Z (or_introl L1)).
    pose proof (N (n - 1)%Z (or_intror U0)). pose proof (N (n - 2)%Z (or_intror U1)).
    rewrite !grid_zsum. f_equal.
    assert (G : forall ws zs, (forall z, In z zs -> (0 <= i + z < n)%Z) ->
       zsum ws zs (fun j => u (i + j)%Z) = zsum ws zs (fun j => v (i + j)%Z)).
    { induction ws; intros [|z zs] Hz; cbn [zsum]; auto. rewrite H by (apply Hz; left; auto). rewrite IHws; auto.
      intros; apply Hz; right; auto. }
    apply G. intros z Hz. assert (k = 1%nat \/ k = 2%nat) as [-> | ->] by lia;
      vm_compute in Hz; intuition (subst; lia).
Qed.
Print Assumptions C47_no_halo_points.
Example C47_no_halo_nonvacuous : exists u v : Z -> R, (forall j, (0 <= j < 10)%Z -> u j = v j) /\ u (-1)%Z <> v (-1)%Z /\ u 10%Z <> v 10%Z.
Proof.
  exists (fun _ => 0), (fun j => if Z.leb 0 j then if Z.ltb j 10 then 0 else 1 else 1).
  split; [|split; cbn; lra]. intros j Hj. destruct (Z.leb_spec 0 j); [|lia]. destruct (Z.ltb_spec j 10); [reflexivity | lia].
Qed.

(* The formulas the code builds: all the accesses of an expression moved to the offsets.  Their
   value at a point is the formula applied to the values of the expression along the
   direction, in whatever order the set of accesses is walked. *)
Theorem C47_expressions :
  forall ord d e st nd (J : interp R) M x i, good_order ord -> placed nd e -> List.length x = nd -> dsets e <> [] ->
    exists ts, formula_terms ord d e st = Ok ts /\
      terms_value J M x ts = apply_stencil st (fun j => value J M (move d (j - i) x) e) i.
Proof.
  intros ord d e st nd J M x i Go (Lo & Gv & _) Lx Hd. unfold formula_terms.
  destruct (Go e) as [_ En]. destruct (ord e) as [|[b loc] o] eqn:Eo.
  { destruct (dsets e) as [|a l] eqn:Ed; [congruence|]. exfalso. specialize (En a). cbn in En. apply En. left. auto. }
  assert (Hloc : loc = here nd). { apply (Lo b loc). apply En. left. auto. }
  eexists. split; [reflexivity|]. unfold terms_value, apply_stencil. induction st as [|p st IH]; cbn [map fold_right fst snd]; auto.
  rewrite IH. f_equal. f_equal. rewrite relocate_any by auto. rewrite Hloc, shift_move. fold (put nd d (snd p) e).
  rewrite <- (at_point_value R J M (fun _ => 0)), at_point_put, at_point_value; auto.
  - f_equal. f_equal. lia.
  - unfold put. rewrite syms_map_dsets. auto.
Qed.
Print Assumptions C47_expressions.
Example C47_expressions_nonvacuous : exists e, placed 2 e /\ dsets e <> [] /\ List.length (dsets e) = 2%nat /\ good_order std_order.
Proof.
  exists (EApp HMul [EDat "u" [0; 0]%Z; EDat "rho" [0; 0]%Z]). split; [|split; [discriminate | split; [reflexivity | apply std_order_good]]].
  unfold placed, local. split; [|split; reflexivity]. intros b ix H. cbn in H. destruct H as [H | [H | []]]; injection H as <- <-; reflexivity.
Qed.
