(* C79: discretisation of the simulation equations on a block whose boundary conditions replace
   the central formulas next to the boundaries. *)
From Verif Require Import Base Expr ExprProofs FDModel FDSpec FDProofs WorkModel WorkProofs ShiftModel ShiftSpec ShiftProofs DiscModel DiscSpec DiscProofs DiscRun DiscMain DiscProps.
From Verif Require Import OneModel OneSpec OneProps SideModel SideSpec SideRun SideMain SideRefuse.
From Coq Require Import QArith ZArith Reals Qreals Lia Lra List Permutation.
Import ListNotations.
Local Close Scope Q_scope.
Local Open Scope list_scope.

(* C79.  As C31, for a block where any of the boundary conditions may use any of the one-sided
   schemes (sd): after the kernels have run, from any contents of the memory, the residual
   array of every equation holds at every grid point the right-hand side with every derivative
   replaced by the formula that belongs to that point, and nothing else is changed apart from
   the work arrays.
   Missing for the full claim: as for C31. *)
Theorem C79_residual_partial :
  forall J k ndim dirof inv dord sord h sizes sd eqs ccds vcds,
  real_arithmetic J ->
  (forall M x d m, value J M x (inv d m) = (/ h d ^ m)%R) ->
  (forall e, enumerates (dord e) e) ->
  (forall l, Permutation l (sord l)) ->
  (forall l l', Permutation l l' -> inner_first l' -> inner_first (sord l)) ->
  List.length sizes = ndim -> room sd sizes -> low_orders sd dirof eqs ->
  well_formed ndim dirof (fun b => exists i, b = wk_name i) eqs ->
  lists_derivatives eqs (fun t => ~ viscous_term t) ccds ->
  lists_derivatives eqs viscous_term vcds ->
  ccds <> [] -> (vcds = [] -> forall r rhs t, In (r, rhs) eqs -> In t (terms rhs) -> ~ viscous_term t) ->
  exists ks, sbli_rhs_discretisation1 k ndim dirof inv dord sord sizes sd ccds vcds eqs = Ok ks /\
    forall M, (forall r rhs x, In (r, rhs) eqs -> grid_point sizes x ->
        exec1 J k sizes ks M r x = sem1 J k dirof h sizes sd M rhs x) /\
      (forall b x, (forall i, b <> wk_name i) -> ~ In b (map fst eqs) -> exec1 J k sizes ks M b x = M b x).
Proof.
  intros J k ndim dirof inv dord sord h sizes sd eqs ccds vcds HJ Hi Hd Hp Hn Hs Hr Hl WF HC HV Nc Nv.
  destruct (residual_ok1 J k ndim dirof inv dord sord h sizes sd HJ Hi Hd Hs Hr Hp Hn eqs WF Hl ccds vcds HC HV Nc Nv) as (ks & E & X).
  exists ks. split; auto. intros M. destruct (X M) as (A & B).
  split; auto. intros b x Nb Nr. apply B; auto. intros (i & Ei). apply (Nb i Ei).
Qed.
Print Assumptions C79_residual_partial.

(* Whatever the work arrays and the residual arrays hold before does not influence the
   residuals. *)
Theorem C79_no_stale_value_partial :
  forall J k ndim dirof inv dord sord h sizes sd eqs ccds vcds,
  real_arithmetic J ->
  (forall M x d m, value J M x (inv d m) = (/ h d ^ m)%R) ->
  (forall e, enumerates (dord e) e) ->
  (forall l, Permutation l (sord l)) ->
  (forall l l', Permutation l l' -> inner_first l' -> inner_first (sord l)) ->
  List.length sizes = ndim -> room sd sizes -> low_orders sd dirof eqs ->
  well_formed ndim dirof (fun b => exists i, b = wk_name i) eqs ->
  lists_derivatives eqs (fun t => ~ viscous_term t) ccds ->
  lists_derivatives eqs viscous_term vcds ->
  ccds <> [] -> (vcds = [] -> forall r rhs t, In (r, rhs) eqs -> In t (terms rhs) -> ~ viscous_term t) ->
  exists ks, sbli_rhs_discretisation1 k ndim dirof inv dord sord sizes sd ccds vcds eqs = Ok ks /\
    forall M M', (forall b, (forall i, b <> wk_name i) -> ~ In b (map fst eqs) -> M b = M' b) ->
      forall r rhs x, In (r, rhs) eqs -> grid_point sizes x -> exec1 J k sizes ks M r x = exec1 J k sizes ks M' r x.
Proof.
  intros J k ndim dirof inv dord sord h sizes sd eqs ccds vcds HJ Hi Hd Hp Hn Hs Hr Hl WF HC HV Nc Nv.
  destruct (residual_ok1 J k ndim dirof inv dord sord h sizes sd HJ Hi Hd Hs Hr Hp Hn eqs WF Hl ccds vcds HC HV Nc Nv) as (ks & E & X).
  exists ks. split; auto. intros M M' A r rhs x Hin Hx. rewrite !(proj1 (X _) r rhs x) by auto.
  apply sem1_agree. intros b ix Hb y. destruct (wf_arrays _ _ _ _ WF r rhs b ix Hin Hb) as (_ & Nb & Nr).
  rewrite A; auto. intros i Eb. apply Nb. exists i. auto.
Qed.
Print Assumptions C79_no_stale_value_partial.

(* With one-sided formulas at both ends of every direction and a central scheme of order 2 or
   4, the residuals at the grid points depend on the values at the grid points alone: whatever
   the halo points hold makes no difference. *)
Lemma sem1_grid : forall J k dirof h sizes sd M M' e x,
  (1 <= k <= 2)%nat ->
  (forall d, (d < List.length sizes)%nat -> exists l u, sd d = (Some l, Some u)) ->
  (forall d, (d < List.length sizes)%nat -> (6 <= nth d sizes 0)%Z) ->
  (forall b ix, In (b, ix) (dsets e) -> ix = repeat 0%Z (List.length sizes)) ->
  (forall v, inside v e -> derivative v -> exists a n cs, v = EApp HCD (a :: ESym KCoord n :: cs) /\
     (dirof n < List.length sizes)%nat /\ (List.length cs <= 1)%nat) ->
  (forall b ix y, In (b, ix) (dsets e) -> grid_point sizes y -> M b y = M' b y) ->
  grid_point sizes x -> sem1 J k dirof h sizes sd M e x = sem1 J k dirof h sizes sd M' e x.
Proof.
  intros J k dirof h sizes sd M M' e x Hk Hsd Hn Hp Hv HM. revert x.
  induction e as [q|kd n|b ix|hd args IH] using expr_ind'; intros x Hx; auto.
  - cbn [sem1]. assert (L : List.length x = List.length sizes) by (apply grid_point_range with (k := k) in Hx; eapply in_range_length; eauto).
    rewrite (Hp b ix (or_introl eq_refl)), vadd_0_r by auto. apply (HM b ix); auto. left. auto.
  - rewrite Forall_forall in IH.
    assert (A : forall a y, In a args -> grid_point sizes y -> sem1 J k dirof h sizes sd M a y = sem1 J k dirof h sizes sd M' a y).
    { intros a y Ha Hy. apply IH; auto.
      - intros b ix Hb. apply (Hp b ix). rewrite dsets_app. apply in_flat_map. eauto.
      - intros v Hi Hd. apply Hv; auto. econstructor; eauto.
      - intros b ix z Hb. apply (HM b ix). rewrite dsets_app. apply in_flat_map. eauto. }
    assert (E : map (fun a => sem1 J k dirof h sizes sd M a x) args = map (fun a => sem1 J k dirof h sizes sd M' a x) args)
      by (apply map_ext_in; auto).
    destruct hd; cbn [sem1]; try (rewrite E; reflexivity).
    destruct args as [|a args]; [reflexivity|].
    destruct (Hv (EApp HCD (a :: args))) as (a' & n & cs & Ev & Hd & Lc); [constructor | eexists _, _; reflexivity|].
    injection Ev as <- ->. cbn [direction]. destruct (Hsd (dirof n) Hd) as (l & u & Es). rewrite Es.
    unfold difference. rewrite (C47_no_halo_points k (List.length (ESym KCoord n :: cs)) (h (dirof n)) l u (nth (dirof n) sizes 0%Z) _
      (fun i => sem1 J k dirof h sizes sd M' a (at_index (dirof n) i x))); auto.
    + cbn [List.length]. lia.
    + apply grid_point_range with (k := k) in Hx. eapply in_range_nth; eauto.
    + intros j Hj. apply A; [left; auto|]. apply grid_point_range with (k := 0%nat).
      apply grid_point_range with (k := 0%nat) in Hx.
      assert (W : in_range 0 sizes [dirof n] (at_index (dirof n) j x) = true).
      { eapply in_range_at_index; eauto; [left; auto | lia]. }
      clear -W. unfold in_range in *. apply andb_true_iff in W. destruct W as [W1 W2]. apply andb_true_iff. split; auto.
      rewrite forallb_forall in *. intros e He. specialize (W2 e He). cbn [existsb] in *.
      apply andb_true_iff in W2. destruct W2 as [P Q]. apply Z.leb_le in P. apply Z.ltb_lt in Q.
      apply andb_true_iff. rewrite Z.leb_le, Z.ltb_lt. destruct (e =? dirof n)%nat; cbn [orb] in *; lia.
Qed.
Theorem C79_no_halo_points_partial :
  forall J k ndim dirof inv dord sord h sizes sd eqs ccds vcds,
  real_arithmetic J ->
  (forall M x d m, value J M x (inv d m) = (/ h d ^ m)%R) ->
  (forall e, enumerates (dord e) e) ->
  (forall l, Permutation l (sord l)) ->
  (forall l l', Permutation l l' -> inner_first l' -> inner_first (sord l)) ->
  List.length sizes = ndim -> room sd sizes -> low_orders sd dirof eqs ->
  well_formed ndim dirof (fun b => exists i, b = wk_name i) eqs ->
  lists_derivatives eqs (fun t => ~ viscous_term t) ccds ->
  lists_derivatives eqs viscous_term vcds ->
  ccds <> [] -> (vcds = [] -> forall r rhs t, In (r, rhs) eqs -> In t (terms rhs) -> ~ viscous_term t) ->
  (1 <= k <= 2)%nat -> (forall d, (d < ndim)%nat -> exists l u, sd d = (Some l, Some u)) ->
  exists ks, sbli_rhs_discretisation1 k ndim dirof inv dord sord sizes sd ccds vcds eqs = Ok ks /\
    forall M M', (forall b x, (forall i, b <> wk_name i) -> ~ In b (map fst eqs) -> grid_point sizes x -> M b x = M' b x) ->
      forall r rhs x, In (r, rhs) eqs -> grid_point sizes x -> exec1 J k sizes ks M r x = exec1 J k sizes ks M' r x.
Proof.
  intros J k ndim dirof inv dord sord h sizes sd eqs ccds vcds HJ Hi Hd Hp Hn Hs Hr Hl WF HC HV Nc Nv Hk Hsd.
  destruct (residual_ok1 J k ndim dirof inv dord sord h sizes sd HJ Hi Hd Hs Hr Hp Hn eqs WF Hl ccds vcds HC HV Nc Nv) as (ks & E & X).
  exists ks. split; auto. intros M M' A r rhs x Hin Hx. rewrite !(proj1 (X _) r rhs x) by auto.
  assert (Sch : forall d, (d < List.length sizes)%nat -> has_scheme sd d).
  { intros d Hd' C. destruct (Hsd d) as (l & u & Es); [lia|]. rewrite Es in C. discriminate. }
  apply sem1_grid; auto.
  - intros d Hd'. apply Hsd. lia.
  - intros b ix Hb. destruct (wf_arrays _ _ _ _ WF r rhs b ix Hin Hb) as (-> & _). congruence.
  - intros v Hi' Hd'. destruct (wf_derivative _ _ _ _ WF r rhs v Hin Hi' Hd') as (a & n & m & -> & Hn' & _).
    exists a, n, (repeat (ESym KCoord n) m). split; [reflexivity|]. split; [lia|].
    apply (Hl r rhs a n); auto. apply Sch. lia.
  - intros b ix y Hb Hy. destruct (wf_arrays _ _ _ _ WF r rhs b ix Hin Hb) as (_ & Nb & Nr).
    apply A; auto. intros i Eb. apply Nb. exists i. auto.
Qed.
Print Assumptions C79_no_halo_points_partial.

(* Without such boundary conditions the kernels are those of C31. *)
Definition all_plain (r : result (list kernel)) : result (list skernel) :=
  match r with Ok ks => Ok (map plain_kernel ks) | Err e => Err e end.
Lemma discretise1_plain : forall k dirof inv dord sizes v,
  discretise1 k dirof inv dord sizes (fun _ => (None, None)) v =
  match discretise k dirof inv dord v with Ok r => Ok (Plain r) | Err e => Err e end.
Proof.
  intros. unfold discretise1, discretise, central_form, discretise_derivative. destruct (homogeneous dirof v); [|reflexivity].
  destruct (dsets (cd_arg v)); [reflexivity|]. destruct (disc_terms _ _ _ _ _); reflexivity.
Qed.
Theorem C79_unmodified :
  forall k ndim dirof inv dord sord sizes eqs ccds vcds,
  sbli_rhs_discretisation1 k ndim dirof inv dord sord sizes (fun _ => (None, None)) ccds vcds eqs =
  all_plain (sbli_rhs_discretisation k ndim dirof inv dord sord ccds vcds eqs) /\
  forall J ks M, exec1 J k sizes (map plain_kernel ks) M = exec J k sizes ks M.
Proof.
  intros k ndim dirof inv dord sord sizes eqs ccds vcds. split.
  2: { intros J ks. induction ks as [|kn ks IH]; intros M; [reflexivity|]. cbn [map]. rewrite exec_cons1, exec_plain. apply IH. }
  assert (G : forall works vs c, conv_group1 k ndim dirof inv dord sizes (fun _ => (None, None)) works c vs =
    match conv_group k ndim dirof inv dord works c vs with Ok p => Ok (fst p, map plain_kernel (snd p)) | Err e => Err e end).
  { intros works. induction vs as [|v vs IH]; intros c; cbn [conv_group1 conv_group]; [reflexivity|].
    rewrite discretise1_plain. destruct (discretise k dirof inv dord _); cbn [bind]; [|reflexivity].
    rewrite IH. destruct (conv_group k ndim dirof inv dord works _ vs); cbn [bind]; reflexivity. }
  assert (GG : forall works c g, conv_groups1 k ndim dirof inv dord sizes (fun _ => (None, None)) works c g =
    all_plain (conv_groups k ndim dirof inv dord works c g)).
  { intros works c. induction g as [|[d vs] g IH]; cbn [conv_groups1 conv_groups]; [reflexivity|].
    rewrite G. destruct (conv_group k ndim dirof inv dord works c vs) as [p|]; cbn [bind]; [|reflexivity].
    rewrite IH. destruct (conv_groups k ndim dirof inv dord works c g); cbn [bind all_plain]; [|reflexivity].
    cbn [fst snd]. rewrite !map_app. destruct (fst p); reflexivity. }
  assert (CC : forall e, convective_kernels1 k ndim dirof inv dord sord sizes (fun _ => (None, None)) ccds e =
    all_plain (convective_kernels k ndim dirof inv dord sord ccds e)).
  { intros e. unfold convective_kernels1, convective_kernels. cbv zeta. destruct (group_by_direction dirof ccds) as [|p g]; [reflexivity|].
    rewrite GG. destruct (conv_groups _ _ _ _ _ _ _ _); cbn [bind all_plain]; [|reflexivity]. rewrite map_app. reflexivity. }
  assert (VV : forall e, viscous_kernels1 k ndim dirof inv dord sord sizes (fun _ => (None, None)) vcds e =
    all_plain (viscous_kernels k ndim dirof inv dord sord vcds e)).
  { intros e. unfold viscous_kernels1, viscous_kernels. cbv zeta. destruct vcds as [|v0 vc]; [reflexivity|].
    set (vs := v0 :: vc). generalize (sort_by_coordinates vs). intros s.
    assert (Mm : forall w, mapM (fun v => bind (discretise1 k dirof inv dord sizes (fun _ => (None, None)) (traverse ndim w v)) (fun r =>
        Ok {| sk_eqs := [(lookup v w, r)]; sk_ext := extended dirof vs v |})) s =
      all_plain (mapM (fun v => bind (discretise k dirof inv dord (traverse ndim w v)) (fun r =>
        Ok {| k_eqs := [(lookup v w, r)]; k_ext := extended dirof vs v |})) s)).
    { intros w. induction s as [|v s IH]; cbn [mapM]; [reflexivity|]. rewrite discretise1_plain.
      destruct (discretise k dirof inv dord _); cbn [bind]; [|reflexivity]. rewrite IH.
      match goal with |- context [all_plain (mapM ?f s)] => destruct (mapM f s) end; cbn [bind all_plain]; reflexivity. }
    rewrite Mm. match goal with |- context [all_plain (mapM ?f s)] => destruct (mapM f s) end; cbn [bind all_plain]; [|reflexivity]. rewrite map_app. reflexivity. }
  unfold sbli_rhs_discretisation1, sbli_rhs_discretisation. rewrite CC.
  destruct (convective_kernels _ _ _ _ _ _ _ _); cbn [bind all_plain]; [|reflexivity]. rewrite VV.
  destruct (viscous_kernels _ _ _ _ _ _ _ _); cbn [bind all_plain]; [|reflexivity]. rewrite map_app. reflexivity.
Qed.
Print Assumptions C79_unmodified.

(* Third and higher derivatives in a direction with a one-sided scheme are refused. *)
Theorem C79_refused :
  forall k ndim dirof inv dord sord sizes sd eqs ccds vcds,
  (forall e, enumerates (dord e) e) -> List.length sizes = ndim ->
  well_formed ndim dirof (fun b => exists i, b = wk_name i) eqs ->
  lists_derivatives eqs (fun t => ~ viscous_term t) ccds ->
  lists_derivatives eqs viscous_term vcds ->
  (exists r rhs a n cs, In (r, rhs) eqs /\ inside (EApp HCD (a :: ESym KCoord n :: cs)) rhs /\
     has_scheme sd (dirof n) /\ (2 <= List.length cs)%nat) ->
  sbli_rhs_discretisation1 k ndim dirof inv dord sord sizes sd ccds vcds eqs = Err NotImplemented.
Proof.
  intros k ndim dirof inv dord sord sizes sd eqs ccds vcds Hd Hs WF HC HV H.
  exact (refused k ndim dirof inv dord sord sizes sd Hd Hs eqs ccds vcds WF HC HV H).
Qed.
Print Assumptions C79_refused.

(* Four points away from all boundaries a right-hand side without nested derivatives is
   discretised with the central formulas. *)
Lemma difference_inside : forall k m hd b n u i, (m = 1 \/ m = 2)%nat \/ b = (None, None) -> (4 <= i < n - 4)%Z ->
  difference k m hd b n u i = grid_formula (2 * Z.of_nat k) m hd u i.
Proof.
  intros k m hd b n u i Hm Hi. unfold difference, boundary_derivative.
  assert (P : forall o side, o = None \/ (m = 1 \/ m = 2)%nat -> exists l, pairs_of o m side n = Ok l /\ forall c, In c l -> i <> snd c).
  { intros [s|] side H; [|exists []; split; [reflexivity | intros c []]].
    destruct H as [H | H]; [discriminate|].
    assert (K : forall l : list (stencil * Z), (forall z, In z (map snd l) -> i <> z) -> forall c, In c l -> i <> snd c)
      by (intros l G c Hc; apply G; apply in_map; auto).
    destruct s, side; destruct H as [-> | ->]; (eexists; split; [reflexivity|]; apply K;
      cbn [map seq BCModel.enum combine List.length fst snd In Z.of_nat]; intros z Hz;
      repeat (destruct Hz as [<- | Hz]; [lia|]); destruct Hz). }
  destruct (P (fst b) false) as (l & El & Hl). { destruct Hm as [Hm | ->]; auto. }
  destruct (P (snd b) true) as (r & Er & Hr). { destruct Hm as [Hm | ->]; auto. }
  rewrite El, Er. cbn [bind]. destruct (find _ _) as [[st z]|] eqn:F; [|reflexivity]. exfalso.
  apply find_some in F. destruct F as [F Ez]. apply Z.eqb_eq in Ez. cbn [snd] in Ez. subst z.
  apply in_app_iff in F. destruct F as [F | F]; [apply (Hl _ F) | apply (Hr _ F)]; reflexivity.
Qed.
Theorem C79_central_inside :
  forall J k ndim dirof h sizes sd M e x,
  List.length sizes = ndim -> List.length x = ndim ->
  (forall v, inside v e -> derivative v -> exists a n cs, v = EApp HCD (a :: ESym KCoord n :: cs) /\
     (dirof n < ndim)%nat /\ (has_scheme sd (dirof n) -> (List.length cs <= 1)%nat) /\ (forall w, inside w a -> ~ derivative w)) ->
  (forall d, (d < ndim)%nat -> (4 <= nth d x 0 < nth d sizes 0 - 4)%Z) ->
  sem1 J k dirof h sizes sd M e x = sem J k dirof h M e x.
Proof.
  intros J k ndim dirof h sizes sd M e x Ls Lx Hv Hx.
  assert (Flat : forall a, (forall w, inside w a -> ~ derivative w) -> cds_post a = []).
  { intros a H. destruct (cds_post a) as [|c l] eqn:E; auto. exfalso.
    assert (Hc : In c (cds_post a)) by (rewrite E; left; auto). apply in_cds in Hc. destruct Hc. eapply H; eauto. }
  induction e as [q|kd n|b ix|hd args IH] using expr_ind'; auto.
  rewrite Forall_forall in IH.
  assert (E : map (fun a => sem1 J k dirof h sizes sd M a x) args = map (fun a => sem J k dirof h M a x) args).
  { apply map_ext_in. intros a Ha. apply IH; auto. intros v Hi Hd. apply Hv; auto. econstructor; eauto. }
  destruct hd; cbn [sem1 sem]; try (rewrite E; reflexivity).
  destruct args as [|a args]; [reflexivity|].
  destruct (Hv (EApp HCD (a :: args))) as (a' & n & cs & Ev & Hd & Lc & Fl); [constructor | eexists _, _; reflexivity|].
  injection Ev as <- ->. cbn [direction].
  rewrite difference_inside.
  - rewrite grid_at. apply grid_ext. intros i. rewrite sem1_flat, sem_flat by (apply Flat; auto). f_equal.
    unfold at_index. f_equal. lia.
  - destruct (sd (dirof n)) as [l u] eqn:Es.
    assert (C : (l, u) = (None, None) \/ (l, u) <> (None, None)) by (destruct l, u; auto; right; discriminate).
    destruct C as [C | C]; [right; auto | left]. cbn [List.length].
    assert (has_scheme sd (dirof n)) as Hs by (unfold has_scheme; rewrite Es; auto). specialize (Lc Hs). lia.
  - apply Hx. auto.
Qed.
Print Assumptions C79_central_inside.

(* One dimension, Carpenter boundaries at both ends, fourth order inside, at least eight
   points: for an equation in conservation form, whatever the flux is, the residual integrates
   to the flux at the first point minus the flux at the last one, in an inner product that
   depends on the grid only.  So the solution changes in total by what goes through the ends. *)
Theorem C79_carpenter_conservation_partial :
  forall J dirof inv dord sord h n sd eqs ccds vcds,
  real_arithmetic J ->
  (forall M x d m, value J M x (inv d m) = (/ h d ^ m)%R) ->
  (forall e, enumerates (dord e) e) ->
  (forall l, Permutation l (sord l)) ->
  (forall l l', Permutation l l' -> inner_first l' -> inner_first (sord l)) ->
  low_orders sd dirof eqs ->
  well_formed 1 dirof (fun b => exists i, b = wk_name i) eqs ->
  lists_derivatives eqs (fun t => ~ viscous_term t) ccds ->
  lists_derivatives eqs viscous_term vcds ->
  ccds <> [] -> (vcds = [] -> forall r rhs t, In (r, rhs) eqs -> In t (terms rhs) -> ~ viscous_term t) ->
  sd 0%nat = (Some Carpenter, Some Carpenter) -> (8 <= n)%Z -> (0 < h 0%nat)%R ->
  exists ks ip, sbli_rhs_discretisation1 2 1 dirof inv dord sord [n] sd ccds vcds eqs = Ok ks /\ inner_product n ip /\
    forall M r flux c, In (r, EApp HMul [ENum (-1); EApp HCD [flux; ESym KCoord c]]) eqs -> (forall w, inside w flux -> ~ derivative w) ->
      ip (fun _ => 1%R) (fun i => exec1 J 2 [n] ks M r [i]) = (value J M [0%Z] flux - value J M [(n - 1)%Z] flux)%R.
Proof.
  intros J dirof inv dord sord h n sd eqs ccds vcds HJ Hi Hd Hp Hn Hl WF HC HV Nc Nv Es Hn8 Hh.
  assert (Hr : room sd [n]).
  { intros d Hd' _. cbn [List.length] in Hd'. destruct d; [cbn [nth]; lia | lia]. }
  destruct (residual_ok1 J 2 1 dirof inv dord sord h [n] sd HJ Hi Hd eq_refl Hr Hp Hn eqs WF Hl ccds vcds HC HV Nc Nv) as (ks & E & X).
  destruct (C47_carpenter_energy_and_mass n (h 0%nat) Hn8 Hh) as (ip & I & Mass).
  exists ks, ip. split; [auto|]. split; [auto|]. intros M r flux c Hin Fl.
  assert (Hc : dirof c = 0%nat).
  { destruct (wf_derivative _ _ _ _ WF _ _ (EApp HCD [flux; ESym KCoord c]) Hin) as (a' & n' & m & Ev & Hd' & _).
    - econstructor; [right; left; reflexivity | constructor].
    - eexists _, _. reflexivity.
    - injection Ev as _ <- _. lia. }
  assert (Fc : cds_post flux = []).
  { destruct (cds_post flux) as [|v l] eqn:Ef; auto. exfalso.
    assert (Hv : In v (cds_post flux)) by (rewrite Ef; left; auto). apply in_cds in Hv. destruct Hv. eapply Fl; eauto. }
  set (u := fun i : Z => value J M [i] flux).
  assert (HD : forall i, (0 <= i < n)%Z -> boundary_derivative 2 1 (h 0%nat) (Some Carpenter, Some Carpenter) n u i =
     Ok (difference 2 1 (h 0%nat) (Some Carpenter, Some Carpenter) n u i)).
  { intros i Hi'. unfold difference. destruct (C47_sbp_nonvacuous n (h 0%nat) u Hn8 Hh) as (Du & HDu). rewrite (HDu i Hi'). reflexivity. }
  destruct (Mass u _ HD) as (_ & Ms).
  assert (Res : forall i, (0 <= i < n)%Z -> exec1 J 2 [n] ks M r [i] = (-1 * difference 2 1 (h 0%nat) (Some Carpenter, Some Carpenter) n u i)%R).
  { intros i Hi'. rewrite (proj1 (X M) r _ [i] Hin) by (constructor; [auto | constructor]).
    destruct HJ as (Jn & _ & Jm). cbn [sem1 map direction List.length]. rewrite Jm. cbn [fold_right]. rewrite Jn, Hc, Es.
    cbn [nth]. rewrite Rmult_1_r.
    replace (Q2R (-1)) with (-1)%R by (unfold Q2R; cbn; lra). f_equal.
    apply difference_ext. intros j. rewrite sem1_flat by auto. unfold u, at_index. cbn [nth move]. do 2 f_equal. lia. }
  destruct I as (Lin & Sym & Ext & _).
  rewrite Sym, (Ext _ (fun i => (-1 * difference 2 1 (h 0%nat) (Some Carpenter, Some Carpenter) n u i + 0 * 0)%R)).
  2: { intros i Hi'. rewrite Res by auto. ring. }
  assert (Z0 : forall w, ip (fun _ => (0 * 0)%R) w = 0%R).
  { intros w. pose proof (Lin (-1)%R (fun _ => 1%R) (fun _ => 1%R) w) as E0.
    rewrite (Ext (fun _ => (-1 * 1 + 1)%R) (fun _ => (0 * 0)%R)) in E0 by (intros; ring). lra. }
  rewrite (Lin (-1)%R (difference 2 1 (h 0%nat) (Some Carpenter, Some Carpenter) n u) (fun _ => (0 * 0)%R)), Z0, Sym, Ms.
  unfold u. lra.
Qed.
Print Assumptions C79_carpenter_conservation_partial.

(* Cases that meet the hypotheses: the two-dimensional system of C31 on a grid with a Carpenter
   boundary at the lower end of the first direction and other schemes in the second. *)
Definition ex_sides (d : nat) : option bscheme * option bscheme :=
  match d with 0%nat => (Some Carpenter, None) | 1%nat => (Some ReducedAccess, Some ReducedOrder) | _ => (None, None) end.
Definition ex_sides2 (d : nat) : option bscheme * option bscheme := (Some Carpenter, Some ReducedOrder).
Lemma ex_room : forall sd, room sd [10; 20]%Z.
Proof. intros sd d Hd _. destruct d as [|[|d]]; cbn in *; lia. Qed.
Lemma ex_low : forall sd, low_orders sd dir3 ex_sys.
Proof.
  intros sd r rhs a n cs Hin Hi _.
  assert (D : In (EApp HCD (a :: ESym KCoord n :: cs)) [ex_c1; ex_c2; ex_v1; ex_v2; ex_v3]).
  { apply inside_cds in Hi; [|eexists _, _; reflexivity].
    destruct Hin as [E | [E | []]]; injection E as <- <-; vm_compute in Hi; vm_compute; tauto. }
  destruct D as [E | [E | [E | [E | [E | []]]]]]; injection E as _ _ <-; cbn; lia.
Qed.
Example C79_nonvacuous :
  exists ks, sbli_rhs_discretisation1 2 2 dir3 inv1 set_order inner_order [10; 20]%Z ex_sides [ex_c1; ex_c2] [ex_v2; ex_v1; ex_v3] ex_sys = Ok ks /\
    List.length ks = 8%nat /\
    (forall M r rhs x, In (r, rhs) ex_sys -> grid_point [10; 20]%Z x ->
      exec1 J1 2 [10; 20]%Z ks M r x = sem1 J1 2 dir3 (fun _ => 1%R) [10; 20]%Z ex_sides M rhs x) /\
    exists M x, grid_point [10; 20]%Z x /\ sem1 J1 2 dir3 (fun _ => 1%R) [10; 20]%Z ex_sides M ex_c2 x <> sem J1 2 dir3 (fun _ => 1%R) M ex_c2 x.
Proof.
  destruct ex_sys_ok as (A & B & C).
  destruct (C79_residual_partial J1 2 2 dir3 inv1 set_order inner_order (fun _ => 1%R) [10; 20]%Z ex_sides ex_sys _ _
    J1_real inv1_ok set_order_ok inner_order_perm inner_order_inner eq_refl (ex_room _) (ex_low _) A B C) as (ks & E & X); try discriminate.
  exists ks. split; auto. split; [|split; [intros M; apply (X M)|]].
  - assert (Q : match sbli_rhs_discretisation1 2 2 dir3 inv1 set_order inner_order [10; 20]%Z ex_sides [ex_c1; ex_c2] [ex_v2; ex_v1; ex_v3] ex_sys with
      | Ok ks => List.length ks | _ => 0%nat end = 8%nat) by (cbv -[entry bc4 Rmult Rdiv IZR Ropp Rplus]; reflexivity).
    rewrite E in Q. exact Q.
  - exists (fun _ x => if Z.eqb (nth 1 x 0%Z) (-1)%Z then 1%R else 0%R), [0; 0]%Z. split; [repeat constructor; lia|].
    assert (V : sem1 J1 2 dir3 (fun _ => 1%R) [10; 20]%Z ex_sides (fun _ x => if Z.eqb (nth 1 x 0%Z) (-1)%Z then 1%R else 0%R) ex_c2 [0; 0]%Z = 0%R).
    { unfold ex_c2, difference, at2, x1. cbn [sem1 direction List.length dir3 String.eqb Ascii.eqb Bool.eqb nth ex_sides].
      unfold difference, boundary_derivative.
      cbn [fst snd pairs_of expr_cond_pairs rows access_rows order_rows bind map seq BCModel.enum combine List.length app find Z.eqb Z.of_nat Z.mul Z.add].
      unfold apply_stencil. cbn. lra. }
    rewrite V. unfold ex_c2, at2, x1.
    cbn [sem direction List.length dir3 String.eqb Ascii.eqb Bool.eqb move vadd]. unfold grid_formula.
    set (l := combine _ _). vm_compute in l. subst l. cbn [fold_right fst snd vadd move nth Z.add Z.eqb Pos.eqb].
    unfold Q2R. cbn. intros Eq. field_simplify in Eq. lra.
Qed.
Example C79_no_halo_nonvacuous :
  exists ks, sbli_rhs_discretisation1 2 2 dir3 inv1 set_order inner_order [10; 20]%Z ex_sides2 [ex_c1; ex_c2] [ex_v2; ex_v1; ex_v3] ex_sys = Ok ks /\
    forall M M', (forall b x, (forall i, b <> wk_name i) -> ~ In b (map fst ex_sys) -> grid_point [10; 20]%Z x -> M b x = M' b x) ->
      forall r rhs x, In (r, rhs) ex_sys -> grid_point [10; 20]%Z x -> exec1 J1 2 [10; 20]%Z ks M r x = exec1 J1 2 [10; 20]%Z ks M' r x.
Proof.
  destruct ex_sys_ok as (A & B & C).
  apply (C79_no_halo_points_partial J1 2 2 dir3 inv1 set_order inner_order (fun _ => 1%R) [10; 20]%Z ex_sides2 ex_sys _ _
    J1_real inv1_ok set_order_ok inner_order_perm inner_order_inner eq_refl (ex_room _) (ex_low _) A B C); try discriminate; [lia|].
  intros d _. eexists _, _. reflexivity.
Qed.
(* u_t = -u_x, and u_t = -u_x - u_xxx *)
Definition ex_u : expr := EDat "u" [0%Z].
Definition ex_d1 : expr := EApp HCD [ex_u; x0].
Definition ex_d3 : expr := EApp HCD [ex_u; x0; x0; x0].
Definition ex_advection : list (string * expr) := [("Residual0"%string, EApp HMul [ENum (-1); ex_d1])].
Definition ex_third : list (string * expr) := [("Residual0"%string, EApp HAdd [EApp HMul [ENum (-1); ex_d1]; EApp HMul [ENum (-1); ex_d3]])].
Lemma ex_line_ok : forall eqs ds, (eqs = ex_advection /\ ds = [ex_d1]) \/ (eqs = ex_third /\ ds = [ex_d1; ex_d3]) ->
  well_formed 1 dir3 (fun b => exists i, b = wk_name i) eqs /\
  lists_derivatives eqs (fun t => ~ viscous_term t) ds /\ lists_derivatives eqs viscous_term [].
Proof.
  intros eqs ds Hc.
  assert (Ds : forall v, In v ds -> v = ex_d1 \/ v = ex_d3) by (destruct Hc as [[_ ->] | [_ ->]]; cbn; intuition).
  assert (Tm : forall r rhs t, In (r, rhs) eqs -> In t (terms rhs) -> has_re t = false /\ forall v, In v (cds_post t) -> In v ds).
  { intros r rhs t Hin Ht. destruct Hc as [[-> ->] | [-> ->]]; destruct Hin as [E | []]; injection E as <- <-; cbn [terms] in Ht;
      repeat (destruct Ht as [<- | Ht]; [split; [vm_compute; reflexivity | intros v Hv; vm_compute in Hv; vm_compute; tauto]|]); destruct Ht. }
  assert (Dr : forall r rhs v, In (r, rhs) eqs -> In v (cds_post rhs) -> In v ds).
  { intros r rhs v Hin Hv. destruct Hc as [[-> ->] | [-> ->]]; destruct Hin as [E | []]; injection E as <- <-; vm_compute in Hv; vm_compute; tauto. }
  split; [|split].
  - constructor.
    + destruct Hc as [[-> _] | [-> _]]; repeat constructor; cbn; intuition discriminate.
    + intros r rhs Hin. destruct Hc as [[-> _] | [-> _]]; destruct Hin as [E | []]; injection E as <- <-; apply not_wk; reflexivity.
    + intros r rhs b ix Hin Hb. destruct Hc as [[-> _] | [-> _]]; destruct Hin as [E | []]; injection E as <- <-; vm_compute in Hb;
        repeat (destruct Hb as [Hb | Hb]; [injection Hb as <- <-; split; [reflexivity|]; split; [apply not_wk; reflexivity|]; cbn; intuition discriminate|]); destruct Hb.
    + intros r rhs Hin. destruct Hc as [[-> _] | [-> _]]; destruct Hin as [E | []]; injection E as <- <-; eauto.
    + intros r rhs Hin. destruct Hc as [[-> _] | [-> _]]; destruct Hin as [E | []]; injection E as <- <-; apply plain_ok; reflexivity.
    + intros r rhs v Hin Hi Hd. apply (inside_cds v rhs Hd) in Hi. apply (Dr r rhs v Hin) in Hi. destruct (Ds v Hi) as [-> | ->].
      * exists ex_u, "x0"%string, 0%nat. repeat split; cbn; try lia; discriminate.
      * exists ex_u, "x0"%string, 2%nat. repeat split; cbn; try lia; discriminate.
    + intros r rhs t v Hin Ht _ Hi Hd. apply (inside_cds v t Hd) in Hi. destruct (Ds v (proj2 (Tm r rhs t Hin Ht) v Hi)) as [-> | ->]; vm_compute; lia.
    + intros r rhs t v Hin Ht Vt. apply has_re_spec in Vt. rewrite (proj1 (Tm r rhs t Hin Ht)) in Vt. discriminate.
  - split; [destruct Hc as [[_ ->] | [_ ->]]; repeat constructor; cbn; intuition discriminate|]. intros v. split.
    + intros Hv. assert (Hd : derivative v) by (apply is_cd_derivative; destruct (Ds v Hv) as [-> | ->]; reflexivity). split; auto.
      destruct Hc as [[-> ->] | [-> ->]]; cbn in Hv.
      * destruct Hv as [<- | []]. eexists _, _, _. split; [left; reflexivity|]. split; [left; reflexivity|]. split; [rewrite <- has_re_spec; vm_compute; discriminate|].
        apply cds_inside. vm_compute. tauto.
      * destruct Hv as [<- | [<- | []]].
        -- eexists _, _, _. split; [left; reflexivity|]. split; [left; reflexivity|]. split; [rewrite <- has_re_spec; vm_compute; discriminate|].
           apply cds_inside. vm_compute. tauto.
        -- eexists _, _, _. split; [left; reflexivity|]. split; [right; left; reflexivity|]. split; [rewrite <- has_re_spec; vm_compute; discriminate|].
           apply cds_inside. vm_compute. tauto.
    + intros (Hd & r & rhs & t & Hin & Ht & _ & Hi). apply (inside_cds v t Hd) in Hi. apply (Tm r rhs t Hin Ht). auto.
  - split; [constructor|]. intros v. split; [intros [] | intros (Hd & r & rhs & t & Hin & Ht & Vt & _)].
    apply has_re_spec in Vt. rewrite (proj1 (Tm r rhs t Hin Ht)) in Vt. discriminate.
Qed.
Example C79_refused_nonvacuous :
  sbli_rhs_discretisation1 2 1 dir3 inv1 set_order inner_order [10]%Z ex_sides [ex_d1; ex_d3] [] ex_third = Err NotImplemented.
Proof.
  destruct (ex_line_ok ex_third [ex_d1; ex_d3]) as (A & B & C); [right; auto|].
  apply C79_refused; auto; [apply set_order_ok|].
  exists "Residual0"%string, (EApp HAdd [EApp HMul [ENum (-1); ex_d1]; EApp HMul [ENum (-1); ex_d3]]), ex_u, "x0"%string, [x0; x0].
  split; [left; reflexivity|]. split; [apply cds_inside; vm_compute; tauto|]. split; [discriminate | cbn; lia].
Qed.
Example C79_conservation_nonvacuous :
  exists ks ip, sbli_rhs_discretisation1 2 1 dir3 inv1 set_order inner_order [12]%Z (fun _ => (Some Carpenter, Some Carpenter)) [ex_d1] [] ex_advection = Ok ks /\
    inner_product 12 ip /\
    forall M, ip (fun _ => 1%R) (fun i => exec1 J1 2 [12%Z] ks M "Residual0"%string [i]) = (M "u"%string [0%Z] - M "u"%string [11%Z])%R.
Proof.
  destruct (ex_line_ok ex_advection [ex_d1]) as (A & B & C); [left; auto|].
  destruct (C79_carpenter_conservation_partial J1 dir3 inv1 set_order inner_order (fun _ => 1%R) 12 (fun _ => (Some Carpenter, Some Carpenter)) ex_advection [ex_d1] []
    J1_real inv1_ok set_order_ok inner_order_perm inner_order_inner) as (ks & ip & E & I & X); auto; try lia; try lra; try discriminate.
  - intros r rhs a n cs Hin Hi _. apply inside_cds in Hi; [|eexists _, _; reflexivity].
    destruct Hin as [E | []]. injection E as <- <-. vm_compute in Hi. destruct Hi as [E | []]. injection E as _ _ <-. cbn. lia.
  - intros _ r rhs t Hin Ht Vt. apply has_re_spec in Vt. destruct Hin as [E | []]. injection E as <- <-. destruct Ht as [<- | []]. vm_compute in Vt. discriminate.
  - exists ks, ip. split; [exact E|]. split; [exact I|]. intros M.
    rewrite (X M "Residual0"%string ex_u "x0"%string); [reflexivity | left; reflexivity|].
    intros w Hw Hd. inversion Hw; subst. destruct Hd as (a & cs & Ea). discriminate.
Qed.
Example C79_inside_nonvacuous : forall M, sem1 J1 2 dir3 (fun _ => 1%R) [20; 20]%Z ex_sides M ex_c1 [5; 6]%Z = sem J1 2 dir3 (fun _ => 1%R) M ex_c1 [5; 6]%Z.
Proof.
  intros M. apply C79_central_inside with (ndim := 2%nat); auto.
  - intros v Hi Hd. apply inside_cds in Hi; auto. vm_compute in Hi. destruct Hi as [<- | []].
    eexists _, _, _. split; [reflexivity|]. split; [cbn; lia|]. split; [cbn; lia|].
    intros w Hw Hdw. apply (inside_cds w _ Hdw) in Hw. vm_compute in Hw. destruct Hw.
  - intros d Hd. destruct d as [|[|d]]; cbn; lia.
Qed.
