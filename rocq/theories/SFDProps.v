(* C53: selective frequency damping. *)
From Verif Require Import Base Expr KernelModel ShiftSpec BCModel BCSpec BCProofs BCPoint BCVec FiltModel FiltSpec FiltProofs.
From Coq Require Import QArith ZArith Reals Qreals Lia Lra.
Local Close Scope Q_scope.
Open Scope R_scope.

(* The values of the constants of the filter. *)
Section constants.
  Variable J : interp R.
  Definition chi_of := isym J KConst "chi_filt".
  Definition omega_of := isym J KConst "omega_filt".
  Definition dt_of := isym J KConst "dt".
  Definition factor_of := exp (- (chi_of + omega_of) * dt_of).
End constants.
Definition exponential (J : interp R) : Prop := forall a, iapp J (HFun "exp") [a] = exp a.

Lemma sfd_values : forall J ndim qs pts (M : string -> list Z -> R), reals J -> exponential J ->
  sfd_filter ndim = Ok qs -> NoDup pts -> (forall x, In x pts -> List.length x = ndim) ->
  let M' := run_kernel J qs pts M in
  let e := factor_of J in let k := chi_of J / omega_of J in
  (forall v x, In v (conservative ndim) -> In x pts ->
    M' (v ++ "_filtold")%string x = M (v ++ "_filt")%string x /\
    M' (v ++ "_filt")%string x = (M v x * (1 - e) + M (v ++ "_filt")%string x * (k + e)) / (k + 1) /\
    M' v x = (M v x * (e * k + 1) + M (v ++ "_filt")%string x * k * (1 - e)) / (k + 1)) /\
  (forall b x, (In x pts -> forall v, In v (conservative ndim) -> b <> v /\ b <> (v ++ "_filt")%string /\ b <> (v ++ "_filtold")%string) ->
    M' b x = M b x).
Proof.
  intros J ndim qs pts M HJ HE H ND HL M' e k. unfold sfd_filter in H. destruct (cons_vars ndim) as [vs|] eqn:Ev; [|discriminate].
  cbn [bind] in H. assert (qs = sfd_eqs ndim vs) as -> by congruence. clear H.
  destruct (cons_vars_ok _ _ Ev) as [Hn ->]. pose proof (sfd_pointwise ndim Hn) as Pw.
  split.
  - intros v x Hv Hx. unfold M'.
    destruct (sfd_point J HJ HE ndim M x v Hn (HL x Hx) Hv) as (A & B & C). fold (chi_of J) (omega_of J) (dt_of J) in B, C. fold (factor_of J) e in B, C.
    rewrite !(proj1 (pw_run J ndim _ Pw pts M x _ ND HL) Hx). unfold filt, filtold in *. split; [exact A|]. split; [exact B|]. rewrite C. unfold k. f_equal. unfold Rdiv. ring.
  - intros b x Hb. unfold M'. destruct (in_dec (list_eq_dec Z.eq_dec) x pts) as [Hx | Hx]; [|apply (pw_run J ndim _ Pw pts M x b ND HL); auto].
    rewrite (proj1 (pw_run J ndim _ Pw pts M x _ ND HL) Hx). unfold run_point. rewrite run_frame; auto.
    intros q ix Hq Ht. exfalso. destruct (sfd_targets ndim q b ix Hq Ht) as (v & Hv & D). destruct (Hb Hx v Hv) as (A & B & C). unfold filt, filtold in D. tauto.
Qed.

(* The filter is built for two and three dimensions only. *)
Theorem C53_dimensions : forall ndim,
  (exists qs, sfd_filter ndim = Ok qs) <-> ndim = 2%nat \/ ndim = 3%nat.
Proof.
  intros ndim. split.
  - intros (qs & H). unfold sfd_filter in H. destruct (cons_vars ndim) eqn:E; [|discriminate]. apply (cons_vars_ok _ _ E).
  - intros [-> | ->]; eexists; reflexivity.
Qed.
Print Assumptions C53_dimensions.

(* One application, in any order of the grid points.  At every point and for every solution
   variable, v + (chi/omega) f is kept and v - f is multiplied by exp(-(chi+omega) dt).
   The previous filtered state is saved and nothing else changes. *)
Theorem C53_step : forall J ndim qs pts (M : string -> list Z -> R), reals J -> exponential J ->
  sfd_filter ndim = Ok qs -> NoDup pts -> (forall x, In x pts -> List.length x = ndim) ->
  omega_of J <> 0 -> chi_of J + omega_of J <> 0 ->
  let M' := run_kernel J qs pts M in
  (forall v x, In v (conservative ndim) -> In x pts ->
    let f := (v ++ "_filt")%string in
    M' v x + chi_of J / omega_of J * M' f x = M v x + chi_of J / omega_of J * M f x /\
    M' v x - M' f x = factor_of J * (M v x - M f x) /\
    M' (v ++ "_filtold")%string x = M f x) /\
  (forall b x, (In x pts -> forall v, In v (conservative ndim) -> b <> v /\ b <> (v ++ "_filt")%string /\ b <> (v ++ "_filtold")%string) ->
    M' b x = M b x).
Proof.
  intros J ndim qs pts M HJ HE H ND HL Hw Hs M'.
  destruct (sfd_values J ndim qs pts M HJ HE H ND HL) as [A B]. split; [|exact B].
  intros v x Hv Hx f. destruct (A v x Hv Hx) as (E0 & E1 & E2). fold f in E0, E1, E2. fold M' in E0, E1, E2. rewrite E1, E2.
  assert (chi_of J / omega_of J + 1 <> 0).
  { intros K. apply Hs. apply (Rmult_eq_reg_r (/ omega_of J)); [|apply Rinv_neq_0_compat; auto]. rewrite Rmult_0_l, <- K. field. auto. }
  split; [field; auto | split; [field; auto | exact E0]].
Qed.
Print Assumptions C53_step.

(* The same said with the differential equations: the new values are those of the solution
   of dv/dt = -chi (v - f), df/dt = omega (v - f) after a time dt. *)
Theorem C53_exact_flow : forall J ndim qs pts (M : string -> list Z -> R), reals J -> exponential J ->
  sfd_filter ndim = Ok qs -> NoDup pts -> (forall x, In x pts -> List.length x = ndim) ->
  omega_of J <> 0 -> chi_of J + omega_of J <> 0 ->
  forall b x V F, In b (conservative ndim) -> In x pts ->
    damped (chi_of J) (omega_of J) V F -> V 0 = M b x -> F 0 = M (b ++ "_filt")%string x ->
    run_kernel J qs pts M b x = V (dt_of J) /\
    run_kernel J qs pts M (b ++ "_filt")%string x = F (dt_of J).
Proof.
  intros J ndim qs pts M HJ HE H ND HL Hw Hs b x V F Hb Hx HD V0 F0.
  destruct (proj1 (C53_step J ndim qs pts M HJ HE H ND HL Hw Hs) b x Hb Hx) as (E1 & E2 & _).
  set (v' := run_kernel J qs pts M b x) in *. set (f' := run_kernel J qs pts M (b ++ "_filt")%string x) in *.
  set (c := chi_of J) in *. set (w := omega_of J) in *. set (h := dt_of J) in *. unfold factor_of in E2. fold c w h in E2.
  assert (Const : forall g, (forall t, derivable_pt_lim g t 0) -> forall t, g t = g 0).
  { intros g Hg t. assert (pr : derivable g) by (intros u; exists 0; apply Hg).
    apply (null_derivative_1 g pr). intros u. apply derive_pt_eq. apply Hg. }
  assert (I1 : V h + c / w * F h = V 0 + c / w * F 0).
  { apply (Const (fun t => V t + c / w * F t)). intros t. destruct (HD t) as [D1 D2].
    replace 0 with (- c * (V t - F t) + c / w * (w * (V t - F t))) by (field; auto).
    apply (derivable_pt_lim_plus V (fun t => c / w * F t)); auto. apply (derivable_pt_lim_scal F (c / w)); auto. }
  assert (I2 : (V h - F h) * exp ((c + w) * h) = (V 0 - F 0) * exp ((c + w) * 0)).
  { apply (Const (fun t => (V t - F t) * exp ((c + w) * t))). intros t. destruct (HD t) as [D1 D2].
    replace 0 with ((- c * (V t - F t) - w * (V t - F t)) * exp ((c + w) * t) + (V t - F t) * (exp ((c + w) * t) * ((c + w) * 1))) by ring.
    apply (derivable_pt_lim_mult (fun t => V t - F t) (fun t => exp ((c + w) * t))).
    - apply (derivable_pt_lim_minus V F); auto.
    - apply (derivable_pt_lim_comp (fun t => (c + w) * t) exp); [|apply derivable_pt_lim_exp].
      apply (derivable_pt_lim_scal id (c + w)). apply derivable_pt_lim_id. }
  rewrite Rmult_0_r, exp_0, Rmult_1_r in I2.
  assert (I3 : V h - F h = exp (- (c + w) * h) * (V 0 - F 0)).
  { rewrite <- I2. replace (- (c + w) * h) with (- ((c + w) * h)) by ring. rewrite exp_Ropp. field. pose proof (exp_pos ((c + w) * h)). lra. }
  rewrite <- V0, <- F0 in E1, E2. rewrite <- I1 in E1. rewrite <- I3 in E2.
  assert (K : (v' - V h) * (w + c) = 0).
  { replace f' with (v' - (V h - F h)) in E1 by lra.
    assert (v' * w + c * (v' - (V h - F h)) = V h * w + c * F h).
    { apply (Rmult_eq_reg_r (/ w)); [|apply Rinv_neq_0_compat; auto].
      transitivity (v' + c / w * (v' - (V h - F h))); [field; auto|]. rewrite E1. field; auto. }
    lra. }
  apply Rmult_integral in K. destruct K as [K | K]; [|exfalso; apply Hs; lra]. split; lra.
Qed.
Print Assumptions C53_exact_flow.

(* After k applications the difference has been multiplied by the k-th power, and with
   chi + omega > 0 and dt > 0 the state and the filtered state tend to the same limit. *)
Theorem C53_steps : forall J ndim qs pts (M : string -> list Z -> R), reals J -> exponential J ->
  sfd_filter ndim = Ok qs -> NoDup pts -> (forall x, In x pts -> List.length x = ndim) ->
  omega_of J <> 0 -> chi_of J + omega_of J <> 0 ->
  forall v x, In v (conservative ndim) -> In x pts ->
    let f := (v ++ "_filt")%string in
    let Mk k := times k (run_kernel J qs pts) M in
    (forall k, Mk k v x + chi_of J / omega_of J * Mk k f x = M v x + chi_of J / omega_of J * M f x /\
       Mk k v x - Mk k f x = factor_of J ^ k * (M v x - M f x)) /\
    (0 < (chi_of J + omega_of J) * dt_of J ->
       let limit := (omega_of J * M v x + chi_of J * M f x) / (omega_of J + chi_of J) in
       Un_cv (fun k => Mk k v x) limit /\ Un_cv (fun k => Mk k f x) limit).
Proof.
  intros J ndim qs pts M HJ HE H ND HL Hw Hs v x Hv Hx f Mk.
  assert (St : forall k, Mk k v x + chi_of J / omega_of J * Mk k f x = M v x + chi_of J / omega_of J * M f x /\
       Mk k v x - Mk k f x = factor_of J ^ k * (M v x - M f x)).
  { induction k as [|k [IH1 IH2]]; [cbn; split; lra|].
    destruct (proj1 (C53_step J ndim qs pts (Mk k) HJ HE H ND HL Hw Hs) v x Hv Hx) as (E1 & E2 & _). fold f in E1, E2.
    change (run_kernel J qs pts (Mk k)) with (Mk (S k)) in E1, E2. rewrite E1, E2, IH1, IH2. split; [reflexivity | cbn; ring]. }
  split; [exact St|]. intros Hp limit.
  assert (He : Rabs (factor_of J) < 1).
  { unfold factor_of. rewrite Rabs_pos_eq by (left; apply exp_pos). rewrite <- exp_0. apply exp_increasing. lra. }
  assert (Cv : Un_cv (fun k => factor_of J ^ k) 0).
  { intros eps Heps. destruct (pow_lt_1_zero (factor_of J) He eps Heps) as (N & HN). exists N. intros n Hn. unfold R_dist. rewrite Rminus_0_r. apply HN. auto. }
  assert (Lim : forall (g : nat -> R) a b, (forall k, g k = a + b * factor_of J ^ k) -> Un_cv g a).
  { intros g a b Hg eps Heps. destruct (Cv (eps / (Rabs b + 1))) as (N & HN).
    { apply Rdiv_lt_0_compat; auto. pose proof (Rabs_pos b). lra. }
    exists N. intros n Hn. specialize (HN n Hn). unfold R_dist in *. rewrite Hg. rewrite Rminus_0_r in HN.
    replace (a + b * factor_of J ^ n - a) with (b * factor_of J ^ n) by ring. rewrite Rabs_mult. pose proof (Rabs_pos b).
    apply Rle_lt_trans with ((Rabs b + 1) * Rabs (factor_of J ^ n)); [apply Rmult_le_compat_r; [apply Rabs_pos | lra]|].
    apply Rlt_le_trans with ((Rabs b + 1) * (eps / (Rabs b + 1))); [apply Rmult_lt_compat_l; lra|]. right. field. lra. }
  assert (Hs' : omega_of J + chi_of J <> 0) by lra.
  split.
  - apply (Lim _ limit (chi_of J * (M v x - M f x) / (omega_of J + chi_of J))). intros k. destruct (St k) as [A B]. unfold limit.
    apply (Rmult_eq_reg_r (1 + chi_of J / omega_of J)).
    2:{ intros K. apply Hs. apply (Rmult_eq_reg_r (/ omega_of J)); [|apply Rinv_neq_0_compat; auto]. rewrite Rmult_0_l, <- K. field. auto. }
    transitivity ((M v x + chi_of J / omega_of J * M f x) + chi_of J / omega_of J * (factor_of J ^ k * (M v x - M f x))); [rewrite <- A, <- B; field; auto|].
    field. auto.
  - apply (Lim _ limit (- omega_of J * (M v x - M f x) / (omega_of J + chi_of J))). intros k. destruct (St k) as [A B]. unfold limit.
    apply (Rmult_eq_reg_r (1 + chi_of J / omega_of J)).
    2:{ intros K. apply Hs. apply (Rmult_eq_reg_r (/ omega_of J)); [|apply Rinv_neq_0_compat; auto]. rewrite Rmult_0_l, <- K. field. auto. }
    transitivity ((M v x + chi_of J / omega_of J * M f x) - (factor_of J ^ k * (M v x - M f x))); [rewrite <- A, <- B; field; auto|].
    field. auto.
Qed.
Print Assumptions C53_steps.

(* Fixed points: with (chi + omega) dt <> 0 the filter leaves state and filtered state of a
   point unchanged exactly when they are equal. *)
Theorem C53_fixed_points : forall J ndim qs pts (M : string -> list Z -> R), reals J -> exponential J ->
  sfd_filter ndim = Ok qs -> NoDup pts -> (forall x, In x pts -> List.length x = ndim) ->
  omega_of J <> 0 -> chi_of J + omega_of J <> 0 -> dt_of J <> 0 ->
  forall v x, In v (conservative ndim) -> In x pts ->
    let f := (v ++ "_filt")%string in
    (run_kernel J qs pts M v x = M v x /\ run_kernel J qs pts M f x = M f x) <-> M v x = M f x.
Proof.
  intros J ndim qs pts M HJ HE H ND HL Hw Hs Hd v x Hv Hx f.
  destruct (proj1 (C53_step J ndim qs pts M HJ HE H ND HL Hw Hs) v x Hv Hx) as (E1 & E2 & _). fold f in E1, E2. split.
  - intros [A B]. rewrite A, B in E2. assert (factor_of J <> 1).
    { unfold factor_of. intros K. rewrite <- exp_0 in K. apply exp_inv in K. apply Ropp_eq_compat in K.
      assert (K' : (chi_of J + omega_of J) * dt_of J = 0) by lra. apply Rmult_integral in K'. tauto. }
    assert (K : (factor_of J - 1) * (M v x - M f x) = 0) by lra. apply Rmult_integral in K. destruct K as [K | K]; lra.
  - intros E. rewrite E in E1, E2. replace (M f x - M f x) with 0 in E2 by ring. rewrite Rmult_0_r in E2.
    assert (E3 : run_kernel J qs pts M v x = run_kernel J qs pts M f x) by lra. rewrite E3 in *.
    assert (K : (run_kernel J qs pts M f x - M f x) * (omega_of J + chi_of J) = 0).
    { transitivity (omega_of J * ((run_kernel J qs pts M f x + chi_of J / omega_of J * run_kernel J qs pts M f x) - (M f x + chi_of J / omega_of J * M f x))); [field; auto|].
      rewrite E1. ring. }
    apply Rmult_integral in K. rewrite E. destruct K as [K | K]; [split; lra | exfalso; apply Hs; lra].
Qed.
Print Assumptions C53_fixed_points.

(* The initial kernel makes the filtered state equal to the state. *)
Theorem C53_initial : forall V (J : interp V) ndim qs pts (M : string -> list Z -> V),
  sfd_initial ndim = Ok qs -> NoDup pts -> (forall x, In x pts -> List.length x = ndim) ->
  (forall v x, In v (conservative ndim) -> In x pts -> run_kernel J qs pts M (v ++ "_filt")%string x = M v x) /\
  (forall b x, (In x pts -> forall v, In v (conservative ndim) -> b <> (v ++ "_filt")%string) -> run_kernel J qs pts M b x = M b x).
Proof.
  intros V J ndim qs pts M H ND HL. unfold sfd_initial in H. destruct (cons_vars ndim) as [vs|] eqn:Ev; [|discriminate].
  cbn [bind] in H. match type of H with Ok ?a = _ => assert (qs = a) as -> by congruence end. clear H. destruct (cons_vars_ok _ _ Ev) as [Hn ->].
  destruct (names_sfd ndim Hn) as (N1 & N2 & N3 & Ne).
  set (ps := map (fun v => (filt v, arr_at ndim v)) (conservative ndim)).
  assert (Ea : map (fun v => KEq (arr_at ndim (filt v)) (arr_at ndim v)) (conservative ndim) = assign ndim ps).
  { unfold assign, ps. rewrite map_map. reflexivity. }
  rewrite Ea. assert (Fs : map fst ps = map filt (conservative ndim)) by (unfold ps; rewrite map_map; reflexivity).
  destruct (assign_values V J ndim ps pts M) as [A B]; auto.
  - rewrite Fs. auto.
  - intros b e Hin. apply in_map_iff in Hin. destruct Hin as (v & E & _). injection E as _ <-. apply BCMirror.placed_dat.
  - intros b e b' ix Hin Hd Hm. rewrite Fs in Hm. apply in_map_iff in Hin, Hm. destruct Hin as (v & E & Hv), Hm as (u & Eu & Hu). injection E as _ <-.
    destruct Hd as [E | []]. injection E as -> _. apply (proj1 (Ne u b' Hu Hv)); auto.
  - split.
    + intros v x Hv Hx. rewrite (A x (v ++ "_filt")%string (arr_at ndim v)); auto.
      * unfold value, arr_at. cbn. f_equal. apply BCProofs.vadd_here. auto.
      * apply in_map_iff. exists v. auto.
    + intros b x Hb. apply B. intros [Hx Hm]. rewrite Fs in Hm. apply in_map_iff in Hm. destruct Hm as (v & E & Hv). apply (Hb Hx v Hv). auto.
Qed.
Print Assumptions C53_initial.

(* a flow with chi = omega = dt = 1 *)
Definition expJ : interp R :=
  {| inum := inum stdJ; isym := isym stdJ;
     iapp := fun h l => match h, l with HFun "exp", [a] => exp a | _, _ => iapp stdJ h l end |}.
Lemma expJ_reals : reals expJ.
Proof. destruct stdJ_reals. split; auto. Qed.
Example C53_nonvacuous :
  reals expJ /\ exponential expJ /\ (exists qs, sfd_filter 3 = Ok qs) /\ NoDup [[0; 0; 0]; [1; 0; 0]]%Z /\
  omega_of expJ <> 0 /\ chi_of expJ + omega_of expJ <> 0 /\ dt_of expJ <> 0 /\ 0 < (chi_of expJ + omega_of expJ) * dt_of expJ /\
  (exists V F, damped (chi_of expJ) (omega_of expJ) V F /\ V 0 = 1 /\ F 0 = 0).
Proof.
  unfold omega_of, chi_of, dt_of. cbn.
  split; [apply expJ_reals|]. split; [intros a; reflexivity|]. split; [eexists; reflexivity|].
  split; [repeat constructor; cbn; intuition congruence|]. split; [lra|]. split; [lra|]. split; [lra|]. split; [lra|].
  exists (fun t => /2 + /2 * exp (-2 * t)), (fun t => /2 + (- /2) * exp (-2 * t)). split.
  - intros t.
    assert (D : forall a b, derivable_pt_lim (fun t => a + b * exp (-2 * t)) t (0 + b * (exp (-2 * t) * (-2 * 1)))).
    { intros a b. apply (derivable_pt_lim_plus (fun _ => a) (fun t => b * exp (-2 * t))); [apply derivable_pt_lim_const|].
      apply (derivable_pt_lim_scal (fun t => exp (-2 * t)) b). apply (derivable_pt_lim_comp (fun t => -2 * t) exp); [|apply derivable_pt_lim_exp].
      apply (derivable_pt_lim_scal id (-2)). apply derivable_pt_lim_id. }
    split.
    + replace (- (1) * (/ 2 + / 2 * exp (-2 * t) - (/ 2 + - / 2 * exp (-2 * t)))) with (0 + / 2 * (exp (-2 * t) * (-2 * 1))) by field. apply D.
    + replace (1 * (/ 2 + / 2 * exp (-2 * t) - (/ 2 + - / 2 * exp (-2 * t)))) with (0 + - / 2 * (exp (-2 * t) * (-2 * 1))) by field. apply D.
  - rewrite Rmult_0_r, exp_0. split; lra.
Qed.
