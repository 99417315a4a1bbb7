(* C65: simulation equations with shock-capturing and central derivatives. *)
From Verif Require Import Base BaseProofs Expr ExprProofs FDModel FDSpec FDProofs WorkModel WorkProofs ShiftSpec DiscSpec DiscModel DiscProofs DiscRun DiscMain DiscProps
  EulerSpec EulerModel EulerProofs EulerProps WenoModel LLFSpec LLFModel LLFProofs LLFProps WFSpec WFProofs HybModel HybSpec HybProofs HybMore.
From Coq Require Import QArith ZArith Reals Lia Lra List Permutation.
Import ListNotations.
Local Close Scope Q_scope.
Local Open Scope list_scope.

(* With the shock-capturing scheme before the central one, for the systems of
   [hybrid_system]: the discretisation succeeds, and after its kernels have run, from any
   contents of the memory, the residual array of equation i holds at every grid point its
   right-hand side, with central derivatives read as difference formulas and the
   shock-capturing derivative in direction d as the difference of component i of the
   numerical fluxes at the two faces.  Apart from residual and work arrays nothing is
   changed.  [worder] is the order in which the set of shock-capturing derivatives of an
   equation is treated; the other orders are as in C31.
   Missing for the full claim: see the refutations below. *)
Theorem C65_residual_partial :
  forall J k ndim dirof inv dord sord worder h sizes coordinate fluxes eqs ccds vcds sch o g av solution,
  real_arithmetic J ->
  (forall M x d m, value J M x (inv d m) = (/ h d ^ m)%R) ->
  (forall e, enumerates (dord e) e) ->
  (forall l, Permutation l (sord l)) ->
  (forall l l', Permutation l l' -> inner_first l' -> inner_first (sord l)) ->
  (forall l, Permutation l (worder l)) ->
  List.length sizes = ndim -> ndim <> 0%nat ->
  hybrid_system ndim dirof (fun b => exists i, b = wk_name i) coordinate fluxes eqs ->
  lists_derivatives eqs (fun t => ~ viscous_term t) ccds ->
  lists_derivatives eqs viscous_term vcds ->
  supported sch o -> (forall q i, In q solution -> q <> wk_name i) ->
  exists ks, hybrid_discretise k ndim dirof inv dord sord worder ccds vcds [Shock; CentralDiff] eqs = Ok ks /\
    forall M, (exists face, (forall d x, (d < ndim)%nat -> numerical_flux J sch g av solution ndim d (fluxes d) M x = Ok (face d x)) /\
        forall i r rhs x, nth_error eqs i = Some (r, rhs) -> grid_point sizes x ->
          exec_hybrid J k sizes sch g av solution ks M r x = hybrid_value J k dirof h M (flux_difference dirof h face i) rhs x) /\
      (forall b x, (forall i, b <> wk_name i) -> ~ In b (map fst eqs) -> exec_hybrid J k sizes sch g av solution ks M b x = M b x).
Proof.
  intros J k ndim dirof inv dord sord worder h sizes coordinate fluxes eqs ccds vcds sch o g av solution HJ Hi Hd Hp Hn Hw Hs H0 HS HC HV S Hq.
  assert (Hsol : forall q, In q solution -> ~ reserved q) by (intros q Hin (i & E); eapply Hq; eauto).
  destruct (hybrid_run J k ndim dirof inv dord sord worder h sizes HJ Hi Hs Hw coordinate fluxes eqs (hs_shock _ _ _ _ _ _ HS) sch g av solution Hsol HS Hd Hp Hn ccds vcds HC HV H0) as (ks & E & X).
  exists ks. split; auto. intros M. destruct (X M) as (A & B). split.
  - exists (fun d x => match numerical_flux J sch g av solution ndim d (fluxes d) M x with Ok w => w | Err _ => [] end).
    assert (F : forall d x, (d < ndim)%nat -> numerical_flux J sch g av solution ndim d (fluxes d) M x = Ok match numerical_flux J sch g av solution ndim d (fluxes d) M x with Ok w => w | Err _ => [] end).
    { intros d x _. unfold numerical_flux. match goal with |- interface_flux _ _ _ ?l _ = _ => destruct (flux_total sch o g av l 0 S) as (w & ->) end. auto. }
    split; [exact F|]. intros. apply B; auto.
  - intros b x Nb Nr. apply A; auto. intros (i & Eb). apply (Nb i Eb).
Qed.
Print Assumptions C65_residual_partial.

(* Which sets of equations the shock-capturing scheme accepts: there is a derivative, and
   in every direction with a derivative the equations together have ndim + 2 of them.
   ([found d l]: the i-th list in l has the derivatives of the i-th equation in direction d.) *)
Definition found (dirof : string -> nat) (eqs : list (string * expr)) (d : nat) (l : list (list expr)) : Prop :=
  Forall2 (fun re vs => NoDup vs /\ forall v, In v vs <-> inside v (snd re) /\ exists f n, v = WD f n /\ dirof n = d) eqs l.
Lemma kernels_accept : forall ndim g c, (exists kw, shock_kernels ndim c g = Ok kw) <-> forall d vs, In (d, vs) g -> List.length vs = (ndim + 2)%nat.
Proof.
  intros ndim. induction g as [|[d vs] g IH]; intros c; cbn [shock_kernels].
  - split; [intros _ d vs [] | eauto].
  - destruct (Nat.eqb_spec (List.length vs) (ndim + 2)) as [E | N].
    + specialize (IH (c + List.length vs)%nat). split.
      * intros (kw & H). destruct (shock_kernels ndim (c + List.length vs) g) as [p|] eqn:Ep; [|discriminate].
        intros d' vs' [F | F]; [injection F as <- <-; auto|]. eapply (proj1 IH); eauto.
      * intros H. destruct (proj2 IH) as (kw & ->); [intros; eapply H; right; eauto|]. cbn. eauto.
    + split; [intros (kw & H); discriminate|]. intros H. exfalso. apply N. eapply H. left. reflexivity.
Qed.
Lemma same_length : forall (l l' : list expr), NoDup l -> NoDup l' -> (forall v, In v l <-> In v l') -> List.length l = List.length l'.
Proof. intros. apply Permutation_length, NoDup_Permutation; auto. Qed.
Theorem C65_accepted :
  forall ndim dirof inv worder eqs, (forall l, Permutation l (worder l)) ->
  ((exists ks, shock_discretise ndim dirof inv worder eqs = Ok ks) <->
   (exists r rhs f n, In (r, rhs) eqs /\ inside (WD f n) rhs) /\
   forall d r rhs f n l, In (r, rhs) eqs -> inside (WD f n) rhs -> dirof n = d -> found dirof eqs d l -> List.length (List.concat l) = (ndim + 2)%nat).
Proof.
  intros ndim dirof inv worder eqs Hw.
  set (L := flat_map (fun re : string * expr => worder (nodup expr_eq_dec (wds (snd re)))) eqs).
  assert (ME : forall rhs v, In v (worder (nodup expr_eq_dec (wds rhs))) <-> inside v rhs /\ exists f n, v = WD f n).
  { intros rhs v. rewrite <- in_wds, <- (nodup_In expr_eq_dec (wds rhs) v). split; apply Permutation_in; [symmetry|]; apply Hw. }
  assert (ML : forall v, In v L <-> exists r rhs, In (r, rhs) eqs /\ inside v rhs /\ exists f n, v = WD f n).
  { intros v. unfold L. rewrite in_flat_map. split.
    - intros ((r & rhs) & Hin & Hv). cbn [snd] in Hv. apply ME in Hv. exists r, rhs. tauto.
    - intros (r & rhs & Hin & Hv). exists (r, rhs). split; auto. cbn [snd]. apply ME. auto. }
  destruct (groups_spec dirof L) as (ND & K & GS). unfold shock_discretise, shock_groups. fold L.
  set (G := fold_left (fun g v => wgroup_add dirof v g) L []) in *. clearbody G.
  pose proof (sorted_groups_perm G) as P.
  assert (KA : (exists kw, shock_kernels ndim 0 (sorted_groups G) = Ok kw) <-> forall d vs, In (d, vs) G -> List.length vs = (ndim + 2)%nat).
  { rewrite kernels_accept. split; intros H d vs Hin; apply (H d vs); [apply (Permutation_in _ (Permutation_sym P))|apply (Permutation_in _ P)]; auto. }
  assert (CNT : forall d l, found dirof eqs d l -> List.length (List.concat l) = List.length (of_dir dirof d L)).
  { intros d l H. unfold of_dir, L. rewrite filter_flat_map. clear - H ME Hw. induction H as [|re vs eqs l (N & M) H IH]; auto. cbn [flat_map List.concat]. rewrite !app_length, IH. f_equal.
    apply same_length; auto.
    - apply NoDup_filter. apply (Permutation_NoDup (Hw _)). apply NoDup_nodup.
    - intros v. rewrite M, filter_In, ME, Nat.eqb_eq. split.
      + intros (A & f & n & -> & E). split; [split; eauto|]. exact E.
      + intros ((A & f & n & ->) & E). split; auto. exists f, n. auto. }
  assert (FD : forall d, found dirof eqs d (map (fun re : string * expr => filter (fun v => Nat.eqb (wd_dir dirof v) d) (worder (nodup expr_eq_dec (wds (snd re))))) eqs)).
  { intros d. unfold found. clear - ME Hw. induction eqs as [|re eqs IH]; constructor; auto. split.
    - apply NoDup_filter. apply (Permutation_NoDup (Hw _)). apply NoDup_nodup.
    - intros v. rewrite filter_In, ME, Nat.eqb_eq. split.
      + intros ((A & f & n & ->) & E). split; auto. exists f, n. auto.
      + intros (A & f & n & -> & E). split; [split; eauto|]. exact E. }
  transitivity (sorted_groups G <> [] /\ exists kw, shock_kernels ndim 0 (sorted_groups G) = Ok kw).
  { destruct (sorted_groups G) as [|p g'] eqn:EG; [split; [intros (ks & H); discriminate | intros (H & _); congruence]|]. rewrite <- EG. split.
    - intros (ks & H). split; [congruence|]. destruct (shock_kernels ndim 0 (sorted_groups G)); [eauto | discriminate].
    - intros (_ & kw & ->). cbn. eauto. }
  rewrite KA. assert (NE : sorted_groups G <> [] <-> exists r rhs f n, In (r, rhs) eqs /\ inside (WD f n) rhs).
  { split.
    - intros H. destruct (sorted_groups G) as [|(d & vs) g'] eqn:EG; [congruence|].
      assert (Hin : In (d, vs) G) by (apply (Permutation_in _ P); left; auto).
      assert (Hd : In d (map fst G)) by (change d with (fst (d, vs)); apply in_map; auto). apply K in Hd. destruct Hd as (v & Hv & _).
      apply ML in Hv. destruct Hv as (r & rhs & Hr & Hi & f & n & ->). exists r, rhs, f, n. auto.
    - intros (r & rhs & f & n & Hin & Hi) Z. assert (HL : In (WD f n) L) by (apply ML; exists r, rhs; split; [exact Hin|]; split; [exact Hi | exists f, n; reflexivity]).
      assert (Hd : In (wd_dir dirof (WD f n)) (map fst G)) by (apply K; eauto). apply in_map_iff in Hd. destruct Hd as (p & _ & Hp).
      apply (Permutation_in _ (Permutation_sym P)) in Hp. rewrite Z in Hp. destruct Hp. }
  rewrite NE. split; intros (A & B); (split; [exact A|]).
  - intros d r rhs f n l Hin Hi Hd Hf. rewrite (CNT d l Hf). assert (Hk : In d (map fst G)).
    { apply K. exists (WD f n). split; [apply ML; exists r, rhs; split; [exact Hin|]; split; [exact Hi | exists f, n; reflexivity] | exact Hd]. }
    apply in_map_iff in Hk. destruct Hk as ((d' & vs) & Ed & Hv). cbn in Ed. subst d'. rewrite <- (GS d vs Hv). eapply B; eauto.
  - intros d vs Hin. rewrite (GS d vs Hin). rewrite <- (CNT d _ (FD d)).
    assert (Hk : In d (map fst G)) by (change d with (fst (d, vs)); apply in_map; auto). apply K in Hk. destruct Hk as (v & Hv & Ed).
    apply ML in Hv. destruct Hv as (r & rhs & Hr & Hi & f & n & ->). eapply B; eauto.
Qed.
Print Assumptions C65_accepted.

(* Conservation: on a block that is periodic in every direction, with a right-hand side that
   is a sum of derivatives with constant coefficients, the residuals of an equation add up
   to 0. *)
Theorem C65_conservation :
  forall J k ndim dirof inv dord sord worder h sizes coordinate fluxes eqs ccds vcds sch o g av solution,
  real_arithmetic J ->
  (forall M x d m, value J M x (inv d m) = (/ h d ^ m)%R) ->
  (forall e, enumerates (dord e) e) ->
  (forall l, Permutation l (sord l)) ->
  (forall l l', Permutation l l' -> inner_first l' -> inner_first (sord l)) ->
  (forall l, Permutation l (worder l)) ->
  List.length sizes = ndim -> ndim <> 0%nat ->
  hybrid_system ndim dirof (fun b => exists i, b = wk_name i) coordinate fluxes eqs ->
  lists_derivatives eqs (fun t => ~ viscous_term t) ccds ->
  lists_derivatives eqs viscous_term vcds ->
  supported sch o -> (forall q, In q (flow_arrays solution) -> (forall i, q <> wk_name i) /\ ~ In q (map fst eqs)) ->
  exists ks, hybrid_discretise k ndim dirof inv dord sord worder ccds vcds [Shock; CentralDiff] eqs = Ok ks /\
    forall M r rhs, (forall b, (forall i, b <> wk_name i) -> ~ In b (map fst eqs) -> block_periodic sizes (M b)) ->
      In (r, rhs) eqs -> divergence_form rhs ->
      block_total sizes (exec_hybrid J k (map Z.of_nat sizes) sch g av solution ks M r) = 0%R.
Proof.
  intros J k ndim dirof inv dord sord worder h sizes coordinate fluxes eqs ccds vcds sch o g av solution HJ Hi Hd Hp Hn Hw Hs H0 HS HC HV S Hq.
  destruct (C65_residual_partial J k ndim dirof inv dord sord worder h (map Z.of_nat sizes) coordinate fluxes eqs ccds vcds sch o g av solution HJ Hi Hd Hp Hn Hw) as (ks & E & X); auto.
  { rewrite map_length. auto. }
  { intros q i Hin. apply Hq. unfold flow_arrays. apply in_app_iff. auto. }
  exists ks. split; auto. intros M r rhs PM Hin DF. destruct (X M) as ((face & HF & R) & _). apply In_nth_error in Hin. destruct Hin as (i & Ei).
  rewrite (bt_ext_in sizes _ (hybrid_value J k dirof h M (flux_difference dirof h face i) rhs)) by (intros x Hx; eapply R; eauto).
  assert (PM' : forall b, ~ reserved b -> ~ In b (map fst eqs) -> block_periodic sizes (M b)).
  { intros b N1 N2. apply PM; auto. intros j Ej. apply N1. exists j. auto. }
  apply (conserved_total J k ndim dirof h HJ coordinate fluxes eqs HS sizes M face i r rhs); auto.
  intros d Hdd. apply (face_periodic J k ndim dirof h coordinate fluxes eqs HS sch g av solution sizes M face d); auto.
  intros q Hqq. destruct (Hq q Hqq) as (Q1 & Q2). apply PM; auto.
Qed.
Print Assumptions C65_conservation.

(* Uniform flow: if every array is constant and the values are those of a gas, every
   right-hand side made of derivatives gives residual 0, in one to three dimensions. *)
Theorem C65_uniform :
  forall J k ndim dirof inv dord sord worder h sizes coordinate fluxes eqs ccds vcds sch o g av solution,
  real_arithmetic J ->
  (forall M x d m, value J M x (inv d m) = (/ h d ^ m)%R) ->
  (forall e, enumerates (dord e) e) ->
  (forall l, Permutation l (sord l)) ->
  (forall l l', Permutation l l' -> inner_first l' -> inner_first (sord l)) ->
  (forall l, Permutation l (worder l)) ->
  List.length sizes = ndim -> (1 <= ndim <= 3)%nat ->
  hybrid_system ndim dirof (fun b => exists i, b = wk_name i) coordinate fluxes eqs ->
  lists_derivatives eqs (fun t => ~ viscous_term t) ccds ->
  lists_derivatives eqs viscous_term vcds ->
  supported sch o -> (1 < g)%R -> (forall q, In q (flow_arrays solution) -> (forall i, q <> wk_name i) /\ ~ In q (map fst eqs)) ->
  exists ks, hybrid_discretise k ndim dirof inv dord sord worder ccds vcds [Shock; CentralDiff] eqs = Ok ks /\
    forall M (c : string -> R), (forall b x, (forall i, b <> wk_name i) -> ~ In b (map fst eqs) -> M b x = c b) ->
      (0 < c "rho"%string)%R -> (0 < c "a"%string)%R ->
      map c solution = conserved g (c "rho"%string) (map c (firstn ndim ["u0"; "u1"; "u2"]%string)) (c "a"%string) ->
      c "p"%string = pressure g (map c solution) ->
      forall r rhs x, In (r, rhs) eqs -> made_of any_derivative rhs -> grid_point sizes x ->
        exec_hybrid J k sizes sch g av solution ks M r x = 0%R.
Proof.
  intros J k ndim dirof inv dord sord worder h sizes coordinate fluxes eqs ccds vcds sch o g av solution HJ Hi Hd Hp Hn Hw Hs H0 HS HC HV S Hg Hq.
  destruct (C65_residual_partial J k ndim dirof inv dord sord worder h sizes coordinate fluxes eqs ccds vcds sch o g av solution HJ Hi Hd Hp Hn Hw) as (ks & E & X); auto.
  { lia. }
  { intros q i Hin. apply Hq. unfold flow_arrays. apply in_app_iff. auto. }
  exists ks. split; auto. intros M c HM Hr Ha HU HP r rhs x Hin Md Hx. destruct (X M) as ((face & HF & R) & _). apply In_nth_error in Hin. destruct Hin as (i & Ei).
  rewrite (R i r rhs x Ei Hx).
  assert (MQ : forall q y, In q (flow_arrays solution) -> M q y = c q) by (intros q y Hqq; destruct (Hq q Hqq); apply HM; auto).
  apply (uniform_zero J k ndim dirof h HJ coordinate fluxes eqs HS M face i r rhs Ei); auto; [| |constructor].
  - intros b y z N1 N2. rewrite !HM; auto; intros j Ej; apply N1; exists j; auto.
  - intros d y z Hdd.
    set (F := map (value J M []) (fluxes d)).
    set (cc := mkcell (map c solution) F (c "rho"%string) (map c (firstn ndim ["u0"; "u1"; "u2"]%string)) (c "a"%string) (c "p"%string) (map (fun e => if Nat.eqb e d then 1%R else 0%R) (seq 0 ndim))).
    assert (LU : List.length (c_u cc) = ndim) by (cbn [c_u cc]; rewrite map_length, firstn_length; cbn; lia).
    assert (LF : List.length (c_F cc) = (ndim + 2)%nat).
    { cbn [c_F cc]. unfold F. rewrite map_length. destruct (ss_fluxes _ _ _ _ _ _ (hs_shock _ _ _ _ _ _ HS) d Hdd) as (Lf & _). rewrite Lf. apply (ss_count _ _ _ _ _ _ (hs_shock _ _ _ _ _ _ HS)). }
    assert (Fc : EulerProps.face (c_k cc) (c_u cc)).
    { split; [rewrite LU; cbn [c_k cc]; rewrite map_length, seq_length; auto|]. cbn [c_k cc]. rewrite map_length, seq_length.
      destruct (Nat.eq_dec ndim 1) as [-> | N].
      - left. destruct d; [reflexivity | lia].
      - right. split; [lia|]. exists 1%R. split; [|lra]. apply in_map_iff. exists d. rewrite Nat.eqb_refl. split; auto. apply in_seq. lia. }
    assert (G : gas g cc) by (split; [exact Hr|]; split; [exact Ha|]; split; [exact HU | exact HP]).
    assert (Q : forall y, numerical_flux J sch g av solution ndim d (fluxes d) M y = Ok F).
    { intros y'. change (Ok F) with (Ok (c_F cc)). rewrite <- (C37_uniform sch o g av cc S Hg G Fc ltac:(rewrite LF, LU; auto) 0). unfold numerical_flux.
      assert (GG : forall line line', (forall j, line j = line' j) -> interface_flux sch g av line 0 = interface_flux sch g av line' 0).
      { intros l l' GG. apply FunctionalExtensionality.functional_extensionality in GG. rewrite GG. auto. }
      apply GG. intros j. cbv zeta. unfold cc. f_equal.
      - apply map_ext_in. intros q Hqq. apply MQ. unfold flow_arrays. apply in_app_iff. auto.
      - unfold F. apply map_ext_in. intros f Hf. unfold value. apply eval_ext. intros b ix Hb.
        destruct (ss_fluxes _ _ _ _ _ _ (hs_shock _ _ _ _ _ _ HS) d Hdd) as (Lf & _). apply In_nth with (d := ENum 0) in Hf. destruct Hf as (m & Hm & <-).
        destruct (nth_error eqs m) as [(r0 & rhs0)|] eqn:E0; [|apply nth_error_None in E0; lia].
        destruct (ss_arrays _ _ _ _ _ _ (hs_shock _ _ _ _ _ _ HS) r0 rhs0 b ix) as (_ & X2 & X3); [eapply nth_error_In; eauto| |].
        { eapply inside_dsets; [apply (ss_one _ _ _ _ _ _ (hs_shock _ _ _ _ _ _ HS) m r0 rhs0 E0); exists d; split; [exact Hdd | reflexivity]|].
          unfold WD. rewrite dsets_app. apply in_flat_map. exists (nth m (fluxes d) (ENum 0)). split; [left|]; auto. }
        rewrite !HM; auto; intros jj Ej; apply X2; exists jj; auto.
      - apply MQ. unfold flow_arrays. apply in_app_iff. cbn. auto.
      - apply map_ext_in. intros q Hqq. apply in_firstn in Hqq. apply MQ. unfold flow_arrays. apply in_app_iff. cbn in *. tauto.
      - apply MQ. unfold flow_arrays. apply in_app_iff. cbn. tauto.
      - apply MQ. unfold flow_arrays. apply in_app_iff. cbn. tauto. }
    pose proof (HF d y Hdd) as E1. pose proof (HF d z Hdd) as E2. rewrite Q in E1, E2. congruence.
Qed.
Print Assumptions C65_uniform.

(* One-dimensional equations of a viscous gas: mass, momentum with a second derivative of
   the velocity, energy with a second derivative of the temperature. *)
Definition at1 (b : string) := EDat b [0%Z].
Definition hy_f0 := at1 "rhou0".
Definition hy_f1 := EApp HAdd [EApp HMul [at1 "rhou0"; at1 "u0"]; at1 "p"].
Definition hy_f2 := EApp HMul [EApp HAdd [at1 "rhoE"; at1 "p"]; at1 "u0"].
Definition hy_v1 := EApp HCD [at1 "u0"; x0; x0].
Definition hy_v2 := EApp HCD [at1 "T"; x0; x0].
Definition hy_fluxes (d : nat) := [hy_f0; hy_f1; hy_f2].
Definition hy_sys : list (string * expr) :=
  [("Residual0"%string, EApp HMul [ENum (-1); WD hy_f0 "x0"]);
   ("Residual1"%string, EApp HAdd [EApp HMul [ENum (-1); WD hy_f1 "x0"]; EApp HMul [inv_re; hy_v1]]);
   ("Residual2"%string, EApp HAdd [EApp HMul [ENum (-1); WD hy_f2 "x0"]; EApp HMul [inv_re; hy_v2]])].
Definition hy_solution : list string := ["rho"; "rhou0"; "rhoE"]%string.
Fixpoint inviscid (e : expr) : bool :=
  match e with
  | EApp hd args => match hd with HFun _ => is_wd e | HCD => false | _ => true end &&
      (fix go l := match l with [] => true | x :: l => inviscid x && go l end) args
  | _ => true
  end.
Lemma inviscid_ok : forall e, inviscid e = true -> forall v, inside v e -> (forall args, v <> EApp HCD args) /\ forall f args, v = EApp (HFun f) args -> exists g n, v = WD g n.
Proof.
  intros e H v Hi. revert H. induction Hi as [e|e hd l a Ha Hi IH]; intros H.
  - split.
    + intros args ->. discriminate.
    + intros f args ->. cbn [inviscid] in H. apply andb_true_iff in H. destruct H as [H _]. apply is_wd_iff in H. destruct H as (g & n & H). exists g, n. exact H.
  - apply IH; auto. cbn [inviscid] in H. apply andb_true_iff in H. destruct H as [_ H].
    clear - H Ha. induction l as [|x l IHl]; [destruct Ha|]. apply andb_true_iff in H. destruct H as [H1 H2].
    destruct Ha as [<- | Ha]; auto.
Qed.
Lemma hy_ok : hybrid_system 1 dir3 (fun b => exists i, b = wk_name i) (fun _ => "x0"%string) hy_fluxes hy_sys /\
  lists_derivatives hy_sys (fun t => ~ viscous_term t) [] /\ lists_derivatives hy_sys viscous_term [hy_v2; hy_v1].
Proof.
  assert (T : forall r rhs, In (r, rhs) hy_sys -> forall t, In t (terms rhs) ->
     (has_re t = false /\ cds_post t = [] /\ inviscid t = true) \/ (has_re t = true /\ (t = EApp HMul [inv_re; hy_v1] \/ t = EApp HMul [inv_re; hy_v2]))).
  { intros r rhs [E | [E | [E | []]]] t Ht; injection E as <- <-; cbn [terms] in Ht;
      repeat (destruct Ht as [<- | Ht]; [vm_compute; tauto|]); destruct Ht. }
  split; [|split].
  - constructor.
    + constructor.
      * reflexivity.
      * intros d Hd. cbn. lia.
      * repeat constructor; cbn; intuition discriminate.
      * intros r rhs [E | [E | [E | []]]]; injection E as <- <-; apply not_wk; reflexivity.
      * intros r rhs b ix [E | [E | [E | []]]] Hb; injection E as <- <-; vm_compute in Hb;
          repeat (destruct Hb as [Hb | Hb]; [injection Hb as <- <-; split; [reflexivity|]; split; [apply not_wk; reflexivity|]; cbn; intuition discriminate|]); destruct Hb.
      * intros d Hd. split; [reflexivity|]. split; [repeat constructor; cbn; intuition discriminate|].
        intros f Hf v Hv. split.
        -- intros D. apply (inside_cds v f D) in Hv. destruct Hf as [<- | [<- | [<- | []]]]; destruct Hv.
        -- intros n args ->. revert Hv. apply plain_ok. destruct Hf as [<- | [<- | [<- | []]]]; reflexivity.
      * intros i r rhs E v. rewrite <- in_wds. transitivity (v = WD (nth i (hy_fluxes 0) (ENum 0)) "x0").
        -- destruct i as [|[|[|i]]]; [| | |destruct i; discriminate]; cbn in E; injection E as <- <-; vm_compute; intuition congruence.
        -- split; [intros ->; exists 0%nat; split; [lia | reflexivity] | intros (d & Hd & ->); reflexivity].
    + intros r rhs [E | [E | [E | []]]]; injection E as <- <-; eauto.
    + intros r rhs t Hin Ht Nv. destruct (T r rhs Hin t Ht) as [(_ & _ & X) | (X & _)]; [apply inviscid_ok; auto|]. exfalso. apply Nv, has_re_spec. auto.
    + intros r rhs t Hin Ht Nv. destruct (T r rhs Hin t Ht) as [(X & _ & _) | (_ & X)]; [exfalso; apply has_re_spec in Nv; congruence|].
      assert (D1 : derivative hy_v1) by (eexists _, _; reflexivity). assert (D2 : derivative hy_v2) by (eexists _, _; reflexivity).
      split; [|split].
      * destruct X as [-> | ->]; (eapply md_product; [right; left; reflexivity|]; apply md_one; assumption).
      * destruct X as [-> | ->]; apply plain_ok; reflexivity.
      * intros v Hi Hd. apply (inside_cds v t Hd) in Hi. assert (Hv : v = hy_v1 \/ v = hy_v2) by (destruct X as [-> | ->]; destruct Hi as [<- | []]; auto).
        split; [|split].
        -- destruct Hv as [-> | ->]; [exists (at1 "u0") | exists (at1 "T")]; exists "x0"%string, 1%nat; repeat split; cbn; try lia; discriminate.
        -- destruct Hv as [-> | ->]; vm_compute; lia.
        -- intros a n cs u Ev Hu Hdu. apply (inside_cds u a Hdu) in Hu. destruct Hv as [-> | ->]; unfold hy_v1, hy_v2, x0 in Ev; injection Ev as <- <- <-; destruct Hu.
  - split; [constructor|]. intros v. split; [intros []|]. intros (Hd & r & rhs & t & Hin & Ht & Nv & Hi). apply (inside_cds v t Hd) in Hi.
    destruct (T r rhs Hin t Ht) as [(_ & E & _) | (E & _)]; [rewrite E in Hi; auto|]. exfalso. apply Nv. apply has_re_spec. auto.
  - split; [repeat constructor; cbn; intuition discriminate|]. intros v. split.
    + intros Hv. assert (Hd : derivative v) by (apply is_cd_derivative; destruct Hv as [<- | [<- | []]]; reflexivity). split; auto.
      destruct Hv as [<- | [<- | []]].
      * eexists _, _, _. split; [do 2 right; left; reflexivity|]. split; [right; left; reflexivity|]. split; [rewrite <- has_re_spec; vm_compute; reflexivity|].
        apply cds_inside. vm_compute. tauto.
      * eexists _, _, _. split; [right; left; reflexivity|]. split; [right; left; reflexivity|]. split; [rewrite <- has_re_spec; vm_compute; reflexivity|].
        apply cds_inside. vm_compute. tauto.
    + intros (Hd & r & rhs & t & Hin & Ht & Nv & Hi). apply (inside_cds v t Hd) in Hi. apply has_re_spec in Nv.
      destruct (T r rhs Hin t Ht) as [(E & _) | (_ & E)]; [congruence|].
      destruct E as [-> | ->]; destruct Hi as [<- | []]; vm_compute; tauto.
Qed.
Definition hy_scheme := weno_scheme JS 3 (1/1000000).
Lemma hy_supported : supported hy_scheme 2.
Proof. apply (sup_weno JS 3); [lia|discriminate|lra]. Qed.
Lemma hy_divergence : forall r rhs, In (r, rhs) hy_sys -> divergence_form rhs /\ made_of any_derivative rhs.
Proof.
  assert (A : forall f, any_derivative (WD f "x0")) by (intros f; right; exists f, "x0"%string; reflexivity).
  assert (D1 : any_derivative hy_v1) by (left; eexists _, _; reflexivity). assert (D2 : any_derivative hy_v2) by (left; eexists _, _; reflexivity).
  assert (C : forall c, c = ENum (-1) \/ c = inv_re -> dsets c = [] /\ forall u, inside u c -> ~ any_derivative u).
  { intros c [-> | ->]; (split; [reflexivity|]); intros u Hu [(a & cs & ->) | (f & n & ->)].
    - inversion Hu.
    - inversion Hu.
    - eapply inside_cds in Hu; [destruct Hu | eexists _, _; reflexivity].
    - revert Hu. apply plain_ok. reflexivity. }
  assert (M2 : forall c v, any_derivative v -> made_of any_derivative (EApp HMul [c; v])).
  { intros c v H. eapply md_product; [right; left; reflexivity|]. apply md_one. auto. }
  assert (X : forall c v t, t = EApp HMul [c; v] -> any_derivative v -> c = ENum (-1) \/ c = inv_re ->
    exists l1 v l2, t = EApp HMul (l1 ++ v :: l2) /\ any_derivative v /\ forall c, In c (l1 ++ l2) -> dsets c = [] /\ forall u, inside u c -> ~ any_derivative u).
  { intros c v t -> H Hc. exists [c], v, []. split; [reflexivity|]. split; auto. intros c' [<- | []]. auto. }
  intros r rhs [E | [E | [E | []]]]; injection E as <- <-; split.
  - intros t [<- | []]. eapply X; [reflexivity | apply A | auto].
  - apply M2, A.
  - intros t [<- | [<- | []]]; (eapply X; [reflexivity | auto | auto]).
  - apply md_sum. intros t [<- | [<- | []]]; auto.
  - intros t [<- | [<- | []]]; (eapply X; [reflexivity | auto | auto]).
  - apply md_sum. intros t [<- | [<- | []]]; auto.
Qed.
(* On 10 points with WENO5 and the fourth-order central scheme: the program has five
   kernels; density 2, velocity 0 and sound speed 1 is a uniform flow; alternating values
   are periodic. *)
Definition hy_uniform (b : string) : R :=
  if String.eqb b "rho" then 2%R else if String.eqb b "a" then 1%R else if String.eqb b "u0" then 0%R else if String.eqb b "rhou0" then 0%R else 1%R.
Example C65_nonvacuous :
  (exists ks, hybrid_discretise 2 1 dir3 inv1 set_order inner_order (fun l => l) [] [hy_v2; hy_v1] [Shock; CentralDiff] hy_sys = Ok ks /\ List.length ks = 5%nat /\
    (forall M r rhs x, (forall b y, M b y = hy_uniform b) -> In (r, rhs) hy_sys -> grid_point [10%Z] x ->
       exec_hybrid J1 2 [10%Z] hy_scheme 2 Simple hy_solution ks M r x = 0%R) /\
    (forall M r rhs, (forall b y, M b y = if Z.even (nth 0 y 0%Z) then hy_uniform b else (2 * hy_uniform b)%R) -> In (r, rhs) hy_sys ->
       block_total [10%nat] (exec_hybrid J1 2 [10%Z] hy_scheme 2 Simple hy_solution ks M r) = 0%R)) /\
  found dir3 hy_sys 0 [[WD hy_f0 "x0"]; [WD hy_f1 "x0"]; [WD hy_f2 "x0"]].
Proof.
  destruct hy_ok as (A & B & C).
  assert (Q : forall q, In q (flow_arrays hy_solution) -> (forall i, q <> wk_name i) /\ ~ In q (map fst hy_sys)).
  { intros q Hq. split; [|cbn in *; intuition (subst; discriminate)]. intros i E. apply (not_wk q); [|exists i; exact E].
    cbn in Hq. repeat (destruct Hq as [<- | Hq]; [reflexivity|]). destruct Hq. }
  destruct (C65_uniform J1 2 1 dir3 inv1 set_order inner_order (fun l => l) (fun _ => 1%R) [10%Z] (fun _ => "x0"%string) hy_fluxes hy_sys [] [hy_v2; hy_v1] hy_scheme 2 2 Simple hy_solution
    J1_real inv1_ok set_order_ok inner_order_perm inner_order_inner (fun l => Permutation_refl l) eq_refl ltac:(lia) A B C hy_supported ltac:(lra) Q) as (ks & E & X).
  destruct (C65_conservation J1 2 1 dir3 inv1 set_order inner_order (fun l => l) (fun _ => 1%R) [10%nat] (fun _ => "x0"%string) hy_fluxes hy_sys [] [hy_v2; hy_v1] hy_scheme 2 2 Simple hy_solution
    J1_real inv1_ok set_order_ok inner_order_perm inner_order_inner (fun l => Permutation_refl l) eq_refl ltac:(lia) A B C hy_supported Q) as (ks' & E' & X').
  rewrite E in E'. injection E' as <-. split.
  - exists ks. split; auto. split; [|split].
    + assert (L : match hybrid_discretise 2 1 dir3 inv1 set_order inner_order (fun l => l) [] [hy_v2; hy_v1] [Shock; CentralDiff] hy_sys with
        | Ok ks => List.length ks | _ => 0%nat end = 5%nat) by (vm_compute; reflexivity).
      rewrite E in L. exact L.
    + intros M r rhs x HM Hin Hx. apply (X M hy_uniform) with (rhs := rhs); auto; cbn [hy_uniform String.eqb Ascii.eqb Bool.eqb hy_solution map firstn].
      * lra.
      * lra.
      * unfold conserved. cbn [map app dot]. apply cons_eq; auto. apply cons_eq; [ring|]. apply cons_eq; [field|auto].
      * unfold pressure, density, momenta, energy. cbn [hd tl removelast last dot]. field.
      * apply (hy_divergence r rhs Hin).
    + intros M r rhs HM Hin. apply X' with (rhs := rhs); auto; [|apply (hy_divergence r rhs Hin)].
      intros b _ _ d x Hd Lx. rewrite !HM. destruct x as [|a [|]]; try discriminate. destruct d; [|cbn in Hd; lia]. cbn [move nth].
      change (Z.of_nat 10) with 10%Z. rewrite Z.even_add. cbn [Z.even]. destruct (Z.even a); reflexivity.
  - assert (F : forall r e f, wds e = [WD f "x0"] -> NoDup [WD f "x0"] /\ forall v, In v [WD f "x0"] <-> inside v (snd (r : string, e)) /\ exists f n, v = WD f n /\ dir3 n = 0%nat).
    { intros r e f We. split; [repeat constructor; intros []|]. cbn [snd]. intros v. split.
      - intros [<- | []]. split; [apply in_wds; rewrite We; left; reflexivity | exists f, "x0"%string; split; reflexivity].
      - intros (Hi & f' & n & -> & _). rewrite <- We. apply in_wds. eauto. }
    repeat (constructor; [apply F; reflexivity|]). constructor.
Qed.
