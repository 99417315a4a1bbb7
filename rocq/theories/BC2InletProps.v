(* C76: the inlet that extrapolates when the flow is subsonic. *)
From Verif Require Import Base BaseProofs Expr ExprProofs KernelModel ShiftModel ShiftSpec ShiftProofs BCModel BCSpec BCGasSpec BCProofs BCKern BCMirror BCOrder BCVec BCStm BCGas BCIso BC2Model BC2Spec BC2Proofs BC2StripProps.
From Coq Require Import QArith ZArith Reals Qreals Lia Lra FunctionalExtensionality.
Local Close Scope Q_scope.
Local Open Scope R_scope.

Section items.
  Variables (n d : nat) (w : nat) (rho : string) (moms : list string) (E : string).
  Local Notation dat b k := (EDat b (move d k (here n))).
  Definition ub (c : nat) : string := digits_name "ub" c.
  Definition pi_sq : expr := eadd (map (fun c => epow (ubvar c) 2) (seq 0 n)).
  Definition pi_p : expr := emul [esub gama (eint 1); esub (EDat E (here n)) (emul [ENum (1 # 2); evar "rhob"; pi_sq])].
  Definition pi_a : expr := epow (ediv (emul [gama; evar "pb"]) (evar "rhob")) (1 # 2).
  Definition pi_vel : list item := map (fun c => Lo (ub (fst c)) (EApp (HFun "Abs") [ediv (EDat (snd c) (here n)) (EDat rho (here n))])) (enum moms).
  Definition pi_loc : list item := Lo "rhob" (EDat rho (here n)) :: pi_vel ++ [Lo "pb" pi_p; Lo "ab" pi_a].
  Definition pi_fast : expr := ege (ubvar d) (evar "ab").
  Definition pi_face : list item := map (fun b => Da b 0 (epiece (dat b (-1)) pi_fast (dat b 0))) (rho :: moms ++ [E]).
  Definition pi_halo : list item := map (fun i => Da E (- i) (epiece (dat E (- i)) pi_fast (EDat E (here n)))) (upto w).
  Lemma in_pi_vel : forall a, In a pi_vel <-> exists c m, nth_error moms c = Some m /\ a = Lo (ub c) (EApp (HFun "Abs") [ediv (EDat m (here n)) (EDat rho (here n))]).
  Proof.
    intros a. unfold pi_vel. rewrite in_map_iff. split.
    - intros ([c m] & <- & H). exists c, m. split; auto. apply in_enum. auto.
    - intros (c & m & H & ->). exists (c, m). split; auto. apply in_enum. auto.
  Qed.
  Lemma pi_vel_names : forall g, In g (names_of pi_vel) -> exists c, g = ub c.
  Proof. intros g H. apply name_in in H. destruct H as [r H]. apply in_pi_vel in H. destruct H as (c & m & _ & H). apply (f_equal (fun a => match a with Lo g _ => g | _ => g end)) in H. cbv beta iota in H. eauto. Qed.
  Lemma pi_vel_nodup : NoDup (names_of pi_vel).
  Proof.
    assert (G : forall l s, names_of (map (fun c => Lo (ub (fst c)) (EApp (HFun "Abs") [ediv (EDat (snd c) (here n)) (EDat rho (here n))])) (combine (seq s (List.length l)) l)) = map ub (seq s (List.length l))).
    { induction l as [|m l IH]; intros s; cbn; auto. f_equal. apply IH. }
    unfold pi_vel, enum. rewrite G. apply FinFun.Injective_map_NoDup; [|apply seq_NoDup]. intros i j H. apply digits_inj in H. auto.
  Qed.
  Lemma pi_sq_vars : forall g, In g (syms KGridVar pi_sq) -> exists c, g = ub c.
  Proof.
    assert (U : uses (fun _ => True) (fun g => exists c, g = ub c) pi_sq); [|apply U].
    apply uses_app. intros e He. apply in_map_iff in He. destruct He as (c & <- & _). unfold epow, ubvar. repeat uses_tac. exists c. reflexivity.
  Qed.
  Lemma pi_p_vars : forall g, In g (syms KGridVar pi_p) -> g = "rhob"%string \/ exists c, g = ub c.
  Proof.
    assert (U : uses (fun _ => True) (fun g => g = "rhob"%string \/ exists c, g = ub c) pi_p); [|apply U].
    assert (uses (fun _ => True) (fun g => g = "rhob"%string \/ exists c, g = ub c) pi_sq).
    { split; auto. intros g Hg. right. apply pi_sq_vars. auto. }
    unfold pi_p, emul, esub, eadd, eint, gama. repeat uses_tac; auto.
  Qed.
  Lemma pi_loc_sane : sane pi_loc.
  Proof.
    unfold pi_loc. cbn [sane]. split; [intros g []|]. split.
    - cbn [name_of]. intros g [<- | []] H. rewrite names_app in H. apply in_app_iff in H. destruct H as [H | [H | [H | []]]]; try discriminate.
      apply pi_vel_names in H. destruct H as [c H]. discriminate.
    - apply sane_app.
      + apply sane_fresh; [apply pi_vel_nodup|]. intros i g Hi Hg. apply in_pi_vel in Hi. destruct Hi as (c & m & _ & ->). destruct Hg.
      + cbn [sane rhs_of name_of]. split; [|split; [|split; [|split]]]; auto.
        * intros g Hg H. apply pi_p_vars in Hg. cbn in H. destruct H as [<- | [<- | []]]; destruct Hg as [Hg | [c Hg]]; discriminate.
        * intros g [<- | []] [H | []]. discriminate.
        * intros g Hg H. cbn in Hg, H. destruct H as [<- | []]. destruct Hg as [Hg | [Hg | []]]; discriminate.
      + intros g Hg H. apply pi_vel_names in Hg. destruct Hg as [c ->]. destruct H as [H | [H | []]]; discriminate.
      + intros i g Hi Hg. apply in_pi_vel in Hi. destruct Hi as (c & m & _ & ->). destruct Hg.
  Qed.
  Lemma pi_loc_reads : forall i b ix, In i pi_loc -> In (b, ix) (dsets (rhs_of i)) -> ix = here n.
  Proof.
    intros i b ix Hi Hb. assert (S : forall a, ~ In a (dsets pi_sq)).
    { assert (U : uses (fun _ => False) (fun g => True) pi_sq); [|exact (proj1 U)].
      apply uses_app. intros e He. apply in_map_iff in He. destruct He as (c & <- & _). unfold epow, ubvar. repeat uses_tac. auto. }
    unfold pi_loc in Hi. destruct Hi as [<- | Hi]; [destruct Hb as [Hb | []]; congruence|]. apply in_app_iff in Hi. destruct Hi as [Hi | [<- | [<- | []]]].
    - apply in_pi_vel in Hi. destruct Hi as (c & m & _ & ->). cbn in Hb. destruct Hb as [Hb | [Hb | []]]; congruence.
    - assert (U : uses (fun a => snd a = here n) (fun g => True) pi_p).
      { assert (uses (fun a => snd a = here n) (fun g => True) pi_sq) by (split; auto; intros a Ha; destruct (S a Ha)).
        unfold pi_p, emul, esub, eadd, eint, gama. repeat uses_tac; auto. }
      apply (proj1 U _ Hb).
    - destruct Hb.
  Qed.
End items.

Lemma pressure_inlet_eqs : forall ord np bh d arrays rest rho moms E, good_order ord -> List.length bh = List.length np -> (d < List.length np)%nat ->
  let n := List.length np in flat_arrays arrays = rest ++ [EDat E (here n)] ->
  pressure_inlet_apply ord np bh d false arrays (ns_arrays n rho moms E) =
  Ok {| bk_ranges := set_nth d (0, 1)%Z (block_ranges np); bk_halos := set_nth d ([], []) bh;
        bk_eqs := map (tkeq n d) (pi_loc n rho moms E ++ pi_face n d rho moms E ++ pi_halo n d (Z.to_nat (halo_width bh false)) E) |}.
Proof.
  intros ord np bh d arrays rest rho moms E Go Lb Hd n Ha. unfold pressure_inlet_apply. rewrite bc_plane_ok by auto. cbn [bind fst snd ns_arrays ns_mom ns_rho ns_rhoE].
  rewrite Ha, rev_app_distr. cbn [rev app].
  assert (I : forall b k, inc ord d k (EDat b (here n)) = Ok (EDat b (move d k (here n)))).
  { intros b k. rewrite (inc_placed ord n) by (auto; apply placed_dat). reflexivity. }
  rewrite n_halos_width by (rewrite Lb; lia). set (w := Z.to_nat (halo_width bh false)). rewrite enum_map.
  replace (EDat rho (here n) :: map (fun m => EDat m (here n)) moms ++ [EDat E (here n)]) with (map (fun m => EDat m (here n)) (rho :: moms ++ [E])) by (cbn [map]; rewrite map_app; reflexivity).
  rewrite (map_result_ok _ _ _ (fun l => match l with EDat b _ => KEq l (epiece (EDat b (move d (-1) (here n))) (pi_fast d) (EDat b (move d 0 (here n)))) | e => KEq e e end)).
  2:{ intros e He. apply in_map_iff in He. destruct He as (b & <- & _). rewrite !I. reflexivity. }
  cbn [bind].
  rewrite (map_result_ok _ _ _ (fun i => KEq (EDat E (move d (- i) (here n))) (epiece (EDat E (move d (- i) (here n))) (pi_fast d) (EDat E (here n))))) by (intros i _; rewrite I; reflexivity).
  cbn [bind]. do 2 f_equal. unfold pi_loc. cbn [app]. cbn [map tkeq]. f_equal. rewrite (map_app _ (_ ++ _)), (map_app _ (pi_face _ _ _ _ _)). f_equal; [|f_equal].
  - unfold pi_vel. rewrite map_app, !map_map. reflexivity.
  - unfold pi_face. rewrite !map_map. cbn [map]. f_equal; [cbn [tkeq]; rewrite !move_0; reflexivity|]. apply map_ext. intros b. cbn [tkeq]. rewrite !move_0. reflexivity.
  - unfold pi_halo. rewrite map_map. reflexivity.
Qed.

(* assigning an array element to itself *)
Lemma self_assign : forall (J : interp R) n d x b k s, List.length x = n -> exec1 J x s (tkeq n d (Da b k (EDat b (move d k (here n))))) = s.
Proof.
  intros J n d x b k [M L] Lx. cbn. f_equal. extensionality b'. extensionality y. unfold upd. destruct (string_dec b b') as [<- |]; auto.
  destruct (list_eq_dec Z.eq_dec _ y) as [<- |]; auto.
Qed.
Lemma self_assigns : forall (J : interp R) n d x l s, List.length x = n ->
  fold_left (exec1 J x) (map (tkeq n d) (map (fun p => Da (fst p) (snd p) (EDat (fst p) (move d (snd p) (here n)))) l)) s = s.
Proof. intros J n d x l s Lx. induction l as [|p l IH]; cbn [map fold_left]; auto. rewrite self_assign; auto. Qed.
(* a Piecewise whose condition does not change *)
Lemma piece_run : forall J n d x c (L : string -> R) (fs : bool) A (f : A -> string * Z * (expr * expr)) l M, functions J ->
  (forall M, at_point J M L x c = if fs then 1 else 0) ->
  fold_left (exec1 J x) (map (tkeq n d) (map (fun a => let '(b, k, (e1, e2)) := f a in Da b k (epiece e1 c e2)) l)) (M, L) =
  fold_left (exec1 J x) (map (tkeq n d) (map (fun a => let '(b, k, (e1, e2)) := f a in Da b k (if fs then e1 else e2)) l)) (M, L).
Proof.
  intros J n d x c L fs A f l M F Hc. revert M. induction l as [|a l IH]; intros M; cbn [map fold_left]; auto.
  destruct (f a) as [[b k] [e1 e2]]. cbn [tkeq].
  assert (Ev : at_point J M L x (epiece e1 c e2) = at_point J M L x (if fs then e1 else e2)).
  { change (at_point J M L x (epiece e1 c e2)) with (iapp J (HFun "Piecewise") [at_point J M L x e1; at_point J M L x c; at_point J M L x e2; iapp J (HFun "true") []]).
    rewrite Hc. destruct fs; [apply (f_first J F) | rewrite (f_true J F); apply (f_second J F)]. }
  cbn [exec1 fst snd]. rewrite Ev. apply IH.
Qed.

(* The upper side is rejected.  At a face point where the normal velocity is at least the speed
   of sound, the state of the first halo point is copied onto the face and the halos stay as
   they are.  Where it is subsonic the face stays as it is and its total energy is copied to
   the halos, whose density and momenta stay as they are. *)
Theorem C76_pressure_inlet :
  forall J ord np bh d arrays rest rho moms E md,
    functions J -> good_order ord -> List.length bh = List.length np -> (d < List.length np)%nat ->
    NoDup (rho :: moms ++ [E]) -> List.length moms = List.length np -> nth_error moms d = Some md ->
    flat_arrays arrays = rest ++ [EDat E (here (List.length np))] ->
  pressure_inlet_apply ord np bh d true arrays (ns_arrays (List.length np) rho moms E) = Err ValueError /\
  exists k, pressure_inlet_apply ord np bh d false arrays (ns_arrays (List.length np) rho moms E) = Ok k /\
    (forall x, bk_points k x = true <-> on_face np bh d false x) /\
    forall pts M, sweeps pts (on_face np bh d false) ->
      let M' := run_kernel J (bk_eqs k) pts M in
      (forall x, on_face np bh d false x -> 0 < const J "gama" -> 0 < M rho x -> 0 < p_at J M rho moms E x ->
         let speed := Rabs (velocity_at M rho md x) in let a := sound_at J M rho moms E x in
         (a <= speed ->
            (forall b, In b (rho :: moms ++ [E]) -> M' b x = M b (outwards d false 1 x)) /\
            (forall b t, (1 <= t <= halo_width bh false)%Z -> M' b (outwards d false t x) = M b (outwards d false t x))) /\
         (speed < a ->
            (forall b, In b (rho :: moms ++ [E]) -> M' b x = M b x) /\
            (forall t, (1 <= t <= halo_width bh false)%Z ->
               M' E (outwards d false t x) = M E x /\
               forall b, In b (rho :: moms) -> M' b (outwards d false t x) = M b (outwards d false t x)))) /\
      (forall b y, ~ (In b (rho :: moms ++ [E]) /\ on_face np bh d false y) -> ~ (b = E /\ halo_point np bh d false y) -> M' b y = M b y).
Proof.
  intros J ord np bh d arrays rest rho moms E md F Go Lb Hd ND Lm Hmd Ha. pose proof (f_reals J F) as HJ. split; [reflexivity|].
  rewrite (pressure_inlet_eqs ord np bh d arrays rest) by auto. eexists. split; [reflexivity|]. split; [intros x; apply (bk_points_face np bh d false); auto|].
  intros pts M Sw. cbn [bk_eqs]. set (n := List.length np) in *. set (w := Z.to_nat (halo_width bh false)).
  assert (W0 : (0 <= halo_width bh false)%Z) by (unfold halo_width; lia).
  destruct (nodup3 _ _ _ ND) as (N1 & N2 & N3 & NDm).
  set (lo := pi_loc n rho moms E). set (fa := pi_face n d rho moms E). set (ha := pi_halo n d w E).
  assert (Pl : forall b k, ~ puts lo b k).
  { intros b k [r H]. unfold lo, pi_loc in H. destruct H as [H | H]; [discriminate|]. apply in_app_iff in H. destruct H as [H | [H | [H | []]]]; try discriminate.
    apply in_pi_vel in H. destruct H as (c & m & _ & H). discriminate. }
  assert (Pa : forall b k, puts (lo ++ fa ++ ha) b k -> (k = 0%Z /\ In b (rho :: moms ++ [E])) \/ (b = E /\ exists i, (1 <= i <= halo_width bh false)%Z /\ k = (- i)%Z)).
  { intros b k [r H]. rewrite !in_app_iff in H. destruct H as [H | [H | H]].
    - exfalso. apply (Pl b k). exists r. auto.
    - apply in_map_iff in H. destruct H as (b' & H & Hb). inversion H; subst. auto.
    - apply in_map_iff in H. destruct H as (i & H & Hi). inversion H; subst. apply in_upto in Hi. right. split; auto. exists i. unfold w in Hi. split; auto. lia. }
  assert (Rd : forall i b ix, In i (lo ++ fa ++ ha) -> In (b, ix) (dsets (rhs_of i)) ->
    List.length ix = n /\ ((exists k, ix = move d k (here n)) \/ ~ puts (lo ++ fa ++ ha) b (nth d ix 0%Z))).
  { intros i b ix Hi Hb. assert (H : exists k, ix = move d k (here n)).
    { rewrite !in_app_iff in Hi. destruct Hi as [Hi | [Hi | Hi]].
      - exists 0%Z. rewrite move_0. apply (pi_loc_reads n rho moms E i b ix Hi Hb).
      - apply in_map_iff in Hi. destruct Hi as (b' & <- & _). cbn in Hb. destruct Hb as [Hb | [Hb | []]]; injection Hb as <- <-; eauto.
      - apply in_map_iff in Hi. destruct Hi as (j & <- & _). cbn in Hb. destruct Hb as [Hb | [Hb | []]]; injection Hb as <- <-; eauto.
        exists 0%Z. rewrite move_0. reflexivity. }
    split; auto. destruct H as [k ->]. rewrite move_length. apply repeat_length. }
  pose proof (fun x b k Hx => face_point J np bh d false Hd (lo ++ fa ++ ha) pts M Sw Rd x b k Hx) as Fp.
  pose proof (face_outside J np bh d false Hd (lo ++ fa ++ ha) pts M Sw) as Fr.
  fold n in Fp, Fr. cbv zeta. set (M' := run_kernel J (map (tkeq n d) (lo ++ fa ++ ha)) pts M) in *.
  split.
  - intros x Hx G0 R0 P0. assert (Lx : List.length x = n) by apply Hx. specialize (fun b k => Fp x b k Hx).
    unfold run_point in Fp. rewrite !map_app, !fold_left_app in Fp.
    destruct (items_run J n d Hd x M Lx lo (M, isym J KGridVar)) as (A & _ & _ & D).
    { intros b k r r' H. exfalso. apply (Pl b k). exists r. auto. }
    { intros i b ix Hi Hb. split; auto. intros k Hk. exfalso. apply (Pl b k Hk). }
    { apply pi_loc_sane. }
    set (s1 := fold_left (exec1 J x) (map (tkeq n d) lo) (M, isym J KGridVar)) in *.
    assert (M1 : fst s1 = M). { extensionality b. extensionality y. apply D. intros k Hk. exfalso. apply (Pl b k Hk). }
    destruct s1 as [M0 L] eqn:Es1. cbn [fst snd] in *. subst M0. clear D Es1 s1.
    assert (Var : forall s, at_point J M L x (evar s) = L s) by reflexivity.
    assert (At0 : forall b, at_point J M L x (EDat b (here n)) = M b x) by (intros b; apply ap_dat; auto).
    assert (Lr : L "rhob"%string = M rho x) by (rewrite (A "rhob"%string (EDat rho (here n))) by (left; auto); apply At0).
    assert (Lu : forall c m, nth_error moms c = Some m -> L (ub c) = Rabs (velocity_at M rho m x)).
    { intros c m Hc. rewrite (A (ub c) (EApp (HFun "Abs") [ediv (EDat m (here n)) (EDat rho (here n))])).
      - change (at_point J M L x (EApp (HFun "Abs") [ediv (EDat m (here n)) (EDat rho (here n))])) with (iapp J (HFun "Abs") [at_point J M L x (ediv (EDat m (here n)) (EDat rho (here n)))]).
        rewrite (f_abs J F), (ap_div J HJ), !At0. reflexivity.
      - right. apply in_app_iff. left. apply in_pi_vel. exists c, m. auto. }
    assert (Sq : at_point J M L x (pi_sq n) = norm2 (map (fun m => velocity_at M rho m x) moms)).
    { unfold pi_sq. rewrite (ap_add J HJ), map_map. rewrite <- Lm. unfold norm2.
      assert (Ex : forall c, (c < List.length moms)%nat -> at_point J M L x (epow (ubvar c) 2) = velocity_at M rho (nth c moms md) x * velocity_at M rho (nth c moms md) x).
      { intros c Hc. rewrite (ap_sqr J HJ). unfold ubvar. rewrite Var. fold (ub c). rewrite (Lu c (nth c moms md)) by (apply nth_error_nth'; auto).
        rewrite <- Rabs_mult. apply Rabs_right. apply Rle_ge, Rle_0_sqr. }
      rewrite (map_ext_in _ (fun c => (fun m => velocity_at M rho m x * velocity_at M rho m x) (nth c moms md))).
      - assert (N : map (fun c => nth c moms md) (seq 0 (List.length moms)) = moms).
        { clear. induction moms as [|m l IH]; cbn; auto. f_equal. rewrite <- seq_shift, map_map. auto. }
        rewrite <- (map_map (fun c => nth c moms md) (fun m => velocity_at M rho m x * velocity_at M rho m x)), N. clear.
        induction moms as [|m l IH]; cbn; auto. rewrite IH. reflexivity.
      - intros c Hc. apply in_seq in Hc. apply Ex. lia. }
    assert (Lp : L "pb"%string = p_at J M rho moms E x).
    { rewrite (A "pb"%string (pi_p n E)) by (right; apply in_app_iff; right; left; auto).
      unfold pi_p. rewrite (ap_mul J HJ). cbn [map fold_right]. rewrite !(ap_sub J HJ), (ap_mul J HJ). cbn [map fold_right].
      rewrite (ap_num J HJ), (ap_int J HJ), Var, At0, Sq, Lr. unfold gama. rewrite ap_const. unfold p_at, pressure_of.
      assert (Nv : norm2 (map (fun m => M m x) moms) = M rho x * M rho x * norm2 (map (fun m => velocity_at M rho m x) moms)).
      { unfold norm2, velocity_at. clear - R0. induction moms as [|m l IH]; cbn; [ring|]. rewrite IH. field. lra. }
      rewrite Nv. unfold Q2R. cbn [Qnum Qden]. field. lra. }
    assert (La : L "ab"%string = sound_at J M rho moms E x).
    { rewrite (A "ab"%string pi_a) by (right; apply in_app_iff; right; right; left; auto). unfold pi_a, epow.
      change (at_point J M L x (EApp HPow [ediv (emul [gama; evar "pb"]) (evar "rhob"); ENum (1 # 2)])) with (iapp J HPow [at_point J M L x (ediv (emul [gama; evar "pb"]) (evar "rhob")); at_point J M L x (ENum (1 # 2))]).
      rewrite (ap_div J HJ), (ap_mul J HJ). cbn [map fold_right]. rewrite !Var, Lp, Lr, (ap_num J HJ). unfold gama. rewrite ap_const.
      rewrite Rmult_1_r. rewrite (f_power J F).
      - replace (Q2R (1 # 2)) with (/ 2) by (unfold Q2R; cbn [Qnum Qden]; lra). rewrite Rpower_sqrt; [reflexivity|].
        unfold Rdiv. apply Rmult_lt_0_compat; [apply Rmult_lt_0_compat; auto | apply Rinv_0_lt_compat; auto].
      - unfold Rdiv. apply Rmult_lt_0_compat; [apply Rmult_lt_0_compat; auto | apply Rinv_0_lt_compat; auto]. }
    set (a := sound_at J M rho moms E x) in *. set (speed := Rabs (velocity_at M rho md x)) in *.
    set (fs := if Rle_dec a speed then true else false).
    assert (Cond : forall M, at_point J M L x (pi_fast d) = if fs then 1 else 0).
    { intros M2. change (at_point J M2 L x (pi_fast d)) with (iapp J (HFun ">=") [L (ub d); L "ab"%string]). rewrite (f_ge J F), La, (Lu d md Hmd). fold speed. unfold fs. destruct (Rle_dec a speed); reflexivity. }
    assert (Run : fold_left (exec1 J x) (map (tkeq n d) ha) (fold_left (exec1 J x) (map (tkeq n d) fa) (M, L)) =
       fold_left (exec1 J x) (map (tkeq n d) (
          map (fun b => Da b 0 (if fs then EDat b (move d (-1) (here n)) else EDat b (move d 0 (here n)))) (rho :: moms ++ [E]) ++
          map (fun i => Da E (- i) (if fs then EDat E (move d (- i) (here n)) else EDat E (here n))) (upto w))) (M, L)).
    { rewrite <- fold_left_app, <- map_app. unfold fa, ha, pi_face, pi_halo.
      pose proof (piece_run J n d x (pi_fast d) L fs (string * Z) (fun p => (fst p, snd p, (EDat (fst p) (move d (if Z.eq_dec (snd p) 0 then -1 else snd p)%Z (here n)), EDat (fst p) (here n))))
         (map (fun b => (b, 0%Z)) (rho :: moms ++ [E]) ++ map (fun i => (E, (- i)%Z)) (upto w)) M F Cond) as P.
      rewrite !map_app, !map_map in P. cbn [fst snd] in P.
      assert (Up : forall T (f g : Z -> T), (forall i, (1 <= i)%Z -> f i = g i) -> map f (upto w) = map g (upto w)).
      { intros T f g H. apply map_ext_in. intros i Hi. apply in_upto in Hi. apply H. lia. }
      rewrite (Up _ (fun i => Da E (- i) (epiece (EDat E (move d (- i) (here n))) (pi_fast d) (EDat E (here n)))) (fun i => Da E (- i) (epiece (EDat E (move d (if Z.eq_dec (- i) 0 then -1 else - i)%Z (here n))) (pi_fast d) (EDat E (here n))))).
      2:{ intros i Hi. destruct (Z.eq_dec (- i) 0); [lia | reflexivity]. }
      rewrite (Up _ (fun i => Da E (- i) (if fs then EDat E (move d (- i) (here n)) else EDat E (here n))) (fun i => Da E (- i) (if fs then EDat E (move d (if Z.eq_dec (- i) 0 then -1 else - i)%Z (here n)) else EDat E (here n)))).
      2:{ intros i Hi. destruct (Z.eq_dec (- i) 0); [lia | reflexivity]. }
      rewrite !move_0. rewrite !map_app, !map_map. exact P. }
    rewrite Run in Fp. clear Run.
    assert (Mi : forall b i, M' b (outwards d false i x) = M' b (move d (- i) x)) by reflexivity.
    split; intros Hc; unfold fs in Fp; destruct (Rle_dec a speed) as [Hle | Hle]; try lra.
    + rewrite map_app, fold_left_app in Fp.
      assert (Ha2 : map (fun i => Da E (- i) (EDat E (move d (- i) (here n)))) (upto w) = map (fun p => Da (fst p) (snd p) (EDat (fst p) (move d (snd p) (here n)))) (map (fun i => (E, (- i)%Z)) (upto w))) by (rewrite map_map; reflexivity).
      rewrite Ha2, self_assigns in Fp by auto.
      set (l := map (fun b => Da b 0 (EDat b (move d (-1) (here n)))) (rho :: moms ++ [E])) in *.
      assert (Pl2 : forall b k, puts l b k -> k = 0%Z). { intros b k [r H]. apply in_map_iff in H. destruct H as (b' & H & _). inversion H. auto. }
      destruct (items_run J n d Hd x M Lx l (M, L)) as (_ & B & _ & D).
      { intros b k r r' H H'. apply in_map_iff in H, H'. destruct H as (b1 & H & _), H' as (b2 & H' & _). inversion H; inversion H'; subst. auto. }
      { intros i b ix Hi Hb. split; auto. intros k Hk. apply Pl2 in Hk. subst k. apply in_map_iff in Hi. destruct Hi as (b' & <- & _). destruct Hb as [Hb | []]. injection Hb as <- <-.
        unfold here. rewrite (vadd_along n) by auto. intros Em. apply move_inj in Em; [lia | rewrite Lx; auto]. }
      { apply sane_data. unfold l. clear. induction (rho :: moms ++ [E]); auto. }
      split.
      * intros b Hb. rewrite <- (move_0 d x) at 1. rewrite Fp. rewrite (B b 0%Z (EDat b (move d (-1) (here n)))) by (apply in_map_iff; exists b; auto).
        unfold at_point. cbn [eval]. unfold here. rewrite (vadd_along n) by auto. reflexivity.
      * intros b t Ht. rewrite Mi, Fp. apply D. intros k Hk. apply Pl2 in Hk. subst k. intros Em. apply move_inj in Em; [lia | rewrite Lx; auto].
    + rewrite map_app, fold_left_app in Fp.
      assert (Fa2 : map (fun b => Da b 0 (EDat b (move d 0 (here n)))) (rho :: moms ++ [E]) = map (fun p => Da (fst p) (snd p) (EDat (fst p) (move d (snd p) (here n)))) (map (fun b => (b, 0%Z)) (rho :: moms ++ [E]))) by (rewrite map_map; reflexivity).
      rewrite Fa2, self_assigns in Fp by auto. clear Fa2.
      set (l := map (fun i => Da E (- i) (EDat E (here n))) (upto w)) in *.
      assert (Pl2 : forall b k, puts l b k -> b = E /\ exists i, (1 <= i)%Z /\ k = (- i)%Z).
      { intros b k [r H]. apply in_map_iff in H. destruct H as (i & H & Hi). apply in_upto in Hi. inversion H. subst. split; auto. exists i. split; [lia | auto]. }
      destruct (items_run J n d Hd x M Lx l (M, L)) as (_ & B & _ & D).
      { intros b k r r' H H'. apply in_map_iff in H, H'. destruct H as (b1 & H & _), H' as (b2 & H' & _). inversion H; inversion H'; subst. auto. }
      { intros i b ix Hi Hb. split; auto. intros k Hk. apply Pl2 in Hk. destruct Hk as (_ & j & Hj & ->). apply in_map_iff in Hi. destruct Hi as (b' & <- & _). destruct Hb as [Hb | []]. injection Hb as <- <-.
        unfold here. rewrite vadd_here by auto. intros Em. rewrite <- (move_0 d x) in Em at 1. apply move_inj in Em; [lia | rewrite Lx; auto]. }
      { apply sane_data. unfold l. clear. induction (upto w); auto. }
      split.
      * intros b Hb. rewrite <- (move_0 d x) at 1. rewrite Fp, D; [rewrite move_0; reflexivity|]. intros k Hk. apply Pl2 in Hk. destruct Hk as (_ & j & Hj & ->).
        intros Em. apply move_inj in Em; [lia | rewrite Lx; auto].
      * intros t Ht. split.
        -- rewrite Mi, Fp. rewrite (B E (- t)%Z (EDat E (here n))); [apply At0|]. apply in_map_iff. exists t. split; auto. apply in_upto. unfold w. lia.
        -- intros b Hb. rewrite Mi, Fp. apply D. intros k Hk. apply Pl2 in Hk. destruct Hk as [-> _]. exfalso. destruct Hb as [Hb | Hb]; auto.
  - intros b y H1 H2. apply Fr. intros k x Hk Hx Ey. apply Pa in Hk. destruct Hk as [[-> Hb] | [-> (i & Hi & ->)]].
    + apply H1. rewrite move_0 in Ey. subst. auto.
    + apply H2. split; auto. exists x, i. auto.
Qed.
Print Assumptions C76_pressure_inlet.
