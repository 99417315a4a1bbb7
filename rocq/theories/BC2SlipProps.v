(* C76: the slip wall along a curve in two dimensions. *)
From Verif Require Import Base BaseProofs Expr ExprProofs KernelModel ShiftModel ShiftSpec ShiftProofs BCModel BCSpec BCGasSpec BCProofs BCKern BCMirror BCOrder BCVec BCStm BCGas BCIso BC2Model BC2Spec BC2Proofs BC2StripProps.
From Coq Require Import QArith ZArith Reals Qreals Lia Lra.
Local Close Scope Q_scope.

Definition place (ix : list Z) (e : expr) : expr := map_dsets (fun a => (fst a, ix)) e.
Lemma inc_place : forall ord n d k e ix, good_order ord -> (d < n)%nat -> List.length ix = n -> (forall b i, In (b, i) (dsets e) -> i = ix) -> syms KObj e = [] ->
  inc ord d k e = Ok (place (move d k ix) e).
Proof.
  intros ord n d k e ix Go Hd Li Lo Ko. unfold inc, increment_dataset. rewrite Ko.
  destruct (Go e) as [ND En].
  rewrite shift_loop_steps.
  - f_equal. unfold place. apply map_dsets_ext. intros a Ha. rewrite steps_good.
    + rewrite shift_dset_move. destruct a as [b i]. cbn. rewrite (Lo b i Ha). reflexivity.
    + auto.
    + apply (one_location_no_collision n e); auto.
      * intros b i Hb. rewrite (Lo b i Hb). auto.
      * intros b i b' i' Hb Hb'. rewrite (Lo _ _ Hb), (Lo _ _ Hb'). reflexivity.
    + apply En. auto.
  - intros [b i] Ha. apply En in Ha. cbn. rewrite (Lo b i Ha), Li. auto.
Qed.
Lemma place_place : forall ix ix' e, place ix (place ix' e) = place ix e.
Proof. intros. unfold place. rewrite map_dsets_map_dsets. apply map_dsets_ext. auto. Qed.
Lemma dsets_place : forall ix e b i, In (b, i) (dsets (place ix e)) -> i = ix.
Proof. intros ix e b i H. unfold place in H. rewrite dsets_map_dsets in H. apply in_map_iff in H. destruct H as (a & E & _). injection E as _ <-. auto. Qed.
Lemma along2_place : forall ord n d k t j e, good_order ord -> (d < n)%nat -> (t < n)%nat -> placed n e ->
  along2 ord d k t j e = Ok (place (move t j (move d k (here n))) e).
Proof.
  intros ord n d k t j e Go Hd Ht P. unfold along2. rewrite (inc_placed ord n) by auto. cbn [bind].
  change (put n d k e) with (place (move d k (here n)) e).
  rewrite (inc_place ord n t j _ (move d k (here n))); auto.
  - rewrite place_place. reflexivity.
  - rewrite move_length. apply repeat_length.
  - intros b i. apply dsets_place.
  - unfold place. rewrite syms_map_dsets. apply P.
Qed.
Lemma at_point_place : forall V (J : interp V) M L n ix x e, List.length x = n -> List.length ix = n -> placed n e ->
  at_point J M L x (place ix e) = value J M (vadd x ix) e.
Proof.
  intros V J M L n ix x e Lx Li (Lo & Gv & _). unfold at_point, place. rewrite eval_map_dsets.
  transitivity (at_point J M L (vadd x ix) e); [|apply at_point_value; auto]. unfold at_point. apply eval_ext.
  intros b i Hb. cbn. rewrite (Lo b i Hb). unfold here. rewrite vadd_here; auto. rewrite vadd_length; congruence.
Qed.

Section items.
  Variables (n d t : nat) (from to : Z) (w : nat) (rho m0 m1 E cx cy : string).
  Local Notation wl c g := (EDat c (move t g (move d 0 (here n)))).
  Local Notation ab c g := (EDat c (move t g (move d to (here n)))).
  Local Notation dat b k := (EDat b (move d k (here n))).
  Local Notation v := (ns_arrays n rho [m0; m1] E).
  Definition sl_off (j : nat) : Z := (Z.of_nat j - 1)%Z.
  Definition sl_theta (j : nat) : item :=
    Lo (digits_name "theta_" j) (efun "atan2" [esub (wl cy (sl_off j + 1)) (wl cy (sl_off j - 1)); esub (wl cx (sl_off j + 1)) (wl cx (sl_off j - 1))]).
  Definition sl_rho (j : nat) : item := Lo (digits_name "rho_" j) (ab rho (sl_off j)).
  Definition sl_u (j : nat) : list item := [Lo (u2name 0 j) (ediv (ab m0 (sl_off j)) (rvar j)); Lo (u2name 1 j) (ediv (ab m1 (sl_off j)) (rvar j))].
  Definition sl_p (j : nat) : item := Lo (digits_name "p_" j) (place (move t (sl_off j) (move d to (here n))) (pressure_cons v)).
  Definition sl_ut (j : nat) : item := Lo (digits_name "ut_" j) (eadd [emul [efun "cos" [thvar j]; u2var 0 j]; emul [efun "sin" [thvar j]; u2var 1 j]]).
  Definition sl_up : expr := ege (thvar 1) (eint 0).
  Definition sl_size : expr := epiece (edist (ab cy 0) (ab cy (-1)) (ab cx 0) (ab cx (-1))) sl_up (edist (ab cy 1) (ab cy 0) (ab cx 1) (ab cx 0)).
  Definition sl_delta (q : nat -> expr) : expr := epiece (esub (q 1%nat) (q 0%nat)) sl_up (esub (q 1%nat) (q 2%nat)).
  Definition sl_point : expr := ediv (emul [esub (dat cy to) (EDat cy (here n)); efun "sin" [thvar 1]]) sl_size.
  Definition sl_wall (q : nat -> expr) : expr := esub (q 1%nat) (emul [sl_point; sl_delta q]).
  Definition sl_m (a : expr) : expr := emul [sl_wall rvar; emul [sl_wall utvar; a]].
  Definition sl_E : expr := eadd [ediv (sl_wall pvar) (esub gama (eint 1)); emul [ENum (1 # 2); sl_wall rvar; epow (sl_wall utvar) 2]].
  Definition sl_out (wall above : expr) (i : Z) : expr := if (i =? 0)%Z then wall else esub (emul [eint (i + 1); wall]) (emul [eint i; above]).
  Definition sl_loc : list item := map sl_theta [0; 1; 2]%nat ++ map sl_rho [0; 1; 2]%nat ++ flat_map sl_u [0; 1; 2]%nat ++ map sl_p [0; 1; 2]%nat ++ map sl_ut [0; 1; 2]%nat.
  (* array, its value at the wall *)
  Definition sl_vals : list (string * expr) := [(rho, sl_wall rvar); (m0, sl_m (efun "cos" [thvar 1])); (m1, sl_m (efun "sin" [thvar 1])); (E, sl_E)].
  Definition sl_data : list item :=
    map (fun i => Da rho (from * i) (sl_out (sl_wall rvar) (dat rho to) i)) (0%Z :: upto w) ++
    flat_map (fun i => [Da m0 (from * i) (sl_out (sl_m (efun "cos" [thvar 1])) (dat m0 to) i); Da m1 (from * i) (sl_out (sl_m (efun "sin" [thvar 1])) (dat m1 to) i)]) (0%Z :: upto w) ++
    map (fun i => Da E (from * i) (sl_out sl_E (dat E to) i)) (0%Z :: upto w).
  Lemma in_sl_data : forall a, In a sl_data <-> exists i b e, (0 <= i <= Z.of_nat w)%Z /\ In (b, e) sl_vals /\ a = Da b (from * i) (sl_out e (dat b to) i).
  Proof.
    intros a. unfold sl_data, sl_vals. generalize sl_E, (sl_m (efun "cos" [thvar 1])), (sl_m (efun "sin" [thvar 1])), (sl_wall rvar). intros eE e0 e1 er.
    rewrite !in_app_iff, !in_map_iff, in_flat_map.
    assert (Z0 : forall i, In i (0%Z :: upto w) <-> (0 <= i <= Z.of_nat w)%Z) by (intros i; cbn [In]; rewrite in_upto; lia). split.
    - intros [(i & <- & H) | [(i & H & [<- | [<- | []]]) | (i & <- & H)]]; apply Z0 in H; exists i; eexists; eexists; (split; [exact H|]); (split; [|reflexivity]); cbn; auto.
    - intros (i & b & e & H & Hb & ->). apply Z0 in H. cbn in Hb. destruct Hb as [Hb | [Hb | [Hb | [Hb | []]]]]; injection Hb as <- <-.
      + left. eauto.
      + right. left. exists i. split; auto. left. auto.
      + right. left. exists i. split; auto. right. left. auto.
      + right. right. eauto.
  Qed.
  Lemma sl_data_names : names_of sl_data = [].
  Proof.
    unfold names_of. rewrite flat_map_concat_map. apply concat_nil_Forall. apply Forall_map, Forall_forall. intros a H. apply in_sl_data in H.
    destruct H as (i & b & e & _ & _ & ->). reflexivity.
  Qed.
  Lemma sl_loc_sane : sane sl_loc.
  Proof.
    unfold sl_loc, sl_u. cbn [map flat_map app]. cbn [sane].
    repeat match goal with |- _ /\ _ => split end; match goal with |- forall g, _ => cbn; intros g; intuition (subst; discriminate) | |- _ => exact I end.
  Qed.
End items.

Lemma slip2d_eqs : forall ord np bh d side rho m0 m1 E cx cy, good_order ord -> List.length bh = List.length np -> (d < List.length np)%nat -> List.length np = 2%nat ->
  let n := List.length np in
  slip2d_apply ord np bh d side (ns_arrays n rho [m0; m1] E) (EDat cx (here n)) (EDat cy (here n)) =
  Ok {| bk_ranges := set_nth d (if side then (nth d np 0 - 1, nth d np 0) else (0, 1))%Z (block_ranges np); bk_halos := set_nth d ([], []) bh;
        bk_eqs := map (tkeq n d) (sl_loc n d (1 - d) (snd (set_side_factor side)) rho m0 m1 E cx cy ++
                                  sl_data n d (1 - d) (fst (set_side_factor side)) (snd (set_side_factor side)) (Z.to_nat (halo_width bh side)) rho m0 m1 E cx cy) |}.
Proof.
  intros ord np bh d side rho m0 m1 E cx cy Go Lb Hd H2 n. unfold slip2d_apply. rewrite bc_plane_ok by auto. cbn [bind fst snd].
  replace (1 <? d)%nat with false by (symmetry; apply Nat.ltb_ge; lia).
  destruct (set_side_factor side) as [from to]. cbn [fst snd ns_arrays ns_mom ns_rho ns_rhoE].
  rewrite n_halos_width by (rewrite Lb; lia). set (w := Z.to_nat (halo_width bh side)). set (t := (1 - d)%nat). assert (Ht : (t < n)%nat) by (unfold t, n; lia).
  assert (I : forall b k, inc ord d k (EDat b (here n)) = Ok (EDat b (move d k (here n)))).
  { intros b k. rewrite (inc_placed ord n) by (auto; apply placed_dat). reflexivity. }
  assert (A : forall b k j, along2 ord d k t j (EDat b (here n)) = Ok (EDat b (move t j (move d k (here n))))).
  { intros b k j. rewrite (along2_place ord n) by (auto; apply placed_dat). reflexivity. }
  assert (AP : forall k j, along2 ord d k t j (pressure_cons (ns_arrays n rho [m0; m1] E)) = Ok (place (move t j (move d k (here n))) (pressure_cons (ns_arrays n rho [m0; m1] E)))).
  { intros k j. apply along2_place; auto. apply placed_pressure. }
  unfold sl_data. generalize (0%Z :: upto w). intros zs. clear w.
  cbn [map_result]. rewrite !A. cbn [bind map map_result]. rewrite !I. cbn [bind].
  change (along2 ord d to t ?j (pressure_cons {| ns_rho := EDat rho (here n); ns_mom := [EDat m0 (here n); EDat m1 (here n)]; ns_rhoE := EDat E (here n) |})) with (along2 ord d to t j (pressure_cons (ns_arrays n rho [m0; m1] E))).
  cbn [enum combine seq List.length map_result bind fst snd]. rewrite !A. cbn [bind]. rewrite !AP. cbn [bind negb Nat.eqb List.length].
  cbv zeta. cbn [map map2 combine nth Nat.add fst snd].
  rewrite (map_result_ok _ _ _ (fun i => KEq (EDat rho (move d (from * i) (here n))) (sl_out (sl_wall n d t to cx cy rvar) (EDat rho (move d to (here n))) i))) by (intros i _; rewrite I; reflexivity).
  cbn [bind].
  rewrite (map_result_ok _ _ _ (fun i => [KEq (EDat m0 (move d (from * i) (here n))) (sl_out (sl_m n d t to cx cy (efun "cos" [thvar 1])) (EDat m0 (move d to (here n))) i);
      KEq (EDat m1 (move d (from * i) (here n))) (sl_out (sl_m n d t to cx cy (efun "sin" [thvar 1])) (EDat m1 (move d to (here n))) i)])).
  2:{ intros i _. cbn [map_result bind fst snd]. rewrite !I. reflexivity. }
  cbn [bind].
  rewrite (map_result_ok _ _ _ (fun i => KEq (EDat E (move d (from * i) (here n))) (sl_out (sl_E n d t to cx cy) (EDat E (move d to (here n))) i))) by (intros i _; rewrite I; reflexivity).
  cbn [bind]. do 2 f_equal. rewrite map_app.
  rewrite !map_app, !map_map, flat_map_concat_map, concat_map, map_map. rewrite !app_assoc. try (f_equal; try f_equal; try f_equal).
Qed.

Section reads.
  Variables (n d t : nat) (from to : Z) (w : nat) (rho m0 m1 E cx cy : string).
  Hypothesis (Hd : (d < n)%nat) (Hdt : t <> d).
  Definition sl_ok (a : dset) : Prop := List.length (snd a) = n /\ (fst a = cx \/ fst a = cy \/ nth d (snd a) 0%Z = to).
  Lemma ok_wall : forall c g, c = cx \/ c = cy -> sl_ok (c, move t g (move d 0 (here n))).
  Proof. intros c g H. split; [cbn [snd]; rewrite !move_length; apply repeat_length|]. cbn [fst]. tauto. Qed.
  Lemma ok_above : forall c g, sl_ok (c, move t g (move d to (here n))).
  Proof. intros c g. split; [cbn [snd]; rewrite !move_length; apply repeat_length|]. right. right. cbn [snd]. rewrite move_nth_other by auto. unfold here. rewrite move_nth by (rewrite repeat_length; auto). rewrite nth_repeat. lia. Qed.
  Lemma ok_line : forall c, sl_ok (c, move d to (here n)).
  Proof. intros c. rewrite <- (move_0 t (move d to (here n))). apply ok_above. Qed.
  Lemma ok_here : forall c, c = cx \/ c = cy -> sl_ok (c, here n).
  Proof. intros c H. split; [cbn [snd]; apply repeat_length|]. cbn [fst]. tauto. Qed.
  Local Notation ok := (uses sl_ok (fun _ => True)).
  Ltac us := unfold sl_up, edist, epiece, ege, efun, etrue, ediv, epow, emul, esub, eadd, eint, gama, thvar, rvar, utvar, pvar, u2var;
    repeat first [uses_tac | apply ok_above | apply ok_line | (apply ok_wall; auto) | (apply ok_here; auto) | exact I].
  Lemma sl_point_uses : ok (sl_point n d t to cx cy).
  Proof. unfold sl_point, sl_size. us. Qed.
  Lemma sl_wall_uses : forall q, ok (q 0%nat) -> ok (q 1%nat) -> ok (q 2%nat) -> ok (sl_wall n d t to cx cy q).
  Proof. intros q H0 H1 H2. pose proof sl_point_uses. unfold sl_wall, sl_delta. us. Qed.
  Lemma sl_vals_uses : forall b e, In (b, e) (sl_vals n d t to rho m0 m1 E cx cy) -> ok e.
  Proof.
    assert (Wr : ok (sl_wall n d t to cx cy rvar)) by (apply sl_wall_uses; us).
    assert (Wu : ok (sl_wall n d t to cx cy utvar)) by (apply sl_wall_uses; us).
    assert (Wp : ok (sl_wall n d t to cx cy pvar)) by (apply sl_wall_uses; us).
    intros b e H. unfold sl_vals in H. destruct H as [H | [H | [H | [H | []]]]]; injection H as <- <-; auto; unfold sl_m, sl_E; us.
  Qed.
  Lemma sl_reads : forall i b ix, In i (sl_loc n d t to rho m0 m1 E cx cy ++ sl_data n d t from to w rho m0 m1 E cx cy) -> In (b, ix) (dsets (rhs_of i)) -> sl_ok (b, ix).
  Proof.
    intros i b ix Hi Hb. assert (U : ok (rhs_of i)); [|apply U; auto]. clear Hb b ix. apply in_app_iff in Hi. destruct Hi as [Hi | Hi].
    - unfold sl_loc, sl_u in Hi. cbn [map flat_map app In] in Hi. repeat (destruct Hi as [<- | Hi]); [..|destruct Hi]; unfold sl_theta, sl_rho, sl_p, sl_ut; cbn [rhs_of].
      13,14,15: (split; [|auto]; intros [b ix] Hb; apply dsets_place in Hb; subst; apply ok_above).
      all: us.
    - apply in_sl_data in Hi. destruct Hi as (i0 & b & e & _ & Hb & ->). cbn [rhs_of]. apply sl_vals_uses in Hb. unfold sl_out. destruct (i0 =? 0)%Z; us.
  Qed.
End reads.

Local Open Scope R_scope.
Lemma norm_sqr : forall a b c, 0 <= a -> sqrt a = c -> c * c = a + b -> b = 0.
Proof. intros a b c H <- E. rewrite sqrt_sqrt in E by auto. lra. Qed.

(* Two momenta are needed.  At the wall the momentum is along the central-difference tangent of
   the wall.  Density, pressure and tangential speed are read between the first point inside,
   z, and its neighbour in the direction away from which the wall rises; s is the position
   between the two.  The halos hold the linear extrapolation of wall and first point inside. *)
Theorem C76_slip_wall :
  forall J ord np bh d side rho m0 m1 E cx cy,
    functions J -> good_order ord -> List.length bh = List.length np -> (d < List.length np)%nat -> List.length np = 2%nat ->
    NoDup [rho; m0; m1; E; cx; cy] ->
  exists k, slip2d_apply ord np bh d side (ns_arrays (List.length np) rho [m0; m1] E) (EDat cx (here (List.length np))) (EDat cy (here (List.length np))) = Ok k /\
    (forall x, bk_points k x = true <-> on_face np bh d side x) /\
    forall pts M, sweeps pts (on_face np bh d side) ->
      let M' := run_kernel J (bk_eqs k) pts M in let t := (1 - d)%nat in
      (forall x, on_face np bh d side x ->
         let z := inwards d side 1 x in
         let q := (if Rle_dec 0 (span M cy t x) then -1 else 1)%Z in
         let norm := span_norm M cx cy t x in
         let s := (M cy z - M cy x) * (span M cy t x / norm) / distance M cx cy z (move t q z) in
         let speed j := along_wall M rho m0 m1 cx cy t (move t j x) (move t j z) in
         (forall j, (-1 <= j <= 1)%Z -> span_norm M cx cy t (move t j x) <> 0) -> distance M cx cy z (move t q z) <> 0 ->
         let u := speed 0%Z - s * (speed 0%Z - speed q) in
         M' rho x = M rho z - s * (M rho z - M rho (move t q z)) /\
         M' m0 x = M' rho x * u * (span M cx t x / norm) /\
         M' m1 x = M' rho x * u * (span M cy t x / norm) /\
         (const J "gama" <> 1 -> M' rho x <> 0 ->
            let p := p_at J M rho [m0; m1] E in p_at J M' rho [m0; m1] E x = p z - s * (p z - p (move t q z))) /\
         forall b i, In b [rho; m0; m1; E] -> (1 <= i <= halo_width bh side)%Z ->
           M' b (outwards d side i x) = (IZR i + 1) * M' b x - IZR i * M b z) /\
      (forall b y, ~ (In b [rho; m0; m1; E] /\ face_or_halo np bh d side y) -> M' b y = M b y).
Proof.
  intros J ord np bh d side rho m0 m1 E cx cy F Go Lb Hd H2 ND. pose proof (f_reals J F) as HJ. rewrite slip2d_eqs by auto.
  eexists. split; [reflexivity|]. split; [intros x; apply bk_points_face; auto|].
  intros pts M Sw. cbn [bk_eqs]. set (n := List.length np) in *. set (w := Z.to_nat (halo_width bh side)). set (t := (1 - d)%nat).
  destruct (set_side_factor side) as [from to] eqn:Es. cbn [fst snd].
  assert (W0 : (0 <= halo_width bh side)%Z) by (unfold halo_width; lia).
  assert (Hs : (from = 1 /\ to = -1 \/ from = -1 /\ to = 1)%Z) by (destruct side; injection Es as <- <-; auto).
  assert (Hdt : t <> d) by (unfold t; lia). assert (Ht : (t < n)%nat) by (unfold t; lia).
  set (l := sl_loc n d t to rho m0 m1 E cx cy ++ sl_data n d t from to w rho m0 m1 E cx cy).
  assert (Pu : forall b k, puts l b k -> exists i, (0 <= i <= halo_width bh side)%Z /\ k = (from * i)%Z /\ In b [rho; m0; m1; E]).
  { intros b k [r H]. unfold l in H. apply in_app_iff in H. destruct H as [H | H].
    - exfalso. unfold sl_loc, sl_u in H. cbn [map flat_map app In] in H. repeat (destruct H as [H | H]; [discriminate|]). destruct H.
    - apply in_sl_data in H. destruct H as (i & b' & e & Hi & Hb & H). exists i. split; [lia|]. inversion H; subst. split; auto.
      unfold sl_vals in Hb. cbn [In] in *. destruct Hb as [Hb | [Hb | [Hb | [Hb | []]]]]; injection Hb as <- _; auto. }
  assert (Nc : forall c, c = cx \/ c = cy -> ~ In c [rho; m0; m1; E]).
  { intros c Hc I. repeat match goal with H : NoDup (_ :: _) |- _ => inversion H; clear H; subst end. cbn in *.
    destruct Hc as [-> | ->]; intuition congruence. }
  assert (NDv : NoDup [rho; m0; m1; E]).
  { clear - ND. repeat match goal with H : NoDup (_ :: _) |- _ => inversion H; clear H; subst end. cbn in *. repeat constructor; cbn; intuition congruence. }
  destruct (face_items R J np bh d side l pts M Hd Sw) as [Val Fr].
  { intros b k r r' H H'. unfold l in H, H'. apply in_app_iff in H, H'.
    destruct H as [H | H]; [exfalso; unfold sl_loc, sl_u in H; cbn [map flat_map app In] in H; repeat (destruct H as [H | H]; [discriminate|]); destruct H|].
    destruct H' as [H' | H']; [exfalso; unfold sl_loc, sl_u in H'; cbn [map flat_map app In] in H'; repeat (destruct H' as [H' | H']; [discriminate|]); destruct H'|].
    apply in_sl_data in H, H'. destruct H as (i & b1 & e & Hi & Hb & H), H' as (i' & b1' & e' & Hi' & Hb' & H').
    assert (i = i'). { inversion H; inversion H'; subst. lia. } subst i'.
    assert (b1 = b /\ b1' = b) by (inversion H; inversion H'; subst; auto). destruct H0 as [-> ->].
    assert (e = e'); [|inversion H; inversion H'; subst; reflexivity].
    assert (NDk : NoDup (map fst (sl_vals n d t to rho m0 m1 E cx cy))) by exact NDv. clear - NDk Hb Hb'.
    induction (sl_vals n d t to rho m0 m1 E cx cy) as [|[b0 e0] vs IH]; [destruct Hb|]. cbn in NDk. inversion NDk; subst.
    destruct Hb as [Hb | Hb], Hb' as [Hb' | Hb']; [congruence | injection Hb as -> -> | injection Hb' as -> -> | auto].
    - exfalso. apply H1. apply (in_map fst) in Hb'. exact Hb'.
    - exfalso. apply H1. apply (in_map fst) in Hb. exact Hb. }
  { intros i b ix Hi Hb. destruct (sl_reads n d t from to w rho m0 m1 E cx cy Hd Hdt i b ix Hi Hb) as [A B]. cbn [fst snd] in A, B. split; auto.
    intros P. apply Pu in P. destruct P as (j & Hj & Ej & Ib). destruct B as [B | [B | B]]; [apply (Nc b); auto | apply (Nc b); auto | lia]. }
  { apply sane_app; [apply sl_loc_sane | apply sane_data, sl_data_names | |]; intros; rewrite sl_data_names; intros []. }
  fold n in Val, Fr. cbv zeta. set (M' := run_kernel J (map (tkeq n d) l) pts M) in *.
  assert (Out : forall i x, move d (from * i) x = outwards d side i x) by (intros; rewrite outwards_factor, Es; reflexivity).
  assert (Inn : forall x, move d to x = inwards d side 1 x) by (intros; rewrite <- (Z.mul_1_r to), inwards_factor, Es; reflexivity).
  split.
  - intros x Hx. assert (Lx : List.length x = n) by apply Hx. destruct (Val x Hx) as (L & Loc & Dat). clear Val.
    set (z := inwards d side 1 x). intros Nn Nd.
    assert (Ixl : forall k j, vadd x (move t j (move d k (here n))) = move t j (move d k x)).
    { intros k j. rewrite <- vadd_move. unfold here. rewrite (vadd_along n) by (rewrite move_length; auto).
      apply nth_ext0; [rewrite !move_length; auto|]. intros i Hi. rewrite !move_length in Hi.
      destruct (Nat.eq_dec i d) as [-> |]; [|destruct (Nat.eq_dec i t) as [-> |]].
      - rewrite move_nth by (rewrite move_length; lia). rewrite !move_nth_other by auto. rewrite move_nth by lia. reflexivity.
      - rewrite move_nth_other by auto. rewrite !move_nth by (rewrite ?move_length; lia). rewrite move_nth_other by auto. reflexivity.
      - rewrite !move_nth_other by auto. reflexivity. }
    assert (Wl : forall c g, at_point J M L x (EDat c (move t g (move d 0 (here n)))) = M c (move t g x)).
    { intros c g. unfold at_point. cbn [eval]. rewrite Ixl, move_0. reflexivity. }
    assert (Ab : forall c g, at_point J M L x (EDat c (move t g (move d to (here n)))) = M c (move t g z)).
    { intros c g. unfold at_point. cbn [eval]. rewrite Ixl, Inn. reflexivity. }
    assert (Abd : forall c, at_point J M L x (EDat c (move d to (here n))) = M c z).
    { intros c. rewrite <- (move_0 t (move d to (here n))), Ab, move_0. reflexivity. }
    assert (Hr : forall c, at_point J M L x (EDat c (here n)) = M c x) by (intros c; apply ap_dat; auto).
    assert (Var : forall s, at_point J M L x (evar s) = L s) by reflexivity.
    assert (Fun1 : forall f e, at_point J M L x (efun f [e]) = iapp J (HFun f) [at_point J M L x e]) by reflexivity.
    assert (InL : forall i, In i (sl_loc n d t to rho m0 m1 E cx cy) -> In i l) by (intros i Hi; apply in_app_iff; auto).
    assert (C3 : forall j, (j < 3)%nat -> In j [0; 1; 2]%nat) by (intros j Hj; destruct j as [|[|[|j]]]; [left | right; left | right; right; left | lia]; auto).
    set (th := fun j => L (digits_name "theta_" j)).
    set (xj := fun j : nat => move t (sl_off j) x). set (zj := fun j : nat => move t (sl_off j) z).
    assert (Nrm : forall y, span_norm M cx cy t y <> 0 -> span M cx t y * span M cx t y + span M cy t y * span M cy t y <> 0).
    { intros y Hy E0. apply Hy. unfold span_norm. rewrite E0. apply sqrt_0. }
    assert (Ang : forall j, (j < 3)%nat -> - PI < th j <= PI /\ cos (th j) = span M cx t (xj j) / span_norm M cx cy t (xj j) /\ sin (th j) = span M cy t (xj j) / span_norm M cx cy t (xj j)).
    { intros j Hj. assert (Nj : span_norm M cx cy t (xj j) <> 0) by (apply Nn; unfold sl_off; lia).
      assert (T : th j = iapp J (HFun "atan2") [span M cy t (xj j); span M cx t (xj j)]).
      { unfold th. rewrite (Loc _ (efun "atan2" [esub (EDat cy (move t (sl_off j + 1) (move d 0 (here n)))) (EDat cy (move t (sl_off j - 1) (move d 0 (here n))));
                                                 esub (EDat cx (move t (sl_off j + 1) (move d 0 (here n)))) (EDat cx (move t (sl_off j - 1) (move d 0 (here n))))])).
        2:{ apply InL. unfold sl_loc. apply in_app_iff. left. apply in_map_iff. exists j. split; auto. }
        transitivity (iapp J (HFun "atan2") [at_point J M L x (esub (EDat cy (move t (sl_off j + 1) (move d 0 (here n)))) (EDat cy (move t (sl_off j - 1) (move d 0 (here n)))));
            at_point J M L x (esub (EDat cx (move t (sl_off j + 1) (move d 0 (here n)))) (EDat cx (move t (sl_off j - 1) (move d 0 (here n)))))]); [reflexivity|].
        rewrite !(ap_sub J HJ), !Wl. unfold span, xj. rewrite !move_move. reflexivity. }
      rewrite T. destruct (f_angle J F (span M cy t (xj j)) (span M cx t (xj j)) (Nrm _ Nj)) as (A & B & C). fold (span_norm M cx cy t (xj j)) in B, C.
      split; auto. split; [rewrite B at 2 | rewrite C at 2]; field; auto. }
    assert (Lrho : forall j, (j < 3)%nat -> L (digits_name "rho_" j) = M rho (zj j)).
    { intros j Hj. rewrite (Loc _ (EDat rho (move t (sl_off j) (move d to (here n))))); [apply Ab|]. apply InL. unfold sl_loc. apply in_app_iff. right. apply in_app_iff. left. apply in_map_iff. exists j. auto. }
    assert (Lu : forall j, (j < 3)%nat -> L (u2name 0 j) = velocity_at M rho m0 (zj j) /\ L (u2name 1 j) = velocity_at M rho m1 (zj j)).
    { intros j Hj. assert (I : forall i, In i (sl_u n d t to m0 m1 j) -> In i l).
      { intros i Hi. apply InL. unfold sl_loc. apply in_app_iff. right. apply in_app_iff. right. apply in_app_iff. left. apply in_flat_map. exists j. auto. }
      rewrite (Loc (u2name 0 j) (ediv (EDat m0 (move t (sl_off j) (move d to (here n)))) (rvar j))) by (apply I; left; auto).
      rewrite (Loc (u2name 1 j) (ediv (EDat m1 (move t (sl_off j) (move d to (here n)))) (rvar j))) by (apply I; right; left; auto).
      unfold rvar. rewrite !(ap_div J HJ), !Ab, !Var, Lrho by auto. split; reflexivity. }
    assert (Lz : List.length z = n) by (unfold z, inwards; rewrite move_length; auto).
    assert (Lp : forall j, (j < 3)%nat -> L (digits_name "p_" j) = p_at J M rho [m0; m1] E (zj j)).
    { intros j Hj. rewrite (Loc _ (place (move t (sl_off j) (move d to (here n))) (pressure_cons (ns_arrays n rho [m0; m1] E)))).
      - rewrite (at_point_place _ J M L n) by first [assumption | apply placed_pressure | rewrite !move_length; apply repeat_length]. rewrite Ixl, Inn. fold z. fold (zj j).
        assert (Lzj : List.length (zj j) = n) by (unfold zj; rewrite move_length; auto).
        rewrite value_at by (rewrite Lzj; apply placed_pressure). apply ap_pressure; auto.
      - apply InL. unfold sl_loc. do 3 (apply in_app_iff; right). apply in_app_iff; left. apply in_map_iff. exists j. auto. }
    assert (Lut : forall j, (j < 3)%nat -> L (digits_name "ut_" j) = along_wall M rho m0 m1 cx cy t (xj j) (zj j)).
    { intros j Hj. rewrite (Loc _ (eadd [emul [efun "cos" [thvar j]; u2var 0 j]; emul [efun "sin" [thvar j]; u2var 1 j]])).
      - rewrite (ap_add J HJ). cbn [map fold_right]. rewrite !(ap_mul J HJ). cbn [map fold_right]. rewrite !Fun1, (f_cos J F), (f_sin J F). unfold thvar, u2var. rewrite !Var.
        fold (th j). destruct (Ang j Hj) as (_ & -> & ->). destruct (Lu j Hj) as [-> ->]. unfold along_wall, Rdiv. ring.
      - apply InL. unfold sl_loc. do 4 (apply in_app_iff; right). apply in_map_iff. exists j. auto. }
    assert (X1 : xj 1%nat = x) by (unfold xj, sl_off; rewrite move_0; reflexivity).
    assert (Z1 : zj 1%nat = z) by (unfold zj, sl_off; rewrite move_0; reflexivity).
    set (norm := span_norm M cx cy t x) in *.
    assert (N0 : norm <> 0) by (unfold norm; rewrite <- X1; unfold xj; apply Nn; unfold sl_off; lia).
    assert (Np : 0 < norm) by (unfold norm, span_norm in *; pose proof (sqrt_pos (span M cx t x * span M cx t x + span M cy t x * span M cy t x)); lra).
    destruct (Ang 1%nat) as (Rg & Co & Si); [lia|]. rewrite X1 in Co, Si. fold norm in Co, Si.
    set (up := if Rle_dec 0 (span M cy t x) then true else false).
    assert (Up : at_point J M L x sl_up = if up then 1 else 0).
    { change (at_point J M L x sl_up) with (iapp J (HFun ">=") [th 1%nat; at_point J M L x (eint 0)]). rewrite (ap_int J HJ), (f_ge J F). unfold up.
      destruct (Rle_dec 0 (th 1%nat)) as [A | A], (Rle_dec 0 (span M cy t x)) as [B | B]; auto; exfalso.
      - assert (0 <= sin (th 1%nat)) by (apply sin_ge_0; lra). rewrite Si in H. apply B.
        replace (span M cy t x) with (span M cy t x / norm * norm) by (field; auto). apply Rmult_le_pos; lra.
      - assert (0 < sin (- th 1%nat)) by (apply sin_gt_0; lra). rewrite sin_neg, Si in H.
        assert (0 <= span M cy t x / norm) by (unfold Rdiv; apply Rmult_le_pos; [auto | left; apply Rinv_0_lt_compat; auto]). lra. }
    set (q := (if Rle_dec 0 (span M cy t x) then -1 else 1)%Z) in *.
    assert (Pc : forall a b, at_point J M L x (epiece a sl_up b) = if up then at_point J M L x a else at_point J M L x b).
    { intros a b. change (at_point J M L x (epiece a sl_up b)) with (iapp J (HFun "Piecewise") [at_point J M L x a; at_point J M L x sl_up; at_point J M L x b; iapp J (HFun "true") []]).
      rewrite Up. destruct up; [apply (f_first J F) | rewrite (f_true J F); apply (f_second J F)]. }
    set (h := distance M cx cy z (move t q z)) in *.
    assert (Di : forall a b c e ya yb xa xb, at_point J M L x a = ya -> at_point J M L x b = yb -> at_point J M L x c = xa -> at_point J M L x e = xb ->
        sqrt ((ya - yb) * (ya - yb) + (xa - xb) * (xa - xb)) = h -> at_point J M L x (edist a b c e) = h).
    { intros a b c e ya yb xa xb Ha Hb Hc He Hh. unfold edist. unfold epow at 1.
      change (at_point J M L x (EApp HPow [?u; ENum (1 # 2)])) with (iapp J HPow [at_point J M L x u; at_point J M L x (ENum (1 # 2))]).
      rewrite (ap_num J HJ), (ap_add J HJ). cbn [map fold_right]. rewrite !(ap_sqr J HJ), !(ap_sub J HJ), Ha, Hb, Hc, He, Rplus_0_r.
      assert (P : 0 < (ya - yb) * (ya - yb) + (xa - xb) * (xa - xb)).
      { pose proof (Rle_0_sqr (ya - yb)). pose proof (Rle_0_sqr (xa - xb)). unfold Rsqr in *.
        destruct (Req_dec ((ya - yb) * (ya - yb) + (xa - xb) * (xa - xb)) 0) as [E0 | E0]; [|lra]. exfalso. apply Nd. rewrite <- Hh, E0. apply sqrt_0. }
      rewrite (f_power J F) by auto. replace (Q2R (1 # 2)) with (/ 2) by (unfold Q2R; cbn [Qnum Qden]; lra). rewrite Rpower_sqrt by auto. exact Hh. }
    assert (Size : at_point J M L x (sl_size n d t to cx cy) = h).
    { unfold sl_size. assert (Uq : up = true /\ q = (-1)%Z \/ up = false /\ q = 1%Z) by (unfold up, q; destruct (Rle_dec 0 (span M cy t x)); auto).
      rewrite Pc. destruct Uq as [[-> Eq] | [-> Eq]]; unfold h, distance in *.
      - apply (Di _ _ _ _ _ _ _ _ (Ab cy 0%Z) (Ab cy (-1)%Z) (Ab cx 0%Z) (Ab cx (-1)%Z)). rewrite move_0, Eq. reflexivity.
      - apply (Di _ _ _ _ _ _ _ _ (Ab cy 1%Z) (Ab cy 0%Z) (Ab cx 1%Z) (Ab cx 0%Z)). rewrite move_0. rewrite Eq. f_equal. ring. }
    set (s := (M cy z - M cy x) * (span M cy t x / norm) / h).
    assert (Pt : at_point J M L x (sl_point n d t to cx cy) = s).
    { unfold sl_point. rewrite (ap_div J HJ), (ap_mul J HJ). cbn [map fold_right]. rewrite (ap_sub J HJ), Fun1, (f_sin J F), Size, Abd, Hr. unfold thvar. rewrite Var. fold (th 1%nat).
      rewrite Si. unfold s, Rdiv. ring. }
    set (qn := if Rle_dec 0 (span M cy t x) then 0%nat else 2%nat).
    assert (Qn : (qn < 3)%nat) by (unfold qn; destruct (Rle_dec 0 (span M cy t x)); lia).
    assert (Qz : zj qn = move t q z /\ xj qn = move t q x) by (unfold zj, xj, qn, q, sl_off; destruct (Rle_dec 0 (span M cy t x)); auto). destruct Qz as [Qz Qx].
    assert (Wall : forall f g, (forall j, at_point J M L x (f j) = g j) -> at_point J M L x (sl_wall n d t to cx cy f) = g 1%nat - s * (g 1%nat - g qn)).
    { intros f g H. unfold sl_wall, sl_delta. rewrite (ap_sub J HJ), (ap_mul J HJ). cbn [map fold_right]. rewrite Pt, Pc, !(ap_sub J HJ), !H. unfold up, qn.
      destruct (Rle_dec 0 (span M cy t x)); ring. }
    pose proof (Wall rvar (fun j => L (digits_name "rho_" j)) (fun j => eq_refl)) as Wr. cbv beta in Wr. rewrite !Lrho, Z1, Qz in Wr by (auto; lia).
    pose proof (Wall pvar (fun j => L (digits_name "p_" j)) (fun j => eq_refl)) as Wp. cbv beta in Wp. rewrite !Lp, Z1, Qz in Wp by (auto; lia).
    pose proof (Wall utvar (fun j => L (digits_name "ut_" j)) (fun j => eq_refl)) as Wu. cbv beta in Wu. rewrite !Lut, Z1, X1, Qz, Qx in Wu by (auto; lia).
    rewrite !move_0.
    set (u := along_wall M rho m0 m1 cx cy t x z - s * (along_wall M rho m0 m1 cx cy t x z - along_wall M rho m0 m1 cx cy t (move t q x) (move t q z))) in *.
    set (rw := M rho z - s * (M rho z - M rho (move t q z))) in *.
    set (pw := p_at J M rho [m0; m1] E z - s * (p_at J M rho [m0; m1] E z - p_at J M rho [m0; m1] E (move t q z))) in *.
    assert (Dw : forall b e, In (b, e) (sl_vals n d t to rho m0 m1 E cx cy) -> M' b x = at_point J M L x e).
    { intros b e Hb. rewrite <- (move_0 d x) at 1. rewrite (Dat b 0%Z e); auto. apply in_app_iff. right. apply in_sl_data. exists 0%Z, b, e. split; [lia|]. split; auto. rewrite Z.mul_0_r. reflexivity. }
    assert (Rx : M' rho x = rw) by (rewrite (Dw rho (sl_wall n d t to cx cy rvar)) by (left; auto); exact Wr).
    assert (M0x : M' m0 x = rw * u * (span M cx t x / norm)).
    { rewrite (Dw m0 (sl_m n d t to cx cy (efun "cos" [thvar 1]))) by (right; left; auto). unfold sl_m. rewrite (ap_mul J HJ). cbn [map fold_right]. rewrite (ap_mul J HJ). cbn [map fold_right].
      rewrite Wr, Wu, Fun1, (f_cos J F). unfold thvar. rewrite Var. fold (th 1%nat). rewrite Co. ring. }
    assert (M1x : M' m1 x = rw * u * (span M cy t x / norm)).
    { rewrite (Dw m1 (sl_m n d t to cx cy (efun "sin" [thvar 1]))) by (right; right; left; auto). unfold sl_m. rewrite (ap_mul J HJ). cbn [map fold_right]. rewrite (ap_mul J HJ). cbn [map fold_right].
      rewrite Wr, Wu, Fun1, (f_sin J F). unfold thvar. rewrite Var. fold (th 1%nat). rewrite Si. ring. }
    assert (Ex : M' E x = pw / (const J "gama" - 1) + / 2 * rw * (u * u)).
    { rewrite (Dw E (sl_E n d t to cx cy)) by (right; right; right; left; auto). unfold sl_E. rewrite (ap_add J HJ). cbn [map fold_right]. rewrite (ap_div J HJ), (ap_mul J HJ). cbn [map fold_right].
      rewrite (ap_sqr J HJ), (ap_sub J HJ), (ap_int J HJ), (ap_num J HJ), Wr, Wp, Wu. unfold gama. rewrite ap_const. unfold Q2R, Rdiv. cbn [Qnum Qden]. ring. }
    rewrite Rx. split; auto. split; auto. split; auto. split.
    + intros G1 R0. unfold p_at at 1, pressure_of. cbn [map]. unfold norm2. cbn [map fold_right]. rewrite M0x, M1x, Rx, Ex.
      assert (Sc : span M cx t x / norm * (span M cx t x / norm) + span M cy t x / norm * (span M cy t x / norm) = 1).
      { rewrite <- Co, <- Si. pose proof (sin2_cos2 (th 1%nat)). unfold Rsqr in H. lra. }
      set (c0 := span M cx t x / norm) in *. set (s0 := span M cy t x / norm) in *.
      replace (vdot [rw * u * c0; rw * u * s0] [rw * u * c0; rw * u * s0]) with (rw * rw * u * u) by (transitivity (rw * rw * u * u * (c0 * c0 + s0 * s0)); [rewrite Sc; ring | unfold vdot; cbn; ring]).
      clearbody pw rw u. field. split; auto. intros Z. apply G1. lra.
    + intros b i Hb Hi. assert (Hv : exists e, In (b, e) (sl_vals n d t to rho m0 m1 E cx cy)).
      { unfold sl_vals. cbn [In] in *. destruct Hb as [<- | [<- | [<- | [<- | []]]]]; eexists; [left | right; left | right; right; left | right; right; right; left]; reflexivity. }
      destruct Hv as [e He]. rewrite <- Out. rewrite (Dat b (from * i)%Z (sl_out e (EDat b (move d to (here n))) i)).
      * unfold sl_out. replace (i =? 0)%Z with false by (symmetry; apply Z.eqb_neq; lia). rewrite (ap_sub J HJ), !(ap_mul J HJ). cbn [map fold_right].
        rewrite !(ap_int J HJ), Abd, <- (Dw b e He), plus_IZR. ring.
      * apply in_app_iff. right. apply in_sl_data. exists i, b, e. split; [unfold w; lia|]. auto.
  - intros b y H. apply Fr. intros k x Hk Hx Ey. apply Pu in Hk. destruct Hk as (i & Hi & -> & Hb). apply H. split; auto. destruct (Z.eq_dec i 0) as [-> | N].
    + right. rewrite Z.mul_0_r, move_0 in Ey. subst. auto.
    + left. exists x, i. split; auto. split; [lia|]. rewrite <- Out. exact Ey.
Qed.
Print Assumptions C76_slip_wall.

(* In three dimensions the condition is refused: its tangent has two components. *)
Theorem C76_slip_refused :
  forall ord np bh d side rho moms E cx cy,
    good_order ord -> List.length bh = List.length np -> (d < List.length np)%nat -> (2 <= List.length np)%nat -> List.length moms <> 2%nat ->
  slip2d_apply ord np bh d side (ns_arrays (List.length np) rho moms E) (EDat cx (here (List.length np))) (EDat cy (here (List.length np))) = Err ValueError.
Proof.
  intros ord np bh d side rho moms E cx cy Go Lb Hd H2 Hm. unfold slip2d_apply. rewrite bc_plane_ok by auto. cbn [bind fst snd].
  destruct (1 <? d)%nat eqn:Hd1; auto. apply Nat.ltb_ge in Hd1. set (n := List.length np) in *.
  destruct (set_side_factor side) as [from to]. set (t := (1 - d)%nat). assert (Ht : (t < n)%nat) by (unfold t; lia).
  assert (I : forall b k, inc ord d k (EDat b (here n)) = Ok (EDat b (move d k (here n)))).
  { intros b k. rewrite (inc_placed ord n) by (auto; apply placed_dat). reflexivity. }
  assert (A : forall b k j, along2 ord d k t j (EDat b (here n)) = Ok (EDat b (move t j (move d k (here n))))).
  { intros b k j. rewrite (along2_place ord n) by (auto; apply placed_dat). reflexivity. }
  assert (AP : forall k j, along2 ord d k t j (pressure_cons (ns_arrays n rho moms E)) = Ok (place (move t j (move d k (here n))) (pressure_cons (ns_arrays n rho moms E)))).
  { intros k j. apply along2_place; auto. apply placed_pressure. }
  assert (S : forall X Y (f : X -> result Y) l, (forall a, In a l -> exists b, f a = Ok b) -> exists bs, map_result f l = Ok bs).
  { intros X Y f l. induction l as [|a l IH]; intros H; cbn [map_result]; [eauto|]. destruct (H a (or_introl eq_refl)) as [b ->]. cbn [bind].
    destruct IH as [bs ->]; [intros; apply H; right; auto|]. cbn [bind]. eauto. }
  assert (Em : forall c, In c (enum (ns_mom (ns_arrays n rho moms E))) -> exists m, snd c = EDat m (here n)).
  { intros c Hc. unfold enum in Hc. destruct c as [i e]. apply in_combine_r in Hc. cbn in Hc. apply in_map_iff in Hc. destruct Hc as (m & <- & _). exists m. reflexivity. }
  assert (B : forall X Y (r : result X) (k : X -> result Y) e, (exists a, r = Ok a) -> (forall a, k a = e) -> bind r k = e) by (intros X Y r k e [a ->] H; apply H).
  assert (IE : forall b k, exists e, inc ord d k (EDat b (here n)) = Ok e) by (intros; rewrite I; eauto).
  assert (AE : forall b k j, exists e, along2 ord d k t j (EDat b (here n)) = Ok e) by (intros; rewrite A; eauto).
  do 4 (apply B; [apply S; intros; apply AE | intros ?]).
  apply B; [apply IE | intros ?]. apply B; [apply S; intros q Ha; apply in_map_iff in Ha; destruct Ha as (m & <- & _); apply IE | intros ?].
  do 2 (apply B; [apply IE | intros ?]).
  apply B; [apply S; intros q _; cbn [ns_rho ns_arrays]; rewrite A; cbn [bind]; eauto | intros ?].
  apply B; [apply S; intros q _; apply S; intros c Hc; destruct (Em c Hc) as [m ->]; rewrite A; cbn [bind]; eauto | intros ?].
  apply B; [apply S; intros q _; rewrite AP; cbn [bind]; eauto | intros ?].
  cbn [ns_mom ns_arrays]. rewrite map_length. replace (List.length moms =? 2)%nat with false by (symmetry; apply Nat.eqb_neq; auto). reflexivity.
Qed.
Print Assumptions C76_slip_refused.
Example C76_slip_refused_nonvacuous : (1 < 3)%nat /\ (2 <= List.length [4; 5; 6]%Z)%nat /\ List.length ["rhou0"; "rhou1"; "rhou2"]%string <> 2%nat.
Proof. cbn. lia. Qed.
