(* C46 (adiabatic wall), C67, C68, C69: prescribed values, zero gradients, outlets. *)
From Verif Require Import Base Expr ExprProofs KernelModel ShiftModel ShiftSpec ShiftProofs BCModel BCSpec BCGasSpec BCProofs BCKern BCMirror BCOrder BCVec BCStm BCGas BCPoint.
From Coq Require Import QArith ZArith Reals Qreals Lia Lra.
Local Close Scope Q_scope.

(* ---- C67: Dirichlet ---- *)
(* the face and the halo layers of its side, extended by the halos in the other directions *)
Definition face_layers (np : list Z) (bh : halo_ranges) (d : nat) (side : bool) (x : list Z) : Prop :=
  List.length x = List.length np /\
  (if side then nth d np 0 - 1 <= nth d x 0 < nth d np 0 + upper_halo bh d else lower_halo bh d <= nth d x 0 <= 0)%Z /\
  forall i, (i < List.length np)%nat -> i <> d -> (lower_halo bh i <= nth i x 0 < nth i np 0 + upper_halo bh i)%Z.

Lemma dirichlet_points : forall np bh d (side : bool) eqs, List.length bh = List.length np -> (d < List.length np)%nat ->
  exists k, dirichlet_apply np bh d side eqs = Ok k /\ bk_eqs k = eqs /\ forall x, bk_points k x = true <-> face_layers np bh d side x.
Proof.
  intros np bh d side eqs Lb Hd. unfold dirichlet_apply. rewrite bc_plane_ok by auto. cbn [bind fst snd].
  rewrite (nth_error_nth' bh ([], [])) by (rewrite Lb; auto). destruct (nth d bh ([], [])) as [lo hi] eqn:Ed.
  eexists. split; [reflexivity|]. split; [reflexivity|]. intros x. unfold bk_points, face_layers. cbn [bk_ranges bk_halos].
  set (r := set_nth d _ (block_ranges np)).
  set (h := set_nth d _ (set_nth d _ bh)).
  assert (Lr : List.length r = List.length np) by (unfold r, block_ranges; rewrite set_nth_length, map_length; auto).
  assert (Lh : List.length h = List.length np) by (unfold h; rewrite !set_nth_length; auto).
  assert (Lt : List.length (total_range r h) = List.length np) by (rewrite total_range_length; congruence).
  assert (G : forall i, (i < List.length np)%nat -> nth i (total_range r h) (0, 0)%Z =
     if Nat.eq_dec i d then (if side then (nth d np 0 - 1, nth d np 0 + upper_halo bh d) else (lower_halo bh d, 1))%Z
     else (lower_halo bh i, nth i np 0 + upper_halo bh i)%Z).
  { intros i Hi. rewrite total_range_nth by congruence. unfold r, h.
    rewrite !nth_set_nth by (rewrite ?set_nth_length; unfold block_ranges; rewrite ?map_length, ?Lb; auto).
    destruct (Nat.eq_dec i d) as [-> | N].
    - unfold upper_halo, lower_halo. rewrite Ed. destruct side; cbn [fst snd halo_min halo_max]; f_equal; lia.
    - unfold block_ranges. rewrite (map_nth (fun n : Z => (0, n)%Z) np 0%Z). cbn [fst snd]. unfold lower_halo, upper_halo. f_equal; lia. }
  rewrite andb_true_iff, Nat.eqb_eq, Lt. split.
  - intros [Lx H]. split; auto. rewrite (forallb_combine _ _ _ _ _ 0%Z (0, 0)%Z) in H by congruence. split.
    + specialize (H d ltac:(rewrite Lx; auto)). rewrite (G d Hd) in H. destruct (Nat.eq_dec d d); [|congruence].
      destruct side; rewrite andb_true_iff, Z.leb_le, Z.ltb_lt in H; lia.
    + intros i Hi N. specialize (H i ltac:(rewrite Lx; auto)). rewrite (G i Hi) in H. destruct (Nat.eq_dec i d); [congruence|].
      rewrite andb_true_iff, Z.leb_le, Z.ltb_lt in H. lia.
  - intros (Lx & Hx & H). split; auto. rewrite (forallb_combine _ _ _ _ _ 0%Z (0, 0)%Z) by congruence. intros i Hi. rewrite Lx in Hi.
    rewrite (G i Hi). destruct (Nat.eq_dec i d) as [-> | N].
    + destruct side; rewrite andb_true_iff, Z.leb_le, Z.ltb_lt; lia.
    + rewrite andb_true_iff, Z.leb_le, Z.ltb_lt. specialize (H i Hi N). lia.
Qed.

(* After the Dirichlet condition every array it prescribes has the prescribed value on the
   face and in all halo layers of that side (corners included), and nothing else changes. *)
Theorem C67_dirichlet :
  forall (V : Type) (J : interp V) np bh d side ps,
    List.length bh = List.length np -> (d < List.length np)%nat ->
    NoDup (map fst ps) -> (forall b e, In (b, e) ps -> placed (List.length np) e) ->
    (forall b e b' ix, In (b, e) ps -> In (b', ix) (dsets e) -> ~ In b' (map fst ps)) ->
  exists k, dirichlet_apply np bh d side (map (fun p => KEq (EDat (fst p) (here (List.length np))) (snd p)) ps) = Ok k /\
    (forall x, bk_points k x = true <-> face_layers np bh d side x) /\
    forall pts M, sweeps pts (face_layers np bh d side) ->
      (forall x b e, face_layers np bh d side x -> In (b, e) ps -> run_kernel J (bk_eqs k) pts M b x = value J M x e) /\
      (forall x b, ~ (face_layers np bh d side x /\ In b (map fst ps)) -> run_kernel J (bk_eqs k) pts M b x = M b x).
Proof.
  intros V J np bh d side ps Lb Hd ND Pl Nr.
  destruct (dirichlet_points np bh d side (map (fun p => KEq (EDat (fst p) (here (List.length np))) (snd p)) ps) Lb Hd) as (k & E & Ek & Hp).
  exists k. split; auto. split; auto. intros pts M [NP Sw]. rewrite Ek.
  destruct (assign_values V J (List.length np) ps pts M ND Pl Nr NP) as [A B].
  { intros y Hy. apply Sw in Hy. apply Hy. }
  split.
  - intros x b e Hx Hb. apply A; auto. apply Sw. auto.
  - intros x b H. apply B. intros [Hx Hb]. apply H. split; auto. apply Sw. auto.
Qed.
Print Assumptions C67_dirichlet.
Example C67_nonvacuous :
  face_layers [10; 20]%Z [([(-2, 3)%Z], [(-2, 3)%Z]); ([(-2, 3)%Z], [(-2, 3)%Z])] 0 false [-2; 22]%Z /\
  ~ face_layers [10; 20]%Z [([(-2, 3)%Z], [(-2, 3)%Z]); ([(-2, 3)%Z], [(-2, 3)%Z])] 0 false [1; 5]%Z /\
  placed 2 (emul [econst "rho_in"; EDat "x0" [0; 0]%Z]).
Proof.
  split; [|split].
  - split; [reflexivity|]. split; [cbn; lia|]. intros [|[|i]] Hi N; cbn in *; lia.
  - intros (_ & H & _). cbn in H. lia.
  - apply placed_mul. constructor; [apply placed_const|]. constructor; auto. apply (placed_dat 2).
Qed.

(* ---- C68: zero gradient and transfer ---- *)
(* The zero-gradient outlet: the face receives the value of the first point inside and the
   halos the mirror image of the interior. *)
Theorem C68_zero_gradient :
  forall (V : Type) (J : interp V) ord np bh d side fs,
    good_order ord -> List.length bh = List.length np -> (d < List.length np)%nat ->
    NoDup (field_names fs) -> field_names fs <> [] ->
  exists k, zero_gradient_apply ord np bh d side (arrays_of (List.length np) fs) = Ok k /\
    (forall x, bk_points k x = true <-> on_face np bh d side x) /\
    forall pts M, sweeps pts (on_face np bh d side) ->
      (forall x b, on_face np bh d side x -> In b (field_names fs) ->
         run_kernel J (bk_eqs k) pts M b x = M b (inwards d side 1 x) /\
         forall t, (1 <= t <= halo_width bh side)%Z ->
           run_kernel J (bk_eqs k) pts M b (outwards d side t x) = M b (inwards d side t x)) /\
      (forall b y, ~ (In b (field_names fs) /\ face_or_halo np bh d side y) -> run_kernel J (bk_eqs k) pts M b y = M b y).
Proof.
  intros V J ord np bh d side fs Go Lb Hd ND Ne. unfold zero_gradient_apply. rewrite bc_plane_ok by auto. cbn [bind].
  rewrite flat_arrays_of, !create_eqs by auto. cbn [bind fst snd map]. eexists. split; [reflexivity|].
  split; [intros x; apply bk_points_face; auto|]. intros pts M Sw. cbn [bk_eqs]. rewrite n_halos_width by (rewrite Lb; auto).
  set (vars := map (fun b => EDat b (here (List.length np))) (field_names fs)).
  rewrite mirror_indices_eq, map_map. cbn [fst snd]. fold (mirror_T side (Z.to_nat (halo_width bh side)) vars).
  assert (W0 : (0 <= halo_width bh side)%Z) by (unfold halo_width; lia). rewrite ceqs_app. cbn [app].
  set (T := (0%Z, snd (set_side_factor side), vars) :: mirror_T side (Z.to_nat (halo_width bh side)) vars).
  destruct (copy_face V J np bh d side (field_names fs) T pts M) as [Cp Fr]; auto.
  { unfold T. cbn [map fst]. constructor; [|apply mirror_T_nodup]. intros Ha. apply in_map_iff in Ha. destruct Ha as (t & Et & Ht). apply mirror_T_in in Ht.
    destruct Ht as (i & Hi & ->). cbn [fst] in Et. destruct side; cbn [set_side_factor fst] in Et; lia. }
  { intros t t' [<- | Ht] [<- | Ht'];
      repeat match goal with H : In _ (mirror_T _ _ _) |- _ => apply mirror_T_in in H; destruct H as (? & ? & ->) end;
      cbn [fst snd]; destruct side; cbn [set_side_factor fst snd]; lia. }
  assert (Hv : forall b, In b (field_names fs) -> In (b, EDat b (here (List.length np))) (combine (field_names fs) vars)).
  { intros b Hb. unfold vars. clear - Hb. induction (field_names fs) as [|a l IH]; [destruct Hb|]; destruct Hb as [-> | Hb]; cbn; auto. }
  split.
  - intros x b Hx Hb. split.
    + rewrite <- (move_0 d x) at 1. rewrite (Cp 0%Z _ vars b _ x (or_introl eq_refl) (Hv b Hb) (placed_dat _ _) Hx).
      rewrite inwards_factor, Z.mul_1_r. unfold value. cbn [eval]. unfold here. rewrite vadd_here; auto. rewrite move_length. apply Hx.
    + intros t Ht. rewrite outwards_factor, inwards_factor.
      rewrite (Cp _ (snd (set_side_factor side) * t)%Z vars b _ x) with (2 := Hv b Hb) (3 := placed_dat _ _) (4 := Hx).
      * unfold value. cbn [eval]. unfold here. rewrite vadd_here; auto. rewrite move_length. apply Hx.
      * right. apply mirror_T_in. exists t. split; auto. lia.
  - intros b y H. apply Fr. intros (Hb & l & r & rs & x & Ht & Hx & Ey). apply H. split; auto. destruct Ht as [Et | Ht].
    + right. injection Et as <- <- <-. rewrite move_0 in Ey. subst. auto.
    + left. apply mirror_T_in in Ht. destruct Ht as (i & Hi & Et). injection Et as -> -> ->. exists x, i. split; auto. split; [lia|].
      rewrite outwards_factor. exact Ey.
Qed.
Print Assumptions C68_zero_gradient.

(* The inlet transfer: on the lower side the face receives the value of the first halo
   layer, nothing else changes; the upper side is rejected. *)
Theorem C68_inlet_transfer :
  forall (V : Type) (J : interp V) ord np bh d fs,
    good_order ord -> List.length bh = List.length np -> (d < List.length np)%nat ->
    NoDup (field_names fs) -> field_names fs <> [] ->
  inlet_transfer_apply ord np bh d true (arrays_of (List.length np) fs) = Err ValueError /\
  exists k, inlet_transfer_apply ord np bh d false (arrays_of (List.length np) fs) = Ok k /\
    (forall x, bk_points k x = true <-> on_face np bh d false x) /\
    forall pts M, sweeps pts (on_face np bh d false) ->
      (forall x b, on_face np bh d false x -> In b (field_names fs) ->
         run_kernel J (bk_eqs k) pts M b x = M b (outwards d false 1 x)) /\
      (forall b y, ~ (In b (field_names fs) /\ on_face np bh d false y) -> run_kernel J (bk_eqs k) pts M b y = M b y).
Proof.
  intros V J ord np bh d fs Go Lb Hd ND Ne. split; [reflexivity|]. unfold inlet_transfer_apply. rewrite bc_plane_ok by auto. cbn [bind].
  rewrite flat_arrays_of, !create_eqs by auto. cbn [bind fst snd map]. eexists. split; [reflexivity|].
  split; [intros x; apply (bk_points_face np bh d false); auto|]. intros pts M Sw. cbn [bk_eqs].
  set (vars := map (fun b => EDat b (here (List.length np))) (field_names fs)).
  destruct (copy_face V J np bh d false (field_names fs) [(0, -1, vars)%Z] pts M) as [Cp Fr]; auto.
  { cbn. constructor; [intros [] | constructor]. }
  { intros t t' [<- | []] [<- | []]. cbn. lia. }
  split.
  - intros x b Hx Hb. rewrite <- (move_0 d x) at 1. rewrite (Cp 0%Z (-1)%Z vars b (EDat b (here (List.length np))) x); auto.
    + unfold value. cbn [eval]. unfold here. rewrite vadd_here; auto. rewrite move_length. apply Hx.
    + left. auto.
    + unfold vars. clear - Hb. induction (field_names fs) as [|a l IH]; [destruct Hb|]; destruct Hb as [-> | Hb]; cbn; auto.
    + apply placed_dat.
  - intros b y H. apply Fr. intros (Hb & l & r & rs & x & [Et | []] & Hx & Ey). injection Et as <- <- <-. apply H. split; auto.
    rewrite move_0 in Ey. subst. auto.
Qed.
Print Assumptions C68_inlet_transfer.

(* ---- C69: pressure outlet ---- *)
(* On the upper side the face and all halo points receive density and momentum of the first
   point inside and the energy for which the pressure is the back pressure; the lower side
   is rejected. *)
Theorem C69_pressure_outlet :
  forall J ord np bh d rho moms E,
    reals J -> good_order ord -> List.length bh = List.length np -> (d < List.length np)%nat ->
    NoDup (rho :: moms ++ [E]) ->
  pressure_outlet_apply ord np bh d false (ns_arrays (List.length np) rho moms E) = Err ValueError /\
  exists k, pressure_outlet_apply ord np bh d true (ns_arrays (List.length np) rho moms E) = Ok k /\
    (forall x, bk_points k x = true <-> on_face np bh d true x) /\
    forall pts M, sweeps pts (on_face np bh d true) ->
      let M' := run_kernel J (bk_eqs k) pts M in
      (forall x t, on_face np bh d true x -> (0 <= t <= halo_width bh true)%Z ->
         let y := outwards d true t x in let z := inwards d true 1 x in
         M' rho y = M rho z /\ (forall m, In m moms -> M' m y = M m z) /\
         (const J "gama" <> 1 -> M rho z <> 0 -> p_at J M' rho moms E y = const J "back_pressure")%R) /\
      (forall b y, ~ (In b (rho :: moms ++ [E]) /\ face_or_halo np bh d true y) -> M' b y = M b y).
Proof.
  intros J ord np bh d rho moms E HJ Go Lb Hd ND. split; [reflexivity|].
  unfold pressure_outlet_apply. rewrite bc_plane_ok by auto. cbn [bind fst snd ns_arrays ns_rho ns_mom ns_rhoE].
  set (n := List.length np). set (names := rho :: moms ++ [E]) in *.
  assert (Ev : EDat rho (here n) :: map (fun m => EDat m (here n)) moms ++ [EDat E (here n)] = map (fun b => EDat b (here n)) names).
  { unfold names. cbn [map]. rewrite map_app. reflexivity. }
  rewrite Ev. set (e := eadd [_; _]). set (rhs := EDat rho (here n) :: map (fun m => EDat m (here n)) moms ++ [e]).
  rewrite (map_result_ok _ _ _ (fun i => ceqs n d names [(i, (-1)%Z, rhs)]))
    by (intros i _; rewrite create_eqs by (auto; discriminate); reflexivity).
  cbn [bind]. eexists. split; [reflexivity|]. split; [intros x; apply (bk_points_face np bh d true); auto|].
  intros pts M Sw. cbn [bk_eqs]. rewrite n_halos_width by (rewrite Lb; auto).
  set (w := Z.to_nat (halo_width bh true)). assert (W0 : (0 <= halo_width bh true)%Z) by (unfold halo_width; lia).
  assert (Le : placed n e).
  { unfold e. apply placed_add. constructor; [apply placed_div; [apply placed_const | apply placed_g1]|]. constructor; auto.
    apply placed_div; [|apply placed_dat]. apply placed_mul. constructor; [apply placed_num|]. constructor; auto.
    apply placed_edot. apply placed_dats. }
  set (T := map (fun i => (i, (-1)%Z, rhs)) (0%Z :: upto w)).
  assert (Eq : List.concat (map (fun i => ceqs n d names [(i, (-1)%Z, rhs)]) (0%Z :: upto w)) = ceqs n d names T).
  { unfold ceqs, T. rewrite (flat_map_concat_map _ (map _ _)), map_map. f_equal. apply map_ext. intros i. cbn [flat_map]. rewrite app_nil_r. reflexivity. }
  rewrite Eq.
  (* the unused local variable does not matter *)
  assert (Skip : forall qs g r M0 x, along n d qs -> (forall q, In q qs -> ~ In (inr g) (reads q)) ->
     fst (run_point J (KEq (evar g) r :: qs) M0 x) = fst (run_point J qs M0 x)).
  { intros qs g r M0 x _ Hg. unfold run_point. cbn [fold_left exec1 evar].
    assert (G : forall l s s', (forall q, In q l -> ~ In (inr g) (reads q)) -> fst s = fst s' -> (forall h, h <> g -> snd s h = snd s' h) ->
       fst (fold_left (exec1 J x) l s) = fst (fold_left (exec1 J x) l s')).
    { induction l as [|q l IH]; intros s s' Hl E1 E2; cbn [fold_left]; auto.
      assert (At : forall l0 r0, q = KEq l0 r0 -> at_point J (fst s) (snd s) x r0 = at_point J (fst s') (snd s') x r0).
      { intros l0 r0 ->. rewrite E1. apply at_point_ext; auto. intros h Hh. apply E2. intros ->.
        apply (Hl (KEq l0 r0)); [left; auto|]. cbn. apply in_app_iff. right. apply in_map. auto. }
      apply IH; [intros; apply Hl; right; auto| |].
      - destruct q as [l0 r0|bs]; cbn; auto. destruct l0 as [z|kd g'|b0 ix|h args]; cbn; auto; [destruct kd; cbn; auto|].
        rewrite (At _ r0 eq_refl), E1. reflexivity.
      - intros h Hh. destruct q as [l0 r0|bs]; cbn; auto. destruct l0 as [z|kd g'|b0 ix|h0 args]; cbn; auto.
        destruct kd; cbn; auto. unfold updl. rewrite (At _ r0 eq_refl). destruct (string_dec g' h); auto. }
    apply G; auto. intros h Hh. cbn. unfold updl. destruct (string_dec g h); congruence. }
  assert (Same : run_kernel J (KEq (evar "local_rhoE") (EDat E (here n)) :: ceqs n d names T) pts M = run_kernel J (ceqs n d names T) pts M).
  { unfold run_kernel. generalize M. induction pts as [|p pts IH] in |- *; intros M0; cbn [fold_left]; auto.
    rewrite Skip; [apply IH | apply ceqs_along |].
    intros q Hq Hr. apply in_ceqs in Hq. destruct Hq as (t & b & e0 & Ht & Hc & ->). cbn [reads] in Hr. apply in_app_iff in Hr.
    destruct Hr as [Hr | Hr]; apply in_map_iff in Hr; [destruct Hr as (? & Hr & _); discriminate|].
    destruct Hr as (g & _ & Hr). rewrite put_syms in Hr. unfold T in Ht. apply in_map_iff in Ht. destruct Ht as (i & <- & _). cbn [fst snd] in Hc.
    apply in_combine_r in Hc. destruct Hc as [<- | Hc]; [destruct Hr|]. apply in_app_iff in Hc. destruct Hc as [Hc | [<- | []]].
    - apply in_map_iff in Hc. destruct Hc as (m & <- & _). destruct Hr.
    - destruct Le as (_ & Le & _). rewrite Le in Hr. destruct Hr. }
  rewrite Same. clear Same Skip.
  assert (HT : forall t, In t T <-> exists i, (0 <= i <= Z.of_nat w)%Z /\ t = (i, (-1)%Z, rhs)).
  { intros t. unfold T. rewrite in_map_iff. split.
    - intros (i & <- & [<- | Hi]); [exists 0%Z; split; auto; lia | apply in_upto in Hi; exists i; split; auto; lia].
    - intros (i & Hi & ->). exists i. split; auto. destruct (Z.eq_dec 0 i); [left; auto | right; apply in_upto; lia]. }
  destruct (copy_face R J np bh d true names T pts M) as [Cp Fr]; auto.
  { unfold T. rewrite map_map. cbn [fst]. rewrite map_id. constructor; [|apply upto_nodup]. rewrite in_upto. lia. }
  { intros t t' Ht Ht'. apply HT in Ht, Ht'. destruct Ht as (i & Hi & ->), Ht' as (i' & Hi' & ->). cbn [fst snd]. lia. }
  cbv zeta. split.
  - intros x t Hx Ht. assert (Lx : List.length x = n) by apply Hx.
    assert (Lz : List.length (inwards d true 1 x) = n) by (apply inwards_length; auto).
    assert (HtT : In (t, (-1)%Z, rhs) T) by (apply HT; exists t; split; auto; lia).
    assert (C : forall b e0, In (b, e0) (combine names rhs) -> placed n e0 ->
       run_kernel J (ceqs n d names T) pts M b (outwards d true t x) = value J M (inwards d true 1 x) e0).
    { intros b e0 Hb Pe. apply (Cp t (-1)%Z rhs b e0 x); auto. }
    assert (Vd : forall b, value J M (inwards d true 1 x) (EDat b (here n)) = M b (inwards d true 1 x)).
    { intros b. unfold value. cbn [eval]. unfold here. rewrite vadd_here by auto. reflexivity. }
    assert (Crho : run_kernel J (ceqs n d names T) pts M rho (outwards d true t x) = M rho (inwards d true 1 x)).
    { rewrite (C rho (EDat rho (here n))); [apply Vd | left; auto | apply placed_dat]. }
    assert (Cm : forall m, In m moms -> run_kernel J (ceqs n d names T) pts M m (outwards d true t x) = M m (inwards d true 1 x)).
    { intros m Hm. rewrite (C m (EDat m (here n))); [apply Vd | | apply placed_dat]. right. unfold rhs.
      rewrite combine_app by (rewrite map_length; auto). apply in_app_iff. left. clear - Hm.
      induction moms as [|a l IH]; [destruct Hm|]; destruct Hm as [-> | Hm]; cbn; auto. }
    split; auto. split; auto. intros G1 R0. unfold p_at, pressure_of. rewrite Crho.
    rewrite (C E e); auto.
    2:{ right. rewrite combine_app by (rewrite map_length; auto). apply in_app_iff. right. left. auto. }
    rewrite (map_ext_in _ (fun m => M m (inwards d true 1 x)) moms Cm).
    rewrite value_at by (rewrite Lz; auto). unfold e. rewrite (ap_add J HJ). cbn [map fold_right].
    rewrite !(ap_div J HJ), (ap_mul J HJ). cbn [map fold_right]. rewrite (ap_sub J HJ), (ap_int J HJ), (ap_num J HJ).
    change (map (fun m => EDat m (here n)) moms) with (ns_mom (ns_arrays n rho moms E)). rewrite (ap_edot J HJ) by auto. rewrite ap_dat by auto.
    unfold gama. rewrite !ap_const. unfold Q2R. cbn [Qnum Qden]. field. split; [auto|]. intros Z. apply G1. lra.
  - intros b y H. apply Fr. intros (Hb & l & r & rs & x & Ht & Hx & Ey). apply H. split; auto. apply HT in Ht.
    destruct Ht as (i & Hi & Et). injection Et as -> -> ->. destruct (Z.eq_dec i 0) as [-> | N].
    + right. rewrite move_0 in Ey. subst. auto.
    + left. exists x, i. split; auto. split; [lia|]. exact Ey.
Qed.
Print Assumptions C69_pressure_outlet.

(* ---- C46: adiabatic wall ---- *)
(* No slip at the wall; the wall temperature makes the third-order one-sided difference
   -11/6 T0 + 3 T1 - 3/2 T2 + 1/3 T3 vanish; density at the wall is unchanged; halos hold
   the mirror image with reversed momentum. *)
Theorem C46_adiabatic :
  forall J ord np bh d side rho moms E,
    reals J -> good_order ord -> List.length bh = List.length np -> (d < List.length np)%nat ->
    NoDup (rho :: moms ++ [E]) ->
  exists k, adiabatic_apply ord np bh d side (ns_arrays (List.length np) rho moms E) = Ok k /\
    (forall x, bk_points k x = true <-> on_face np bh d side x) /\
    forall pts M, sweeps pts (on_face np bh d side) ->
      let M' := run_kernel J (bk_eqs k) pts M in
      let T' := T_at J M' rho moms E in
      (forall x, on_face np bh d side x ->
         (forall m, In m moms -> M' m x = 0%R) /\ M' rho x = M rho x /\
         (const J "gama" <> 1 -> const J "gama" <> 0 -> const J "Minf" <> 0 -> M rho x <> 0 ->
            - (11 / 6) * T' x + 3 * T' (inwards d side 1 x) - 3 / 2 * T' (inwards d side 2 x) + 1 / 3 * T' (inwards d side 3 x) = 0)%R /\
         forall t, (1 <= t <= halo_width bh side)%Z ->
           let y := outwards d side t x in let z := inwards d side t x in
           M' rho y = M rho z /\ (forall m, In m moms -> M' m y = - M m z)%R /\ M' E y = M E z) /\
      (forall b y, ~ (In b (rho :: moms ++ [E]) /\ face_or_halo np bh d side y) -> M' b y = M b y).
Proof.
  intros J ord np bh d side rho moms E HJ Go Lb Hd ND. rewrite adiabatic_eqs by auto.
  eexists. split; [reflexivity|]. split; [intros x; apply bk_points_face; auto|].
  intros pts M Sw. cbn [bk_eqs]. set (n := List.length np) in *. set (w := Z.to_nat (halo_width bh side)).
  destruct (set_side_factor side) as [from to] eqn:Es. cbn [fst snd].
  assert (W0 : (0 <= halo_width bh side)%Z) by (unfold halo_width; lia).
  assert (Hft : (side = true /\ from = 1 /\ to = -1 \/ side = false /\ from = -1 /\ to = 1)%Z) by (destruct side; injection Es as <- <-; auto).
  destruct (nodup3 _ _ _ ND) as (N1 & N2 & N3 & _).
  set (S := adiabatic_S n d from to w rho moms E).
  assert (NW : forall b k, written S b k -> exists i, (0 <= i <= Z.of_nat w)%Z /\ k = (from * i)%Z /\ In b (rho :: moms ++ [E]) /\ (b = rho -> 1 <= i)%Z).
  { intros b k [r Hr]. unfold S in Hr. apply in_adiabatic in Hr.
    assert (I1 : In rho (rho :: moms ++ [E])) by (left; auto).
    assert (I2 : forall m, In m moms -> In m (rho :: moms ++ [E])) by (intros; right; apply in_app_iff; auto).
    assert (I3 : In E (rho :: moms ++ [E])) by (right; apply in_app_iff; right; left; auto).
    destruct Hr as [(i & Hi & -> & -> & ->) | [(Hm & -> & ->) | [(i & Hi & Hm & -> & ->) | [(-> & -> & ->) | (i & Hi & -> & -> & ->)]]]].
    - exists i. repeat split; auto; lia.
    - exists 0%Z. repeat split; auto; try lia. intros ->. contradiction.
    - exists i. repeat split; auto; lia.
    - exists 0%Z. repeat split; auto; try lia. intros ->. congruence.
    - exists i. repeat split; auto; lia. }
  assert (Inw : forall b i, (1 <= i)%Z -> ~ written S b (to * i)).
  { intros b i Hi Hw. apply NW in Hw. destruct Hw as (j & Hj & E0 & _). lia. }
  assert (Inw1 : forall b, ~ written S b to) by (intros b Hw; apply (Inw b 1%Z); [lia | rewrite Z.mul_1_r; auto]).
  assert (Inw2 : forall b, ~ written S b (2 * to)) by (intros b Hw; apply (Inw b 2%Z); [lia | rewrite Z.mul_comm; auto]).
  assert (Inw3 : forall b, ~ written S b (3 * to)) by (intros b Hw; apply (Inw b 3%Z); [lia | rewrite Z.mul_comm; auto]).
  assert (Rho0 : ~ written S rho 0).
  { intros Hw. apply NW in Hw. destruct Hw as (j & Hj & E0 & _ & H). specialize (H eq_refl). lia. }
  destruct (stms_face R J np bh d side S pts M Hd Sw) as [Val Fr].
  { intros b k r r' H H'. unfold S in H, H'. apply in_adiabatic in H, H'.
    destruct H as [(i & Hi & -> & -> & ->) | [(Hm & -> & ->) | [(i & Hi & Hm & -> & ->) | [(-> & -> & ->) | (i & Hi & -> & -> & ->)]]]];
    destruct H' as [(j & Hj & Eb & Ek & ->) | [(Hm' & Ek & ->) | [(j & Hj & Hm' & Ek & ->) | [(Eb & Ek & ->) | (j & Hj & Eb & Ek & ->)]]]];
    try (subst; contradiction); try congruence; try (exfalso; lia); try (replace j with i by lia; reflexivity); try reflexivity. }
  { intros b k r H. unfold S in H. apply in_adiabatic in H.
    assert (PT : placed n (temperature_cons (ns_arrays n rho moms E))) by apply placed_temperature.
    assert (Off : offs n d (fun b k => ~ written S b k) r).
    { destruct H as [(i & Hi & -> & -> & ->) | [(Hm & -> & ->) | [(i & Hi & Hm & -> & ->) | [(-> & -> & ->) | (i & Hi & -> & -> & ->)]]]].
      - apply offs_dat. apply Inw. lia.
      - apply offs_mul. constructor; [apply offs_here; auto|]. constructor; auto. apply offs_int.
      - apply offs_mul. constructor; [apply offs_int|]. constructor; auto. apply offs_dat. apply Inw. lia.
      - apply offs_div; [apply offs_div|].
        + apply offs_mul. constructor; [apply offs_here; auto|]. constructor; auto. unfold adiabatic_T_wall.
          apply offs_mul. constructor; [apply offs_num|]. constructor; auto. apply offs_sub.
          * apply offs_add. constructor; [|constructor; auto]; apply offs_mul; (constructor; [apply offs_num || apply offs_int|]; constructor; auto; apply offs_put; auto).
          * apply offs_mul. constructor; [apply offs_num|]. constructor; auto. apply offs_put; auto.
        + apply offs_mul. repeat (constructor; [apply offs_const|]). auto.
        + apply offs_sub; [apply offs_const | apply offs_int].
      - apply offs_dat. apply Inw. lia. }
    exact Off. }
  fold n in Val, Fr. cbv zeta. set (M' := run_kernel J (map (stm n d) S) pts M) in *.
  assert (Out : forall i x, move d (from * i) x = outwards d side i x) by (intros; rewrite outwards_factor, Es; reflexivity).
  assert (Inn : forall i x, move d (to * i) x = inwards d side i x) by (intros; rewrite inwards_factor, Es; reflexivity).
  assert (Keep : forall x b i, on_face np bh d side x -> (1 <= i)%Z -> M' b (inwards d side i x) = M b (inwards d side i x)).
  { intros x b i Hx Hi. apply Fr. intros k x2 Hw Hx2 Ey. apply NW in Hw. destruct Hw as (j & Hj & -> & _).
    apply (f_equal (fun l => nth d l 0%Z)) in Ey. rewrite Out in Ey. unfold inwards, outwards in Ey.
    assert (Lx : List.length x = n) by apply Hx. assert (Lx2 : List.length x2 = n) by apply Hx2.
    rewrite !move_nth in Ey by (rewrite ?Lx, ?Lx2; auto). destruct Hx as (_ & X & _), Hx2 as (_ & X2 & _). rewrite X, X2 in Ey. destruct side; lia. }
  split.
  - intros x Hx. assert (Lx : List.length x = n) by apply Hx.
    assert (Dat : forall b k, at_point J M (isym J KGridVar) x (EDat b (move d k (here n))) = M b (move d k x)).
    { intros b k. unfold at_point. cbn [eval]. unfold here. rewrite (vadd_along n) by auto. reflexivity. }
    assert (Mom0 : forall m, In m moms -> M' m x = 0%R).
    { intros m Hm. rewrite <- (move_0 d x) at 1. rewrite (Val m 0%Z (emul [EDat rho (here n); eint 0]) x (isym J KGridVar)); auto.
      - rewrite (ap_mul J HJ). cbn [map fold_right]. rewrite (ap_int J HJ). ring.
      - unfold S. apply in_adiabatic. auto. }
    assert (RhoW : M' rho x = M rho x).
    { apply Fr. intros k x2 Hw Hx2 Ey. apply NW in Hw. destruct Hw as (j & Hj & -> & _ & H). specialize (H eq_refl).
      apply (f_equal (fun l => nth d l 0%Z)) in Ey. assert (Lx2 : List.length x2 = n) by apply Hx2.
      rewrite !move_nth in Ey by (rewrite ?Lx2; auto). destruct Hx as (_ & X & _), Hx2 as (_ & X2 & _). rewrite X, X2 in Ey. lia. }
    split; auto. split; auto. split.
    + intros G1 G0 Mi R0.
      assert (TK : forall i, (1 <= i)%Z -> T_at J M' rho moms E (inwards d side i x) = T_at J M rho moms E (inwards d side i x)).
      { intros i Hi. unfold T_at. rewrite !(Keep x) by auto. f_equal. apply map_ext. intros m. apply Keep; auto. }
      rewrite !TK by lia.
      assert (TW : T_at J M' rho moms E x = (6 / 11 * (3 * T_at J M rho moms E (inwards d side 1 x) + 1 / 3 * T_at J M rho moms E (inwards d side 3 x)
                      - 3 / 2 * T_at J M rho moms E (inwards d side 2 x)))%R).
      { assert (EW : M' E x = at_point J M (isym J KGridVar) x (ediv (ediv (emul [EDat rho (here n); adiabatic_T_wall n d to (ns_arrays n rho moms E)]) (emul [gama; Minf; Minf])) (esub gama (eint 1)))).
        { rewrite <- (move_0 d x) at 1. apply Val; auto. unfold S. apply in_adiabatic. do 3 right. left. auto. }
        assert (At : forall i, at_point J M (isym J KGridVar) x (put n d (to * i) (temperature_cons (ns_arrays n rho moms E))) = T_at J M rho moms E (inwards d side i x)).
        { intros i. rewrite at_put; auto; [|apply placed_temperature]. rewrite Inn.
          rewrite value_at by (rewrite (inwards_length d side i x n); auto; apply placed_temperature).
          apply ap_temperature; auto. apply inwards_length. auto. }
        unfold T_at at 1. unfold temperature_of, pressure_of. rewrite RhoW, EW.
        rewrite (map_ext_in _ (fun _ => 0%R) moms Mom0).
        assert (Z0 : norm2 (map (fun _ => 0%R) moms) = 0%R) by (clear; unfold norm2; induction moms as [|a l IHl]; cbn; auto; rewrite IHl; ring).
        rewrite Z0. rewrite !(ap_div J HJ), !(ap_mul J HJ). cbn [map fold_right]. rewrite (ap_sub J HJ), (ap_int J HJ).
        unfold adiabatic_T_wall. rewrite (ap_mul J HJ). cbn [map fold_right]. rewrite (ap_sub J HJ), (ap_add J HJ). cbn [map fold_right].
        rewrite !(ap_mul J HJ). cbn [map fold_right]. rewrite !(ap_num J HJ), (ap_int J HJ).
        replace to with (to * 1)%Z at 1 by lia. replace (3 * to)%Z with (to * 3)%Z by lia. replace (2 * to)%Z with (to * 2)%Z by lia.
        rewrite !At. rewrite ap_dat by auto. unfold gama, Minf. rewrite !ap_const. unfold Q2R. cbn [Qnum Qden].
        field. repeat split; auto. intros Z. apply G1. lra. }
      rewrite TW. field.
    + intros t Ht. split; [|split].
      * rewrite <- Out, <- Inn. rewrite (Val rho (from * t)%Z (EDat rho (move d (to * t) (here n))) x (isym J KGridVar)); auto.
        unfold S. apply in_adiabatic. left. exists t. repeat split; auto; lia.
      * intros m Hm. rewrite <- Out, <- Inn. rewrite (Val m (from * t)%Z (emul [eint (-1); EDat m (move d (to * t) (here n))]) x (isym J KGridVar)); auto.
        -- rewrite (ap_mul J HJ). cbn [map fold_right]. rewrite (ap_int J HJ), Dat. ring.
        -- unfold S. apply in_adiabatic. right. right. left. exists t. repeat split; auto; lia.
      * rewrite <- Out, <- Inn. rewrite (Val E (from * t)%Z (EDat E (move d (to * t) (here n))) x (isym J KGridVar)); auto.
        unfold S. apply in_adiabatic. do 4 right. exists t. repeat split; auto; lia.
  - intros b y H. apply Fr. intros k x Hw Hx Ey. apply NW in Hw. destruct Hw as (i & Hi & -> & Hb & _). apply H. split; auto.
    destruct (Z.eq_dec i 0) as [-> | N].
    + right. rewrite Z.mul_0_r, move_0 in Ey. subst. auto.
    + left. exists x, i. split; auto. split; [lia|]. rewrite <- Out. exact Ey.
Qed.
Print Assumptions C46_adiabatic.
Definition wall_example_halos : halo_ranges := [([(-2, 2)%Z], [(-2, 2)%Z]); ([(-1, 2)%Z], [(-1, 2)%Z])].
(* the hypotheses of the theorems above in a two-dimensional case with two points per direction *)
Example C46_C68_C69_nonvacuous :
  reals stdJ /\ good_order std_order /\
  sweeps [[1; -1]; [1; 0]; [1; 1]; [1; 2]; [1; 3]]%Z (on_face [2; 2]%Z wall_example_halos 0 true) /\
  halo_width wall_example_halos true = 2%Z /\
  NoDup ("rho" :: ["rhou0"; "rhou1"] ++ ["rhoE"])%string /\
  NoDup (field_names [FScalar "rho"; FVector ["rhou0"; "rhou1"]; FScalar "rhoE"]%string).
Proof.
  split; [apply stdJ_reals|]. split; [apply std_order_good|]. split; [|split; [reflexivity|]].
  - split; [repeat constructor; cbn; intuition discriminate|]. intros x. split.
    + intros H. cbn in H.
      repeat (destruct H as [<- | H]; [split; [reflexivity|]; split; [reflexivity|]; intros [|[|i]] Hi N; cbn in *; lia|]). destruct H.
    + intros (L & X & H). destruct x as [|a [|b [|c x]]]; try discriminate. cbn in X. subst a. specialize (H 1%nat ltac:(cbn; lia) ltac:(discriminate)).
      cbn in H. assert (C : (b = -1 \/ b = 0 \/ b = 1 \/ b = 2 \/ b = 3)%Z) by lia. cbn.
      destruct C as [-> | [-> | [-> | [-> | ->]]]]; auto 6.
  - split; repeat constructor; cbn; intuition discriminate.
Qed.
