(* C76: the adiabatic wall with Carpenter coefficients. *)
From Verif Require Import Base Expr ExprProofs KernelModel ShiftModel ShiftSpec ShiftProofs BCModel BCSpec BCGasSpec BCProofs BCKern BCMirror BCOrder BCVec BCStm BCGas OneModel OneLin OneNorm OneProofs OneFirst BC2Model BC2Spec BC2Proofs.
From Coq Require Import QArith ZArith Reals Qreals Lia Lra.
Local Close Scope Q_scope.

Definition carp_items (n d : nat) (side : bool) (to : Z) (rho : string) (moms : list string) (E : string) : list item :=
  map (fun m => Da m 0 (eint 0)) moms ++
  map (fun i => Lo (digits_name "T" i) (put n d (Z.of_nat i * to) (temperature_cons (ns_arrays n rho moms E)))) (seq 1 5) ++
  [Lo (digits_name "T" 0) (ediv (emul [eint (-1); eadd (map (fun i => emul [carp_coeff side (i + 1); Tvar (i + 1)]) (seq 0 5))]) (carp_coeff side 0));
   Da E 0 (ediv (emul [EDat rho (here n); Tvar 0]) (emul [Minf; Minf; gama; esub gama (eint 1)]))].

Lemma carpenter_wall_eqs : forall ord np bh d side rho moms E, good_order ord -> List.length bh = List.length np -> (d < List.length np)%nat ->
  let n := List.length np in
  carpenter_wall_apply ord np bh d side (arrays_of n [FScalar rho; FVector moms; FScalar E]) (ns_arrays n rho moms E) =
  Ok {| bk_ranges := set_nth d (if side then (nth d np 0 - 1, nth d np 0) else (0, 1))%Z (block_ranges np);
        bk_halos := set_nth d ([], []) bh;
        bk_eqs := map (tkeq n d) (carp_items n d side (snd (set_side_factor side)) rho moms E) |}.
Proof.
  intros ord np bh d side rho moms E Go Lb Hd n. unfold carpenter_wall_apply. rewrite bc_plane_ok by auto. cbn [bind fst snd].
  destruct (set_side_factor side) as [from to]. cbn [snd].
  rewrite (map_result_ok _ _ _ (fun i => KEq (Tvar i) (put n d (Z.of_nat i * to) (temperature_cons (ns_arrays n rho moms E))))).
  2:{ intros i _. rewrite (inc_placed ord n) by (auto; apply placed_temperature). reflexivity. }
  cbn [bind]. do 2 f_equal. unfold carp_items. rewrite !map_app. f_equal; [|f_equal].
  - unfold arrays_of. cbn [map flat_map]. rewrite !app_nil_r. rewrite !map_map. apply map_ext. intros m. cbn [tkeq]. rewrite move_0. reflexivity.
  - cbn [map tkeq ns_arrays ns_rhoE ns_rho]. rewrite move_0. reflexivity.
Qed.


Local Open Scope R_scope.
Lemma ap_carp : forall J M L x side j, functions J -> (j < 6)%nat ->
  at_point J M L x (carp_coeff side j) = (if side then -1 else 1) * entry bc4 0 j.
Proof.
  intros J M L x side j F Hj.
  assert (C : at_point J M L x (EApp (HFun "carp_coefficients_0") [eint (Z.of_nat j)]) = entry bc4 0 j).
  { transitivity (iapp J (HFun "carp_coefficients_0") [at_point J M L x (eint (Z.of_nat j))]); [reflexivity|].
    rewrite (ap_int J (f_reals J F)), <- INR_IZR_INZ. apply (f_carp J F). auto. }
  unfold carp_coeff. destruct side; [|rewrite C; ring].
  rewrite (ap_mul J (f_reals J F)). cbn [map fold_right]. rewrite C, (ap_int J (f_reals J F)). ring.
Qed.
(* the first derivative the code takes at a wall with Carpenter's scheme, by its first row *)
Lemma Zminus_eq : forall a b, (a - b = a + - b)%Z. Proof. reflexivity. Qed.
Lemma wall_derivative : forall k h n (side : bool) other u i, (5 <= n)%Z -> i = (if side then n - 1 else 0)%Z ->
  boundary_derivative k 1 h (if side then (other, Some Carpenter) else (Some Carpenter, other)) n u i =
  Ok ((if side then -1 else 1) * sum6 (fun j => entry bc4 0 j * u (i + (if side then - Z.of_nat j else Z.of_nat j))%Z) * / h ^ 1).
Proof.
  intros k h n side other u i Hn ->. destruct side.
  - unfold boundary_derivative. cbn [fst snd].
    destruct (pairs_ok other 1 false n ltac:(auto)) as (l & El & _). rewrite El. rewrite pairs_high. cbn [bind].
    assert (Nl : find (fun c => Z.eqb (n - 1) (snd c)) l = None).
    { assert (A : forall c, In c l -> (0 <= snd c <= 3)%Z).
      { destruct other as [[| |]|]; cbn in El; apply ok_inj in El; subst l; cbn; intros c Hc;
          repeat (destruct Hc as [<- | Hc]; [cbn [snd]; lia|]); destruct Hc. }
      clear El. induction l as [|c l IH]; cbn; auto. pose proof (A c ltac:(left; auto)). destruct (Z.eqb_spec (n - 1) (snd c)); [lia|].
      apply IH. intros c' Hc'. apply A. right; auto. }
    assert (Fa : forall (l r : list (stencil * Z)) f, find f l = None -> find f (l ++ r) = find f r).
    { clear. induction l as [|c l IH]; intros r f H; cbn in *; auto. destruct (f c); [discriminate | auto]. }
    rewrite Fa by auto. cbn [seq map find snd Z.of_nat].
    replace (n - 1 =? n - 1 + -1 * 0)%Z with true by (symmetry; apply Z.eqb_eq; lia).
    f_equal. f_equal. replace (n - 1)%Z with (n - 1 - Z.of_nat 0)%Z at 1 by lia. rewrite high_value. unfold high, sum6.
    rewrite <- !Zminus_eq. ring.
  - unfold boundary_derivative. cbn [fst snd]. rewrite pairs_low. cbn [bind].
    destruct (pairs_ok other 1 true n ltac:(auto)) as (l & El & _). rewrite El. cbn [bind seq map app find snd Z.of_nat Z.eqb].
    f_equal. f_equal. pose proof (low_value u 0) as LV. cbn [Z.of_nat] in LV. rewrite LV. unfold low, sum6. cbn [Z.of_nat]. rewrite !Z.add_0_l. ring.
Qed.

Lemma norm2_zero : forall (A : Type) (l : list A), norm2 (map (fun _ => 0) l) = 0.
Proof. intros A l. unfold norm2. induction l as [|a l IH]; cbn; auto. rewrite IH. ring. Qed.
Lemma carp_puts : forall n d side to rho moms E b k, puts (carp_items n d side to rho moms E) b k -> k = 0%Z /\ In b (moms ++ [E]).
Proof.
  intros n d side to rho moms E b k [r H]. unfold carp_items in H. apply in_app_iff in H. destruct H as [H | H].
  - apply in_map_iff in H. destruct H as (m & E0 & Hm). injection E0 as <- <- _. split; auto. apply in_app_iff. auto.
  - apply in_app_iff in H. destruct H as [H | H]; [apply in_map_iff in H; destruct H as (i & E0 & _); discriminate|].
    destruct H as [E0 | [E0 | []]]; [discriminate|]. injection E0 as <- <- _. split; auto. apply in_app_iff. right. left. auto.
Qed.
Lemma carp_sane : forall n d side to rho moms E, sane (carp_items n d side to rho moms E).
Proof.
  intros. unfold carp_items.
  assert (PT : syms KGridVar (temperature_cons (ns_arrays n rho moms E)) = []) by apply (placed_temperature n rho moms E).
  assert (N0 : names_of (map (fun m => Da m 0 (eint 0)) moms) = []) by (clear; induction moms; auto).
  apply sane_app.
  - apply sane_data. auto.
  - cbn [seq map app sane rhs_of name_of]. rewrite !put_syms, PT.
    repeat match goal with |- _ /\ _ => split end; auto; cbn; intros g H; try (destruct H; fail);
      destruct side; cbn in H; repeat (destruct H as [<- | H]; [intuition discriminate|]); destruct H.
  - rewrite N0. intros g [].
  - intros i g Hi. apply in_map_iff in Hi. destruct Hi as (m & <- & _). intros [].
Qed.

(* The wall has zero momentum and unchanged density, and its energy is the one for which the
   one-sided first derivative of the temperature, as the code itself takes it at this wall,
   vanishes.  The weights of that derivative are -11/6, 3, -3/2, 1/3, 0, 0.  Halo points are
   not touched. *)
Theorem C76_carpenter_wall :
  forall J ord np bh d side rho moms E,
    functions J -> good_order ord -> List.length bh = List.length np -> (d < List.length np)%nat ->
    NoDup (rho :: moms ++ [E]) ->
  exists k, carpenter_wall_apply ord np bh d side (arrays_of (List.length np) [FScalar rho; FVector moms; FScalar E]) (ns_arrays (List.length np) rho moms E) = Ok k /\
    (forall x, bk_points k x = true <-> on_face np bh d side x) /\
    forall pts M, sweeps pts (on_face np bh d side) ->
      let M' := run_kernel J (bk_eqs k) pts M in
      let T' := T_at J M' rho moms E in
      (forall x, on_face np bh d side x ->
         (forall m, In m moms -> M' m x = 0) /\ M' rho x = M rho x /\
         (const J "gama" <> 1 -> const J "gama" <> 0 -> const J "Minf" <> 0 -> M rho x <> 0 ->
            - (11 / 6) * T' x + 3 * T' (inwards d side 1 x) - 3 / 2 * T' (inwards d side 2 x) + 1 / 3 * T' (inwards d side 3 x) = 0 /\
            ((5 <= nth d np 0)%Z -> forall order h other,
               boundary_derivative order 1 h (if side then (other, Some Carpenter) else (Some Carpenter, other)) (nth d np 0%Z)
                 (fun i => T' (move d (i - nth d x 0)%Z x)) (nth d x 0%Z) = Ok 0))) /\
      (forall b y, ~ (In b (moms ++ [E]) /\ on_face np bh d side y) -> M' b y = M b y).
Proof.
  intros J ord np bh d side rho moms E F Go Lb Hd ND. pose proof (f_reals J F) as HJ. rewrite carpenter_wall_eqs by auto.
  eexists. split; [reflexivity|]. split; [intros x; apply bk_points_face; auto|].
  intros pts M Sw. cbn [bk_eqs]. set (n := List.length np) in *.
  destruct (set_side_factor side) as [from to] eqn:Es. cbn [fst snd].
  assert (Hto : (to = if side then -1 else 1)%Z) by (destruct side; injection Es as <- <-; auto).
  destruct (nodup3 _ _ _ ND) as (N1 & N2 & N3 & _).
  set (l := carp_items n d side to rho moms E).
  destruct (face_items R J np bh d side l pts M Hd Sw) as [Val Fr].
  { intros b k r r' H H'. unfold l, carp_items in H, H'. rewrite !in_app_iff, !in_map_iff in H, H'. cbn [In] in H, H'.
    destruct H as [(m & E0 & Hm) | [(i & E0 & _) | [E0 | [E0 | []]]]]; try discriminate E0;
    destruct H' as [(m' & E1 & Hm') | [(i' & E1 & _) | [E1 | [E1 | []]]]]; try discriminate E1; inversion E0; inversion E1; clear E0 E1; subst; auto; contradiction. }
  { intros i b ix Hi Hb. unfold l, carp_items in Hi. rewrite !in_app_iff, !in_map_iff in Hi. cbn [In] in Hi.
    destruct Hi as [(m & <- & Hm) | [(j & <- & Hj) | [<- | [<- | []]]]]; cbn [rhs_of] in Hb.
    - destruct Hb.
    - apply dsets_put_at in Hb. subst ix. split; [rewrite move_length; apply repeat_length|]. intros Hp. apply carp_puts in Hp. destruct Hp as [Hp _].
      rewrite move_nth in Hp by (unfold here; rewrite repeat_length; auto). unfold here in Hp. rewrite nth_repeat in Hp. apply in_seq in Hj.
      destruct side; subst to; lia.
    - destruct side; destruct Hb.
    - cbn in Hb. destruct Hb as [E0 | []]. injection E0 as <- <-. split; [apply repeat_length|]. intros Hp. apply carp_puts in Hp. destruct Hp as [_ Hp].
      apply in_app_iff in Hp. destruct Hp as [Hp | [Hp | []]]; [contradiction | congruence]. }
  { apply carp_sane. }
  fold n in Val, Fr. cbv zeta. set (M' := run_kernel J (map (tkeq n d) l) pts M) in *.
  assert (Inn : forall i x, move d (Z.of_nat i * to) x = inwards d side (Z.of_nat i) x) by (intros; rewrite inwards_factor, Es, Z.mul_comm; reflexivity).
  assert (Keep : forall x b i, on_face np bh d side x -> (1 <= i)%Z -> M' b (inwards d side i x) = M b (inwards d side i x)).
  { intros x b i Hx Hi. apply Fr. intros k x2 Hw Hx2 Ey. apply carp_puts in Hw. destruct Hw as [-> _].
    apply (f_equal (fun l => nth d l 0%Z)) in Ey. unfold inwards in Ey.
    assert (Lx : List.length x = n) by apply Hx. assert (Lx2 : List.length x2 = n) by apply Hx2.
    rewrite !move_nth in Ey by (rewrite ?Lx, ?Lx2; auto). destruct Hx as (_ & X & _), Hx2 as (_ & X2 & _). rewrite X, X2 in Ey. destruct side; lia. }
  split.
  - intros x Hx. assert (Lx : List.length x = n) by apply Hx. destruct (Val x Hx) as (L & Loc & Dat).
    assert (Mom0 : forall m, In m moms -> M' m x = 0).
    { intros m Hm. rewrite <- (move_0 d x) at 1. rewrite (Dat m 0%Z (eint 0)); [apply (ap_int J HJ)|].
      unfold l, carp_items. apply in_app_iff. left. apply in_map_iff. eauto. }
    assert (RhoW : M' rho x = M rho x).
    { apply Fr. intros k x2 Hw Hx2 Ey. apply carp_puts in Hw. destruct Hw as [_ Hw].
      apply in_app_iff in Hw. destruct Hw as [Hw | [Hw | []]]; [contradiction | congruence]. }
    split; auto. split; auto. intros G1 G0 Mi R0.
    assert (TK : forall i, (1 <= i)%Z -> T_at J M' rho moms E (inwards d side i x) = T_at J M rho moms E (inwards d side i x)).
    { intros i Hi. unfold T_at. rewrite !(Keep x) by auto. f_equal. apply map_ext. intros m. apply Keep; auto. }
    assert (Tl : forall i, (1 <= i < 6)%nat -> at_point J M L x (Tvar i) = T_at J M rho moms E (inwards d side (Z.of_nat i) x)).
    { intros i Hi. transitivity (L (digits_name "T" i)); [reflexivity|].
      rewrite (Loc _ (put n d (Z.of_nat i * to) (temperature_cons (ns_arrays n rho moms E)))).
      2:{ unfold l, carp_items. apply in_app_iff. right. apply in_app_iff. left. apply in_map_iff. exists i. split; auto. apply in_seq. lia. }
      rewrite at_put; auto; [|apply placed_temperature]. rewrite Inn.
      rewrite value_at by (rewrite (inwards_length d side _ x n); auto; apply placed_temperature).
      apply ap_temperature; auto. apply inwards_length. auto. }
    destruct first_row as (C0 & C1 & C2 & C3 & C4 & C5).
    assert (S0 : at_point J M L x (Tvar 0) = 6 / 11 * (3 * T_at J M rho moms E (inwards d side 1 x) + 1 / 3 * T_at J M rho moms E (inwards d side 3 x)
                      - 3 / 2 * T_at J M rho moms E (inwards d side 2 x))).
    { transitivity (L (digits_name "T" 0)); [reflexivity|].
      erewrite Loc by (unfold l, carp_items; apply in_app_iff; right; apply in_app_iff; right; left; reflexivity).
      rewrite (ap_div J HJ), (ap_mul J HJ). cbn [map fold_right]. rewrite (ap_add J HJ). cbn [map seq fold_right Nat.add].
      rewrite !(ap_mul J HJ). cbn [map fold_right]. rewrite (ap_int J HJ), !Tl by lia. rewrite !ap_carp by (auto; lia).
      rewrite C0, C1, C2, C3, C4, C5. change (Z.of_nat 1) with 1%Z. change (Z.of_nat 2) with 2%Z. change (Z.of_nat 3) with 3%Z.
      destruct side; field. }
    assert (TW : T_at J M' rho moms E x = at_point J M L x (Tvar 0)).
    { assert (EW : M' E x = at_point J M L x (ediv (emul [EDat rho (here n); Tvar 0]) (emul [Minf; Minf; gama; esub gama (eint 1)]))).
      { rewrite <- (move_0 d x) at 1. apply Dat. unfold l, carp_items. apply in_app_iff. right. apply in_app_iff. right. right. left. auto. }
      unfold T_at. unfold temperature_of, pressure_of. rewrite RhoW, EW.
      rewrite (map_ext_in _ (fun _ => 0) moms Mom0), norm2_zero.
      rewrite (ap_div J HJ), !(ap_mul J HJ). cbn [map fold_right]. rewrite (ap_sub J HJ), (ap_int J HJ).
      rewrite ap_dat by auto. unfold gama, Minf. rewrite !ap_const. generalize (at_point J M L x (Tvar 0)). intros t0.
      field. repeat split; auto. intros Z. apply G1. lra. }
    rewrite S0 in TW. split.
    + rewrite !TK, TW by lia. field.
    + intros H5 order h other. rewrite wall_derivative; auto; [|apply Hx]. f_equal.
      assert (U : forall j, (if side then - Z.of_nat j else Z.of_nat j)%Z = (Z.of_nat j * to)%Z) by (intros j; destruct side; subst to; lia).
      unfold sum6. rewrite !U.
      repeat match goal with |- context [(nth d x 0 + ?a - nth d x 0)%Z] => replace (nth d x 0 + a - nth d x 0)%Z with a by lia end.
      rewrite !Inn. rewrite C4, C5, C0, C1, C2, C3. change (Z.of_nat 0) with 0%Z. change (Z.of_nat 1) with 1%Z. change (Z.of_nat 2) with 2%Z. change (Z.of_nat 3) with 3%Z.
      replace (inwards d side 0 x) with x by (unfold inwards; destruct side; rewrite move_0; auto).
      rewrite (TK 1%Z), (TK 2%Z), (TK 3%Z), TW by lia. generalize (/ h ^ 1). intros c. destruct side; field.
  - intros b y H. apply Fr. intros k x Hw Hx Ey. apply carp_puts in Hw. destruct Hw as [-> Hb]. apply H. split; auto.
    rewrite move_0 in Ey. subst. auto.
Qed.
Print Assumptions C76_carpenter_wall.
