From Verif Require Import Base Expr ExprProofs KernelModel ShiftModel ShiftSpec ShiftProofs AlgProofs BCModel BCSpec BCProofs BCKern.
From Coq Require Import QArith ZArith Reals Qreals Lia Lra Permutation.
Local Close Scope Q_scope.

Lemma flat_arrays_of : forall n fs, flat_arrays (arrays_of n fs) = map (fun b => EDat b (here n)) (field_names fs).
Proof.
  intros n. induction fs as [|[s|vs] fs IH]; cbn; auto.
  - f_equal. exact IH.
  - unfold flat_arrays, arrays_of in *. cbn. rewrite IH, map_app. reflexivity.
Qed.

Lemma nth_map_const : forall A B (c : B) (l : list A) d df, (d < List.length l)%nat -> nth d (map (fun _ => c) l) df = c.
Proof. induction l; intros [|d] df H; cbn in *; try lia; auto. apply IHl. lia. Qed.
Lemma n_halos_width : forall bh d side, (d < List.length bh)%nat -> n_halos bh d side = Z.to_nat (halo_width bh side).
Proof.
  intros bh d side H. unfold n_halos, halo_width, get_halo_values, upper_halo, lower_halo.
  rewrite nth_map_const by auto. unfold get_min_max_halo_values. cbn [fst snd].
  destruct bh as [|[lo hi] bh]; [cbn in H; lia|]. cbn [map nth fst snd]. destruct side; reflexivity.
Qed.
Lemma in_upto : forall n t, In t (upto n) <-> (1 <= t <= Z.of_nat n)%Z.
Proof.
  intros. unfold upto. rewrite in_map_iff. split.
  - intros (i & <- & Hi). apply in_seq in Hi. lia.
  - intros H. exists (Z.to_nat t). split; [lia|]. apply in_seq. lia.
Qed.
Lemma upto_nodup : forall n, NoDup (upto n).
Proof. intros. unfold upto. apply FinFun.Injective_map_NoDup; [intros a b; lia | apply seq_NoDup]. Qed.

Lemma bc_plane_ok : forall np bh d side, (d < List.length np)%nat ->
  bc_plane_kernel np bh d side = Ok (set_nth d (if side then (nth d np 0 - 1, nth d np 0) else (0, 1))%Z (block_ranges np), set_nth d ([], []) bh).
Proof. intros. unfold bc_plane_kernel. rewrite set_kernel_range_ok by auto. reflexivity. Qed.

Lemma combine_app : forall A B (l1 l2 : list A) (m1 m2 : list B), List.length l1 = List.length m1 ->
  combine (l1 ++ l2) (m1 ++ m2) = combine l1 m1 ++ combine l2 m2.
Proof. induction l1; intros l2 [|b m1] m2 H; cbn in *; try lia; auto. f_equal. apply IHl1. lia. Qed.
Lemma map2_length : forall A B C (f : A -> B -> C) l m, List.length l = List.length m -> List.length (map2 f l m) = List.length l.
Proof. induction l; intros [|b m] H; cbn in *; try lia; auto. Qed.

(* the right-hand sides, field by field *)
Lemma transformed_ok : forall f n row fs,
  (forall vs, In (FVector vs) fs -> List.length vs = List.length row) ->
  exists rights, transformed f row (arrays_of n fs) = Ok rights /\ List.length rights = List.length (field_names fs) /\
    (forall b e, In (b, e) (combine (field_names fs) rights) ->
       (e = EDat b (here n)) \/ exists vs, In (FVector vs) fs /\ In b vs /\
         In e (map2 (fun v u => esub v (emul [eint f; contra_variant row (map (fun v => EDat v (here n)) vs); u]))
                 (map (fun v => EDat v (here n)) vs) (unit_normals row))) /\
    (forall s, In (FScalar s) fs -> In (s, EDat s (here n)) (combine (field_names fs) rights)) /\
    (forall vs, In (FVector vs) fs -> forall p, In p (combine vs
        (map2 (fun v u => esub v (emul [eint f; contra_variant row (map (fun v => EDat v (here n)) vs); u]))
                 (map (fun v => EDat v (here n)) vs) (unit_normals row))) -> In p (combine (field_names fs) rights)).
Proof.
  intros f n row. induction fs as [|a fs IH]; intros Hv.
  - exists []. cbn. repeat split; auto; intros; tauto.
  - destruct IH as (rights & E & Len & Hr & Hs & Hvv); [intros; apply Hv; right; auto|].
    destruct a as [s|vs].
    + exists (EDat s (here n) :: rights). cbn [arrays_of map transformed]. unfold arrays_of in E. rewrite E. cbn [bind].
      split; auto. cbn [field_names flat_map app]. split; [cbn; f_equal; exact Len|]. split; [|split].
      * intros b e [H | H]; [injection H as <- <-; auto|]. destruct (Hr b e H) as [? | (vs & A & B)]; auto.
        right. exists vs. split; auto. right; auto.
      * intros s' [H | H]; [injection H as ->; left; auto | right; auto].
      * intros vs [H | H] p Hp; [discriminate|]. right. eapply Hvv; eauto.
    + assert (Lv : List.length vs = List.length row) by (apply Hv; left; auto).
      cbn [arrays_of map transformed]. unfold remove_normal. rewrite map_length, Lv, Nat.eqb_refl. cbn [bind].
      unfold arrays_of in E. rewrite E. cbn [bind]. eexists. split; [reflexivity|].
      assert (L2 : List.length vs = List.length (map2 (fun v u => esub v (emul [eint f; contra_variant row (map (fun v => EDat v (here n)) vs); u]))
                 (map (fun v => EDat v (here n)) vs) (unit_normals row))).
      { rewrite map2_length; rewrite map_length; auto. unfold unit_normals. rewrite map_length. auto. }
      cbn [field_names flat_map]. split; [rewrite !app_length; f_equal; [symmetry; exact L2 | exact Len]|].
      rewrite combine_app by exact L2. split; [|split].
      * intros b e H. apply in_app_iff in H. destruct H as [H | H].
        -- right. exists vs. split; [left; auto|]. split; [apply (in_combine_l _ _ _ _ H) | apply (in_combine_r _ _ _ _ H)].
        -- destruct (Hr b e H) as [? | (vs' & A & B)]; auto. right. exists vs'. split; auto. right; auto.
      * intros s [H | H]; [discriminate|]. apply in_app_iff. right. apply Hs. auto.
      * intros vs' [H | H] p Hp; apply in_app_iff; [injection H as <-; left; exact Hp | right; eapply Hvv; eauto].
Qed.

(* values of the built expressions *)
Section values.
  Variable J : interp R.
  Hypothesis HJ : reals J.
  Variables (M : string -> list Z -> R) (L : string -> R) (x : list Z).
  Let ap := at_point J M L x.
  Lemma ap_add : forall l, ap (eadd l) = fold_right Rplus 0%R (map ap l).
  Proof. intros. unfold ap, at_point, eadd. cbn [eval]. apply (r_add J HJ). Qed.
  Lemma ap_mul : forall l, ap (emul l) = fold_right Rmult 1%R (map ap l).
  Proof. intros. unfold ap, at_point, emul. cbn [eval]. apply (r_mul J HJ). Qed.
  Lemma ap_num : forall q, ap (ENum q) = Q2R q.
  Proof. intros. unfold ap, at_point. cbn. apply (r_num J HJ). Qed.
  Lemma ap_int : forall z, ap (eint z) = IZR z.
  Proof. intros. unfold eint. rewrite ap_num. unfold Q2R. cbn. lra. Qed.
  Lemma ap_inv : forall a, ap (epow a (-1 # 1)) = (/ ap a)%R.
  Proof. intros. unfold ap, at_point, epow. cbn. rewrite (r_num J HJ). apply (r_inv J HJ). Qed.
  Lemma ap_sqr : forall a, ap (epow a 2) = (ap a * ap a)%R.
  Proof. intros. unfold ap, at_point, epow. cbn [eval map]. cbn [with_locals inum iapp]. rewrite (r_num J HJ). apply (r_sqr J HJ). Qed.
  Lemma ap_sqrt : forall a, ap (epow a (1 # 2)) = sqrt (ap a).
  Proof. intros. unfold ap, at_point, epow. cbn. rewrite (r_num J HJ). apply (r_sqrt J HJ). Qed.
  Lemma ap_div : forall a b, ap (ediv a b) = (ap a / ap b)%R.
  Proof. intros. unfold ediv. rewrite ap_mul. cbn [map fold_right]. rewrite ap_inv. unfold Rdiv. ring. Qed.
  Lemma ap_sub : forall a b, ap (esub a b) = (ap a - ap b)%R.
  Proof. intros. unfold esub. rewrite ap_add. cbn [map fold_right]. rewrite ap_mul. cbn [map fold_right]. rewrite ap_int. ring. Qed.

  Lemma ap_unit : forall row, map ap (unit_normals row) = map (fun a => (ap a / sqrt (norm2 (map ap row)))%R) row.
  Proof.
    intros. unfold unit_normals. rewrite map_map. apply map_ext. intros a. rewrite ap_div, ap_sqrt, ap_add.
    do 2 f_equal. clear a. unfold norm2. induction row as [|b row IH]; cbn [map fold_right vdot]; auto. rewrite ap_sqr. f_equal. exact IH.
  Qed.
  Lemma ap_contra : forall row es, List.length row = List.length es ->
    ap (contra_variant row es) = (vdot (map ap es) (map ap row) / sqrt (norm2 (map ap row)))%R.
  Proof.
    intros row es Hl. unfold contra_variant. rewrite ap_add.
    unfold unit_normals at 1. set (nm := epow (eadd (map (fun a => epow a 2) row)) (1 # 2)).
    assert (Hn : ap nm = sqrt (norm2 (map ap row))).
    { unfold nm. rewrite ap_sqrt, ap_add. f_equal. clear - HJ. unfold norm2. induction row as [|b row IH]; cbn [map fold_right vdot]; auto. rewrite ap_sqr. f_equal. exact IH. }
    rewrite <- Hn. clear Hn. clearbody nm. revert es Hl. induction row as [|a row IH]; intros [|e es] Hl; cbn [List.length] in Hl; try lia.
    - cbn. unfold Rdiv. ring.
    - cbn [map map2 fold_right vdot]. rewrite IH by lia. rewrite ap_mul. cbn [map fold_right]. rewrite ap_div. unfold Rdiv. ring.
  Qed.
  Lemma ap_removed : forall f row es, List.length row = List.length es -> (norm2 (map ap row) <> 0)%R ->
    map ap (map2 (fun v u => esub v (emul [eint f; contra_variant row es; u])) es (unit_normals row)) =
    vsub (IZR f * (vdot (map ap es) (map ap row) / norm2 (map ap row)))%R (map ap es) (map ap row).
  Proof.
    intros f row es Hl N0.
    pose proof (ap_contra row es Hl) as Hc. set (C := contra_variant row es) in *. clearbody C.
    unfold unit_normals. set (nm := epow (eadd (map (fun a => epow a 2) row)) (1 # 2)).
    assert (Hn : ap nm = sqrt (norm2 (map ap row))).
    { unfold nm. rewrite ap_sqrt, ap_add. f_equal. clear - HJ. unfold norm2. induction row as [|b row IH]; cbn [map fold_right vdot]; auto. rewrite ap_sqr. f_equal. exact IH. }
    assert (P : (0 <= norm2 (map ap row))%R).
    { clear. unfold norm2. induction (map ap row) as [|a l IH]; cbn; [lra | nra]. }
    set (s2 := norm2 (map ap row)) in *. set (D := vdot (map ap es) (map ap row)) in *.
    assert (Sq : (sqrt s2 * sqrt s2 = s2)%R) by (apply sqrt_sqrt; auto).
    assert (S0 : (sqrt s2 <> 0)%R) by (intros Z; rewrite Z in Sq; lra).
    set (w := sqrt s2) in *. clearbody nm w s2 D. clear P. subst s2. revert es Hl. induction row as [|a row IH]; intros [|e es] Hl; cbn [List.length] in Hl; try lia; auto.
    cbn [map map2 vsub]. f_equal; [|apply IH; lia].
    rewrite ap_sub, ap_mul. cbn [map fold_right]. rewrite ap_int, ap_div, Hc, Hn. field. auto.
  Qed.
End values.

Lemma map_combine_eq : forall A B C (f : A -> C) (g : B -> C) l m, List.length l = List.length m ->
  (forall a b, In (a, b) (combine l m) -> f a = g b) -> map f l = map g m.
Proof.
  induction l as [|a l IH]; intros [|b m] Hl H; cbn in *; try lia; auto. f_equal; [apply H; auto | apply IH; auto; lia].
Qed.

Lemma at_point_value : forall V (J : interp V) M L x e, syms KGridVar e = [] -> at_point J M L x e = value J M x e.
Proof.
  intros V J M L x e H.
  rewrite (at_point_ext V J M M L (isym J KGridVar) x e); auto; [|rewrite H; intros ? []].
  unfold at_point, value. induction e as [q|k s|b ix|h args IH] using expr_ind'; auto.
  - cbn. destruct k; auto.
  - cbn [eval]. change (iapp (with_locals J (isym J KGridVar))) with (iapp J). f_equal. apply map_ext_in.
    rewrite syms_app in H. rewrite Forall_forall in IH. intros a Ha. apply IH; auto.
    assert (G : forall l, flat_map (syms KGridVar) l = [] -> In a l -> syms KGridVar a = []).
    { induction l as [|c l IHl]; intros E Hin; [destruct Hin|]. cbn in E. apply app_eq_nil in E. destruct E. destruct Hin; subst; auto. }
    eapply G; eauto.
Qed.

(* expressions placed at the grid point itself, without local variables *)
Lemma placed_app : forall n h args, Forall (placed n) args -> placed n (EApp h args).
Proof.
  intros n h args H. rewrite Forall_forall in H. split; [|split].
  - intros b ix Hb. rewrite dsets_app in Hb. apply in_flat_map in Hb. destruct Hb as (a & Ha & Hb). apply (proj1 (H a Ha) b ix Hb).
  - rewrite syms_app. induction args as [|a args IH]; auto. cbn. destruct (H a) as (_ & -> & _); [left; auto|]. apply IH. intros; apply H; right; auto.
  - rewrite syms_app. induction args as [|a args IH]; auto. cbn. destruct (H a) as (_ & _ & ->); [left; auto|]. apply IH. intros; apply H; right; auto.
Qed.
Lemma placed_num : forall n q, placed n (ENum q).
Proof. repeat split; auto. intros ? ? []. Qed.
Lemma placed_const : forall n s, placed n (econst s).
Proof. repeat split; auto. intros ? ? []. Qed.
Lemma placed_dat : forall n b, placed n (EDat b (here n)).
Proof. repeat split; auto. intros b' ix [H | []]. injection H as <- <-. auto. Qed.
Lemma placed_pow : forall n a q, placed n a -> placed n (epow a q).
Proof. intros. apply placed_app. constructor; auto. constructor; auto. apply placed_num. Qed.
Lemma placed_mul : forall n l, Forall (placed n) l -> placed n (emul l).
Proof. intros. apply placed_app. auto. Qed.
Lemma placed_add : forall n l, Forall (placed n) l -> placed n (eadd l).
Proof. intros. apply placed_app. auto. Qed.
Lemma placed_div : forall n a b, placed n a -> placed n b -> placed n (ediv a b).
Proof. intros. apply placed_mul. constructor; auto. constructor; auto. apply placed_pow. auto. Qed.
Lemma placed_int : forall n z, placed n (eint z).
Proof. intros. apply placed_num. Qed.
Lemma placed_sub : forall n a b, placed n a -> placed n b -> placed n (esub a b).
Proof. intros. apply placed_add. constructor; auto. constructor; auto. apply placed_mul. constructor; auto. apply placed_int. Qed.
Lemma Forall_map2 : forall A B C (P : A -> Prop) (Q : B -> Prop) (S : C -> Prop) (f : A -> B -> C) l m,
  Forall P l -> Forall Q m -> (forall a b, P a -> Q b -> S (f a b)) -> Forall S (map2 f l m).
Proof. induction l as [|a l IH]; intros [|b m] Hl Hm H; cbn; auto. inversion Hl; inversion Hm; subst. constructor; auto. Qed.
Lemma placed_unit : forall n row, Forall (placed n) row -> Forall (placed n) (unit_normals row).
Proof.
  intros n row H. unfold unit_normals. rewrite Forall_forall in *. intros e He. apply in_map_iff in He. destruct He as (a & <- & Ha).
  apply placed_div; auto. apply placed_pow, placed_add. rewrite Forall_forall. intros e He. apply in_map_iff in He.
  destruct He as (c & <- & Hc). apply placed_pow. auto.
Qed.
Lemma placed_removed : forall n f row es, Forall (placed n) row -> Forall (placed n) es ->
  Forall (placed n) (map2 (fun v u => esub v (emul [eint f; contra_variant row es; u])) es (unit_normals row)).
Proof.
  intros n f row es Hr He. apply (Forall_map2 _ _ _ (placed n) (placed n)); auto; [apply placed_unit; auto|].
  intros a b Ha Hb. apply placed_sub; auto. apply placed_mul. constructor; [apply placed_int|]. constructor; [|constructor; auto].
  apply placed_add. apply (Forall_map2 _ _ _ (placed n) (placed n)); auto; [apply placed_unit; auto|].
  intros. apply placed_mul. constructor; auto.
Qed.
Lemma placed_dats : forall n vs, Forall (placed n) (map (fun v => EDat v (here n)) vs).
Proof. intros. rewrite Forall_forall. intros e He. apply in_map_iff in He. destruct He as (v & <- & _). apply placed_dat. Qed.

Lemma outwards_factor : forall d (side : bool) t x, outwards d side t x = move d (fst (set_side_factor side) * t) x.
Proof. intros. unfold outwards. f_equal. destruct side; cbn [set_side_factor fst]; lia. Qed.
Lemma inwards_factor : forall d (side : bool) t x, inwards d side t x = move d (snd (set_side_factor side) * t) x.
Proof. intros. unfold inwards. f_equal. destruct side; cbn [set_side_factor snd]; lia. Qed.
Lemma mirror_indices_eq : forall side n, mirror_indices side n =
  map (fun t => (fst (set_side_factor side) * t, snd (set_side_factor side) * t)%Z) (upto n).
Proof. intros. unfold mirror_indices. destruct (set_side_factor side). reflexivity. Qed.
Lemma face_of : forall np bh d side pts, sweeps pts (on_face np bh d side) ->
  NoDup pts /\ forall y, In y pts -> List.length y = List.length np /\ nth d y 0%Z = (if side then nth d np 0 - 1 else 0)%Z.
Proof. intros np bh d side pts [ND H]. split; auto. intros y Hy. apply H in Hy. apply face_plane in Hy. auto. Qed.

(* a kernel that copies from points inside to the face (offset 0, if wall is not empty) and to the halo *)
Definition mirror_T (side : bool) (w : nat) (rights : list expr) : list (Z * Z * list expr) :=
  map (fun t => (fst (set_side_factor side) * t, snd (set_side_factor side) * t, rights)%Z) (upto w).
Lemma mirror_T_in : forall side w rights t, In t (mirror_T side w rights) <->
  exists i, (1 <= i <= Z.of_nat w)%Z /\ t = (fst (set_side_factor side) * i, snd (set_side_factor side) * i, rights)%Z.
Proof.
  intros. unfold mirror_T. rewrite in_map_iff. split.
  - intros (i & <- & Hi). apply in_upto in Hi. eauto.
  - intros (i & Hi & ->). exists i. split; auto. apply in_upto. auto.
Qed.
Lemma mirror_T_nodup : forall side w rights, NoDup (map (fun t => fst (fst t)) (mirror_T side w rights)).
Proof.
  intros. unfold mirror_T. rewrite map_map. cbn [fst]. apply FinFun.Injective_map_NoDup; [|apply upto_nodup].
  intros a b. destruct side; cbn [set_side_factor fst]; lia.
Qed.

(* the values received by scalar and vector fields *)
Lemma transformed_fields : forall f n row fs rights J (M M' : string -> list Z -> R) y z, reals J ->
  transformed f row (arrays_of n fs) = Ok rights ->
  Forall (placed n) row -> List.length row = n -> (forall vs, In (FVector vs) fs -> List.length vs = n) ->
  List.length z = n ->
  (forall b e, In (b, e) (combine (field_names fs) rights) -> placed n e -> M' b y = value J M z e) ->
  (forall s, In (FScalar s) fs -> M' s y = M s z) /\
  (forall vs, In (FVector vs) fs -> (norm2 (map (value J M z) row) <> 0)%R ->
     map (fun v => M' v y) vs =
     vsub (IZR f * (vdot (map (fun v => M v z) vs) (map (value J M z) row) / norm2 (map (value J M z) row)))%R
       (map (fun v => M v z) vs) (map (value J M z) row)).
Proof.
  intros f n row fs rights J M M' y z HJ E Hrow Lr Lv Lz Cp.
  destruct (transformed_ok f n row fs) as (rights' & E' & Len & Hin & Hs & Hvv); [intros; rewrite Lr; apply Lv; auto|].
  rewrite E in E'. injection E' as <-. split.
  - intros s Hsf. rewrite (Cp s (EDat s (here n))); auto; [|apply placed_dat].
    unfold value. cbn [eval]. unfold here. rewrite vadd_here by auto. reflexivity.
  - intros vs Hvf N0. pose proof (Lv vs Hvf) as Lvs. specialize (Hvv vs Hvf).
    set (es := map2 (fun v u => esub v (emul [eint f; contra_variant row (map (fun v => EDat v (here n)) vs); u]))
                 (map (fun v => EDat v (here n)) vs) (unit_normals row)) in *.
    assert (Hpl : Forall (placed n) es) by (apply placed_removed; auto; apply placed_dats).
    assert (Er : map (at_point J M (isym J KGridVar) z) row = map (value J M z) row).
    { apply map_ext_in. intros a Ha. rewrite Forall_forall in Hrow. apply at_point_value. apply (Hrow a Ha). }
    assert (Ev : map (at_point J M (isym J KGridVar) z) (map (fun v => EDat v (here n)) vs) = map (fun v => M v z) vs).
    { rewrite map_map. apply map_ext. intros v. unfold at_point. cbn [eval]. unfold here. rewrite vadd_here by auto. reflexivity. }
    pose proof (ap_removed J HJ M (isym J KGridVar) z f row (map (fun v => EDat v (here n)) vs)) as Hr.
    rewrite Er, Ev in Hr. rewrite <- Hr; auto; [|rewrite map_length; lia].
    fold es. apply map_combine_eq.
    + unfold es. rewrite map2_length; rewrite map_length; auto. unfold unit_normals. rewrite map_length. lia.
    + intros a b Hab. assert (Pb : placed n b) by (rewrite Forall_forall in Hpl; apply Hpl; apply (in_combine_r _ _ _ _ Hab)).
      rewrite (Cp a b); auto. symmetry. apply at_point_value. apply Pb.
Qed.
Lemma transformed_ok' : forall f n row fs, (forall vs, In (FVector vs) fs -> List.length vs = n) -> List.length row = n ->
  exists rights, transformed f row (arrays_of n fs) = Ok rights.
Proof.
  intros f n row fs Lv Lr. destruct (transformed_ok f n row fs) as (rights & E & _); [intros; rewrite Lr; apply Lv; auto|]. eauto.
Qed.

(* T lists (written offset, read offset, right-hand sides); the values left by the kernel *)
Lemma copy_face : forall V (J : interp V) np bh d side names T pts M,
  (d < List.length np)%nat -> NoDup names -> NoDup (map (fun t => fst (fst t)) T) ->
  (forall t t', In t T -> In t' T -> fst (fst t) <> snd (fst t')) ->
  sweeps pts (on_face np bh d side) ->
  (forall l r rights b e x, In (l, r, rights) T -> In (b, e) (combine names rights) -> placed (List.length np) e ->
     on_face np bh d side x ->
     run_kernel J (ceqs (List.length np) d names T) pts M b (move d l x) = value J M (move d r x) e) /\
  (forall b y, ~ (In b names /\ exists l r rights x, In (l, r, rights) T /\ on_face np bh d side x /\ y = move d l x) ->
     run_kernel J (ceqs (List.length np) d names T) pts M b y = M b y).
Proof.
  intros V J np bh d side names T pts M Hd ND NT D Sw. destruct (face_of _ _ _ _ _ Sw) as [NP HP].
  destruct (copy_plane V J (List.length np) d names T pts M _ Hd ND NT D NP HP) as [Cp Fr]. split.
  - intros l r rights b e x Ht Hbe (Plo & Pgv & _) Hx. rewrite <- (at_point_value V J M (isym J KGridVar)) by auto.
    apply (Cp (l, r, rights)); auto. apply Sw. auto.
  - intros b y H. apply Fr. intros [[l r] rights] x Ht Hx Hb E. apply H. split; auto. exists l, r, rights, x. repeat split; auto; apply Sw; auto.
Qed.
Lemma ceqs_app : forall n d names T T', ceqs n d names T ++ ceqs n d names T' = ceqs n d names (T ++ T').
Proof. intros. unfold ceqs. rewrite flat_map_app. reflexivity. Qed.
Lemma inwards_length : forall d side t x n, List.length x = n -> List.length (inwards d side t x) = n.
Proof. intros. unfold inwards. rewrite move_length. auto. Qed.
Lemma move_0 : forall d x, move d 0 x = x.
Proof. induction d; intros [|a x]; cbn; auto; f_equal; auto; lia. Qed.
