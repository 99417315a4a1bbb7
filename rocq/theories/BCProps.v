(* C44, C45, C49: boundary planes, symmetry and inviscid walls, extrapolation. *)
From Verif Require Import Base Expr ExprProofs KernelModel ShiftModel ShiftSpec ShiftProofs BCModel BCSpec BCProofs BCKern BCMirror BCOrder BCVec.
From Coq Require Import QArith ZArith Reals Qreals Lia Lra.
Local Close Scope Q_scope.

(* C49.  The kernel of a boundary condition runs over exactly the points of its face,
   extended by the registered halos in the other directions. *)
Theorem C49_plane :
  forall np bh d side, List.length bh = List.length np -> (d < List.length np)%nat ->
  exists ranges halos, bc_plane_kernel np bh d side = Ok (ranges, halos) /\
    forall eqs x, bk_points {| bk_ranges := ranges; bk_halos := halos; bk_eqs := eqs |} x = true <-> on_face np bh d side x.
Proof.
  intros np bh d side Lb Hd. rewrite bc_plane_ok by auto. eexists. eexists. split; [reflexivity|].
  intros eqs x. apply bk_points_face; auto.
Qed.
Print Assumptions C49_plane.
Example C49_plane_nonvacuous :
  on_face [10; 20]%Z [([(-2, 2)%Z], [(-2, 2)%Z]); ([(-3, 4)%Z], [(-3, 4)%Z])] 0 true [9; -3]%Z /\
  ~ on_face [10; 20]%Z [([(-2, 2)%Z], [(-2, 2)%Z]); ([(-3, 4)%Z], [(-3, 4)%Z])] 0 true [8; 5]%Z.
Proof.
  split.
  - repeat split; intros; destruct i as [|[|i]]; cbn in *; lia.
  - intros (_ & H & _). cbn in H. lia.
Qed.

(* A direction the grid does not have is an error. *)
Theorem C49_no_such_direction :
  forall np bh d side, (List.length np <= d)%nat -> bc_plane_kernel np bh d side = Err IndexErr.
Proof.
  intros np bh d side H. unfold bc_plane_kernel, set_kernel_range.
  replace (nth_error (block_ranges np) d) with (@None (Z * Z)); auto.
  symmetry. apply nth_error_None. unfold block_ranges. rewrite map_length. auto.
Qed.
Print Assumptions C49_no_such_direction.

(* Lists of boundary conditions: accepted exactly if, however nested, there are two per
   direction; conditions 2d and 2d+1 are then those of direction d. *)
Theorem C49_types :
  forall (A : Type) (ndim : nat) (types : nest A),
    (List.length (flatten types) <> 2 * ndim -> set_boundary_types ndim types = Err ValueError)%nat /\
    (List.length (flatten types) = 2 * ndim ->
       exists l, set_boundary_types ndim types = Ok l /\ List.length l = ndim /\
         forall d p, nth_error l d = Some p <->
           exists a b, p = (a, b) /\ nth_error (flatten types) (2 * d) = Some a /\ nth_error (flatten types) (2 * d + 1) = Some b)%nat.
Proof.
  intros A ndim types. unfold set_boundary_types. split; intros H.
  - replace (_ =? _)%nat with false; auto. symmetry. apply Nat.eqb_neq. lia.
  - replace (_ =? _)%nat with true by (symmetry; apply Nat.eqb_eq; lia). eexists. split; [reflexivity|].
    revert H. generalize (flatten types). intros l H. revert l H. induction ndim as [|m IH]; intros l H.
    + destruct l; [|discriminate]. split; auto. intros [|d] p; cbn; split; try discriminate; intros (a & b & _ & E & _); [discriminate | destruct (d + S (d + 0))%nat; discriminate].
    + destruct l as [|a [|b l]]; try (cbn in H; lia). cbn [pair_up]. cbn [List.length] in H. destruct (IH l ltac:(lia)) as [L1 L2].
      split; [cbn; lia|]. intros [|d] p.
      * cbn. split; [intros E; injection E as <-; eauto | intros (a' & b' & -> & E1 & E2); injection E1 as <-; injection E2 as <-; auto].
      * cbn [nth_error]. rewrite L2. replace (2 * S d)%nat with (S (S (2 * d))) by lia. replace (S (S (2 * d)) + 1)%nat with (S (S (2 * d + 1))) by lia.
        cbn [nth_error]. reflexivity.
Qed.
Print Assumptions C49_types.
Example C49_types_nonvacuous :
  set_boundary_types 2 (Many [Many [One "a"; One "b"]; One "c"; Many [Many [One "d"]]])%string = Ok [("a", "b"); ("c", "d")]%string /\
  set_boundary_types 2 (Many [One "a"; One "b"; One "c"])%string = Err ValueError.
Proof. split; reflexivity. Qed.

(* ---- C44 ---- *)

(* The symmetry condition: every halo point receives the mirror image of the point the
   same distance inside.  Scalars are copied; vectors are reflected in the plane normal to
   the metric vector of the direction (taken at the mirrored point).  Nothing else changes. *)
Theorem C44_symmetry :
  forall J ord np bh d side row fs,
    reals J -> good_order ord ->
    List.length bh = List.length np -> (d < List.length np)%nat ->
    NoDup (field_names fs) -> field_names fs <> [] ->
    Forall (placed (List.length np)) row -> List.length row = List.length np ->
    (forall vs, In (FVector vs) fs -> List.length vs = List.length np) ->
  exists k, symmetry_apply ord np bh d side row (arrays_of (List.length np) fs) = Ok k /\
    (forall x, bk_points k x = true <-> on_face np bh d side x) /\
    forall pts M, sweeps pts (on_face np bh d side) ->
      (forall x t, on_face np bh d side x -> (1 <= t <= halo_width bh side)%Z ->
         let y := outwards d side t x in let z := inwards d side t x in
         (forall s, In (FScalar s) fs -> run_kernel J (bk_eqs k) pts M s y = M s z) /\
         (forall vs, In (FVector vs) fs ->
            let normal := map (value J M z) row in norm2 normal <> 0%R ->
            map (fun v => run_kernel J (bk_eqs k) pts M v y) vs = reflected normal (map (fun v => M v z) vs))) /\
      (forall b y, ~ (In b (field_names fs) /\ halo_point np bh d side y) -> run_kernel J (bk_eqs k) pts M b y = M b y).
Proof.
  intros J ord np bh d side row fs HJ Go Lb Hd ND Ne Hrow Lr Lv.
  destruct (transformed_ok' 2 _ row fs Lv Lr) as (rights & E).
  unfold symmetry_apply. rewrite E. cbn [bind]. rewrite bc_plane_ok by auto. cbn [bind].
  rewrite flat_arrays_of, create_eqs by auto. cbn [bind fst snd]. eexists. split; [reflexivity|].
  split; [intros x; apply bk_points_face; auto|].
  intros pts M Sw. cbn [bk_eqs]. rewrite n_halos_width by (rewrite Lb; auto).
  rewrite mirror_indices_eq, map_map. cbn [fst snd]. fold (mirror_T side (Z.to_nat (halo_width bh side)) rights).
  assert (W0 : (0 <= halo_width bh side)%Z) by (unfold halo_width; lia).
  destruct (copy_face R J np bh d side (field_names fs) (mirror_T side (Z.to_nat (halo_width bh side)) rights) pts M) as [Cp Fr]; auto.
  { apply mirror_T_nodup. }
  { intros t t' Ht Ht'. apply mirror_T_in in Ht. apply mirror_T_in in Ht'. destruct Ht as (i & Hi & ->), Ht' as (i' & Hi' & ->).
    cbn [fst snd]. destruct side; cbn [set_side_factor fst snd]; lia. }
  split.
  - intros x t Hx Ht. apply (transformed_fields 2 (List.length np) row fs rights); auto.
    + apply inwards_length. apply Hx.
    + intros b e Hbe Pe. rewrite outwards_factor, inwards_factor. apply (Cp _ _ rights); auto.
      apply mirror_T_in. exists t. split; auto. lia.
  - intros b y H. apply Fr. intros (Hb & l & r & rs & x & Ht & Hx & Ey). apply H. split; auto. apply mirror_T_in in Ht.
    destruct Ht as (i & Hi & Et). injection Et as -> -> ->. exists x, i. split; auto. split; [lia|]. rewrite outwards_factor. exact Ey.
Qed.
Print Assumptions C44_symmetry.

(* Reflection in a plane: the normal component changes sign, components along the plane are
   kept, the length is kept and reflecting twice is the identity. *)
Theorem C44_reflection :
  forall n v, List.length v = List.length n -> norm2 n <> 0%R ->
    vdot (reflected n v) n = (- vdot v n)%R /\
    (forall w, vdot w n = 0%R -> List.length w = List.length n -> vdot (reflected n v) w = vdot v w) /\
    norm2 (reflected n v) = norm2 v /\
    reflected n (reflected n v) = v.
Proof. exact reflection_facts. Qed.
Print Assumptions C44_reflection.
(* Projection onto a plane: no normal component, components along the plane are kept. *)
Theorem C44_projection :
  forall n v, List.length v = List.length n -> norm2 n <> 0%R ->
    vdot (projected n v) n = 0%R /\
    (forall w, vdot w n = 0%R -> List.length w = List.length n -> vdot (projected n v) w = vdot v w).
Proof. exact projection_facts. Qed.
Print Assumptions C44_projection.
Example C44_reflection_nonvacuous :
  reflected [0; 2]%R [3; 4]%R = [3; -4]%R /\ projected [0; 2]%R [3; 4]%R = [3; 0]%R /\ norm2 [0; 2]%R <> 0%R.
Proof. unfold reflected, projected, norm2. cbn. repeat split; try lra; repeat f_equal; lra. Qed.

(* The inviscid wall: halos as for the symmetry condition; the wall itself receives the
   scalars of the first point inside and the projection of its vectors onto the plane
   normal to the metric vector at that point. *)
Theorem C44_inviscid_wall :
  forall J ord np bh d side row fs,
    reals J -> good_order ord ->
    List.length bh = List.length np -> (d < List.length np)%nat ->
    NoDup (field_names fs) -> field_names fs <> [] ->
    Forall (placed (List.length np)) row -> List.length row = List.length np ->
    (forall vs, In (FVector vs) fs -> List.length vs = List.length np) ->
  exists k, inviscid_wall_apply ord np bh d side row (arrays_of (List.length np) fs) = Ok k /\
    (forall x, bk_points k x = true <-> on_face np bh d side x) /\
    forall pts M, sweeps pts (on_face np bh d side) ->
      (forall x t, on_face np bh d side x -> (1 <= t <= halo_width bh side)%Z ->
         let y := outwards d side t x in let z := inwards d side t x in
         (forall s, In (FScalar s) fs -> run_kernel J (bk_eqs k) pts M s y = M s z) /\
         (forall vs, In (FVector vs) fs ->
            let normal := map (value J M z) row in norm2 normal <> 0%R ->
            map (fun v => run_kernel J (bk_eqs k) pts M v y) vs = reflected normal (map (fun v => M v z) vs))) /\
      (forall x, on_face np bh d side x ->
         let z := inwards d side 1 x in
         (forall s, In (FScalar s) fs -> run_kernel J (bk_eqs k) pts M s x = M s z) /\
         (forall vs, In (FVector vs) fs ->
            let normal := map (value J M z) row in norm2 normal <> 0%R ->
            map (fun v => run_kernel J (bk_eqs k) pts M v x) vs = projected normal (map (fun v => M v z) vs))) /\
      (forall b y, ~ (In b (field_names fs) /\ (halo_point np bh d side y \/ on_face np bh d side y)) ->
         run_kernel J (bk_eqs k) pts M b y = M b y).
Proof.
  intros J ord np bh d side row fs HJ Go Lb Hd ND Ne Hrow Lr Lv.
  destruct (transformed_ok' 2 _ row fs Lv Lr) as (rights & E), (transformed_ok' 1 _ row fs Lv Lr) as (wall & E1).
  unfold inviscid_wall_apply. rewrite E, E1. cbn [bind]. rewrite bc_plane_ok by auto. cbn [bind].
  rewrite flat_arrays_of, !create_eqs by auto. cbn [bind fst snd]. eexists. split; [reflexivity|].
  split; [intros x; apply bk_points_face; auto|].
  intros pts M Sw. cbn [bk_eqs]. rewrite n_halos_width by (rewrite Lb; auto).
  rewrite mirror_indices_eq, map_map. cbn [fst snd map]. fold (mirror_T side (Z.to_nat (halo_width bh side)) rights).
  assert (W0 : (0 <= halo_width bh side)%Z) by (unfold halo_width; lia). rewrite ceqs_app.
  destruct (copy_face R J np bh d side (field_names fs)
    (mirror_T side (Z.to_nat (halo_width bh side)) rights ++ [(0%Z, snd (set_side_factor side), wall)]) pts M) as [Cp Fr]; auto.
  { rewrite map_app. apply nodup_app; [apply mirror_T_nodup| |].
    - cbn. constructor; [intros [] | constructor].
    - intros a Ha [Hb | []]. cbn in Hb. subst a. apply in_map_iff in Ha. destruct Ha as (t & Et & Ht). apply mirror_T_in in Ht.
      destruct Ht as (i & Hi & ->). cbn [fst] in Et. destruct side; cbn [set_side_factor fst] in Et; lia. }
  { intros t t' Ht Ht'. apply in_app_iff in Ht, Ht'. destruct Ht as [Ht | [<- | []]], Ht' as [Ht' | [<- | []]];
      repeat match goal with H : In _ (mirror_T _ _ _) |- _ => apply mirror_T_in in H; destruct H as (? & ? & ->) end;
      cbn [fst snd]; destruct side; cbn [set_side_factor fst snd]; lia. }
  split; [|split].
  - intros x t Hx Ht. apply (transformed_fields 2 (List.length np) row fs rights); auto.
    + apply inwards_length. apply Hx.
    + intros b e Hbe Pe. rewrite outwards_factor, inwards_factor. apply (Cp _ _ rights); auto.
      apply in_app_iff. left. apply mirror_T_in. exists t. split; auto. lia.
  - intros x Hx.
    destruct (transformed_fields 1 (List.length np) row fs wall J M
      (run_kernel J (ceqs (List.length np) d (field_names fs) (mirror_T side (Z.to_nat (halo_width bh side)) rights ++ [(0%Z, snd (set_side_factor side), wall)])) pts M)
      x (inwards d side 1 x)) as [F1 F2]; auto.
    + apply inwards_length. apply Hx.
    + intros b e Hbe Pe. rewrite inwards_factor. rewrite <- (move_0 d x) at 1. rewrite Z.mul_1_r. apply (Cp _ _ wall); auto.
      apply in_app_iff. right. left. auto.
    + split; auto. intros vs Hvs N0. rewrite (F2 vs Hvs N0). unfold projected. rewrite Rmult_1_l. reflexivity.
  - intros b y H. apply Fr. intros (Hb & l & r & rs & x & Ht & Hx & Ey). apply H. split; auto. apply in_app_iff in Ht.
    destruct Ht as [Ht | [Et | []]].
    + left. apply mirror_T_in in Ht. destruct Ht as (i & Hi & Et). injection Et as -> -> ->. exists x, i. split; auto. split; [lia|].
      rewrite outwards_factor. exact Ey.
    + right. injection Et as <- <- <-. rewrite move_0 in Ey. subst. auto.
Qed.
Print Assumptions C44_inviscid_wall.

(* If the wall normal does not vary between the wall and the first point inside, the
   velocity left on the wall is tangential. *)
Corollary C44_inviscid_wall_tangential :
  forall J ord np bh d side row fs k,
    reals J -> good_order ord ->
    List.length bh = List.length np -> (d < List.length np)%nat ->
    NoDup (field_names fs) -> field_names fs <> [] ->
    Forall (placed (List.length np)) row -> List.length row = List.length np ->
    (forall vs, In (FVector vs) fs -> List.length vs = List.length np) ->
    inviscid_wall_apply ord np bh d side row (arrays_of (List.length np) fs) = Ok k ->
    forall pts M x vs, sweeps pts (on_face np bh d side) -> on_face np bh d side x -> In (FVector vs) fs ->
      norm2 (map (value J M x) row) <> 0%R ->
      (forall a, In a row -> value J M (inwards d side 1 x) a = value J M x a) ->
      vdot (map (fun v => run_kernel J (bk_eqs k) pts M v x) vs) (map (value J M x) row) = 0%R.
Proof.
  intros J ord np bh d side row fs k HJ Go Lb Hd ND Ne Hrow Lr Lv E pts M x vs Sw Hx Hvs N0 Same.
  destruct (C44_inviscid_wall J ord np bh d side row fs) as (k' & E' & _ & H); auto.
  rewrite E in E'. injection E' as <-. destruct (H pts M Sw) as (_ & W & _). destruct (W x Hx) as [_ V].
  assert (Eq : map (value J M (inwards d side 1 x)) row = map (value J M x) row) by (apply map_ext_in; auto).
  specialize (V vs Hvs). cbv zeta in V. rewrite Eq in V. rewrite (V N0). apply C44_projection; auto.
  rewrite !map_length, Lr. auto.
Qed.
Print Assumptions C44_inviscid_wall_tangential.

(* Refuted: the symmetry condition makes the normal momentum vanish on the boundary.  It
   does not touch the boundary points at all. *)
Theorem C44_symmetry_boundary_untouched :
  forall J ord np bh d side row fs k,
    reals J -> good_order ord ->
    List.length bh = List.length np -> (d < List.length np)%nat ->
    NoDup (field_names fs) -> field_names fs <> [] ->
    Forall (placed (List.length np)) row -> List.length row = List.length np ->
    (forall vs, In (FVector vs) fs -> List.length vs = List.length np) ->
    symmetry_apply ord np bh d side row (arrays_of (List.length np) fs) = Ok k ->
    forall pts M x b, sweeps pts (on_face np bh d side) -> on_face np bh d side x -> run_kernel J (bk_eqs k) pts M b x = M b x.
Proof.
  intros J ord np bh d side row fs k HJ Go Lb Hd ND Ne Hrow Lr Lv E pts M x b Sw Hx.
  destruct (C44_symmetry J ord np bh d side row fs) as (k' & E' & _ & H); auto.
  rewrite E in E'. injection E' as <-. apply (H pts M Sw). intros (_ & z & t & Hz & Ht & Ez).
  apply (f_equal (fun l => nth d l 0%Z)) in Ez. unfold outwards in Ez. rewrite move_nth in Ez by (destruct Hz as [-> _]; auto).
  destruct Hx as (_ & X & _), Hz as (_ & Z & _). rewrite X, Z in Ez. destruct side; lia.
Qed.
Print Assumptions C44_symmetry_boundary_untouched.
Theorem C44_normal_zero_refuted :
  exists J ord np bh d side row fs k pts M x vs,
    reals J /\ good_order ord /\ Forall (placed (List.length np)) row /\
    symmetry_apply ord np bh d side row (arrays_of (List.length np) fs) = Ok k /\
    sweeps pts (on_face np bh d side) /\ on_face np bh d side x /\ In (FVector vs) fs /\ norm2 (map (value J M x) row) <> 0%R /\
    vdot (map (fun v => run_kernel J (bk_eqs k) pts M v x) vs) (map (value J M x) row) <> 0%R.
Proof.
  assert (Sw : sweeps [[0%Z]] (on_face [4%Z] [([(-2, 2)%Z], [(-2, 2)%Z])] 0 false)).
  { split; [constructor; [intros [] | constructor]|]. intros x. split.
    - intros [<- | []]. split; [reflexivity|]. split; [reflexivity|]. intros [|i] Hi N; [congruence | cbn in Hi; lia].
    - intros (L & X & _). destruct x as [|a [|b x]]; try discriminate. cbn in X. subst. left; auto. }
  destruct (C44_symmetry stdJ std_order [4%Z] [([(-2, 2)%Z], [(-2, 2)%Z])] 0 false [ENum 1] [FScalar "rho"; FVector ["rhou0"]]%string) as (k & E & _ & _);
    auto using stdJ_reals, std_order_good.
  { repeat constructor; cbn; intuition discriminate. } { discriminate. } { repeat constructor. intros ? ? []. }
  { intros vs [H | [H | []]]; try discriminate. injection H as <-. reflexivity. }
  exists stdJ, std_order, [4%Z], [([(-2, 2)%Z], [(-2, 2)%Z])], 0%nat, false, [ENum 1], [FScalar "rho"; FVector ["rhou0"]]%string, k, [[0%Z]], (fun _ _ => 1%R), [0%Z], ["rhou0"%string].
  split; [apply stdJ_reals|]. split; [apply std_order_good|]. split; [repeat constructor; intros ? ? []|]. split; [exact E|].
  split; [exact Sw|]. split; [apply Sw; left; auto|]. split; [right; left; auto|].
  assert (V1 : value stdJ (fun _ _ => 1%R) [0%Z] (ENum 1) = 1%R) by (unfold value; cbn; unfold Q2R; cbn; lra).
  cbn [map]. rewrite V1. split; [unfold norm2; cbn; lra|]. cbn [map vdot].
  rewrite (C44_symmetry_boundary_untouched stdJ std_order [4%Z] [([(-2, 2)%Z], [(-2, 2)%Z])] 0 false [ENum 1] [FScalar "rho"; FVector ["rhou0"]]%string k); auto using stdJ_reals, std_order_good.
  - lra.
  - repeat constructor; cbn; intuition discriminate.
  - discriminate.
  - repeat constructor; intros ? ? [].
  - intros vs [H | [H | []]]; try discriminate. injection H as <-. reflexivity.
  - apply Sw. left; auto.
Qed.
Print Assumptions C44_normal_zero_refuted.

(* ---- C45 ---- *)

(* Order 0: the boundary point and all halo points receive the value of the first point inside. *)
Theorem C45_constant :
  forall (V : Type) (J : interp V) ord np bh d side fs,
    good_order ord -> List.length bh = List.length np -> (d < List.length np)%nat ->
    NoDup (field_names fs) -> field_names fs <> [] ->
  exists k, extrapolation_apply ord np bh d side 0 (arrays_of (List.length np) fs) = Ok k /\
    (forall x, bk_points k x = true <-> on_face np bh d side x) /\
    forall pts M, sweeps pts (on_face np bh d side) ->
      (forall x t b, on_face np bh d side x -> (0 <= t <= halo_width bh side)%Z -> In b (field_names fs) ->
         run_kernel J (bk_eqs k) pts M b (outwards d side t x) = M b (inwards d side 1 x)) /\
      (forall b y, ~ (In b (field_names fs) /\ (halo_point np bh d side y \/ on_face np bh d side y)) ->
         run_kernel J (bk_eqs k) pts M b y = M b y).
Proof.
  intros V J ord np bh d side fs Go Lb Hd ND Ne.
  unfold extrapolation_apply. rewrite bc_plane_ok by auto. cbn [bind fst snd]. rewrite flat_arrays_of.
  set (vars := map (fun b => EDat b (here (List.length np))) (field_names fs)).
  destruct (set_side_factor side) as [from to] eqn:Es. cbn [Z.eqb].
  rewrite (map_result_ok _ _ _ (fun i => ceqs (List.length np) d (field_names fs) [((from * i)%Z, to, vars)]))
    by (intros i _; unfold vars; rewrite create_eqs by auto; reflexivity).
  cbn [bind]. eexists. split; [reflexivity|]. split; [intros x; apply bk_points_face; auto|].
  intros pts M Sw. cbn [bk_eqs]. rewrite n_halos_width by (rewrite Lb; auto).
  set (w := Z.to_nat (halo_width bh side)). assert (W0 : (0 <= halo_width bh side)%Z) by (unfold halo_width; lia).
  replace (List.concat (map _ _)) with (ceqs (List.length np) d (field_names fs) (map (fun i => ((from * i)%Z, to, vars)) (0%Z :: upto w))).
  2:{ unfold ceqs. rewrite (flat_map_concat_map _ (map _ _)), map_map. f_equal. apply map_ext. intros i. cbn [flat_map]. rewrite app_nil_r. reflexivity. }
  assert (HT : forall t, In t (map (fun i => ((from * i)%Z, to, vars)) (0%Z :: upto w)) <-> exists i, (0 <= i <= Z.of_nat w)%Z /\ t = ((from * i)%Z, to, vars)).
  { intros t. rewrite in_map_iff. split.
    - intros (i & <- & [<- | Hi]); [exists 0%Z; split; auto; lia | apply in_upto in Hi; exists i; split; auto; lia].
    - intros (i & Hi & ->). exists i. split; auto. destruct (Z.eq_dec 0 i); [left; auto | right; apply in_upto; lia]. }
  assert (Hft : (side = true /\ from = 1 /\ to = -1 \/ side = false /\ from = -1 /\ to = 1)%Z) by (destruct side; injection Es as <- <-; auto).
  destruct (copy_face V J np bh d side (field_names fs) (map (fun i => ((from * i)%Z, to, vars)) (0%Z :: upto w)) pts M) as [Cp Fr]; auto.
  { rewrite map_map. cbn [fst]. apply FinFun.Injective_map_NoDup; [intros a b; lia|]. constructor; [|apply upto_nodup].
    rewrite in_upto. lia. }
  { intros t t' Ht Ht'. apply HT in Ht, Ht'. destruct Ht as (i & Hi & ->), Ht' as (i' & Hi' & ->). cbn [fst snd]. lia. }
  assert (Out : forall i x, move d (from * i) x = outwards d side i x) by (intros; rewrite outwards_factor, Es; reflexivity).
  assert (In1 : forall x, move d to x = inwards d side 1 x) by (intros; rewrite inwards_factor, Es; cbn [snd]; rewrite Z.mul_1_r; reflexivity).
  split.
  - intros x t b Hx Ht Hb. rewrite <- Out, <- In1. rewrite (Cp _ to vars b (EDat b (here (List.length np))) x); auto.
    + unfold value. cbn [eval]. unfold here. rewrite vadd_here; auto. rewrite move_length. apply Hx.
    + apply HT. exists t. split; auto. lia.
    + unfold vars. clear - Hb. induction (field_names fs) as [|a l IH]; [destruct Hb|]; destruct Hb as [-> | Hb]; cbn; auto.
    + apply placed_dat.
  - intros b y H. apply Fr. intros (Hb & l & r & rs & x & Ht & Hx & Ey). apply H. split; auto. apply HT in Ht.
    destruct Ht as (i & Hi & Et). injection Et as -> -> ->. destruct (Z.eq_dec i 0) as [-> | N].
    + right. rewrite Z.mul_0_r, move_0 in Ey. subst. auto.
    + left. exists x, i. split; auto. split; [lia|]. rewrite <- Out. exact Ey.
Qed.
Print Assumptions C45_constant.

(* Order 1: the halo points receive the line through the boundary point and the first
   point inside; the boundary point is not changed. *)
Theorem C45_linear :
  forall J ord np bh d side fs,
    reals J -> good_order ord -> List.length bh = List.length np -> (d < List.length np)%nat ->
    NoDup (field_names fs) ->
  exists k, extrapolation_apply ord np bh d side 1 (arrays_of (List.length np) fs) = Ok k /\
    (forall x, bk_points k x = true <-> on_face np bh d side x) /\
    forall pts M, sweeps pts (on_face np bh d side) ->
      (forall x t b, on_face np bh d side x -> (1 <= t <= halo_width bh side)%Z -> In b (field_names fs) ->
         run_kernel J (bk_eqs k) pts M b (outwards d side t x) = (M b x + IZR t * (M b x - M b (inwards d side 1 x)))%R) /\
      (forall b y, ~ (In b (field_names fs) /\ halo_point np bh d side y) -> run_kernel J (bk_eqs k) pts M b y = M b y).
Proof.
  intros J ord np bh d side fs HJ Go Lb Hd ND.
  unfold extrapolation_apply. rewrite bc_plane_ok by auto. cbn [bind fst snd]. rewrite flat_arrays_of.
  destruct (set_side_factor side) as [from to] eqn:Es. cbn [Z.eqb].
  assert (Hft : (side = true /\ from = 1 /\ to = -1 \/ side = false /\ from = -1 /\ to = 1)%Z) by (destruct side; injection Es as <- <-; auto).
  set (n := List.length np).
  rewrite (map_result_ok _ _ _ (fun i => map (fun b => KEq (EDat b (move d i (here n)))
     (esub (emul [eint 2; EDat b (move d (if side then (i - 1) * from else (i + 1) * to) (here n))])
           (EDat b (move d (if side then (i - 2) * from else (i + 2) * to) (here n))))) (field_names fs))).
  2:{ intros i _. rewrite (map_result_ok _ _ _ (fun e => match e with EDat b _ => KEq (EDat b (move d i (here n)))
     (esub (emul [eint 2; EDat b (move d (if side then (i - 1) * from else (i + 1) * to) (here n))])
           (EDat b (move d (if side then (i - 2) * from else (i + 2) * to) (here n)))) | _ => KEq e e end)).
      - rewrite map_map. reflexivity.
      - intros e He. apply in_map_iff in He. destruct He as (b & <- & _).
        rewrite !(inc_local ord n) by (auto; apply placed_dat). reflexivity. }
  cbn [bind]. eexists. split; [reflexivity|]. split; [intros x; apply bk_points_face; auto|].
  intros pts M Sw. cbn [bk_eqs]. rewrite n_halos_width by (rewrite Lb; auto).
  set (w := Z.to_nat (halo_width bh side)). assert (W0 : (0 <= halo_width bh side)%Z) by (unfold halo_width; lia).
  replace (List.concat (map _ _)) with (lin_eqs n d from (field_names fs) w).
  2:{ unfold lin_eqs. rewrite flat_map_concat_map, map_map. f_equal. apply map_ext. intros t. apply map_ext. intros b.
      destruct Hft as [(-> & -> & ->) | (-> & -> & ->)]; repeat first [lia | f_equal]. }
  assert (Hs : (from = 1 \/ from = -1)%Z) by lia.
  assert (Out : forall i x, move d (from * i) x = outwards d side i x) by (intros; rewrite outwards_factor, Es; reflexivity).
  assert (Fr : forall b y, ~ (In b (field_names fs) /\ halo_point np bh d side y) -> run_kernel J (lin_eqs n d from (field_names fs) w) pts M b y = M b y).
  { intros b y H. apply (face_frame R J np bh d side); auto; [apply lin_along|]. intros q k x Hq Ht Hx ->. apply in_lin in Hq.
    destruct Hq as (t & b' & Hti & Hb & ->). destruct Ht as [Ht | []]. injection Ht as -> Ht. apply off_inj in Ht; auto. subst k.
    apply H. split; auto. exists x, t. split; auto. split; [lia | apply Out]. }
  split; auto. intros x t b Hx Ht Hb.
  destruct (face_holds R J np bh d side _ pts M x Hd (lin_along n d from (field_names fs) w) (lin_ordered n d from (field_names fs) w Hd Hs ND) Sw Hx) as [L H].
  set (M' := run_kernel J (lin_eqs n d from (field_names fs) w) pts M) in *.
  assert (Lx : List.length x = n) by apply Hx.
  assert (Rec : forall t, (1 <= t <= halo_width bh side)%Z -> M' b (outwards d side t x) = (2 * M' b (outwards d side (t - 1) x) - M' b (outwards d side (t - 2) x))%R).
  { intros i Hi. assert (Hi' : (1 <= i <= Z.of_nat w)%Z) by (unfold w; lia). specialize (H _ (proj2 (in_lin n d from (field_names fs) w _) (ex_intro _ i (ex_intro _ b (conj Hi' (conj Hb eq_refl)))))).
    cbn [holds fst snd] in H. rewrite (ap_sub J HJ), (ap_mul J HJ) in H. cbn [map fold_right] in H. rewrite (ap_int J HJ) in H.
    unfold at_point in H. cbn [eval] in H. unfold here in H. rewrite !(vadd_along n) in H by auto. rewrite !Out in H. rewrite H. ring. }
  assert (Keep : forall i, (i <= 0)%Z -> M' b (outwards d side i x) = M b (outwards d side i x)).
  { intros i Hi. apply Fr. intros (_ & z & t' & Hz & Ht' & Ez).
    apply (f_equal (fun l => nth d l 0%Z)) in Ez. unfold outwards in Ez. assert (Lz : List.length z = n) by apply Hz.
    rewrite !move_nth in Ez by (rewrite ?Lx, ?Lz; auto).
    destruct Hx as (_ & X & _), Hz as (_ & Z & _). rewrite X, Z in Ez. destruct side; lia. }
  assert (E0 : outwards d side 0 x = x) by (unfold outwards; destruct side; apply move_0).
  assert (Em : outwards d side (-1) x = inwards d side 1 x) by (unfold outwards, inwards; destruct side; reflexivity).
  assert (G : forall m : nat, (Z.of_nat m <= halo_width bh side)%Z ->
     M' b (outwards d side (Z.of_nat m) x) = (M b x + IZR (Z.of_nat m) * (M b x - M b (inwards d side 1 x)))%R /\
     M' b (outwards d side (Z.of_nat m - 1) x) = (M b x + IZR (Z.of_nat m - 1) * (M b x - M b (inwards d side 1 x)))%R).
  { induction m as [|m IH]; intros Hm.
    - cbn [Z.of_nat]. rewrite !Keep by lia. cbn [Z.sub Z.add Z.opp]. rewrite E0, Em. split; ring.
    - destruct IH as [I1 I2]; [lia|]. replace (Z.of_nat (S m) - 1)%Z with (Z.of_nat m) by lia. split; auto.
      rewrite Rec by lia. replace (Z.of_nat (S m) - 1)%Z with (Z.of_nat m) by lia. replace (Z.of_nat (S m) - 2)%Z with (Z.of_nat m - 1)%Z by lia.
      rewrite I1, I2. rewrite Nat2Z.inj_succ. unfold Z.succ. rewrite minus_IZR, plus_IZR. ring. }
  destruct (G (Z.to_nat t)) as [G1 _]; [lia|]. rewrite Z2Nat.id in G1 by lia. exact G1.
Qed.
Print Assumptions C45_linear.
(* in particular linear data are continued exactly *)
Corollary C45_linear_exact :
  forall J ord np bh d side fs k,
    reals J -> good_order ord -> List.length bh = List.length np -> (d < List.length np)%nat -> NoDup (field_names fs) ->
    extrapolation_apply ord np bh d side 1 (arrays_of (List.length np) fs) = Ok k ->
    forall pts M x b a s, sweeps pts (on_face np bh d side) -> on_face np bh d side x -> In b (field_names fs) ->
      (forall t, (0 <= t <= 1)%Z -> M b (inwards d side t x) = (a - s * IZR t)%R) ->
      forall t, (1 <= t <= halo_width bh side)%Z -> run_kernel J (bk_eqs k) pts M b (outwards d side t x) = (a + s * IZR t)%R.
Proof.
  intros J ord np bh d side fs k HJ Go Lb Hd ND E pts M x b a s Sw Hx Hb Lin t Ht.
  destruct (C45_linear J ord np bh d side fs) as (k' & E' & _ & H); auto. rewrite E in E'. injection E' as <-.
  destruct (H pts M Sw) as [H1 _]. rewrite (H1 x t b) by auto.
  assert (E0 : inwards d side 0 x = x) by (unfold inwards; destruct side; apply move_0).
  pose proof (Lin 0%Z ltac:(lia)) as L0. pose proof (Lin 1%Z ltac:(lia)) as L1. rewrite E0 in L0. rewrite L0, L1. ring.
Qed.
Print Assumptions C45_linear_exact.
(* any other order is rejected *)
Theorem C45_other_orders :
  forall ord np bh d side o arrays, (d < List.length np)%nat -> o <> 0%Z -> o <> 1%Z ->
    extrapolation_apply ord np bh d side o arrays = Err ValueError.
Proof.
  intros ord np bh d side o arrays Hd N0 N1. unfold extrapolation_apply. rewrite bc_plane_ok by auto. cbn [bind].
  destruct (set_side_factor side). apply Z.eqb_neq in N0, N1. rewrite N0, N1. reflexivity.
Qed.
Print Assumptions C45_other_orders.
Example C45_nonvacuous :
  reals stdJ /\ good_order std_order /\ halo_width [([(-2, 3)%Z], [(-2, 3)%Z])] true = 3%Z /\
  sweeps [[3%Z]] (on_face [4%Z] [([(-2, 3)%Z], [(-2, 3)%Z])] 0 true).
Proof.
  split; [apply stdJ_reals|]. split; [apply std_order_good|]. split; [reflexivity|].
  split; [constructor; [intros [] | constructor]|]. intros x. split.
  - intros [<- | []]. split; [reflexivity|]. split; [reflexivity|]. intros [|i] Hi N; [congruence | cbn in Hi; lia].
  - intros (L & X & _). destruct x as [|a [|b x]]; try discriminate. cbn in X. subst. left; auto.
Qed.
