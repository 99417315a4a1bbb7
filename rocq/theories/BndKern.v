(* The boundary kernels of a program with boundaries: what they leave in the arrays. *)
From Verif Require Import Base Expr KernelModel ExprProofs WorkModel ShiftSpec ShiftProofs DiscModel DiscSpec ProgModel ProgSpec BndModel BndSpec.
From Verif Require Import BCModel BCSpec BCProofs BCKern BCMirror BCProps BCWallProps.
From Verif Require PerProps ProgProofs DiscMain.
From Coq Require Import ZArith Reals Lia Lra List.
Local Open Scope list_scope.

Lemma block_halos_at : forall k n i, (i < n)%nat -> lower_halo (block_halos k n) i = (- Z.of_nat k)%Z /\ upper_halo (block_halos k n) i = Z.of_nat k.
Proof.
  intros k n i Hi. unfold lower_halo, upper_halo.
  assert (E : nth i (block_halos k n) ([], []) = ([(- Z.of_nat k, Z.of_nat k)%Z], [(- Z.of_nat k, Z.of_nat k)%Z])).
  { unfold block_halos. cbn zeta. revert i Hi. induction n as [|n IH]; intros [|i] Hi; cbn [repeat nth]; try lia; auto. apply IH. lia. }
  rewrite E. cbn. lia.
Qed.
Lemma halo_width_k : forall k n side, (0 < n)%nat -> halo_width (block_halos k n) side = Z.of_nat k.
Proof. intros k n side H. unfold halo_width. destruct (block_halos_at k n 0 H) as [-> ->]. destruct side; lia. Qed.

Lemma at_index_length : forall d v x, List.length (at_index d v x) = List.length x.
Proof. intros. apply move_length. Qed.
Lemma at_index_nth : forall d v x, (d < List.length x)%nat -> nth d (at_index d v x) 0%Z = v.
Proof. intros. unfold at_index. rewrite move_nth by auto. lia. Qed.
Lemma at_index_other : forall d v x i, i <> d -> nth i (at_index d v x) 0%Z = nth i x 0%Z.
Proof. intros. apply move_nth_other. auto. Qed.
Lemma at_index_self : forall d x, at_index d (nth d x 0%Z) x = x.
Proof. intros. unfold at_index. rewrite Z.sub_diag. apply move_0. Qed.
Lemma move_at_index : forall d a v x, move d a (at_index d v x) = at_index d (v + a) x.
Proof. intros. unfold at_index. rewrite move_move. f_equal. lia. Qed.

Section bc.
Variables (J : interp R) (ord : order_of) (k : nat) (sizes : list Z) (fs : list field).
Notation n := (List.length sizes).
Notation bh := (block_halos k n).
Notation n_ d := (nth d sizes 0%Z).
Notation i_ d y := (nth d y 0%Z).
Notation names := (field_names fs).
Hypothesis HJ : reals J.
Hypothesis Hord : good_order ord.
Hypothesis ND : NoDup names.
Hypothesis NE : names <> [].
Hypothesis LV : forall vs, In (FVector vs) fs -> List.length vs = n.

Definition on_side (side : bool) (b : boundary) (m i : Z) : Prop :=
  if side then (m <= i \/ (i = m - 1 /\ sets_face b))%Z else (i < 0 \/ (i = 0 /\ sets_face b))%Z.
(* the values after a kernel, in terms of those before *)
Definition left_by (M M' : memory) (b : boundary) (d : nat) (y : list Z) : Prop :=
  let m := n_ d in let i := i_ d y in
  let z := at_index d (image b m i) y in
  (forall s, In (FScalar s) fs -> M' s y = M s z) /\
  match b with
  | Periodic | ZeroGradient => forall vs v, In (FVector vs) fs -> In v vs -> M' v y = M v z
  | Symmetry row => forall vs, In (FVector vs) fs -> map (fun v => M' v y) vs = reflected (map (value J M z) row) (map (fun v => M v z) vs)
  | InviscidWall row => forall vs, In (FVector vs) fs ->
      map (fun v => M' v y) vs = (if ((i =? 0) || (i =? m - 1))%Z then projected else reflected) (map (value J M z) row) (map (fun v => M v z) vs)
  end.
Lemma face_at : forall d (side : bool) y, (d < n)%nat -> near k sizes y -> on_face sizes bh d side (at_index d (if side then n_ d - 1 else 0)%Z y).
Proof.
  intros d side y Hd [Ly Hy]. split; [rewrite at_index_length; auto|]. split; [apply at_index_nth; lia|].
  intros i Hi Ne. destruct (block_halos_at k n i Hi) as [-> ->]. rewrite at_index_other by auto. specialize (Hy i Hi). lia.
Qed.
(* a point beyond the face, from the point on it *)
Lemma beyond_face : forall d (side : bool) b y, (d < n)%nat -> (3 <= n_ d)%Z -> b <> Periodic -> near k sizes y ->
  (if side then n_ d <= i_ d y else i_ d y < 0)%Z ->
  let x := at_index d (if side then n_ d - 1 else 0)%Z y in
  let t := (if side then i_ d y - (n_ d - 1) else - i_ d y)%Z in
  (1 <= t <= halo_width bh side)%Z /\ outwards d side t x = y /\ inwards d side t x = at_index d (image b (n_ d) (i_ d y)) y.
Proof.
  intros d side b y Hd Hn Nb [Ly Hy] Hs x t. rewrite halo_width_k by lia. pose proof (Hy d Hd) as Yd. unfold x, t, outwards, inwards. rewrite !move_at_index.
  split; [destruct side; lia|]. split.
  - replace (_ + _)%Z with (i_ d y) by (destruct side; lia). apply at_index_self.
  - f_equal. unfold image. destruct b; [congruence| | |]; destruct side;
      destruct (i_ d y <? 0)%Z eqn:E1; rewrite ?Z.ltb_lt, ?Z.ltb_ge in E1; try lia;
      destruct (n_ d - 1 <? i_ d y)%Z eqn:E2; rewrite ?Z.ltb_lt, ?Z.ltb_ge in E2; lia.
Qed.
(* a point on the face *)
Lemma at_face : forall d (side : bool) b y, (d < n)%nat -> (3 <= n_ d)%Z -> b <> Periodic -> near k sizes y ->
  i_ d y = (if side then n_ d - 1 else 0)%Z -> on_face sizes bh d side y /\ inwards d side 1 y = at_index d (image b (n_ d) (i_ d y)) y.
Proof.
  intros d side b y Hd Hn Nb Hy Hs. split.
  - rewrite <- (at_index_self d y), Hs. apply face_at; auto.
  - unfold inwards. rewrite <- (at_index_self d y) at 1. rewrite move_at_index. f_equal. rewrite Hs. unfold image.
    destruct b; [congruence| | |]; destruct side;
      repeat match goal with |- context [(?a <? ?c)%Z] => destruct (Z.ltb_spec a c); try lia end;
      repeat match goal with |- context [(?a =? ?c)%Z] => destruct (Z.eqb_spec a c); try lia end.
Qed.
Lemma beyond_not_face : forall d (side : bool) y, (if side then n_ d <= i_ d y else i_ d y < 0)%Z -> (3 <= n_ d)%Z ->
  ((i_ d y =? 0) || (i_ d y =? n_ d - 1))%Z = false.
Proof. intros d side y H Hn. apply orb_false_iff. rewrite !Z.eqb_neq. destruct side; lia. Qed.
Lemma halo_on_side : forall d (side : bool) b y, (d < n)%nat -> halo_point sizes bh d side y -> List.length y = n /\ on_side side b (n_ d) (i_ d y).
Proof.
  intros d side b y Hd (x & t & (Lx & Hx & _) & Ht & ->). unfold outwards. split; [rewrite move_length; auto|]. rewrite move_nth by lia. rewrite Hx.
  unfold on_side. destruct side; left; lia.
Qed.
Lemma face_on_side : forall d (side : bool) b y, sets_face b -> on_face sizes bh d side y -> List.length y = n /\ on_side side b (n_ d) (i_ d y).
Proof. intros d side b y F (Lx & Hx & _). split; auto. rewrite Hx. unfold on_side. destruct side; right; split; auto; lia. Qed.

Lemma in_names_scalar : forall s, In (FScalar s) fs -> In s names.
Proof. intros s H. apply in_flat_map. exists (FScalar s). split; auto. left. auto. Qed.
Lemma in_names_vector : forall vs v, In (FVector vs) fs -> In v vs -> In v names.
Proof. intros vs v H Hv. apply in_flat_map. exists (FVector vs). split; auto. Qed.

Lemma wall_side : forall d (side : bool) b, (d < n)%nat -> (3 <= n_ d)%Z -> b <> Periodic ->
  (forall row, In row (rows_of b) -> List.length row = n /\ Forall (placed n) row) ->
  exists bk, apply_bc_direction ord sizes bh (arrays_of n fs) d side b = Ok (Wall bk) /\
    (forall x, bk_points bk x = true <-> on_face sizes bh d side x) /\
    forall pts (M : memory), sweeps pts (on_face sizes bh d side) ->
      (forall y, near k sizes y -> on_side side b (n_ d) (i_ d y) ->
        (forall row, In row (rows_of b) -> norm2 (map (value J M (at_index d (image b (n_ d) (i_ d y)) y)) row) <> 0%R) ->
        left_by M (run_kernel J (bk_eqs bk) pts M) b d y) /\
      (forall v y, ~ (In v names /\ List.length y = n /\ on_side side b (n_ d) (i_ d y)) -> run_kernel J (bk_eqs bk) pts M v y = M v y).
Proof.
  intros d side b Hd Hn Nb Hrow.
  assert (Lh : List.length bh = n) by apply repeat_length.
  destruct b as [|row|row|]; [congruence| | |].
  - destruct (Hrow row (or_introl eq_refl)) as [Lr Pr].
    destruct (C44_symmetry J ord sizes bh d side row fs HJ Hord Lh Hd ND NE Pr Lr LV) as (bk & E & P & X).
    exists bk. cbn [apply_bc_direction]. rewrite E. split; [reflexivity|]. split; [exact P|]. intros pts M Sw.
    destruct (X pts M Sw) as [Cp Fr]. split.
    + intros y Hy Hs N0. assert (Hs' : (if side then n_ d <= i_ d y else i_ d y < 0)%Z) by (unfold on_side in Hs; cbn in Hs; destruct side; lia).
      destruct (beyond_face d side (Symmetry row) y Hd Hn Nb Hy Hs') as (Ht & E1 & E2).
      specialize (Cp _ _ (face_at d side y Hd Hy) Ht). cbn zeta in Cp. rewrite E1, E2 in Cp. destruct Cp as [C1 C2].
      split; [exact C1|]. intros vs Hvs. apply C2; auto. apply N0. left. auto.
    + intros v y H. apply Fr. intros [Hv Hh]. apply H. split; auto. eapply halo_on_side; eauto.
  - destruct (Hrow row (or_introl eq_refl)) as [Lr Pr].
    destruct (C44_inviscid_wall J ord sizes bh d side row fs HJ Hord Lh Hd ND NE Pr Lr LV) as (bk & E & P & X).
    exists bk. cbn [apply_bc_direction]. rewrite E. split; [reflexivity|]. split; [exact P|]. intros pts M Sw.
    destruct (X pts M Sw) as (Cp & Cf & Fr). split.
    + intros y Hy Hs N0.
      assert (Hs' : (if side then n_ d <= i_ d y else i_ d y < 0)%Z \/ i_ d y = (if side then n_ d - 1 else 0)%Z) by (unfold on_side in Hs; cbn in Hs; destruct side; lia).
      destruct Hs' as [Hs' | Hs'].
      * destruct (beyond_face d side (InviscidWall row) y Hd Hn Nb Hy Hs') as (Ht & E1 & E2).
        specialize (Cp _ _ (face_at d side y Hd Hy) Ht). cbn zeta in Cp. rewrite E1, E2 in Cp. destruct Cp as [C1 C2].
        split; [exact C1|]. intros vs Hvs. rewrite (beyond_not_face d side y Hs' Hn). apply C2; auto. apply N0. left. auto.
      * destruct (at_face d side (InviscidWall row) y Hd Hn Nb Hy Hs') as [Fa E2].
        specialize (Cf y Fa). cbn zeta in Cf. rewrite E2 in Cf. destruct Cf as [C1 C2].
        split; [exact C1|]. intros vs Hvs. rewrite (C2 vs Hvs) by (apply N0; left; auto). rewrite Hs'. destruct side.
        -- rewrite Z.eqb_refl, orb_true_r. reflexivity.
        -- reflexivity.
    + intros v y H. apply Fr. intros [Hv [Hh | Hh]]; apply H; (split; [auto|]); [eapply halo_on_side; eauto | apply face_on_side; auto; exact I].
  - destruct (C68_zero_gradient R J ord sizes bh d side fs Hord Lh Hd ND NE) as (bk & E & P & X).
    exists bk. cbn [apply_bc_direction]. rewrite E. split; [reflexivity|]. split; [exact P|]. intros pts M Sw.
    destruct (X pts M Sw) as (Cp & Fr).
    assert (A : forall y v, near k sizes y -> on_side side ZeroGradient (n_ d) (i_ d y) -> In v names ->
      run_kernel J (bk_eqs bk) pts M v y = M v (at_index d (image ZeroGradient (n_ d) (i_ d y)) y)).
    { intros y v Hy Hs Hv.
      assert (Hs' : (if side then n_ d <= i_ d y else i_ d y < 0)%Z \/ i_ d y = (if side then n_ d - 1 else 0)%Z) by (unfold on_side in Hs; cbn in Hs; destruct side; lia).
      destruct Hs' as [Hs' | Hs'].
      - destruct (beyond_face d side ZeroGradient y Hd Hn Nb Hy Hs') as (Ht & E1 & E2).
        destruct (Cp _ v (face_at d side y Hd Hy) Hv) as [_ C2]. specialize (C2 _ Ht). rewrite E1, E2 in C2. exact C2.
      - destruct (at_face d side ZeroGradient y Hd Hn Nb Hy Hs') as [Fa E2].
        destruct (Cp y v Fa Hv) as [C1 _]. rewrite E2 in C1. exact C1. }
    split.
    + intros y Hy Hs _. split.
      * intros s Hf. apply A; auto. apply in_names_scalar. auto.
      * intros vs v Hvs Hv. apply A; auto. eapply in_names_vector; eauto.
    + intros v y H. apply Fr. intros [Hv [Hh | Hh]]; apply H; (split; [auto|]); [eapply halo_on_side; eauto | apply face_on_side; auto; exact I].
Qed.

(* ---- periodic directions ---- *)
Lemma exchanged_names : map fst (flat_map dsets (flat_arrays (arrays_of n fs))) = names.
Proof. clear. rewrite flat_arrays_of. induction names as [|a l IH]; cbn; auto. f_equal. exact IH. Qed.
Lemma transfer_frame : forall (ex : exchange) (M : memory) b y, ~ In b (ex_arrays ex) -> transfer ex M b y = M b y.
Proof. intros ex M b y H. unfold transfer. destruct (in_dec string_dec b (ex_arrays ex)); [contradiction | reflexivity]. Qed.
Lemma set_nth_at_index : forall d v x, (d < List.length x)%nat -> set_nth d v x = at_index d v x.
Proof.
  intros d v x Hd. apply PerProps.list_ext; [rewrite set_nth_length, at_index_length; auto|]. intros i Hi. rewrite set_nth_length in Hi.
  rewrite nth_set_nth by auto. destruct (Nat.eq_dec i d) as [-> | N]; [rewrite at_index_nth; auto | rewrite at_index_other; auto].
Qed.
Lemma periodic_pair : forall d (M : memory) v y, (forall i, (i < n)%nat -> (Z.of_nat k <= n_ i)%Z) -> (d < n)%nat -> In v names -> near k sizes y ->
  transfer (periodic_apply sizes bh d true names) (transfer (periodic_apply sizes bh d false names) M) v y = M v (at_index d (i_ d y mod n_ d)%Z y).
Proof.
  intros d M v y Hn Hd Hv Hy. assert (Lh : List.length bh = n) by apply repeat_length.
  destruct (block_halos_at k n 0) as [E1 E2]; [lia|].
  rewrite PerProps.pair_at; auto.
  - f_equal. apply set_nth_at_index. destruct Hy. lia.
  - rewrite E1, E2. lia.
  - intros i Hi. rewrite E1. specialize (Hn i Hi). lia.
  - destruct Hy as [Ly Hy]. split; auto. intros i Hi. rewrite E1. specialize (Hy i Hi). lia.
Qed.
End bc.

Section dirs.
Variables (J : interp R) (ord : order_of) (k : nat) (sizes : list Z) (fs : list field) (types : list (boundary * boundary)) (S : memory) (usable : string -> Prop).
Variables (dt : R) (ab : list R * list R) (points : bkernel -> list (list Z)).
Notation n := (List.length sizes).
Notation bh := (block_halos k n).
Notation n_ d := (nth d sizes 0%Z).
Notation i_ d y := (nth d y 0%Z).
Notation names := (field_names fs).
Notation bv := (boundary_value J sizes fs S).
Notation det := (determined sizes types).
Hypothesis HJ : reals J.
Hypothesis Hord : good_order ord.
Hypothesis Bd : boundaries k sizes fs types usable.
Hypothesis Hus : forall b, usable b -> ~ In b names.
Hypothesis Hp : forall bk, sweeps (points bk) (fun x => bk_points bk x = true).
Definition run_all (st : option Z) (ks : list xkernel) (M : memory) : memory :=
  fold_left (fun M x => run_xkernel J k sizes dt ab points M x st) ks M.
Definition agree (M : memory) : Prop := forall b y, usable b -> M b y = S b y.

Lemma dir_dim : forall d l r, nth_error types d = Some (l, r) -> (d < n)%nat.
Proof. intros d l r E. rewrite <- (bd_count _ _ _ _ _ Bd). apply nth_error_Some. congruence. Qed.
Lemma some_type : forall d, (d < n)%nat -> exists l r, nth_error types d = Some (l, r).
Proof.
  intros d Hd. rewrite <- (bd_count _ _ _ _ _ Bd) in Hd. apply nth_error_Some in Hd. destruct (nth_error types d) as [[l r]|]; [eauto | congruence].
Qed.
Lemma wide : forall d, (d < n)%nat -> (Z.of_nat k <= n_ d)%Z.
Proof. intros d Hd. destruct (some_type d Hd) as (l & r & E). apply (bd_wide _ _ _ _ _ Bd d l r E). Qed.
Lemma near_at : forall d v y, (d < n)%nat -> near k sizes y -> (- Z.of_nat k <= v < n_ d + Z.of_nat k)%Z -> near k sizes (at_index d v y).
Proof.
  intros d v y Hd [Ly Hy] Hv. split; [rewrite at_index_length; auto|]. intros i Hi. destruct (Nat.eq_dec i d) as [-> | N].
  - rewrite at_index_nth by lia. auto.
  - rewrite at_index_other by auto. apply Hy. auto.
Qed.
(* the image lies inside the grid, where no condition of the direction determines it *)
Lemma image_at : forall d l r y, nth_error types d = Some (l, r) -> near k sizes y -> det d y ->
  let b := if (i_ d y <=? 0)%Z then l else r in
  let z := at_index d (image b (n_ d) (i_ d y)) y in near k sizes z /\ ~ det d z.
Proof.
  intros d l r y E Hy (l' & r' & E' & H) b z. rewrite E in E'. injection E' as <- <-. pose proof (dir_dim d l r E) as Hd.
  destruct (bd_wide _ _ _ _ _ Bd d l r E) as [W1 W2]. pose proof (nth_error_In _ _ E) as Hin. pose proof (bd_matched _ _ _ _ _ Bd l r Hin) as Hm.
  pose proof (proj2 Hy d Hd) as Yd. set (i := i_ d y) in *. set (m := n_ d) in *.
  assert (Q : (0 <= image b m i < m)%Z /\ (l = Periodic \/ (1 <= image b m i <= m - 2)%Z)).
  { destruct l.
    1:{ assert (b = Periodic) by (unfold b; destruct (i <=? 0)%Z; auto; apply Hm; auto). rewrite H0. cbn [image].
        assert (0 < m)%Z. { unfold determined_by in H. cbn in H. assert (r = Periodic) by (apply Hm; auto). subst r. cbn in H. lia. }
        pose proof (Z.mod_pos_bound i m H1). split; auto. }
    all: assert (Nb : b <> Periodic) by (unfold b; destruct (i <=? 0)%Z; [congruence | intros C; apply Hm in C; discriminate]);
      specialize (W2 ltac:(discriminate)); unfold image, determined_by in *; destruct b; try congruence; split; try right;
      repeat match goal with |- context [(?a <? ?c)%Z] => destruct (Z.ltb_spec a c); try lia end;
      repeat match goal with |- context [(?a =? ?c)%Z] => destruct (Z.eqb_spec a c); try lia end. }
  destruct Q as [Q1 Q2]. split.
  - apply near_at; auto. lia.
  - intros (l' & r' & E' & H'). rewrite E in E'. injection E' as <- <-. unfold z in H'. rewrite at_index_nth in H' by (destruct Hy; lia).
    unfold determined_by in H'. fold m in H'. destruct Q2 as [-> | Q2]; [|lia].
    assert (r = Periodic) by (apply Hm; auto). subst r. cbn in H'. lia.
Qed.
Lemma det_other : forall d i v y, i <> d -> det i (at_index d v y) <-> det i y.
Proof. intros d i v y N. unfold determined. rewrite at_index_other by auto. reflexivity. Qed.

Lemma map_same : forall (A B : Type) (f g : A -> B) l, (forall a, In a l -> f a = g a) -> map f l = map g l.
Proof. intros. apply map_ext_in. auto. Qed.
Lemma bv_ext : forall M M' b d y, (forall v, In v names -> M' v y = M v y) ->
  (forall v, In v names -> let z := at_index d (image b (n_ d) (i_ d y)) y in M' v z = M v z) -> bv M b d y -> bv M' b d y.
Proof.
  intros M M' b d y Hy Hz [A B]. cbn zeta in Hz. split.
  - intros s Hs. pose proof (in_names_scalar fs s Hs). rewrite Hy, Hz by auto. apply A. auto.
  - assert (V : forall vs, In (FVector vs) fs -> map (fun v => M' v y) vs = map (fun v => M v y) vs /\
       map (fun v => M' v (at_index d (image b (n_ d) (i_ d y)) y)) vs = map (fun v => M v (at_index d (image b (n_ d) (i_ d y)) y)) vs).
    { intros vs Hvs. split; apply map_same; intros v Hv; pose proof (in_names_vector fs vs v Hvs Hv); auto. }
    destruct b.
    + intros vs v Hvs Hv. pose proof (in_names_vector fs vs v Hvs Hv). rewrite Hy, Hz by auto. eapply B; eauto.
    + intros vs Hvs. destruct (V vs Hvs) as [-> ->]. apply B. auto.
    + intros vs Hvs. destruct (V vs Hvs) as [-> ->]. apply B. auto.
    + intros vs v Hvs Hv. pose proof (in_names_vector fs vs v Hvs Hv). rewrite Hy, Hz by auto. eapply B; eauto.
Qed.
Lemma left_bv : forall M M1 M' b d y, left_by J sizes fs M M1 b d y -> (forall v, In v names -> M' v y = M1 v y) ->
  (forall v, In v names -> let z := at_index d (image b (n_ d) (i_ d y)) y in M' v z = M v z) ->
  (forall row, In row (rows_of b) -> let z := at_index d (image b (n_ d) (i_ d y)) y in map (value J M z) row = map (value J S z) row) ->
  bv M' b d y.
Proof.
  intros M M1 M' b d y [A B] Hy Hz Hr. cbn zeta in Hz, Hr. split.
  - intros s Hs. pose proof (in_names_scalar fs s Hs). rewrite Hy, Hz by auto. apply A. auto.
  - assert (V : forall vs, In (FVector vs) fs -> map (fun v => M' v y) vs = map (fun v => M1 v y) vs /\
       map (fun v => M' v (at_index d (image b (n_ d) (i_ d y)) y)) vs = map (fun v => M v (at_index d (image b (n_ d) (i_ d y)) y)) vs).
    { intros vs Hvs. split; apply map_same; intros v Hv; pose proof (in_names_vector fs vs v Hvs Hv); auto. }
    destruct b.
    + intros vs v Hvs Hv. pose proof (in_names_vector fs vs v Hvs Hv). rewrite Hy, Hz by auto. eapply B; eauto.
    + intros vs Hvs. destruct (V vs Hvs) as [-> ->]. rewrite <- (Hr row (or_introl eq_refl)). apply B. auto.
    + intros vs Hvs. destruct (V vs Hvs) as [-> ->]. rewrite <- (Hr row (or_introl eq_refl)). apply B. auto.
    + intros vs v Hvs Hv. pose proof (in_names_vector fs vs v Hvs Hv). rewrite Hy, Hz by auto. eapply B; eauto.
Qed.
Lemma rows_in : forall d l r b row, nth_error types d = Some (l, r) -> b = l \/ b = r -> In row (rows_of b) ->
  In (l, r) types /\ In row (rows_of l ++ rows_of r).
Proof. intros d l r b row E Hb Hr. split; [eapply nth_error_In; eauto|]. apply in_app_iff. destruct Hb; subst; auto. Qed.
Lemma row_values : forall d l r b row M z, nth_error types d = Some (l, r) -> b = l \/ b = r -> In row (rows_of b) -> agree M ->
  map (value J M z) row = map (value J S z) row.
Proof.
  intros d l r b row M z E Hb Hr Ha. destruct (rows_in d l r b row E Hb Hr) as [H1 H2]. apply map_same. intros e He. unfold value. apply eval_ext.
  intros c ix Hc. apply Ha. apply (proj2 (proj2 (bd_rows _ _ _ _ _ Bd l r row H1 H2) e He) c ix Hc).
Qed.
Lemma row_placed : forall d l r b row, nth_error types d = Some (l, r) -> b = l \/ b = r -> In row (rows_of b) -> List.length row = n /\ Forall (placed n) row.
Proof.
  intros d l r b row E Hb Hr. destruct (rows_in d l r b row E Hb Hr) as [H1 H2]. destruct (bd_rows _ _ _ _ _ Bd l r row H1 H2) as [A B].
  split; auto. apply Forall_forall. intros e He. apply B. auto.
Qed.
Hypothesis Hnm : normals J k sizes types S.

Lemma direction_ok : forall d l r, nth_error types d = Some (l, r) ->
  exists kl kr, apply_bc_direction ord sizes bh (arrays_of n fs) d false l = Ok kl /\
    apply_bc_direction ord sizes bh (arrays_of n fs) d true r = Ok kr /\
    forall st M, agree M -> let M' := run_all st [kl; kr] M in
      (forall v y, ~ In v names -> M' v y = M v y) /\
      (forall v y, near k sizes y -> ~ det d y -> M' v y = M v y) /\
      (forall y, near k sizes y -> det d y -> bv M' (if (i_ d y <=? 0)%Z then l else r) d y).
Proof.
  intros d l r E. pose proof (dir_dim d l r E) as Hd. pose proof (nth_error_In _ _ E) as Hin.
  destruct (bd_wide _ _ _ _ _ Bd d l r E) as [W1 W2]. pose proof (bd_matched _ _ _ _ _ Bd l r Hin) as Hm.
  destruct (bd_names _ _ _ _ _ Bd) as [ND NE]. pose proof (bd_vectors _ _ _ _ _ Bd) as LV.
  assert (Det : forall y, det d y <-> determined_by l r (n_ d) (i_ d y)).
  { intros y. unfold determined. split; [intros (l' & r' & E' & H); rewrite E in E'; injection E' as <- <-; auto | intros H; eauto]. }
  assert (Pd : l = Periodic \/ l <> Periodic) by (destruct l; auto; right; discriminate).
  destruct Pd as [Pl | Nl].
  - assert (Pr : r = Periodic) by (apply Hm; auto). subst l r.
    eexists _, _. split; [reflexivity|]. split; [reflexivity|]. intros st M _ M'.
    assert (X : forall v y, In v names -> near k sizes y -> M' v y = M v (at_index d (i_ d y mod n_ d)%Z y)).
    { intros v y Hv Hy. unfold M', run_all. cbn [fold_left run_xkernel run_pkernel]. rewrite exchanged_names. apply periodic_pair; auto. apply wide. }
    assert (X1 : forall v y, ~ In v names -> M' v y = M v y).
    { intros v y Hv. unfold M', run_all. cbn [fold_left run_xkernel run_pkernel]. rewrite exchanged_names.
      rewrite !transfer_frame; auto; unfold periodic_apply, get_transfers; cbn [ex_arrays]; auto. }
    assert (X2 : forall v y, near k sizes y -> ~ det d y -> M' v y = M v y).
    { intros v y Hy Nd. destruct (in_dec string_dec v names) as [Hv | Hv]; [|apply X1; auto]. rewrite X by auto.
      rewrite Det in Nd. unfold determined_by in Nd. cbn in Nd. rewrite Z.mod_small by lia. rewrite at_index_self. reflexivity. }
    split; [exact X1|]. split; [exact X2|]. intros y Hy Dy.
    destruct (image_at d _ _ y E Hy Dy) as [Nz Dz]. cbn zeta in Nz, Dz.
    assert (Eb : (if (i_ d y <=? 0)%Z then Periodic else Periodic) = Periodic) by (destruct (_ <=? _)%Z; auto). rewrite Eb in *.
    split.
    + intros s Hs. pose proof (in_names_scalar fs s Hs). rewrite X by auto. rewrite X2; auto.
    + intros vs v Hvs Hv. pose proof (in_names_vector fs vs v Hvs Hv). rewrite X by auto. rewrite X2; auto.
  - assert (Nr : r <> Periodic) by (intros C; apply Nl, Hm; auto). specialize (W2 Nl). assert (H3 : (3 <= n_ d)%Z) by lia.
    destruct (wall_side J ord k sizes fs HJ Hord ND NE LV d false l Hd H3 Nl) as (bl & El & Pl & Xl); [intros row Hr; apply (row_placed d l r l row E); auto|].
    destruct (wall_side J ord k sizes fs HJ Hord ND NE LV d true r Hd H3 Nr) as (br & Er & Pr & Xr); [intros row Hr; apply (row_placed d l r r row E); auto|].
    exists (Wall bl), (Wall br). split; [exact El|]. split; [exact Er|]. intros st M Ha M'.
    assert (Sl : sweeps (points bl) (on_face sizes bh d false)) by (destruct (Hp bl) as [A B]; split; auto; intros x; rewrite B; apply Pl).
    assert (Sr : sweeps (points br) (on_face sizes bh d true)) by (destruct (Hp br) as [A B]; split; auto; intros x; rewrite B; apply Pr).
    destruct (Xl (points bl) M Sl) as [Vl Fl]. set (M1 := run_kernel J (bk_eqs bl) (points bl) M) in *.
    destruct (Xr (points br) M1 Sr) as [Vr Fr].
    assert (EM : M' = run_kernel J (bk_eqs br) (points br) M1) by reflexivity. rewrite <- EM in Vr, Fr. clearbody M' M1. clear EM.
    assert (X1 : forall v y, ~ In v names -> M' v y = M v y).
    { intros v y Hv. rewrite Fr by tauto. apply Fl. tauto. }
    assert (X1' : forall v y, ~ In v names -> M1 v y = M v y) by (intros v y Hv; apply Fl; tauto).
    assert (On : forall y, near k sizes y -> ~ det d y -> ~ on_side false l (n_ d) (i_ d y) /\ ~ on_side true r (n_ d) (i_ d y)).
    { intros y _ Nd. rewrite Det in Nd. unfold determined_by, on_side in *. tauto. }
    assert (X2 : forall v y, near k sizes y -> ~ det d y -> M' v y = M1 v y /\ M1 v y = M v y).
    { intros v y Hy Nd. destruct (On y Hy Nd). split; [apply Fr; tauto | apply Fl; tauto]. }
    split; [exact X1|]. split; [intros v y Hy Nd; destruct (X2 v y Hy Nd); congruence|]. intros y Hy Dy.
    destruct (image_at d _ _ y E Hy Dy) as [Nz Dz]. cbn zeta in Nz, Dz. rewrite Det in Dy. unfold determined_by in Dy.
    assert (A1 : agree M1) by (intros b z Hb; rewrite X1' by (apply Hus; auto); apply Ha; auto).
    destruct (Z.leb_spec (i_ d y) 0) as [Lo | Hi].
    + assert (Os : on_side false l (n_ d) (i_ d y)) by (unfold on_side; lia || (destruct Dy as [D | [D | [D | [D _]]]]; try lia; tauto)).
      apply (left_bv M M1).
      * apply Vl; auto. intros row Hr. rewrite (row_values d l r l row M _ E (or_introl eq_refl) Hr Ha).
        destruct (rows_in d l r l row E (or_introl eq_refl) Hr). eapply Hnm; eauto.
      * intros v Hv. apply Fr. unfold on_side. lia.
      * intros v Hv. cbn zeta. destruct (X2 v _ Nz Dz) as [-> ->]. reflexivity.
      * intros row Hr. cbn zeta. apply (row_values d l r l row M _ E); auto.
    + assert (Os : on_side true r (n_ d) (i_ d y)) by (unfold on_side; destruct Dy as [D | [D | [[D _] | D]]]; try lia; tauto).
      apply (left_bv M1 M').
      * apply Vr; auto. intros row Hr. rewrite (row_values d l r r row M1 _ E (or_intror eq_refl) Hr A1).
        destruct (rows_in d l r r row E (or_intror eq_refl) Hr). eapply Hnm; eauto.
      * auto.
      * intros v Hv. cbn zeta. destruct (X2 v _ Nz Dz) as [-> ->]. reflexivity.
      * intros row Hr. cbn zeta. apply (row_values d l r r row M1 _ E); auto.
Qed.

Lemma run_all_app : forall st a b M, run_all st (a ++ b) M = run_all st b (run_all st a M).
Proof. intros. unfold run_all. apply fold_left_app. Qed.
(* after the directions below j *)
Definition up_to (j : nat) (M0 M : memory) : Prop :=
  (forall v y, ~ In v names -> M v y = M0 v y) /\
  (forall v x, near k sizes x -> (forall d, ~ det d x) -> M v x = M0 v x) /\
  (forall y d l r, near k sizes y -> last_determined sizes types d y -> (d < j)%nat -> nth_error types d = Some (l, r) ->
     bv M (if (i_ d y <=? 0)%Z then l else r) d y).
Lemma directions_ok : forall ts j, (forall i, nth_error ts i = nth_error types (j + i)) ->
  exists ks, apply_boundary_conditions ord sizes bh (arrays_of n fs) j ts = Ok ks /\
    forall st M0 M, agree M0 -> up_to j M0 M -> up_to (j + List.length ts) M0 (run_all st ks M).
Proof.
  induction ts as [|[l r] ts IH]; intros j Ht.
  - exists []. split; [reflexivity|]. intros st M0 M _ H. cbn [List.length]. rewrite Nat.add_0_r. exact H.
  - assert (E : nth_error types j = Some (l, r)) by (rewrite <- (Nat.add_0_r j), <- Ht; reflexivity).
    destruct (direction_ok j l r E) as (kl & kr & El & Er & X).
    destruct (IH (Datatypes.S j)) as (ks & Ek & Y); [intros i; rewrite <- (Nat.add_succ_r j i) at 1; rewrite <- Ht; reflexivity|].
    exists (kl :: kr :: ks). split; [cbn [apply_boundary_conditions]; rewrite El, Er; cbn [bind]; rewrite Ek; reflexivity|].
    intros st M0 M A0 (I0 & I1 & I2). change (kl :: kr :: ks) with ([kl; kr] ++ ks). rewrite run_all_app. cbn [List.length]. rewrite Nat.add_succ_r.
    apply (Y st M0); auto.
    assert (A : agree M) by (intros b y Hb; rewrite I0 by auto; auto).
    destruct (X st M A) as (X1 & X2 & X3). set (M' := run_all st [kl; kr] M) in *. clearbody M'. split; [|split].
    + intros v y Hv. rewrite X1 by auto. auto.
    + intros v x Hx Nx. rewrite X2; auto.
    + intros y d l' r' Hy Ld Hd E'. destruct (Nat.eq_dec d j) as [-> | Nj].
      * rewrite E in E'. injection E' as <- <-. apply X3; auto. apply Ld.
      * assert (Hdj : (d < j)%nat) by lia. destruct Ld as [Dd Du].
        destruct (image_at d l' r' y E' Hy Dd) as [Nz _]. cbn zeta in Nz.
        apply (bv_ext M M').
        -- intros v Hv. apply X2; auto.
        -- intros v Hv. cbn zeta. apply X2; auto. rewrite det_other by lia. apply Du. auto.
        -- eapply I2; eauto. split; auto.
Qed.
Lemma free_near : forall x, free sizes types x -> near k sizes x.
Proof.
  intros x [G _]. assert (R : in_range k sizes [] x = true) by (apply DiscMain.grid_point_range; auto).
  exact (ProgProofs.range_near k sizes [] x R).
Qed.
(* all the boundary kernels *)
Lemma kernels_ok : exists ks, apply_boundary_conditions ord sizes bh (arrays_of n fs) 0 types = Ok ks /\
  forall st M, agree M ->
    continues J k sizes fs types S (fun i => M (fst i) (snd i)) (run_all st ks M) /\
    (forall v y, ~ In v names -> run_all st ks M v y = M v y).
Proof.
  destruct (directions_ok types 0 (fun i => eq_refl)) as (ks & E & X). exists ks. split; [exact E|]. intros st M A.
  destruct (X st M M A) as (I0 & I1 & I2).
  { split; [|split]; auto. intros; lia. }
  split; [constructor|exact I0].
  - intros v x _ Hx. cbn [fst snd]. apply I1; [apply free_near; auto | apply Hx].
  - intros y d l r Hy Ld Et. apply I2; auto. cbn. rewrite (bd_count _ _ _ _ _ Bd). eapply dir_dim; eauto.
Qed.

(* ---- the values are determined ---- *)
Lemma det_dec : forall d y, det d y \/ ~ det d y.
Proof.
  clear Hp points dt ab. intros d y. unfold determined. destruct (nth_error types d) as [[l r]|].
  - assert (sets_face l \/ ~ sets_face l) by (destruct l; cbn; tauto). assert (sets_face r \/ ~ sets_face r) by (destruct r; cbn; tauto).
    assert (D : determined_by l r (n_ d) (i_ d y) \/ ~ determined_by l r (n_ d) (i_ d y)).
    { unfold determined_by. destruct (Z_lt_le_dec (i_ d y) 0), (Z_lt_le_dec (i_ d y) (n_ d)), (Z.eq_dec (i_ d y) 0), (Z.eq_dec (i_ d y) (n_ d - 1)); tauto || lia || (destruct H, H0; try tauto; right; lia). }
    destruct D as [D | D]; [left; eauto|]. right. intros (l' & r' & [= <- <-] & H'). auto.
  - right. intros (l & r & E & _). discriminate.
Qed.
Lemma det_bound : forall d y, det d y -> (d < n)%nat.
Proof. intros d y (l & r & E & _). eapply dir_dim; eauto. Qed.
Lemma last_or_none : forall y j, (forall d, det d y -> (d < j)%nat) -> (forall d, ~ det d y) \/ exists d, (d < j)%nat /\ last_determined sizes types d y.
Proof.
  intros y. induction j as [|j IH]; intros H.
  - left. intros d C. specialize (H d C). lia.
  - destruct (det_dec j y) as [D | D].
    + right. exists j. split; [lia|]. split; auto. intros i Hi C. specialize (H i C). lia.
    + destruct IH as [A | (d & Hd & A)]; auto.
      * intros d C. specialize (H d C). assert (d <> j) by congruence. lia.
      * right. exists d. split; auto.
Qed.
Lemma near_free : forall y, near k sizes y -> (forall d, ~ det d y) -> free sizes types y.
Proof.
  intros y [Ly Hy] N. split; auto. apply (DiscMain.grid_point_range k). apply ProgProofs.in_range_iff. split; auto. intros d Hd.
  rewrite (ProgProofs.ex_notin k [] d) by auto. destruct (some_type d Hd) as (l & r & E).
  assert (ND : ~ determined_by l r (n_ d) (i_ d y)) by (intros C; apply (N d); exists l, r; auto). unfold determined_by in ND. lia.
Qed.
Lemma names_in : forall v, In v names -> In (FScalar v) fs \/ exists vs, In (FVector vs) fs /\ In v vs.
Proof.
  intros v H. apply in_flat_map in H. destruct H as ([s|vs] & Hf & Hv).
  - destruct Hv as [<- | []]. auto.
  - right. eauto.
Qed.
Lemma bv_det : forall E E' b d y, (forall v, In v names -> let z := at_index d (image b (n_ d) (i_ d y)) y in E v z = E' v z) ->
  bv E b d y -> bv E' b d y -> forall v, In v names -> E v y = E' v y.
Proof.
  intros E E' b d y Hz [A B] [A' B'] v Hv. cbn zeta in Hz. destruct (names_in v Hv) as [Hs | (vs & Hvs & Hin)].
  - rewrite A, A' by auto. apply Hz. auto.
  - assert (Q : map (fun v => E v (at_index d (image b (n_ d) (i_ d y)) y)) vs = map (fun v => E' v (at_index d (image b (n_ d) (i_ d y)) y)) vs).
    { apply map_same. intros w Hw. apply Hz. eapply in_names_vector; eauto. }
    assert (G : map (fun v => E v y) vs = map (fun v => E' v y) vs -> E v y = E' v y).
    { intros H. clear - H Hin. induction vs as [|a vs IH]; [destruct Hin|]. cbn in H. injection H as H1 H2. destruct Hin as [-> | Hin]; auto. }
    destruct b.
    + rewrite (B vs v), (B' vs v) by auto. apply Hz. auto.
    + apply G. rewrite B, B' by auto. cbn zeta. rewrite Q. reflexivity.
    + apply G. rewrite B, B' by auto. cbn zeta. rewrite Q. reflexivity.
    + rewrite (B vs v), (B' vs v) by auto. apply Hz. auto.
Qed.
Lemma continues_unique : forall u E E', continues J k sizes fs types S u E -> continues J k sizes fs types S u E' ->
  forall v y, In v names -> near k sizes y -> E v y = E' v y.
Proof.
  intros u E E' [F B] [F' B'].
  assert (G : forall j y, (forall d, det d y -> (d < j)%nat) -> near k sizes y -> forall v, In v names -> E v y = E' v y).
  { induction j as [j IH] using lt_wf_ind. intros y Hj Hy v Hv. destruct (last_or_none y j Hj) as [N | (d & Hd & Ld)].
    - pose proof (near_free y Hy N). rewrite F, F' by auto. reflexivity.
    - destruct (some_type d (det_bound d y (proj1 Ld))) as (l & r & Et).
      specialize (B y d l r Hy Ld Et). specialize (B' y d l r Hy Ld Et). destruct (image_at d l r y Et Hy (proj1 Ld)) as [Nz Dz].
      cbn zeta in Nz, Dz. set (b := if (i_ d y <=? 0)%Z then l else r) in *.
      apply (bv_det E E' b d y); auto. intros w Hw. cbn zeta. apply (IH d Hd); auto. intros i Di.
      destruct (Nat.eq_dec i d) as [-> | Ni]; [contradiction|]. rewrite det_other in Di by auto.
      destruct (Nat.lt_total d i) as [L | [L | L]]; [|congruence|auto]. exfalso. apply (proj2 Ld i L). auto. }
  intros v y Hv Hy. apply (G n); auto. intros d. apply det_bound.
Qed.
End dirs.
