(* C48: interfaces between blocks. *)
From Verif Require Import Base Expr KernelModel ShiftModel ShiftSpec ShiftProofs BCModel BCSpec BCProofs BCKern BCMirror PerProps MBModel.
From Coq Require Import ZArith Lia.

(* a point on face (d, side) of a block with np points; tangentially up to the halos *)
Definition face_point (np : list Z) (d : nat) (side : bool) (lo hi : Z) (x : list Z) : Prop :=
  List.length x = List.length np /\ nth d x 0%Z = (if side then nth d np 0 - 1 else 0)%Z /\
  forall i, (i < List.length np)%nat -> i <> d -> (lo <= nth i x 0 < nth i np 0 + hi)%Z.
(* Face (d, side1) of block 1 touches face (d, side2) of block 2, with equal coordinates
   along the face.  The t-th point outside block 2, seen from its face point x, is the
   t-th point of block 1 counted from its face, which is either the neighbour of x or
   (shared) coincides with x. *)
Definition coincident (shared : bool) (np1 : list Z) (d : nat) (side1 : bool) (t : Z) (x : list Z) : list Z :=
  inwards d side1 (if shared then t else t - 1)%Z (set_nth d (if side1 then nth d np1 0 - 1 else 0)%Z x).

Lemma nth_move : forall d k (x : list Z) i, (d < List.length x)%nat -> nth i (move d k x) 0%Z = if Nat.eq_dec i d then (nth d x 0 + k)%Z else nth i x 0%Z.
Proof.
  intros d k x i Hd. destruct (Nat.eq_dec i d) as [-> | N]; [apply move_nth; auto | apply move_nth_other; auto].
Qed.

Section ie.
  Context {V : Type}.
  Variables (shared : bool) (np1 np2 : list Z) (bh2 : halo_ranges) (d : nat) (side1 side2 : bool) (extra : option bool) (m p : Z).
  Hypothesis L1 : List.length np1 = List.length np2.
  Hypothesis Lb : List.length bh2 = List.length np2.
  Hypothesis Hd : (d < List.length np2)%nat.
  Hypothesis Em : lower_halo bh2 0 = (- m)%Z.
  Hypothesis Ep : upper_halo bh2 0 = p.
  Hypothesis M0 : (0 <= m)%Z.
  Hypothesis P0 : (0 <= p)%Z.
  Local Notation ex := (interface_apply shared np1 np2 bh2 d side1 d side2 extra).
  Local Notation one := (if shared then 1 else 0)%Z.

  Lemma ie_lengths : List.length (ie_to ex) = List.length np2 /\ List.length (ie_from ex) = List.length np2 /\ List.length (ie_size ex) = List.length np2.
  Proof.
    pose proof (halo_vals_length np2 bh2 Lb) as LH. cbn [ie_to ie_from ie_size interface_apply].
    repeat split; [destruct side2| |]; rewrite ?set_nth_length, ?map2_length, ?map_length; auto.
  Qed.
  Lemma ie_to_nth : forall i, (i < List.length np2)%nat -> nth i (ie_to ex) 0%Z = if Nat.eq_dec i d then (if side2 then nth d np2 0 else - m)%Z else (- m)%Z.
  Proof.
    intros i Hi. pose proof (halo_vals_length np2 bh2 Lb) as LH. pose proof (nth_fst np2 bh2 Lb i Hi) as F. rewrite Em in F.
    cbn [ie_to interface_apply]. destruct side2; [rewrite nth_set_nth by (rewrite map_length; lia)|]; destruct (Nat.eq_dec i d); auto; lia.
  Qed.
  Lemma ie_from_nth : forall i, (i < List.length np2)%nat -> nth i (ie_from ex) 0%Z = if Nat.eq_dec i d then (if side1 then nth d np1 0 - m - one else one)%Z else (- m)%Z.
  Proof.
    intros i Hi. pose proof (halo_vals_length np2 bh2 Lb) as LH. pose proof (nth_fst np2 bh2 Lb i Hi) as F. rewrite Em in F.
    cbn [ie_from interface_apply]. rewrite nth_set_nth by (rewrite map_length; lia). rewrite (halo_vals np2 bh2 Lb) by auto. rewrite Em. cbn [fst].
    destruct (Nat.eq_dec i d); [destruct side1; lia | lia].
  Qed.
  Lemma ie_size_nth : forall i, (i < List.length np2)%nat -> nth i (ie_size ex) 0%Z = if Nat.eq_dec i d then (if side2 then p else m)%Z else (nth i np2 0 + m + p)%Z.
  Proof.
    intros i Hi. pose proof (halo_vals_length np2 bh2 Lb) as LH.
    cbn [ie_size interface_apply]. rewrite nth_set_nth by (rewrite map2_length; lia).
    rewrite (map2_nth _ _ _ _ _ _ _ 0%Z (0, 0)%Z) by (auto; lia). rewrite !(halo_vals np2 bh2 Lb) by auto. rewrite Em, Ep. cbn [fst snd].
    destruct (Nat.eq_dec i d); [destruct side2; lia | lia].
  Qed.
  Lemma ie_source_nth : forall y i, List.length y = List.length np2 -> (i < List.length np2)%nat ->
    nth i (ie_source ex y) 0%Z = (nth i (ie_from ex) 0 +
      (if match ie_flip ex with Some d => (d =? i)%nat | None => false end then nth i (ie_size ex) 0 - 1 - (nth i y 0 - nth i (ie_to ex) 0) else nth i y 0 - nth i (ie_to ex) 0))%Z.
  Proof.
    intros y i Ly Hi. destruct ie_lengths as (A & B & C). unfold ie_source.
    rewrite (map2_nth _ _ _ _ _ _ _ 0%nat (0, (0, (0, 0)))%Z) by (rewrite seq_length, ?combine_length; lia).
    rewrite seq_nth by lia. rewrite !combine_nth by (rewrite ?combine_length; lia). rewrite Nat.add_0_l.
    destruct (match ie_flip _ with Some _ => _ | None => _ end); lia.
  Qed.
  Lemma ie_source_length : forall y, List.length y = List.length np2 -> List.length (ie_source ex y) = List.length np2.
  Proof. intros y Ly. destruct ie_lengths as (A & B & C). unfold ie_source. rewrite map2_length; rewrite seq_length, ?combine_length; lia. Qed.

  Lemma ie_correct : (exists f, flip_of d side2 extra = (if f : bool then Some d else None) /\ f = Bool.eqb side1 side2) ->
    (side1 = true -> side2 = true -> m = p) ->
    forall (M1 M2 : list Z -> V) x t, face_point np2 d side2 (- m) p x -> (1 <= t <= (if side2 then p else m))%Z ->
      ie_transfer ex M1 M2 (outwards d side2 t x) = M1 (coincident shared np1 d side1 t x).
  Proof.
    intros (f & Ef & Ff) Hmp M1 M2 x t (Lx & Xd & Hx) Ht. destruct ie_lengths as (A & B & C). unfold ie_transfer.
    assert (Lo : List.length (outwards d side2 t x) = List.length np2) by (unfold outwards; rewrite move_length; auto).
    assert (No : forall i, nth i (outwards d side2 t x) 0%Z = if Nat.eq_dec i d then (if side2 then nth d np2 0 - 1 + t else - t)%Z else nth i x 0%Z).
    { intros i. unfold outwards. rewrite nth_move by lia. destruct (Nat.eq_dec i d); auto. rewrite Xd. destruct side2; lia. }
    replace (in_box (ie_to ex) (ie_size ex) (outwards d side2 t x)) with true.
    2:{ symmetry. apply in_box_iff; [congruence|]. split; [congruence|]. intros i Hi. rewrite Lo in Hi. rewrite ie_to_nth, ie_size_nth, No by auto.
        destruct (Nat.eq_dec i d) as [-> | N]; [destruct side2; lia|]. specialize (Hx i Hi N). lia. }
    f_equal. unfold coincident. apply list_ext.
    - rewrite ie_source_length by auto. unfold inwards. rewrite move_length, set_nth_length. auto.
    - intros i Hi. rewrite ie_source_length in Hi by auto. rewrite ie_source_nth by auto. rewrite ie_from_nth, ie_size_nth, ie_to_nth, No by auto.
      unfold inwards. rewrite nth_move by (rewrite set_nth_length; lia). rewrite !nth_set_nth by lia.
      cbn [ie_flip interface_apply]. rewrite Ef, Ff. destruct (Nat.eq_dec d d) as [_ | ]; [|congruence].
      destruct (Nat.eq_dec i d) as [-> | N].
      + clear Ff Ef. destruct side1, side2; cbn [Bool.eqb]; rewrite ?Nat.eqb_refl; try specialize (Hmp eq_refl eq_refl); destruct shared; lia.
      + assert (Nf : (d =? i)%nat = false) by (apply Nat.eqb_neq; lia).
        destruct (Bool.eqb side1 side2); rewrite ?Nf; lia.
  Qed.
  Lemma ie_frame : forall (M1 M2 : list Z -> V) y, (forall x t, face_point np2 d side2 (- m) p x -> (1 <= t <= (if side2 then p else m))%Z -> y <> outwards d side2 t x) ->
    ie_transfer ex M1 M2 y = M2 y.
  Proof.
    intros M1 M2 y H. unfold ie_transfer. destruct (in_box (ie_to ex) (ie_size ex) y) eqn:Eb; auto. exfalso.
    destruct ie_lengths as (A & B & C). apply in_box_iff in Eb; [|congruence]. destruct Eb as [Ly Hy].
    set (t := if side2 then (nth d y 0 - nth d np2 0 + 1)%Z else (- nth d y 0)%Z).
    pose proof (Hy d ltac:(lia)) as Yd. rewrite ie_to_nth, ie_size_nth in Yd by lia. destruct (Nat.eq_dec d d) as [_ | ]; [|congruence].
    apply (H (set_nth d (if side2 then nth d np2 0 - 1 else 0)%Z y) t).
    - split; [rewrite set_nth_length; lia|]. split; [rewrite nth_set_nth by lia; destruct (Nat.eq_dec d d); congruence|].
      intros i Hi N. rewrite nth_set_nth by lia. destruct (Nat.eq_dec i d); [congruence|]. specialize (Hy i ltac:(lia)).
      rewrite ie_to_nth, ie_size_nth in Hy by lia. destruct (Nat.eq_dec i d); [congruence|]. lia.
    - unfold t. destruct side2; lia.
    - apply list_ext; [unfold outwards; rewrite move_length, set_nth_length; auto|]. intros i Hi. unfold outwards.
      rewrite nth_move by (rewrite set_nth_length; lia). rewrite !nth_set_nth by lia. destruct (Nat.eq_dec d d) as [_ | ]; [|congruence].
      destruct (Nat.eq_dec i d) as [-> | N]; auto. unfold t. destruct side2; lia.
  Qed.
End ie.

(* An exchange between faces of the same direction fills every halo layer of the other
   block, corners included, with the coincident points of this block, and changes nothing
   else, provided the last entry of match tells whether the faces are on the same side.
   Two upper faces also need equal lower and upper halo widths. *)
Theorem C48_interface_partial :
  forall (V : Type) shared np1 np2 bh2 d side1 side2 extra m p (M1 M2 : list Z -> V),
    List.length np1 = List.length np2 -> List.length bh2 = List.length np2 -> (d < List.length np2)%nat ->
    lower_halo bh2 0 = (- m)%Z -> upper_halo bh2 0 = p -> (0 <= m)%Z -> (0 <= p)%Z ->
    match extra with Some f => f | None => side2 end = Bool.eqb side1 side2 ->
    (side1 = true -> side2 = true -> m = p) ->
    let M2' := ie_transfer (interface_apply shared np1 np2 bh2 d side1 d side2 extra) M1 M2 in
    (forall x t, face_point np2 d side2 (- m) p x -> (1 <= t <= (if side2 then p else m))%Z ->
       M2' (outwards d side2 t x) = M1 (coincident shared np1 d side1 t x)) /\
    (forall y, (forall x t, face_point np2 d side2 (- m) p x -> (1 <= t <= (if side2 then p else m))%Z -> y <> outwards d side2 t x) ->
       M2' y = M2 y).
Proof.
  intros V shared np1 np2 bh2 d side1 side2 extra m p M1 M2 L1 Lb Hd Em Ep M0 P0 He Hmp M2'. split.
  - intros x t Hx Ht. apply (ie_correct shared np1 np2 bh2 d side1 side2 extra m p); auto.
    exists (Bool.eqb side1 side2). split; auto. unfold flip_of. rewrite He. destruct (Bool.eqb side1 side2); auto.
  - intros y Hy. apply (ie_frame shared np1 np2 bh2 d side1 side2 extra m p); auto.
Qed.
Print Assumptions C48_interface_partial.
(* With the documented three entries (block, direction, side) this holds when this block's
   face is its upper one. *)
Theorem C48_upper_faces_partial :
  forall (V : Type) shared np1 np2 bh2 d side2 m (M1 M2 : list Z -> V) x t,
    List.length np1 = List.length np2 -> List.length bh2 = List.length np2 -> (d < List.length np2)%nat ->
    lower_halo bh2 0 = (- m)%Z -> upper_halo bh2 0 = m -> (1 <= t <= m)%Z ->
    face_point np2 d side2 (- m) m x ->
    ie_transfer (interface_apply shared np1 np2 bh2 d true d side2 None) M1 M2 (outwards d side2 t x) =
    M1 (coincident shared np1 d true t x).
Proof.
  intros V shared np1 np2 bh2 d side2 m M1 M2 x t L1 Lb Hd Em Ep Ht Hx.
  apply (C48_interface_partial V shared np1 np2 bh2 d true side2 None m m); auto; try lia. all: destruct side2; cbn; auto; lia.
Qed.
Print Assumptions C48_upper_faces_partial.
Example C48_nonvacuous :
  let bh := [([(-2, 2)%Z], [(-2, 2)%Z]); ([(-2, 2)%Z], [(-2, 2)%Z])] in
  lower_halo bh 0 = (-2)%Z /\ upper_halo bh 0 = 2%Z /\ face_point [4; 5]%Z 0 false (-2) 2 [0; 6]%Z /\
  coincident false [8; 5]%Z 0 true 2 [0; 6]%Z = [6; 6]%Z /\ coincident true [8; 5]%Z 0 true 2 [0; 6]%Z = [5; 6]%Z.
Proof.
  cbv zeta. split; [reflexivity|]. split; [reflexivity|]. split; [|split; reflexivity].
  split; [reflexivity|]. split; [reflexivity|]. intros [|[|i]] Hi N; cbn in *; lia.
Qed.

(* Refuted: the exchange from a lower face to an upper face, given as (block, direction, 1),
   copies the coincident points.  The layers arrive in reverse order. *)
Theorem C48_lower_to_upper_refuted :
  exists np1 np2 bh2 d (M1 M2 : list Z -> Z) x t,
    List.length np1 = List.length np2 /\ List.length bh2 = List.length np2 /\ (d < List.length np2)%nat /\
    (forall i, (i < List.length np2)%nat -> lower_halo bh2 i = -2 /\ upper_halo bh2 i = 2)%Z /\ (1 <= t <= 2)%Z /\
    face_point np2 d true (-2) 2 x /\
    ie_transfer (interface_apply false np1 np2 bh2 d false d true None) M1 M2 (outwards d true t x) <>
    M1 (coincident false np1 d false t x).
Proof.
  exists [8%Z], [8%Z], [([(-2, 2)%Z], [(-2, 2)%Z])], 0%nat, (fun x => nth 0 x 0%Z), (fun x => nth 0 x 0%Z), [7%Z], 1%Z.
  split; auto. split; auto. split; [cbn; lia|]. split; [intros [|i] Hi; [split; reflexivity | cbn in Hi; lia]|]. split; [lia|].
  split; [split; [reflexivity|]; split; [reflexivity|]; intros [|i] Hi N; cbn in *; lia|]. cbn. discriminate.
Qed.
Print Assumptions C48_lower_to_upper_refuted.
(* Likewise between two lower faces given as (block, direction, 0). *)
Theorem C48_lower_to_lower_refuted :
  exists np1 np2 bh2 d (M1 M2 : list Z -> Z) x t,
    List.length np1 = List.length np2 /\ List.length bh2 = List.length np2 /\ (d < List.length np2)%nat /\
    (forall i, (i < List.length np2)%nat -> lower_halo bh2 i = -2 /\ upper_halo bh2 i = 2)%Z /\ (1 <= t <= 2)%Z /\
    face_point np2 d false (-2) 2 x /\
    ie_transfer (interface_apply false np1 np2 bh2 d false d false None) M1 M2 (outwards d false t x) <>
    M1 (coincident false np1 d false t x).
Proof.
  exists [8%Z], [8%Z], [([(-2, 2)%Z], [(-2, 2)%Z])], 0%nat, (fun x => nth 0 x 0%Z), (fun x => nth 0 x 0%Z), [0%Z], 1%Z.
  split; auto. split; auto. split; [cbn; lia|]. split; [intros [|i] Hi; [split; reflexivity | cbn in Hi; lia]|]. split; [lia|].
  split; [split; [reflexivity|]; split; [reflexivity|]; intros [|i] Hi N; cbn in *; lia|]. cbn. discriminate.
Qed.
Print Assumptions C48_lower_to_lower_refuted.
(* Refuted: faces of different directions.  The exchange from the upper face of direction 0
   to the lower face of direction 1 leaves a halo point of that face unfilled. *)
Theorem C48_directions_refuted :
  exists np1 np2 bh2 extra x t,
    List.length np1 = List.length np2 /\ List.length bh2 = List.length np2 /\
    (forall i, (i < List.length np2)%nat -> lower_halo bh2 i = -2 /\ upper_halo bh2 i = 2)%Z /\ (1 <= t <= 2)%Z /\
    face_point np2 1 false (-2) 2 x /\
    forall (V : Type) (M1 M2 : list Z -> V),
      ie_transfer (interface_apply false np1 np2 bh2 0 true 1 false extra) M1 M2 (outwards 1 false t x) = M2 (outwards 1 false t x).
Proof.
  exists [8; 8]%Z, [8; 8]%Z, [([(-2, 2)%Z], [(-2, 2)%Z]); ([(-2, 2)%Z], [(-2, 2)%Z])], None, [3; 0]%Z, 1%Z.
  split; auto. split; auto. split; [intros [|[|i]] Hi; [split; reflexivity | split; reflexivity | cbn in Hi; lia]|]. split; [lia|].
  split; [split; [reflexivity|]; split; [reflexivity|]; intros [|[|i]] Hi N; cbn in *; lia|]. intros V M1 M2. reflexivity.
Qed.
Print Assumptions C48_directions_refuted.
