(* C43: periodic exchanges. *)
From Verif Require Import Base Expr KernelModel ShiftModel ShiftSpec BCModel BCSpec BCProofs BCKern BCMirror.
From Coq Require Import ZArith Lia.

(* ---- the exchange as a map on points ---- *)
Lemma map2_nth : forall A B C (f : A -> B -> C) l m i da db dc, List.length l = List.length m -> (i < List.length l)%nat ->
  nth i (map2 f l m) dc = f (nth i l da) (nth i m db).
Proof.
  induction l as [|a l IH]; intros [|b m] i da db dc L H; cbn in *; try lia. destruct i; auto. apply IH; lia.
Qed.
Lemma forallb_nth : forall A (f : A -> bool) l d, forallb f l = true <-> forall i, (i < List.length l)%nat -> f (nth i l d) = true.
Proof.
  intros A f l d. rewrite forallb_forall. split.
  - intros H i Hi. apply H. apply nth_In. auto.
  - intros H x Hx. destruct (In_nth l x d Hx) as (i & Hi & <-). auto.
Qed.
Lemma in_box_iff : forall base size x, List.length base = List.length size ->
  in_box base size x = true <-> List.length x = List.length size /\
    forall i, (i < List.length x)%nat -> (nth i base 0 <= nth i x 0 < nth i base 0 + nth i size 0)%Z.
Proof.
  intros base size x L. unfold in_box. rewrite andb_true_iff, Nat.eqb_eq. split.
  - intros [Lx H]. split; auto. intros i Hi. rewrite (forallb_nth _ _ _ (0, (0, 0))%Z) in H.
    specialize (H i). rewrite combine_length, combine_length in H. specialize (H ltac:(lia)).
    rewrite combine_nth in H by (rewrite combine_length; lia). rewrite combine_nth in H by auto. lia.
  - intros [Lx H]. split; auto. rewrite (forallb_nth _ _ _ (0, (0, 0))%Z). intros i Hi. rewrite !combine_length in Hi.
    rewrite combine_nth by (rewrite combine_length; lia). rewrite combine_nth by auto. specialize (H i ltac:(lia)). lia.
Qed.
Lemma list_ext : forall (x y : list Z), List.length x = List.length y -> (forall i, (i < List.length x)%nat -> nth i x 0%Z = nth i y 0%Z) -> x = y.
Proof. intros x y L H. apply (nth_ext _ _ 0%Z 0%Z); auto. Qed.

Lemma nth_const : forall A B (c : B) (l : list A) i d, (i < List.length l)%nat -> nth i (map (fun _ => c) l) d = c.
Proof. induction l as [|a l IH]; intros [|i] d H; cbn in *; try lia; auto. apply IH. lia. Qed.

Section per.
  Context {V : Type}.
  Variables (np : list Z) (bh : halo_ranges) (arrays : list string).
  Hypothesis Lb : List.length bh = List.length np.
  Local Notation m := (- lower_halo bh 0)%Z.
  Local Notation p := (upper_halo bh 0).
  Definition near (x : list Z) : Prop :=
    List.length x = List.length np /\ forall i, (i < List.length np)%nat -> (- m <= nth i x 0 < nth i np 0 + m)%Z.

  Lemma halo_vals : forall i, (i < List.length np)%nat -> nth i (get_halo_values bh) (0, 0)%Z = (- m, p)%Z.
  Proof.
    intros i Hi. unfold get_halo_values. rewrite nth_const by lia. unfold get_min_max_halo_values, lower_halo, upper_halo. cbn [fst snd].
    destruct bh as [|a l]; cbn in *; [lia | f_equal; lia].
  Qed.
  Lemma halo_vals_length : List.length (get_halo_values bh) = List.length np.
  Proof. unfold get_halo_values. rewrite map_length. auto. Qed.

  Lemma nth_fst : forall i, (i < List.length np)%nat -> nth i (map fst (get_halo_values bh)) 0%Z = (- m)%Z.
  Proof.
    intros i Hi. change 0%Z with (fst (0, 0)%Z). rewrite map_nth, halo_vals by auto. reflexivity.
  Qed.
  Hypothesis Hmp : (0 <= m /\ m <= p /\ p <= 2 * m)%Z.
  Hypothesis Hn : forall i, (i < List.length np)%nat -> (m <= nth i np 0)%Z.
  (* one exchange *)
  Lemma transfer_at : forall d (side : bool) (M : string -> list Z -> V) b x, (d < List.length np)%nat -> In b arrays -> List.length x = List.length np ->
    (forall i, (i < List.length np)%nat -> i <> d -> (- m <= nth i x 0 < nth i np 0 + p)%Z) ->
    transfer (periodic_apply np bh d side arrays) M b x =
    M b (set_nth d (if side then (if (- m <=? nth d x 0) && (nth d x 0 <? - m + p) then nth d x 0 + nth d np 0 else nth d x 0)
                    else (if (nth d np 0 <=? nth d x 0) && (nth d x 0 <? nth d np 0 + m) then nth d x 0 - nth d np 0 else nth d x 0))%Z x).
  Proof.
    intros d side M b x Hd Hb Lx Hx. unfold periodic_apply, get_transfers, transfer. cbn [ex_arrays ex_to ex_from ex_size].
    destruct (in_dec string_dec b arrays) as [_ | N]; [|contradiction].
    pose proof halo_vals_length as LH. rewrite halo_vals by auto. cbn [fst snd].
    set (to := set_nth d (if side then 0 + - m else nth d np 0)%Z (map fst (get_halo_values bh))).
    set (from := set_nth d (if side then nth d np 0 + - m else 0)%Z (map fst (get_halo_values bh))).
    set (size := set_nth d (Z.abs (if side then p else - m)) _).
    assert (Lto : List.length to = List.length np) by (unfold to; rewrite set_nth_length, map_length; auto).
    assert (Lfrom : List.length from = List.length np) by (unfold from; rewrite set_nth_length, map_length; auto).
    assert (Lsize : List.length size = List.length np) by (unfold size; rewrite set_nth_length, map2_length; auto).
    assert (Nto : forall i, (i < List.length np)%nat -> nth i to 0%Z = if Nat.eq_dec i d then (if side then - m else nth d np 0)%Z else (- m)%Z).
    { intros i Hi. unfold to. rewrite nth_set_nth by (rewrite map_length; lia). destruct (Nat.eq_dec i d); [destruct side; auto|]. apply nth_fst; auto. }
    assert (Nfrom : forall i, (i < List.length np)%nat -> nth i from 0%Z = if Nat.eq_dec i d then (if side then nth d np 0 - m else 0)%Z else (- m)%Z).
    { intros i Hi. unfold from. rewrite nth_set_nth by (rewrite map_length; lia). destruct (Nat.eq_dec i d); [destruct side; auto; lia|]. apply nth_fst; auto. }
    assert (Nsize : forall i, (i < List.length np)%nat -> nth i size 0%Z = if Nat.eq_dec i d then (if side then p else m)%Z else (nth i np 0 + (m + p))%Z).
    { intros i Hi. unfold size. rewrite nth_set_nth by (rewrite map2_length; lia). destruct (Nat.eq_dec i d); [destruct side; lia|].
      rewrite (map2_nth _ _ _ _ _ _ _ 0%Z (0, 0)%Z) by (auto; lia). rewrite halo_vals by auto. cbn [fst snd]. lia. }
    set (c := if side then (- m <=? nth d x 0)%Z && (nth d x 0 <? - m + p)%Z else (nth d np 0 <=? nth d x 0)%Z && (nth d x 0 <? nth d np 0 + m)%Z).
    assert (Ebox : in_box to size x = c).
    { destruct c eqn:Ec.
      - apply in_box_iff; [congruence|]. split; [congruence|]. intros i Hi. rewrite Lx in Hi. rewrite Nto, Nsize by auto.
        destruct (Nat.eq_dec i d) as [-> | Ne].
        + unfold c in Ec. destruct side; apply andb_true_iff in Ec; rewrite Z.leb_le, Z.ltb_lt in Ec; lia.
        + specialize (Hx i Hi Ne). lia.
      - destruct (in_box to size x) eqn:Eb; auto. exfalso. apply in_box_iff in Eb; [|congruence]. destruct Eb as [_ Eb]. specialize (Eb d ltac:(lia)).
        rewrite Nto, Nsize in Eb by auto. destruct (Nat.eq_dec d d); [|congruence]. unfold c in Ec.
        destruct side; apply andb_false_iff in Ec; rewrite Z.leb_gt, Z.ltb_ge in Ec; lia. }
    rewrite Ebox. clear Ebox.
    assert (Same : set_nth d (nth d x 0%Z) x = x).
    { apply list_ext; [apply set_nth_length|]. intros i Hi. rewrite set_nth_length in Hi. rewrite nth_set_nth by lia. destruct (Nat.eq_dec i d); subst; auto. }
    assert (Shift : map2 (fun i q => (i - fst q + snd q)%Z) x (combine to from) = set_nth d (if side then nth d x 0 + nth d np 0 else nth d x 0 - nth d np 0)%Z x).
    { apply list_ext; [rewrite set_nth_length; apply map2_length; rewrite combine_length; lia|]. intros i Hi. rewrite map2_length in Hi by (rewrite combine_length; lia).
      rewrite (map2_nth _ _ _ _ _ _ _ 0%Z (0, 0)%Z) by (rewrite ?combine_length; lia). rewrite combine_nth by congruence. cbn [fst snd].
      rewrite Nto, Nfrom by lia. rewrite nth_set_nth by lia. destruct (Nat.eq_dec i d) as [-> | Ne]; [destruct side; lia | lia]. }
    unfold c. destruct side; destruct (_ && _); rewrite ?Shift, ?Same; reflexivity.
  Qed.
  (* the two exchanges of a direction *)
  Lemma pair_at : forall d (M : string -> list Z -> V) b x, (d < List.length np)%nat -> In b arrays -> near x ->
    transfer (periodic_apply np bh d true arrays) (transfer (periodic_apply np bh d false arrays) M) b x =
    M b (set_nth d (nth d x 0 mod nth d np 0)%Z x).
  Proof.
    intros d M b x Hd Hb [Lx Hx]. pose proof (Hx d Hd) as Xd. pose proof (Hn d Hd) as Nd.
    rewrite transfer_at; auto; [|intros i Hi _; specialize (Hx i Hi); lia].
    set (c := (if _ && _ then _ else _)%Z).
    rewrite transfer_at; auto.
    2:{ rewrite set_nth_length. auto. }
    2:{ intros i Hi Ne. rewrite nth_set_nth by lia. destruct (Nat.eq_dec i d); [congruence|]. specialize (Hx i Hi). lia. }
    f_equal. rewrite nth_set_nth by lia. destruct (Nat.eq_dec d d) as [_ | N]; [|congruence].
    assert (SS : forall v w, set_nth d v (set_nth d w x) = set_nth d v x).
    { intros v w. apply list_ext; [rewrite !set_nth_length; auto|]. intros i Hi. rewrite !set_nth_length in Hi.
      rewrite !nth_set_nth by (rewrite ?set_nth_length; lia). destruct (Nat.eq_dec i d); auto. }
    rewrite SS. f_equal. set (n := nth d np 0%Z) in *. set (a := nth d x 0%Z) in *. clearbody n a.
    assert (Ec : c = if (- m <=? a)%Z && (a <? - m + p)%Z then (a + n)%Z else a) by reflexivity. clearbody c.
    destruct ((- m <=? a)%Z && (a <? - m + p)%Z) eqn:E1.
    - apply andb_true_iff in E1. rewrite Z.leb_le, Z.ltb_lt in E1. subst c.
      destruct (Z_lt_le_dec a 0).
      + replace ((n <=? a + n)%Z && (a + n <? n + m)%Z) with false by (symmetry; apply andb_false_iff; left; apply Z.leb_gt; lia).
        symmetry. rewrite <- (Z_mod_plus_full a 1 n). rewrite Z.mul_1_l. apply Z.mod_small. lia.
      + replace ((n <=? a + n)%Z && (a + n <? n + m)%Z) with true by (symmetry; apply andb_true_iff; rewrite Z.leb_le, Z.ltb_lt; lia).
        rewrite Z.mod_small; lia.
    - apply andb_false_iff in E1. rewrite Z.leb_gt, Z.ltb_ge in E1. subst c.
      destruct ((n <=? a)%Z && (a <? n + m)%Z) eqn:E2.
      + apply andb_true_iff in E2. rewrite Z.leb_le, Z.ltb_lt in E2. symmetry. rewrite <- (Z_mod_plus_full a (-1) n).
        replace (a + -1 * n)%Z with (a - n)%Z by lia. apply Z.mod_small. lia.
      + apply andb_false_iff in E2. rewrite Z.leb_gt, Z.ltb_ge in E2. symmetry. apply Z.mod_small. lia.
  Qed.
  Lemma transfers_app : forall l l' (M : string -> list Z -> V), transfers (l ++ l') M = transfers l' (transfers l M).
  Proof. intros. unfold transfers. apply fold_left_app. Qed.
  Lemma near_wrap : forall d x, (d < List.length np)%nat -> near x -> near (set_nth d (nth d x 0 mod nth d np 0)%Z x).
  Proof.
    intros d x Hd [Lx Hx]. split; [rewrite set_nth_length; auto|]. intros i Hi. rewrite nth_set_nth by lia.
    destruct (Nat.eq_dec i d) as [-> | N]; [|apply Hx; auto]. pose proof (Hx d Hd). pose proof (Hn d Hd).
    pose proof (Z.mod_pos_bound (nth d x 0) (nth d np 0) ltac:(lia))%Z. lia.
  Qed.
  Lemma per_all : forall (M : string -> list Z -> V) b k, (k <= List.length np)%nat -> In b arrays -> forall x y, near x -> List.length y = List.length np ->
    (forall i, (i < List.length np)%nat -> nth i y 0 = if (i <? k)%nat then nth i x 0 mod nth i np 0 else nth i x 0)%Z ->
    transfers (flat_map (fun d => [periodic_apply np bh d false arrays; periodic_apply np bh d true arrays]) (seq 0 k)) M b x = M b y.
  Proof.
    intros M b. induction k as [|k IH]; intros Hk Hb x y Hx Ly Hy.
    - cbn. f_equal. destruct Hx as [Lx _]. apply list_ext; [congruence|]. intros i Hi. rewrite Hy by lia. reflexivity.
    - rewrite seq_S, flat_map_app, transfers_app. cbn [flat_map app]. unfold transfers at 1. cbn [fold_left]. rewrite Nat.add_0_l.
      rewrite pair_at by (auto; lia). apply IH; auto; [lia | apply near_wrap; auto|].
      intros i Hi. rewrite Hy by auto. rewrite nth_set_nth by (destruct Hx; lia). destruct (Nat.eq_dec i k) as [-> | N].
      + rewrite Nat.ltb_irrefl. replace (k <? S k)%nat with true by (symmetry; apply Nat.ltb_lt; lia). reflexivity.
      + replace (i <? S k)%nat with (i <? k)%nat; auto. destruct (i <? k)%nat eqn:E1, (i <? S k)%nat eqn:E2; auto;
          rewrite ?Nat.ltb_lt, ?Nat.ltb_ge in *; lia.
  Qed.
End per.

(* Every value within m layers of the grid, corners and edges included, is the interior
   value at the coordinates modulo the numbers of points; m and p are the lower and upper
   halo widths used for the exchanges (those of direction 0). *)
Theorem C43_periodic_partial :
  forall (V : Type) np bh arrays (M : string -> list Z -> V) m p b x,
    List.length bh = List.length np -> lower_halo bh 0 = (- m)%Z -> upper_halo bh 0 = p ->
    (0 <= m)%Z -> (m <= p <= 2 * m)%Z -> (forall i, (i < List.length np)%nat -> (m <= nth i np 0)%Z) ->
    In b arrays -> List.length x = List.length np ->
    (forall i, (i < List.length np)%nat -> (- m <= nth i x 0 < nth i np 0 + m)%Z) ->
    transfers (periodic_all np bh arrays) M b x = M b (map2 Z.modulo x np).
Proof.
  intros V np bh arrays M m p b x Lb Em Ep M0 Hmp Hn Hb Lx Hx.
  assert (Em' : (- lower_halo bh 0)%Z = m) by lia.
  apply (per_all np bh arrays Lb); rewrite ?Em', ?Ep; auto; try lia.
  - split; auto. intros i Hi. rewrite Em'. auto.
  - rewrite map2_length; auto.
  - intros i Hi. rewrite (map2_nth _ _ _ _ _ _ _ 0%Z 0%Z) by (auto; lia). destruct (Nat.ltb_spec i (List.length np)); [auto | lia].
Qed.
Print Assumptions C43_periodic_partial.
(* the values the exchanges do not touch *)
Theorem C43_frame :
  forall (V : Type) np bh arrays (M : string -> list Z -> V) b x,
    List.length bh = List.length np -> (lower_halo bh 0 <= 0 <= upper_halo bh 0)%Z ->
    (~ In b arrays \/ List.length x <> List.length np \/
     exists i, (i < List.length np)%nat /\ ~ (lower_halo bh 0 <= nth i x 0 < nth i np 0 + Z.max (- lower_halo bh 0) (upper_halo bh 0))%Z /\
               (forall j, (j < List.length np)%nat -> - lower_halo bh 0 <= nth j np 0 /\ upper_halo bh 0 + lower_halo bh 0 <= nth j np 0)%Z) ->
    transfers (periodic_all np bh arrays) M b x = M b x.
Proof.
  intros V np bh arrays M b x Lb Hl H. unfold periodic_all.
  assert (G : forall d side (M' : string -> list Z -> V), (d < List.length np)%nat -> transfer (periodic_apply np bh d side arrays) M' b x = M' b x).
  { intros d side M' Hd. unfold transfer. destruct (in_dec string_dec b (ex_arrays (periodic_apply np bh d side arrays))) as [I | I]; auto.
    destruct H as [H | H]; [exfalso; apply H; exact I|].
    destruct (in_box _ _ x) eqn:Eb; auto. exfalso. pose proof (halo_vals_length np bh Lb) as LH.
    unfold periodic_apply, get_transfers in Eb. cbn [ex_to ex_size] in Eb.
    apply in_box_iff in Eb; [|rewrite !set_nth_length, map_length, map2_length; auto; lia]. destruct Eb as [Lx Eb].
    rewrite set_nth_length, map2_length in Lx by auto. destruct H as [H | (i & Hi & Ho & Hn)]; [congruence|].
    specialize (Eb i ltac:(lia)). rewrite !nth_set_nth in Eb by (rewrite ?map_length, ?map2_length; lia).
    rewrite (map2_nth _ _ _ _ _ _ _ 0%Z (0, 0)%Z) in Eb by (auto; lia). rewrite (nth_fst np bh Lb) in Eb by auto.
    rewrite !(halo_vals np bh Lb) in Eb by auto. cbn [fst snd] in Eb. specialize (Hn d Hd).
    destruct (Nat.eq_dec i d) as [-> | N]; [destruct side; lia | lia]. }
  assert (K : forall l (M' : string -> list Z -> V), (forall d, In d l -> (d < List.length np)%nat) ->
     transfers (flat_map (fun d => [periodic_apply np bh d false arrays; periodic_apply np bh d true arrays]) l) M' b x = M' b x).
  { induction l as [|d l IH]; intros M' Hl'; auto. cbn [flat_map app]. unfold transfers. cbn [fold_left]. fold (@transfers V).
    change (fold_left (fun M ex => transfer ex M) ?l ?a) with (transfers l a). rewrite IH by (intros; apply Hl'; right; auto).
    rewrite !G by (apply Hl'; left; auto). reflexivity. }
  apply K. intros d Hd. apply in_seq in Hd. lia.
Qed.
Print Assumptions C43_frame.
Example C43_nonvacuous :
  let bh := [([(-2, 2)%Z], [(-2, 3)%Z]); ([(-2, 2)%Z], [(-2, 3)%Z])] in
  lower_halo bh 0 = (-2)%Z /\ upper_halo bh 0 = 3%Z /\
  transfers (periodic_all [4; 5]%Z bh ["a"%string]) (fun _ x => (10 * nth 0 x 0 + nth 1 x 0)%Z) "a"%string [-2; 6]%Z = 21%Z.
Proof. repeat split; reflexivity. Qed.

(* Refuted: all halo points are filled.  (1) If the upper width exceeds the lower one, as for
   the WENO schemes, the outermost upper layer keeps its old value. *)
Theorem C43_upper_layer_refuted :
  exists np bh arrays (M : string -> list Z -> Z) b x,
    List.length bh = List.length np /\ (forall i, (i < List.length np)%nat -> lower_halo bh i = -3 /\ upper_halo bh i = 4 /\ 4 <= nth i np 0)%Z /\
    In b arrays /\ List.length x = List.length np /\
    (forall i, (i < List.length np)%nat -> lower_halo bh i <= nth i x 0 < nth i np 0 + upper_halo bh i)%Z /\
    transfers (periodic_all np bh arrays) M b x <> M b (map2 Z.modulo x np).
Proof.
  exists [10%Z], [([(-3, 4)%Z], [(-3, 4)%Z])], ["a"%string], (fun _ x => nth 0 x 0%Z), "a"%string, [13%Z].
  split; auto. split; [intros [|i] Hi; [cbn; lia | cbn in Hi; lia]|]. split; [left; auto|]. split; auto.
  split; [intros [|i] Hi; [cbn; lia | cbn in Hi; lia]|]. cbn. discriminate.
Qed.
Print Assumptions C43_upper_layer_refuted.
(* (2) The widths of direction 0 are used in all directions: a wider halo in another
   direction is not filled. *)
Theorem C43_direction_width_refuted :
  exists np bh arrays (M : string -> list Z -> Z) b x,
    List.length bh = List.length np /\ (forall i, (i < List.length np)%nat -> lower_halo bh i = - upper_halo bh i /\ upper_halo bh i <= nth i np 0)%Z /\
    In b arrays /\ List.length x = List.length np /\
    (forall i, (i < List.length np)%nat -> lower_halo bh i <= nth i x 0 < nth i np 0 + upper_halo bh i)%Z /\
    transfers (periodic_all np bh arrays) M b x <> M b (map2 Z.modulo x np).
Proof.
  exists [10; 10]%Z, [([(-1, 1)%Z], [(-1, 1)%Z]); ([(-2, 2)%Z], [(-2, 2)%Z])], ["a"%string], (fun _ x => nth 1 x 0%Z), "a"%string, [3; -2]%Z.
  split; auto. split; [intros [|[|i]] Hi; cbn in *; lia|]. split; [left; auto|]. split; auto.
  split; [intros [|[|i]] Hi; cbn in *; lia|]. cbn. discriminate.
Qed.
Print Assumptions C43_direction_width_refuted.
(* (3) If the upper width is more than twice the lower one, the exchanges overwrite an
   interior value with an unfilled halo value. *)
Theorem C43_interior_overwritten_refuted :
  exists np bh arrays (M : string -> list Z -> Z) b x,
    List.length bh = List.length np /\ (lower_halo bh 0 <= 0 <= upper_halo bh 0)%Z /\
    (forall i, (i < List.length np)%nat -> 0 <= nth i x 0 < nth i np 0)%Z /\ List.length x = List.length np /\
    transfers (periodic_all np bh arrays) M b x <> M b x.
Proof.
  exists [10%Z], [([(-1, 3)%Z], [(-1, 3)%Z])], ["a"%string], (fun _ x => nth 0 x 0%Z), "a"%string, [1%Z].
  split; auto. split; [cbn; lia|]. split; [intros [|i] Hi; [cbn; lia | cbn in Hi; lia]|]. split; auto. cbn. discriminate.
Qed.
Print Assumptions C43_interior_overwritten_refuted.
