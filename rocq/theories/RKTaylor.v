(* A method satisfying the third-order conditions commits an error O(h^4) per step. *)
From Coq Require Import Reals List Lra Lia FunctionalExtensionality.
From Verif Require Import Base RKModel RKSpec.
Open Scope R_scope.
Open Scope list_scope.

Section taylor.
  Variable I : Type.
  Notation st := (state I).
  Variable N : st -> R.
  Hypothesis HN : seminorm N.

  Lemma N_tri : forall x y, N (fun i => x i + y i) <= N x + N y.
  Proof. apply HN. Qed.
  Lemma N_scal : forall a x, N (fun i => a * x i) = Rabs a * N x.
  Proof. apply HN. Qed.
  Lemma N_ext : forall x y, (forall i, x i = y i) -> N x = N y.
  Proof. intros x y H. f_equal. apply functional_extensionality. auto. Qed.
  Lemma N_zero : N (fun _ => 0) = 0.
  Proof. rewrite (N_ext _ (fun i => 0 * 0)) by (intros; lra). rewrite (N_scal 0 (fun _ => 0)), Rabs_R0. lra. Qed.
  Lemma N_pos : forall x, 0 <= N x.
  Proof.
    intros x. pose proof (N_tri x (fun i => (-1) * x i)) as H. rewrite N_scal in H.
    rewrite (N_ext _ (fun _ => 0)) in H by (intros; lra). rewrite N_zero in H.
    rewrite Rabs_left in H by lra. lra.
  Qed.

  Definition O (n : nat) (d : R -> st) : Prop :=
    exists C h0, 0 < h0 <= 1 /\ 0 <= C /\ forall h, 0 <= h <= h0 -> N (d h) <= C * h ^ n.

  Lemma O_ext : forall n d e, (forall h i, d h i = e h i) -> O n d -> O n e.
  Proof.
    intros n d e E (C & h0 & H0 & HC & H). exists C, h0. split; [auto|]. split; [auto|].
    intros h Hh. rewrite <- (N_ext (d h)) by auto. auto.
  Qed.
  Lemma O_add : forall n d e, O n d -> O n e -> O n (fun h i => d h i + e h i).
  Proof.
    intros n d e (C & h0 & H0 & HC & H) (C' & h1 & H1 & HC' & H').
    exists (C + C'), (Rmin h0 h1). split; [unfold Rmin; destruct (Rle_dec h0 h1); lra|].
    split; [lra|]. intros h Hh.
    pose proof (Rmin_l h0 h1). pose proof (Rmin_r h0 h1).
    eapply Rle_trans; [apply N_tri|]. specialize (H h). specialize (H' h).
    rewrite Rmult_plus_distr_r. apply Rplus_le_compat; [apply H | apply H']; lra.
  Qed.
  Lemma O_scal : forall n a d, O n d -> O n (fun h i => a * d h i).
  Proof.
    intros n a d (C & h0 & H0 & HC & H). exists (Rabs a * C), h0. split; [auto|].
    split; [apply Rmult_le_pos; [apply Rabs_pos | auto]|].
    intros h Hh. rewrite N_scal, Rmult_assoc. apply Rmult_le_compat_l; [apply Rabs_pos | auto].
  Qed.
  Lemma O_h : forall n d, O n d -> O (S n) (fun h i => h * d h i).
  Proof.
    intros n d (C & h0 & H0 & HC & H). exists C, h0. split; [auto|]. split; [auto|].
    intros h Hh. rewrite N_scal, Rabs_right by lra. cbn [pow].
    rewrite <- Rmult_assoc, (Rmult_comm C h), Rmult_assoc. apply Rmult_le_compat_l; [lra | auto].
  Qed.
  Lemma O_const : forall x, O 0 (fun _ => x).
  Proof. intros x. exists (N x), 1. split; [lra|]. split; [apply N_pos|]. intros. cbn. lra. Qed.
  Lemma O_zero : forall n, O n (fun _ _ => 0).
  Proof. intros n. exists 0, 1. split; [lra|]. split; [lra|]. intros. rewrite N_zero. lra. Qed.
  Lemma O_weaken : forall n m d, (m <= n)%nat -> O n d -> O m d.
  Proof.
    intros n m d Hm (C & h0 & H0 & HC & H). exists C, h0. split; [auto|]. split; [auto|].
    intros h Hh. eapply Rle_trans; [apply H; auto|]. apply Rmult_le_compat_l; [auto|].
    replace n with (m + (n - m))%nat by lia. rewrite pow_add.
    assert (h ^ (n - m) <= 1).
    { destruct (Nat.eq_dec (n - m) 0) as [-> | Hne]; [cbn; lra|].
      rewrite <- (pow1 (n - m)). apply pow_incr. lra. }
    assert (0 <= h ^ m) by (apply pow_le; lra). nra.
  Qed.

  Variable f : st -> st.
  Variable u : st.
  Variable L : st -> st.
  Variable Q : st -> st -> st.
  Hypothesis HT : taylor2 N f u L Q.

  Lemma L_lin : forall a b x y, L (fun i => a * x i + b * y i) = (fun i => a * L x i + b * L y i).
  Proof. apply HT. Qed.
  Lemma Q_l : forall a b x y z, Q (fun i => a * x i + b * y i) z = (fun i => a * Q x z i + b * Q y z i).
  Proof. apply HT. Qed.
  Lemma Q_r : forall a b x y z, Q z (fun i => a * x i + b * y i) = (fun i => a * Q z x i + b * Q z y i).
  Proof. apply HT. Qed.

  Lemma O_L : forall n d, O n d -> O n (fun h => L (d h)).
  Proof.
    intros n d (C & h0 & H0 & HC & H). destruct HT as (_ & _ & _ & K & delta & _ & HL & _ & _).
    assert (HL' : forall d, N (L d) <= Rabs K * N d).
    { intros x. eapply Rle_trans; [apply HL|]. apply Rmult_le_compat_r; [apply N_pos | apply Rle_abs]. }
    exists (Rabs K * C), h0. split; [auto|]. split; [apply Rmult_le_pos; [apply Rabs_pos | auto]|].
    intros h Hh. eapply Rle_trans; [apply HL'|]. rewrite Rmult_assoc.
    apply Rmult_le_compat_l; [apply Rabs_pos | auto].
  Qed.
  Lemma O_Q : forall n m d e, O n d -> O m e -> O (n + m) (fun h => Q (d h) (e h)).
  Proof.
    intros n m d e (C & h0 & H0 & HC & H) (C' & h1 & H1 & HC' & H').
    destruct HT as (_ & _ & _ & K & delta & _ & _ & HQ & _).
    assert (HQ' : forall d e, N (Q d e) <= Rabs K * (N d * N e)).
    { intros x y. eapply Rle_trans; [apply HQ|]. rewrite Rmult_assoc. apply Rmult_le_compat_r; [|apply Rle_abs].
      apply Rmult_le_pos; apply N_pos. }
    exists (Rabs K * (C * C')), (Rmin h0 h1). split; [unfold Rmin; destruct (Rle_dec h0 h1); lra|].
    split; [apply Rmult_le_pos; [apply Rabs_pos | apply Rmult_le_pos; auto]|].
    intros h Hh. pose proof (Rmin_l h0 h1). pose proof (Rmin_r h0 h1).
    eapply Rle_trans; [apply HQ'|]. rewrite Rmult_assoc. apply Rmult_le_compat_l; [apply Rabs_pos|].
    rewrite pow_add. replace (C * C' * (h ^ n * h ^ m)) with ((C * h ^ n) * (C' * h ^ m)) by ring.
    apply Rmult_le_compat; try apply N_pos; [apply H | apply H']; lra.
  Qed.
  (* the remainder of the expansion of f along a curve of order h *)
  Lemma O_rem : forall d, O 1 d ->
    O 3 (fun h i => f (fun j => u j + d h j) i - (f u i + L (d h) i + Q (d h) (d h) i)).
  Proof.
    intros d (C & h0 & H0 & HC & H). destruct HT as (_ & _ & _ & K & delta & Hd & _ & _ & HR).
    set (h1 := Rmin h0 (delta / (C + 1))).
    assert (Hq : 0 < delta / (C + 1)) by (apply Rdiv_lt_0_compat; lra).
    exists (Rabs K * C ^ 3), h1. split; [unfold h1, Rmin; destruct (Rle_dec h0 _); lra|].
    split; [apply Rmult_le_pos; [apply Rabs_pos | apply pow_le; auto]|].
    intros h Hh. pose proof (Rmin_l h0 (delta / (C + 1))) as M1. pose proof (Rmin_r h0 (delta / (C + 1))) as M2.
    fold h1 in M1, M2. assert (Hb : N (d h) <= C * h) by (specialize (H h ltac:(lra)); rewrite pow_1 in H; auto).
    assert (Hs : N (d h) <= delta).
    { eapply Rle_trans; [apply Hb|]. apply Rle_trans with ((C + 1) * (delta / (C + 1))).
      - apply Rmult_le_compat; lra.
      - right. field. lra. }
    eapply Rle_trans; [apply HR; auto|].
    apply Rle_trans with (Rabs K * N (d h) ^ 3).
    - apply Rmult_le_compat_r; [apply pow_le, N_pos | apply Rle_abs].
    - rewrite Rmult_assoc. apply Rmult_le_compat_l; [apply Rabs_pos|].
      rewrite <- Rpow_mult_distr. apply pow_incr. split; [apply N_pos | auto].
  Qed.

  Let f0 := f u.
  Let g := L f0.
  Let q := Q f0 f0.
  Let p := L g.

  (* k_j = f0 + h c g + h^2 (c^2 q + a p) + O(h^3) *)
  Definition expands (k : R -> st) (c a : R) : Prop :=
    O 3 (fun h i => k h i - (f0 i + h * (c * g i) + h^2 * (c^2 * q i + a * p i))).

  Definition at_h (h : R) (ks : list (R -> st)) : list st := map (fun k => k h) ks.

  Inductive all_expand : list (R -> st) -> list R -> list R -> Prop :=
  | ae_nil : all_expand [] [] []
  | ae_cons : forall k ks c cl a al, expands k c a -> all_expand ks cl al ->
      all_expand (k :: ks) (c :: cl) (a :: al).

  Lemma all_expand_snoc : forall ks cl al k c a, all_expand ks cl al -> expands k c a ->
    all_expand (ks ++ [k]) (cl ++ [c]) (al ++ [a]).
  Proof. induction 1; cbn; intros; constructor; auto. constructor. Qed.
  Lemma all_expand_length : forall ks cl al, all_expand ks cl al ->
    List.length cl = List.length ks /\ List.length al = List.length ks.
  Proof. induction 1; cbn; intuition lia. Qed.

  Lemma comb_expand : forall ks cl al, all_expand ks cl al -> forall x, List.length x = List.length ks ->
    O 3 (fun h i => comb x (at_h h ks) i -
        (sum x * f0 i + h * (dot x cl * g i) + h^2 * (dot x (mul cl cl) * q i + dot x al * p i))).
  Proof.
    induction 1 as [|k ks c cl a al Hk Hks IH]; intros [|b x] Hx; cbn in Hx; try discriminate.
    - eapply O_ext; [|apply O_zero]. intros h i. cbn. ring.
    - injection Hx as Hx. specialize (IH x Hx). unfold expands in Hk.
      eapply O_ext; [|apply (O_add 3 _ _ (O_scal 3 b _ Hk) IH)].
      intros h i. cbn [at_h map comb sum fold_right dot mul combine fst snd]. unfold at_h, sum, mul. ring.
  Qed.

  Lemma stage_expand : forall ks cl al row, all_expand ks cl al -> List.length row = List.length ks ->
    expands (fun h => f (fun j => u j + h * comb row (at_h h ks) j)) (sum row) (dot row cl).
  Proof.
    intros ks cl al row Hks Hr. pose proof (comb_expand _ _ _ Hks row Hr) as Hc.
    set (s := fun h => comb row (at_h h ks)) in *. set (c := sum row) in *. set (a := dot row cl) in *.
    set (m := dot row (mul cl cl)) in *. set (b := dot row al) in *.
    (* e1 = s - c f0 : O(h) ; e2 = s - c f0 - h a g : O(h^2) *)
    assert (E2 : O 2 (fun h i => s h i - (c * f0 i + h * (a * g i)))).
    { assert (H1 : O 2 (fun h i => h * (h * (m * q i + b * p i))))
        by (apply O_h, O_h; apply (O_const (fun i => m * q i + b * p i))).
      eapply O_ext; [|apply (O_add 2 _ _ (O_weaken 3 2 _ ltac:(lia) Hc) H1)].
      intros h i. cbn beta. unfold s. ring. }
    assert (E1 : O 1 (fun h i => s h i - c * f0 i)).
    { assert (H1 : O 1 (fun h i => h * (a * g i))) by (apply O_h; apply (O_const (fun i => a * g i))).
      eapply O_ext; [|apply (O_add 1 _ _ (O_weaken 2 1 _ ltac:(lia) E2) H1)].
      intros h i. cbn beta. ring. }
    assert (E0 : O 0 s).
    { eapply O_ext; [|apply (O_add 0 _ _ (O_weaken 1 0 _ ltac:(lia) E1) (O_const (fun i => c * f0 i)))].
      intros h i. cbn beta. ring. }
    pose proof (O_rem _ (O_h 0 s E0)) as HR. cbn beta in HR.
    (* linear part *)
    assert (HL1 : forall h i, L (fun j => h * s h j) i =
              h * (c * g i) + h^2 * (a * p i) + h * L (fun j => s h j - (c * f0 j + h * (a * g j))) i).
    { intros h i.
      replace (fun j => h * s h j) with
        (fun j => 1 * (fun j => (h * c) * f0 j + (h * h * a) * g j) j
                  + h * (fun j => s h j - (c * f0 j + h * (a * g j))) j)
        by (apply functional_extensionality; intros; cbn beta; ring).
      rewrite L_lin, L_lin. fold g. fold p. ring. }
    assert (HQ1 : forall h i, Q (fun j => h * s h j) (fun j => h * s h j) i =
              h^2 * (c^2 * q i) + h * (h * (c * Q f0 (fun j => s h j - c * f0 j) i
                                            + Q (fun j => s h j - c * f0 j) (s h) i))).
    { intros h i.
      replace (fun j => h * s h j) with (fun j => h * s h j + 0 * s h j)
        by (apply functional_extensionality; intros; ring).
      rewrite Q_r. rewrite Q_l.
      assert (E : Q (s h) (s h) i = c^2 * q i + (c * Q f0 (fun j => s h j - c * f0 j) i
                                            + Q (fun j => s h j - c * f0 j) (s h) i)).
      { transitivity (Q (fun j => c * f0 j + 1 * (fun j => s h j - c * f0 j) j) (s h) i).
        - f_equal. f_equal. apply functional_extensionality. intros. cbn beta. ring.
        - rewrite Q_l. transitivity (c * Q f0 (fun j => c * f0 j + 1 * (fun j => s h j - c * f0 j) j) i
                                     + 1 * Q (fun j => s h j - c * f0 j) (s h) i).
          + do 2 f_equal. f_equal. f_equal. apply functional_extensionality. intros. cbn beta. ring.
          + rewrite Q_r. fold q. ring. }
      rewrite E. ring. }
    assert (OL : O 3 (fun h i => h * L (fun j => s h j - (c * f0 j + h * (a * g j))) i))
      by (apply O_h; apply (O_L 2 _ E2)).
    assert (OQ : O 3 (fun h i => h * (h * (c * Q f0 (fun j => s h j - c * f0 j) i
                                            + Q (fun j => s h j - c * f0 j) (s h) i)))).
    { apply O_h, O_h. apply O_add.
      - apply O_scal. apply (O_Q 0 1 _ _ (O_const f0) E1).
      - apply (O_Q 1 0 _ _ E1 E0). }
    unfold expands.
    eapply O_ext; [|apply (O_add 3 _ _ (O_add 3 _ _ HR OL) OQ)].
    intros h i. cbn beta. rewrite HL1, HQ1. fold f0. unfold s. ring.
  Qed.

  Lemma dot_app_l : forall x y z, List.length x = List.length y -> dot x (y ++ z) = dot x y.
  Proof. induction x; intros [|b y] z H; cbn in *; try discriminate; try (destruct z; reflexivity). rewrite IHx; auto. Qed.

  Fixpoint fstages (rows : list (list R)) (ks : list (R -> st)) : list (R -> st) :=
    match rows with
    | [] => ks
    | row :: rows => fstages rows (ks ++ [fun h => f (fun j => u j + h * comb row (at_h h ks) j)])
    end.
  Lemma stages_at : forall rows h ks, stages rows h f u (at_h h ks) = at_h h (fstages rows ks).
  Proof.
    induction rows as [|row rows IH]; intros h ks; cbn [stages fstages]; [reflexivity|].
    rewrite <- IH. f_equal. unfold at_h. rewrite map_app. reflexivity.
  Qed.

  Lemma fstages_expand : forall rows dn ks cl al,
    (forall s row, nth_error rows s = Some row -> List.length row = (List.length ks + s)%nat) ->
    all_expand ks cl al -> cl = cs dn -> al = apply dn (cs (dn ++ rows)) -> List.length dn = List.length ks ->
    all_expand (fstages rows ks) (cs (dn ++ rows)) (apply (dn ++ rows) (cs (dn ++ rows))).
  Proof.
    induction rows as [|row rows IH]; intros dn ks cl al Hex Hks Hc Ha Hl.
    - rewrite app_nil_r in *. subst. exact Hks.
    - cbn [fstages]. assert (Lr : List.length row = List.length ks) by (rewrite (Hex 0%nat row eq_refl); lia).
      pose proof (stage_expand ks cl al row Hks Lr) as Hs.
      replace (dn ++ row :: rows) with ((dn ++ [row]) ++ rows) in * by (rewrite <- app_assoc; reflexivity).
      eapply (IH (dn ++ [row]) _ (cl ++ [sum row]) (al ++ [dot row cl])).
      + intros s r Hr. rewrite app_length. cbn. rewrite (Hex (S s) r Hr). lia.
      + apply all_expand_snoc; auto.
      + subst cl. unfold cs. rewrite map_app. reflexivity.
      + subst al. unfold apply. rewrite map_app. f_equal. cbn [map]. f_equal.
        unfold cs. rewrite map_app, map_app. rewrite <- app_assoc. subst cl. symmetry. apply dot_app_l.
        unfold cs. rewrite map_length. lia.
      + rewrite !app_length. cbn. lia.
  Qed.

  Lemma fstages_length : forall rows ks, List.length (fstages rows ks) = (List.length ks + List.length rows)%nat.
  Proof. induction rows; intros; cbn; [lia|]. rewrite IHrows, app_length. cbn. lia. Qed.

  Lemma order3_accurate : forall rows b, explicit rows b -> order3 rows b ->
    third_order_at N (fun h => runge_kutta rows b h f) u (taylor_solution f u L Q).
  Proof.
    intros rows b [Hex Hb] (O1 & O2 & O3 & O4).
    pose proof (fstages_expand rows [] [] [] [] Hex ae_nil eq_refl eq_refl eq_refl) as Hk. cbn [app] in Hk.
    pose proof (comb_expand _ _ _ Hk b) as Hc. rewrite fstages_length in Hc. specialize (Hc Hb).
    rewrite O1, O2, O3, O4 in Hc.
    destruct (O_h 3 _ Hc) as (C & h0 & H0 & _ & H). exists C, h0. split; [lra|].
    intros h Hh. specialize (H h Hh). eapply Rle_trans; [right; apply N_ext | apply H].
    intros i. unfold runge_kutta, taylor_solution.
    change (@nil st) with (at_h h []). rewrite stages_at. fold f0 g q p. field.
  Qed.
End taylor.
