(* Kernels over boundary planes: what one sweep leaves in the arrays. *)
From Verif Require Import Base Expr ExprProofs KernelModel ShiftModel ShiftSpec ShiftProofs BCModel BCSpec BCProofs BCKern.
From Coq Require Import QArith ZArith Lia.
Local Close Scope Q_scope.

Lemma vadd_nth : forall d x y, List.length x = List.length y -> (d < List.length x)%nat -> nth d (vadd x y) 0%Z = (nth d x 0 + nth d y 0)%Z.
Proof. induction d; intros [|a x] [|b y] L H; cbn in *; try lia. apply IHd; lia. Qed.
Lemma vadd_length : forall x y, List.length x = List.length y -> List.length (vadd x y) = List.length x.
Proof. induction x; intros [|b y] L; cbn in *; try lia. rewrite IHx; lia. Qed.

Section plane.
  Context {V : Type} (J : interp V) (n d : nat) (qs : kernel_eqs).
  Hypothesis Hd : (d < n)%nat.
  Local Notation line k := (move d k (here n)).
  Definition unwritten (b : string) (k : Z) : Prop := forall q, In q qs -> ~ In (inl (b, line k)) (target q).
  Hypothesis Ta : forall q b ix, In q qs -> In (inl (b, ix)) (target q) -> exists k, ix = line k.
  Hypothesis Re : forall q b ix, In q qs -> In (inl (b, ix)) (reads q) ->
    List.length ix = n /\ ((exists k, ix = line k) \/ unwritten b (nth d ix 0%Z)).
  Variable c : Z.

  Definition seen (x : list Z) (b : string) (y : list Z) : Prop :=
    List.length y = n /\ ((exists k, y = move d k x) \/ unwritten b (nth d y 0 - nth d x 0)%Z).
  Lemma seen_run : forall x, List.length x = n ->
    forall l s s', incl l qs -> (forall b y, seen x b y -> fst s b y = fst s' b y) -> (forall g, snd s g = snd s' g) ->
    forall b y, seen x b y -> fst (fold_left (exec1 J x) l s) b y = fst (fold_left (exec1 J x) l s') b y.
  Proof.
    intros x Lx. induction l as [|q l IH]; intros s s' Hl HM HL b y Hy; cbn [fold_left]; auto.
    assert (Hq : In q qs) by (apply Hl; left; auto).
    assert (At : forall l0 r, q = KEq l0 r -> at_point J (fst s) (snd s) x r = at_point J (fst s') (snd s') x r).
    { intros l0 r ->. apply at_point_ext; auto. intros b' ix Hb. apply HM.
      destruct (Re (KEq l0 r) b' ix Hq) as [Li Hi]; [cbn; apply in_app_iff; left; apply in_map; auto|].
      split; [rewrite vadd_length; congruence|]. destruct Hi as [[k ->] | U].
      - left. exists k. unfold here. apply vadd_along. auto.
      - right. rewrite vadd_nth by (try congruence; rewrite Lx; auto). replace (nth d x 0 + nth d ix 0 - nth d x 0)%Z with (nth d ix 0%Z) by lia. auto. }
    apply IH; auto.
    - intros a Ha. apply Hl. right; auto.
    - intros b' y' Hy'. destruct q as [l0 r|bs]; cbn; auto. destruct l0 as [z|k g|b0 ix|h args]; cbn; auto; [destruct k; cbn; auto|].
      unfold upd. rewrite (At _ r eq_refl). rewrite (HM b' y' Hy'). reflexivity.
    - intros g. destruct q as [l0 r|bs]; cbn; auto. destruct l0 as [z|k g'|b0 ix|h args]; cbn; auto.
      destruct k; cbn; auto. unfold updl. rewrite (At _ r eq_refl). destruct (string_dec g' g); auto.
  Qed.
  Lemma others_line : forall pts x M b k, (forall y, In y pts -> List.length y = n /\ nth d y 0%Z = c /\ x <> y) ->
    List.length x = n -> nth d x 0%Z = c ->
    run_kernel J qs pts M b (move d k x) = M b (move d k x).
  Proof.
    induction pts as [|y pts IH]; intros x M b k H Lx Hx; cbn; auto.
    unfold run_kernel in IH. rewrite IH; auto.
    - destruct (H y) as (A & B & C); [left; auto|]. unfold run_point. rewrite run_frame; auto.
      intros q ix Hq Ht E. destruct (Ta q b ix Hq Ht) as [j ->]. unfold here in E. rewrite vadd_along in E by auto. apply C. symmetry.
      apply (lines_disjoint d j k); auto; try congruence; rewrite A; auto.
    - intros; apply H; right; auto.
  Qed.
  Lemma others_unwritten : forall pts M b y, (forall p, In p pts -> List.length p = n /\ nth d p 0%Z = c) ->
    List.length y = n -> unwritten b (nth d y 0 - c)%Z -> run_kernel J qs pts M b y = M b y.
  Proof.
    induction pts as [|p pts IH]; intros M b y H Ly U; cbn; auto.
    unfold run_kernel in IH. rewrite IH; auto; [|intros; apply H; right; auto].
    destruct (H p) as [A B]; [left; auto|]. unfold run_point. rewrite run_frame; auto.
    intros q ix Hq Ht E. destruct (Ta q b ix Hq Ht) as [j ->]. unfold here in E. rewrite vadd_along in E by auto.
    apply (U q Hq). replace (nth d y 0 - c)%Z with j; auto. subst y. rewrite move_nth by (rewrite A; auto). lia.
  Qed.
  Lemma plane_point : forall pts M x b k, NoDup pts -> In x pts -> (forall y, In y pts -> List.length y = n /\ nth d y 0%Z = c) ->
    run_kernel J qs pts M b (move d k x) = fst (run_point J qs M x) b (move d k x).
  Proof.
    intros pts M x b k ND Hx H. apply in_split in Hx. destruct Hx as (l1 & l2 & ->).
    unfold run_kernel. rewrite fold_left_app. cbn [fold_left].
    assert (Hx : List.length x = n /\ nth d x 0%Z = c) by (apply H, in_app_iff; right; left; auto). destruct Hx as [Lx Hx].
    apply NoDup_remove in ND. destruct ND as [ND Nx].
    change (fold_left (fun M x => fst (run_point J qs M x)) l2 ?a) with (run_kernel J qs l2 a).
    change (fold_left (fun M x => fst (run_point J qs M x)) l1 M) with (run_kernel J qs l1 M).
    rewrite others_line; auto.
    - unfold run_point. apply (seen_run x); auto; [intros a; auto | | split; [rewrite move_length; auto | left; exists k; auto]].
      intros b' y' [Ly [[k' ->] | U]]; cbn [fst].
      + apply others_line; auto. intros y Hy. destruct (H y) as [A B]; [apply in_app_iff; auto|]. repeat split; auto.
        intros ->. apply Nx, in_app_iff. auto.
      + apply others_unwritten; auto. { intros p Hp. apply H, in_app_iff. auto. } rewrite <- Hx. auto.
    - intros y Hy. destruct (H y) as [A B]; [apply in_app_iff; right; right; auto|]. repeat split; auto.
      intros ->. apply Nx, in_app_iff. auto.
  Qed.
  Lemma plane_frame : forall pts (M : string -> list Z -> V) b y, (forall p, In p pts -> List.length p = n) ->
    (forall q k x, In q qs -> In (inl (b, line k)) (target q) -> In x pts -> y <> move d k x) ->
    run_kernel J qs pts M b y = M b y.
  Proof.
    induction pts as [|p pts IH]; intros M b y H F; cbn; auto.
    unfold run_kernel in IH. rewrite IH; auto.
    - unfold run_point. rewrite run_frame; auto. intros q ix Hq Ht E. destruct (Ta q b ix Hq Ht) as [j ->].
      unfold here in E. rewrite vadd_along in E by (apply H; left; auto). apply (F q j p Hq Ht); auto. left; auto.
    - intros; apply H; right; auto.
    - intros q k x Hq Ht Hx. apply (F q k x Hq Ht). right; auto.
  Qed.
End plane.

(* ---- statements at one point: local variables and arrays on the line through it ---- *)
Inductive item := Lo (g : string) (r : expr) | Da (b : string) (k : Z) (r : expr).
Definition rhs_of (i : item) : expr := match i with Lo _ r => r | Da _ _ r => r end.
Definition name_of (i : item) : list string := match i with Lo g _ => [g] | Da _ _ _ => [] end.
Definition names_of (l : list item) : list string := flat_map name_of l.
Definition tkeq (n d : nat) (i : item) : keq :=
  match i with Lo g r => KEq (evar g) r | Da b k r => KEq (EDat b (move d k (here n))) r end.
Definition puts (l : list item) (b : string) (k : Z) : Prop := exists r, In (Da b k r) l.

(* local variables are assigned once and read only later *)
Fixpoint sane (l : list item) : Prop :=
  match l with
  | [] => True
  | i :: l => (forall g, In g (syms KGridVar (rhs_of i)) -> ~ In g (names_of (i :: l))) /\
              (forall g, In g (name_of i) -> ~ In g (names_of l)) /\ sane l
  end.
Lemma names_app : forall l m, names_of (l ++ m) = names_of l ++ names_of m.
Proof. intros. unfold names_of. apply flat_map_app. Qed.
Lemma sane_app : forall l m, sane l -> sane m -> (forall g, In g (names_of l) -> ~ In g (names_of m)) ->
  (forall i g, In i l -> In g (syms KGridVar (rhs_of i)) -> ~ In g (names_of m)) -> sane (l ++ m).
Proof.
  induction l as [|i l IH]; intros m Hl Hm D R; cbn [app sane]; auto. destruct Hl as (A & B & C). split; [|split].
  - intros g Hg H. change (In g (names_of ((i :: l) ++ m))) in H. rewrite names_app in H. apply in_app_iff in H.
    destruct H as [H | H]; [apply (A g); auto | apply (R i g); auto; left; auto].
  - intros g Hg H. rewrite names_app in H. apply in_app_iff in H. destruct H as [H | H]; [apply (B g); auto|].
    apply (D g); auto. cbn. apply in_app_iff. auto.
  - apply IH; auto. { intros g Hg. apply D. cbn. apply in_app_iff. auto. } intros i' g Hi. apply R. right; auto.
Qed.
Lemma sane_data : forall l, names_of l = [] -> sane l.
Proof.
  induction l as [|i l IH]; intros H; cbn [sane]; auto. cbn in H. apply app_eq_nil in H. destruct H as [A B].
  unfold names_of in *. cbn [flat_map]. rewrite A, B. repeat split; auto.
Qed.

Section items.
  Context {V : Type} (J : interp V) (n d : nat).
  Hypothesis Hd : (d < n)%nat.
  Variables (x : list Z) (M : string -> list Z -> V).
  Hypothesis Lx : List.length x = n.
  Local Notation line k := (move d k (here n)).

  Lemma items_run : forall l s,
    (forall b k r r', In (Da b k r) l -> In (Da b k r') l -> r = r') ->
    (forall i b ix, In i l -> In (b, ix) (dsets (rhs_of i)) -> fst s b (vadd x ix) = M b (vadd x ix) /\
       forall k, puts l b k -> vadd x ix <> move d k x) ->
    sane l ->
    let s' := fold_left (exec1 J x) (map (tkeq n d) l) s in
    (forall g r, In (Lo g r) l -> snd s' g = at_point J M (snd s') x r) /\
    (forall b k r, In (Da b k r) l -> fst s' b (move d k x) = at_point J M (snd s') x r) /\
    (forall g, ~ In g (names_of l) -> snd s' g = snd s g) /\
    (forall b y, (forall k, puts l b k -> y <> move d k x) -> fst s' b y = fst s b y).
  Proof.
    induction l as [|i l IH]; intros s F Rd Sa; cbn [map fold_left]; [cbv zeta; cbn; split; [intros ? ? []|]; split; [intros ? ? ? []|]; split; auto|].
    destruct Sa as (S1 & S2 & S3).
    set (s1 := exec1 J x s (tkeq n d i)).
    assert (Hp : forall b k, puts l b k -> puts (i :: l) b k) by (intros b k [r Hr]; exists r; right; auto).
    assert (Frame1 : forall b y, (forall k, puts (i :: l) b k -> y <> move d k x) -> fst s1 b y = fst s b y).
    { intros b y H. unfold s1. destruct i as [g r|b0 k0 r]; cbn; auto. unfold upd. destruct (string_dec b0 b) as [<- | ]; auto.
      destruct (list_eq_dec Z.eq_dec _ y) as [E | ]; auto. exfalso. apply (H k0); [exists r; left; auto|].
      rewrite <- E. unfold here. rewrite vadd_along; auto. }
    destruct (IH s1) as (A & B & C & D).
    - intros b k r r' H H'. apply (F b k); right; auto.
    - intros i' b ix Hi Hb. destruct (Rd i' b ix) as [Q1 Q2]; [right; auto | auto|]. split; [|intros k Hk; apply Q2; auto].
      rewrite Frame1; auto.
    - exact S3.
    - clear IH. set (s' := fold_left (exec1 J x) (map (tkeq n d) l) s1) in *. cbv zeta.
      (* the value computed by the first statement, in terms of the final local variables *)
      assert (Val : at_point J (fst s) (snd s) x (rhs_of i) = at_point J M (snd s') x (rhs_of i)).
      { apply at_point_ext; [intros b ix Hb; destruct (Rd i b ix); auto; left; auto|].
        intros g Hg. specialize (S1 g Hg). cbn [names_of flat_map] in S1. rewrite in_app_iff in S1.
        rewrite C by (intros H; apply S1; auto). unfold s1. destruct i as [g0 r|b0 k0 r]; cbn; auto. unfold updl.
        destruct (string_dec g0 g) as [<- | ]; auto. exfalso. apply S1. left. cbn. auto. }
      repeat split.
      + intros g r [-> | H]; [|apply A; auto]. cbn [rhs_of] in Val. rewrite <- Val. rewrite C by (apply S2; cbn; auto).
        unfold s1. cbn. unfold updl. destruct (string_dec g g); congruence.
      + intros b k r [-> | H]; [|apply B; auto].
        assert (Dec : (exists r', In (Da b k r') l) \/ (forall k', puts l b k' -> move d k x <> move d k' x)).
        { assert (Cl : (exists r', In (Da b k r') l) \/ ~ exists r', In (Da b k r') l).
          { clear. induction l as [|j l IH]; [right; intros [r' []]|]. destruct IH as [[r' H] | N]; [left; exists r'; right; auto|].
            destruct j as [g r|b0 k0 r].
            - right. intros [r' [E | H]]; [discriminate|]. apply N. exists r'. auto.
            - destruct (string_dec b0 b) as [-> | Nb].
              + destruct (Z.eq_dec k0 k) as [-> | Nk]; [left; exists r; left; auto|].
                right. intros [r' [E | H]]; [congruence|]. apply N. exists r'. auto.
              + right. intros [r' [E | H]]; [congruence|]. apply N. exists r'. auto. }
          destruct Cl as [Y | N]; auto. right. intros k' [r' Hr'] E. apply move_inj in E; [|rewrite Lx; auto]. subst k'.
          apply N. exists r'. auto. }
        destruct Dec as [[r' Hr'] | N].
        * rewrite (F b k r r') by (first [left; reflexivity | right; exact Hr']). apply B; auto.
        * rewrite D by auto. cbn [rhs_of] in Val. rewrite <- Val. unfold s1. cbn. unfold upd. destruct (string_dec b b); [|congruence].
          unfold here. rewrite vadd_along by auto. destruct (list_eq_dec Z.eq_dec (move d k x) (move d k x)); congruence.
      + intros g Hg. cbn [names_of flat_map] in Hg. rewrite in_app_iff in Hg. rewrite C by (intros H; apply Hg; auto).
        unfold s1. destruct i as [g0 r|b0 k0 r]; cbn; auto. unfold updl. destruct (string_dec g0 g) as [<- | ]; auto. exfalso. apply Hg. left. cbn. auto.
      + intros b y H. rewrite D by (intros k Hk; apply H; auto). apply Frame1. auto.
  Qed.
End items.

Section face.
  Context {V : Type} (J : interp V) (np : list Z) (bh : halo_ranges) (d : nat) (side : bool).
  Local Notation n := (List.length np).
  Hypothesis Hd : (d < n)%nat.
  Variables (l : list item) (pts : list (list Z)) (M : string -> list Z -> V).
  Hypothesis Sw : sweeps pts (on_face np bh d side).
  Hypothesis Rd : forall i b ix, In i l -> In (b, ix) (dsets (rhs_of i)) ->
    List.length ix = n /\ ((exists k, ix = move d k (here n)) \/ ~ puts l b (nth d ix 0%Z)).

  Lemma items_targets : forall b k q, In q (map (tkeq n d) l) -> In (inl (b, move d k (here n))) (target q) -> puts l b k.
  Proof.
    intros b k q Hq Ht. apply in_map_iff in Hq. destruct Hq as ([g r|b0 k0 r] & <- & Hi); cbn in Ht; destruct Ht as [E | []]; [discriminate|].
    apply (f_equal (fun t => match t with inl p => p | inr _ => (b, [])  end)) in E. injection E as <- E.
    apply here_inj in E; auto. subst k0. exists r. auto.
  Qed.
  Lemma face_point : forall x b k, on_face np bh d side x ->
    run_kernel J (map (tkeq n d) l) pts M b (move d k x) = fst (run_point J (map (tkeq n d) l) M x) b (move d k x).
  Proof.
    intros x b k Hx. destruct Sw as [ND Sp].
    apply (plane_point J n d (map (tkeq n d) l) Hd) with (c := nth d x 0%Z); auto.
    - intros q b' ix Hq Ht. apply in_map_iff in Hq. destruct Hq as ([g r|b0 k0 r] & <- & Hi); cbn in Ht; destruct Ht as [E | []]; [discriminate|].
      injection E as <- <-. exists k0. reflexivity.
    - intros q b' ix Hq Hr. apply in_map_iff in Hq. destruct Hq as (i & <- & Hi).
      assert (Hb : In (b', ix) (dsets (rhs_of i))) by (destruct i; apply (in_reads_inl (ENum 0)) in Hr; auto).
      destruct (Rd i b' ix Hi Hb) as [Li [K | U]]; split; auto. right. intros q' Hq' Ht. apply U. apply (items_targets b' _ q'); auto.
    - apply Sp. auto.
    - intros y Hy. apply Sp in Hy. destruct Hy as (Ly & Yd & _), Hx as (_ & Xd & _). split; auto. congruence.
  Qed.
  Lemma face_outside : forall b y, (forall k x, puts l b k -> on_face np bh d side x -> y <> move d k x) ->
    run_kernel J (map (tkeq n d) l) pts M b y = M b y.
  Proof.
    intros b y H. destruct Sw as [ND Sp]. apply (plane_frame J n d).
    - intros q b' ix Hq Ht. apply in_map_iff in Hq. destruct Hq as ([g r|b0 k0 r] & <- & Hi); cbn in Ht; destruct Ht as [E | []]; [discriminate|].
      injection E as <- <-. exists k0. reflexivity.
    - intros p Hp. apply Sp in Hp. apply Hp.
    - intros q k x Hq Ht Hx. apply H; [apply (items_targets b k q); auto | apply Sp; auto].
  Qed.
End face.

(* one stage: nothing that is written is read *)
Lemma face_items : forall V (J : interp V) np bh d side l pts M, (d < List.length np)%nat -> sweeps pts (on_face np bh d side) ->
  (forall b k r r', In (Da b k r) l -> In (Da b k r') l -> r = r') ->
  (forall i b ix, In i l -> In (b, ix) (dsets (rhs_of i)) -> List.length ix = List.length np /\ ~ puts l b (nth d ix 0%Z)) ->
  sane l ->
  let M' := run_kernel J (map (tkeq (List.length np) d) l) pts M in
  (forall x, on_face np bh d side x -> exists L,
     (forall g r, In (Lo g r) l -> L g = at_point J M L x r) /\
     (forall b k r, In (Da b k r) l -> M' b (move d k x) = at_point J M L x r)) /\
  (forall b y, (forall k x, puts l b k -> on_face np bh d side x -> y <> move d k x) -> M' b y = M b y).
Proof.
  intros V J np bh d side l pts M Hd Sw F Rd Sa. cbv zeta.
  assert (Rd' : forall i b ix, In i l -> In (b, ix) (dsets (rhs_of i)) ->
    List.length ix = List.length np /\ ((exists k, ix = move d k (here (List.length np))) \/ ~ puts l b (nth d ix 0%Z))).
  { intros i b ix Hi Hb. destruct (Rd i b ix Hi Hb). auto. }
  split; [|intros; eapply face_outside; eauto].
  intros x Hx. assert (Lx : List.length x = List.length np) by apply Hx.
  destruct (items_run J (List.length np) d Hd x M Lx l (M, isym J KGridVar)) as (A & B & _); auto.
  { intros i b ix Hi Hb. cbn [fst]. split; auto. intros k Hk E. destruct (Rd i b ix Hi Hb) as [Li U]. apply U.
    apply (f_equal (fun y => nth d y 0%Z)) in E. rewrite vadd_nth, move_nth in E by (rewrite ?Lx; auto; congruence).
    replace (nth d ix 0%Z) with k by lia. auto. }
  eexists. split; [exact A|]. intros b k r Hr. rewrite (face_point J np bh d side Hd l pts M Sw Rd') by auto. apply B. auto.
Qed.

(* two stages: the second may read what the first has written *)
Lemma face_two : forall V (J : interp V) np bh d side l1 l2 pts M, (d < List.length np)%nat -> sweeps pts (on_face np bh d side) ->
  (forall b k r r', In (Da b k r) l1 -> In (Da b k r') l1 -> r = r') ->
  (forall b k r r', In (Da b k r) l2 -> In (Da b k r') l2 -> r = r') ->
  (forall i b ix, In i l1 -> In (b, ix) (dsets (rhs_of i)) -> List.length ix = List.length np /\ ~ puts l1 b (nth d ix 0%Z)) ->
  (forall i b ix, In i l2 -> In (b, ix) (dsets (rhs_of i)) -> List.length ix = List.length np /\ ~ puts l2 b (nth d ix 0%Z)) ->
  (forall i b ix, In i (l1 ++ l2) -> In (b, ix) (dsets (rhs_of i)) ->
     (exists k, ix = move d k (here (List.length np))) \/ ~ puts (l1 ++ l2) b (nth d ix 0%Z)) ->
  sane l1 -> sane l2 ->
  let M' := run_kernel J (map (tkeq (List.length np) d) (l1 ++ l2)) pts M in
  (forall x, on_face np bh d side x -> exists M1 L1 L2,
     (forall g r, In (Lo g r) l1 -> L1 g = at_point J M L1 x r) /\
     (forall b k r, In (Da b k r) l1 -> M1 b (move d k x) = at_point J M L1 x r) /\
     (forall b y, (forall k, puts l1 b k -> y <> move d k x) -> M1 b y = M b y) /\
     (forall g r, In (Lo g r) l2 -> L2 g = at_point J M1 L2 x r) /\
     (forall g, ~ In g (names_of l2) -> L2 g = L1 g) /\
     (forall b k r, In (Da b k r) l2 -> M' b (move d k x) = at_point J M1 L2 x r) /\
     (forall b k, ~ puts l2 b k -> M' b (move d k x) = M1 b (move d k x))) /\
  (forall b y, (forall k x, puts (l1 ++ l2) b k -> on_face np bh d side x -> y <> move d k x) -> M' b y = M b y).
Proof.
  intros V J np bh d side l1 l2 pts M Hd Sw F1 F2 R1 R2 R12 S1 S2. cbv zeta.
  assert (Rd' : forall i b ix, In i (l1 ++ l2) -> In (b, ix) (dsets (rhs_of i)) ->
    List.length ix = List.length np /\ ((exists k, ix = move d k (here (List.length np))) \/ ~ puts (l1 ++ l2) b (nth d ix 0%Z))).
  { intros i b ix Hi Hb. split; [|apply (R12 i); auto]. apply in_app_iff in Hi. destruct Hi as [Hi | Hi]; [apply (R1 i b ix Hi Hb) | apply (R2 i b ix Hi Hb)]. }
  split; [|intros; eapply face_outside; eauto].
  intros x Hx. assert (Lx : List.length x = List.length np) by apply Hx.
  assert (Un : forall l, (forall i b ix, In i l -> In (b, ix) (dsets (rhs_of i)) -> List.length ix = List.length np /\ ~ puts l b (nth d ix 0%Z)) ->
     forall i b ix, In i l -> In (b, ix) (dsets (rhs_of i)) -> forall k, puts l b k -> vadd x ix <> move d k x).
  { intros l Rl i b ix Hi Hb k Hk E. destruct (Rl i b ix Hi Hb) as [Li U]. apply U.
    apply (f_equal (fun y => nth d y 0%Z)) in E. rewrite vadd_nth, move_nth in E by (rewrite ?Lx; auto; congruence).
    replace (nth d ix 0%Z) with k by lia. auto. }
  destruct (items_run J (List.length np) d Hd x M Lx l1 (M, isym J KGridVar)) as (A1 & B1 & C1 & D1); auto.
  { intros i b ix Hi Hb. cbn [fst]. split; auto. apply (Un l1 R1 i); auto. }
  set (s1 := fold_left (exec1 J x) (map (tkeq (List.length np) d) l1) (M, isym J KGridVar)) in *.
  destruct (items_run J (List.length np) d Hd x (fst s1) Lx l2 s1) as (A2 & B2 & C2 & D2); auto.
  { intros i b ix Hi Hb. split; auto. apply (Un l2 R2 i); auto. }
  exists (fst s1), (snd s1), (snd (fold_left (exec1 J x) (map (tkeq (List.length np) d) l2) s1)).
  assert (P : forall b k, run_kernel J (map (tkeq (List.length np) d) (l1 ++ l2)) pts M b (move d k x) =
     fst (fold_left (exec1 J x) (map (tkeq (List.length np) d) l2) s1) b (move d k x)).
  { intros b k. rewrite (face_point J np bh d side Hd (l1 ++ l2) pts M Sw Rd') by auto. unfold run_point. rewrite map_app, fold_left_app. reflexivity. }
  split; [exact A1|]. split; [exact B1|]. split; [exact D1|]. split; [exact A2|]. split; [exact C2|]. split.
  - intros b k r Hr. rewrite P. apply B2. auto.
  - intros b k Hk. rewrite P. apply D2. intros k' Hk' E. apply move_inj in E; [|rewrite Lx; auto]. subst k'. auto.
Qed.

(* the arrays and local variables an expression reads *)
Definition uses (P : dset -> Prop) (Q : string -> Prop) (e : expr) : Prop :=
  (forall a, In a (dsets e) -> P a) /\ (forall g, In g (syms KGridVar e) -> Q g).
Lemma uses_app : forall P Q h args, (forall e, In e args -> uses P Q e) -> uses P Q (EApp h args).
Proof.
  intros P Q h args H. split.
  - intros a Ha. cbn in Ha. induction args as [|e args IH]; [destruct Ha|]. apply in_app_iff in Ha. destruct Ha as [Ha | Ha].
    + apply (H e); [left; auto | auto].
    + apply IH; auto. intros e' He. apply H. right; auto.
  - intros a Ha. cbn in Ha. induction args as [|e args IH]; [destruct Ha|]. apply in_app_iff in Ha. destruct Ha as [Ha | Ha].
    + apply (H e); [left; auto | auto].
    + apply IH; auto. intros e' He. apply H. right; auto.
Qed.
Lemma uses_num : forall P Q q, uses P Q (ENum q). Proof. split; intros a []. Qed.
Lemma uses_const : forall P Q s, uses P Q (econst s). Proof. split; intros a []. Qed.
Lemma uses_var : forall P (Q : string -> Prop) s, Q s -> uses P Q (evar s). Proof. split; [intros a []|]. intros g [<- | []]. auto. Qed.
Lemma uses_dat : forall (P : dset -> Prop) Q b ix, P (b, ix) -> uses P Q (EDat b ix). Proof. split; [|intros a []]. intros g [<- | []]. auto. Qed.
Lemma uses_weaken : forall (P P' : dset -> Prop) (Q Q' : string -> Prop) e, uses P Q e -> (forall a, P a -> P' a) -> (forall g, Q g -> Q' g) -> uses P' Q' e.
Proof. intros P P' Q Q' e [A B] HP HQ. split; auto. Qed.
Lemma forall_nil : forall (P : expr -> Prop) e, In e [] -> P e. Proof. intros P e []. Qed.
Lemma forall_cons : forall (P : expr -> Prop) a l, P a -> (forall e, In e l -> P e) -> forall e, In e (a :: l) -> P e.
Proof. intros P a l Ha Hl e [<- | H]; auto. Qed.
Ltac uses_args := match goal with
  | |- forall e, In e (_ :: _) -> _ => apply forall_cons; [|uses_args]
  | |- forall e, In e [] -> _ => apply forall_nil
  | |- _ => idtac end.
Ltac uses_tac := first
  [ assumption
  | apply uses_num | apply uses_const | apply uses_var | apply uses_dat
  | apply uses_app; uses_args ].
