From Verif Require Import Base Expr ExprProofs KernelModel ShiftModel ShiftSpec ShiftProofs AlgProofs BCModel BCSpec.
From Coq Require Import QArith ZArith Reals Qreals Lia Lra Permutation.
Local Close Scope Q_scope.

(* ---- values depend only on what is read ---- *)
Lemma at_point_ext : forall V (J : interp V) M M' L L' x e,
  (forall b ix, In (b, ix) (dsets e) -> M b (vadd x ix) = M' b (vadd x ix)) ->
  (forall g, In g (syms KGridVar e) -> L g = L' g) ->
  at_point J M L x e = at_point J M' L' x e.
Proof.
  intros V J M M' L L' x e. unfold at_point. induction e as [q|k s|b ix|h args IH] using expr_ind'; intros HM HL.
  - reflexivity.
  - cbn. destruct k; auto. apply HL. cbn. auto.
  - cbn. apply HM. cbn. auto.
  - cbn [eval]. change (iapp (with_locals J L')) with (iapp (with_locals J L)). f_equal. apply map_ext_in. intros a Ha. rewrite Forall_forall in IH. apply IH; auto.
    + intros b ix Hb. apply HM. rewrite dsets_app. apply in_flat_map. eauto.
    + intros g Hg. apply HL. rewrite syms_app. apply in_flat_map. eauto.
Qed.

(* ---- statements ---- *)
Definition loc := (dset + string)%type.
Definition target (q : keq) : list loc :=
  match q with
  | KEq (EDat b ix) _ => [inl (b, ix)]
  | KEq (ESym KGridVar g) _ => [inr g]
  | _ => []
  end.
Definition reads (q : keq) : list loc :=
  match q with
  | KEq _ r => map inl (dsets r) ++ map inr (syms KGridVar r)
  | _ => []
  end.
Definition holds {V} (J : interp V) (x : list Z) (s : (string -> list Z -> V) * (string -> V)) (q : keq) : Prop :=
  match q with
  | KEq (EDat b ix) r => fst s b (vadd x ix) = at_point J (fst s) (snd s) x r
  | KEq (ESym KGridVar g) r => snd s g = at_point J (fst s) (snd s) x r
  | _ => True
  end.
Definition all_on (n : nat) (qs : kernel_eqs) : Prop :=
  forall q b ix, In q qs -> In (inl (b, ix)) (target q ++ reads q) -> List.length ix = n.

Lemma vadd_inj : forall x a b, List.length a = List.length x -> List.length b = List.length x ->
  vadd x a = vadd x b -> a = b.
Proof.
  induction x as [|i x IH]; intros [|u a] [|v b] La Lb E; cbn in *; try lia; auto.
  injection E as E1 E2. f_equal; [lia | apply IH; lia || auto].
Qed.

Lemma upd_same : forall V (M : string -> list Z -> V) b x v, upd M b x v b x = v.
Proof. intros. unfold upd. destruct (string_dec b b); [|congruence]. destruct (list_eq_dec Z.eq_dec x x); congruence. Qed.
Lemma upd_other : forall V (M : string -> list Z -> V) b x v b' y, b <> b' \/ x <> y -> upd M b x v b' y = M b' y.
Proof. intros. unfold upd. destruct (string_dec b b'); auto. destruct (list_eq_dec Z.eq_dec x y); auto. tauto. Qed.
Lemma updl_same : forall V (L : string -> V) g v, updl L g v g = v.
Proof. intros. unfold updl. destruct (string_dec g g); congruence. Qed.
Lemma updl_other : forall V (L : string -> V) g v g', g <> g' -> updl L g v g' = L g'.
Proof. intros. unfold updl. destruct (string_dec g g'); congruence. Qed.

(* the state agrees outside the target *)
Lemma exec1_frame_data : forall V (J : interp V) x s q b y,
  (forall ix, In (inl (b, ix)) (target q) -> vadd x ix <> y) -> fst (exec1 J x s q) b y = fst s b y.
Proof.
  intros V J x s q b y H. destruct q as [l r|bs]; [|reflexivity]. destruct l as [z|k g|b0 ix|h args]; try reflexivity.
  - destruct k; reflexivity.
  - cbn. apply upd_other. destruct (string_dec b0 b) as [-> | N]; auto. right. apply H. cbn. auto.
Qed.
Lemma exec1_frame_local : forall V (J : interp V) x s q g,
  ~ In (inr g) (target q) -> snd (exec1 J x s q) g = snd s g.
Proof.
  intros V J x s q g H. destruct q as [l r|bs]; [|reflexivity]. destruct l as [z|k g0|b0 ix|h args]; try reflexivity.
  destruct k; try reflexivity. cbn. apply updl_other. intros ->. apply H. cbn. auto.
Qed.

Lemma at_point_frame : forall V (J : interp V) n x s q r,
  List.length x = n -> all_on n [q] ->
  (forall b ix, In (b, ix) (dsets r) -> List.length ix = n) ->
  (forall t, In t (target q) -> ~ In t (map inl (dsets r) ++ map inr (syms KGridVar r))) ->
  at_point J (fst (exec1 J x s q)) (snd (exec1 J x s q)) x r = at_point J (fst s) (snd s) x r.
Proof.
  intros V J n x s q r Lx On Lr H. apply at_point_ext.
  - intros b ix Hb. apply exec1_frame_data. intros ix' Ht E.
    apply vadd_inj in E.
    + subst ix'. apply (H _ Ht). apply in_app_iff. left. apply in_map_iff. eauto.
    + rewrite Lx. apply (On q b ix'); [left; auto|]. apply in_app_iff. auto.
    + rewrite Lx. eapply Lr; eauto.
  - intros g Hg. apply exec1_frame_local. intros Ht. apply (H _ Ht). apply in_app_iff. right. apply in_map_iff. eauto.
Qed.

Lemma holds_frame : forall V (J : interp V) n x s q q',
  List.length x = n -> all_on n [q; q'] ->
  (forall t, In t (target q) -> ~ In t (target q') /\ ~ In t (reads q')) ->
  holds J x s q' -> holds J x (exec1 J x s q) q'.
Proof.
  intros V J n x s q q' Lx On H Hh.
  assert (On1 : all_on n [q]) by (intros a b ix [<- | []] Hb; apply (On q b ix); [left; auto | auto]).
  destruct q' as [l r|bs]; [|exact I]. destruct l as [z|k g|b ix|h args]; try exact I.
  - destruct k; try exact I. cbn [holds] in *.
    rewrite (at_point_frame V J n); auto.
    + rewrite exec1_frame_local; auto. intros Ht. destruct (H _ Ht) as [A _]. apply A. cbn. auto.
    + intros b ix Hb. apply (On (KEq (ESym KGridVar g) r) b ix); [right; left; auto|].
      apply in_app_iff. right. apply in_app_iff. left. apply in_map_iff. eauto.
    + intros t Ht. apply (H _ Ht).
  - cbn [holds] in *. rewrite (at_point_frame V J n); auto.
    + rewrite exec1_frame_data; auto. intros ix' Ht E. destruct (H _ Ht) as [A _]. apply A.
      apply vadd_inj in E; [subst; cbn; auto | |].
      * rewrite Lx. apply (On q b ix'); [left; auto|]. apply in_app_iff; auto.
      * rewrite Lx. apply (On (KEq (EDat b ix) r) b ix); [right; left; auto|]. apply in_app_iff. left. cbn. auto.
    + intros b' ix' Hb. apply (On (KEq (EDat b ix) r) b' ix'); [right; left; auto|].
      apply in_app_iff. right. apply in_app_iff. left. apply in_map_iff. eauto.
    + intros t Ht. apply (H _ Ht).
Qed.

Lemma holds_self : forall V (J : interp V) n x s q,
  List.length x = n -> all_on n [q] -> (forall t, In t (target q) -> ~ In t (reads q)) ->
  holds J x (exec1 J x s q) q.
Proof.
  intros V J n x s q Lx On H. destruct q as [l r|bs]; [|exact I]. destruct l as [z|k g|b ix|h args]; try exact I.
  - destruct k; try exact I. cbn [holds].
    rewrite (at_point_frame V J n); auto.
    + cbn. apply updl_same.
    + intros b ix Hb. apply (On (KEq (ESym KGridVar g) r) b ix); [left; auto|].
      apply in_app_iff. right. apply in_app_iff. left. apply in_map_iff. eauto.
  - cbn [holds]. rewrite (at_point_frame V J n); auto.
    + cbn. apply upd_same.
    + intros b' ix' Hb. apply (On (KEq (EDat b ix) r) b' ix'); [left; auto|].
      apply in_app_iff. right. apply in_app_iff. left. apply in_map_iff. eauto.
Qed.

(* executing a statement that holds changes nothing *)
Lemma exec1_again_data : forall V (J : interp V) x s q, holds J x s q ->
  forall b y, fst (exec1 J x s q) b y = fst s b y.
Proof.
  intros V J x s q H b y. destruct q as [l r|bs]; [|reflexivity]. destruct l as [z|k g|b0 ix|h args]; try reflexivity.
  - destruct k; reflexivity.
  - cbn in *. unfold upd. destruct (string_dec b0 b) as [-> | ]; auto.
    destruct (list_eq_dec Z.eq_dec (vadd x ix) y) as [<- | ]; auto.
Qed.
Lemma exec1_again_local : forall V (J : interp V) x s q, holds J x s q ->
  forall g, snd (exec1 J x s q) g = snd s g.
Proof.
  intros V J x s q H g. destruct q as [l r|bs]; [|reflexivity]. destruct l as [z|k g0|b0 ix|h args]; try reflexivity.
  destruct k; try reflexivity. cbn in *. unfold updl. destruct (string_dec g0 g) as [<- | ]; auto.
Qed.
Lemma holds_ext : forall V (J : interp V) x s s' q, (forall b y, fst s b y = fst s' b y) -> (forall g, snd s g = snd s' g) ->
  holds J x s q -> holds J x s' q.
Proof.
  intros V J x s s' q HM HL H. destruct q as [l r|bs]; [|exact I]. destruct l as [z|k g|b ix|h args]; try exact I.
  - destruct k; try exact I. cbn in *. rewrite <- HL, H. apply at_point_ext; auto.
  - cbn in *. rewrite <- HM, H. apply at_point_ext; auto.
Qed.

(* ---- single assignment ---- *)
Definition fresh (done : kernel_eqs) (q : keq) : Prop :=
  In q done \/ forall t, In t (target q) -> ~ In t (reads q) /\
    forall q', In q' done -> ~ In t (target q') /\ ~ In t (reads q').
Fixpoint ordered (done qs : kernel_eqs) : Prop :=
  match qs with [] => True | q :: qs => fresh done q /\ ordered (done ++ [q]) qs end.

Lemma ordered_app : forall l1 done l2, ordered done (l1 ++ l2) <-> ordered done l1 /\ ordered (done ++ l1) l2.
Proof.
  induction l1 as [|q l1 IH]; intros done l2; cbn [ordered app].
  - rewrite app_nil_r. tauto.
  - rewrite IH, <- app_assoc. cbn. tauto.
Qed.

Lemma run_holds_from : forall V (J : interp V) n x, List.length x = n ->
  forall qs done s, all_on n (done ++ qs) -> ordered done qs -> (forall q, In q done -> holds J x s q) ->
  forall q, In q (done ++ qs) -> holds J x (fold_left (exec1 J x) qs s) q.
Proof.
  intros V J n x Lx. induction qs as [|q qs IH]; intros done s On Or H q0 H0; cbn [fold_left].
  - rewrite app_nil_r in H0. auto.
  - cbn [ordered] in Or. destruct Or as [F Or].
    apply (IH (done ++ [q])).
    + rewrite <- app_assoc. exact On.
    + exact Or.
    + assert (Sub : forall a c, In a (done ++ q :: qs) -> In c (done ++ q :: qs) -> all_on n [a; c]).
      { intros a c Ha Hc q1 b ix [<- | [<- | []]] Hb; [apply (On a b ix) | apply (On c b ix)]; auto. }
      assert (Hq : In q (done ++ q :: qs)) by (apply in_app_iff; right; left; auto).
      intros q' Hq'. destruct F as [F | F].
      * assert (Hh : holds J x s q) by auto.
        assert (Hs : holds J x s q') by (apply in_app_iff in Hq'; destruct Hq' as [?|[<- | []]]; auto).
        eapply holds_ext; [| |exact Hs]; intros; symmetry; [apply exec1_again_data | apply exec1_again_local]; auto.
      * apply in_app_iff in Hq'. destruct Hq' as [Hq' | [<- | []]].
        -- apply (holds_frame V J n); auto.
           ++ apply Sub; auto. apply in_app_iff; auto.
           ++ intros t Ht. apply (F t Ht). auto.
        -- apply (holds_self V J n); auto.
           ++ intros q1 b ix [<- | []] Hb; apply (On q b ix); auto.
           ++ intros t Ht. exact (proj1 (F t Ht)).
    + rewrite <- app_assoc. exact H0.
Qed.
Lemma run_holds : forall V (J : interp V) n x qs M, List.length x = n -> all_on n qs -> ordered [] qs ->
  forall q, In q qs -> holds J x (run_point J qs M x) q.
Proof. intros. unfold run_point. apply (run_holds_from V J n x H qs []); auto. intros ? []. Qed.

Lemma run_frame : forall V (J : interp V) x qs s b y,
  (forall q ix, In q qs -> In (inl (b, ix)) (target q) -> vadd x ix <> y) ->
  fst (fold_left (exec1 J x) qs s) b y = fst s b y.
Proof.
  intros V J x. induction qs as [|q qs IH]; intros s b y H; cbn [fold_left]; auto.
  rewrite IH by (intros; eapply H; eauto; right; auto). apply exec1_frame_data. intros. eapply H; eauto. left; auto.
Qed.

(* statements without conflict *)
Lemma ordered_disjoint : forall qs done,
  NoDup (flat_map target (done ++ qs)) ->
  (forall q q' t, In q (done ++ qs) -> In q' (done ++ qs) -> In t (target q) -> ~ In t (reads q')) ->
  ordered done qs.
Proof.
  induction qs as [|q qs IH]; intros done ND D; cbn [ordered]; auto.
  assert (Hq : In q (done ++ q :: qs)) by (apply in_app_iff; right; left; auto).
  split.
  - right. intros t Ht. split; [apply (D q q); auto|]. intros q' Hq'. split.
    + intros Ht'. rewrite flat_map_app in ND. cbn [flat_map] in ND.
      assert (A : forall l1 l2 : list loc, NoDup (l1 ++ l2) -> forall z, In z l1 -> ~ In z l2).
      { clear. induction l1 as [|a l1 IH]; intros l2 H z []; cbn in H; apply NoDup_cons_iff in H; destruct H as [N H].
        - subst. intro. apply N, in_app_iff. auto.
        - eapply IH; eauto. }
      apply (A _ _ ND t); [apply in_flat_map; eauto | apply in_app_iff; auto].
    + apply (D q q'); auto. apply in_app_iff. auto.
  - apply IH; rewrite <- app_assoc; auto.
Qed.

(* ---- kernels whose accesses lie along one direction ---- *)
Definition along (n d : nat) (qs : kernel_eqs) : Prop :=
  forall q b ix, In q qs -> In (inl (b, ix)) (target q ++ reads q) -> exists k, ix = move d k (repeat 0%Z n).
Lemma along_all_on : forall n d qs, along n d qs -> all_on n qs.
Proof. intros n d qs H q b ix Hq Hb. destruct (H q b ix Hq Hb) as [k ->]. rewrite move_length, repeat_length. auto. Qed.
Lemma vadd_here : forall n x, List.length x = n -> vadd x (repeat 0%Z n) = x.
Proof. induction n; intros [|i x] H; cbn in *; try lia; auto. f_equal; [lia | apply IHn; lia]. Qed.
Lemma vadd_along : forall n d k x, List.length x = n -> vadd x (move d k (repeat 0%Z n)) = move d k x.
Proof. intros. rewrite <- vadd_move. apply vadd_here. rewrite move_length. auto. Qed.
Lemma move_nth : forall d k x, (d < List.length x)%nat -> nth d (move d k x) 0%Z = (nth d x 0 + k)%Z.
Proof. induction d; intros k [|i x] H; cbn in *; try lia. apply IHd. lia. Qed.
Lemma move_nth_other : forall d k x i, i <> d -> nth i (move d k x) 0%Z = nth i x 0%Z.
Proof. induction d; intros k [|j x] [|i] H; cbn; auto; try congruence. Qed.
Lemma nth_ext0 : forall x y : list Z, List.length x = List.length y -> (forall i, (i < List.length x)%nat -> nth i x 0%Z = nth i y 0%Z) -> x = y.
Proof. intros x y L H. apply (nth_ext x y 0%Z 0%Z); auto. Qed.
Lemma lines_disjoint : forall d j k x y, (d < List.length x)%nat -> List.length x = List.length y ->
  nth d x 0%Z = nth d y 0%Z -> move d j x = move d k y -> x = y.
Proof.
  intros d j k x y Hd L E H. apply nth_ext0; auto. intros i Hi.
  destruct (Nat.eq_dec i d) as [-> | N]; auto.
  rewrite <- (move_nth_other d j x i N), <- (move_nth_other d k y i N), H. reflexivity.
Qed.

Section plane.
  Context {V : Type} (J : interp V) (n d : nat) (qs : kernel_eqs).
  Hypothesis Hd : (d < n)%nat.
  Hypothesis Al : along n d qs.
  Variable c : Z.

  Lemma run_point_line : forall x, List.length x = n ->
    forall l s s', (forall q, In q l -> In q qs) ->
    (forall b k, fst s b (move d k x) = fst s' b (move d k x)) -> (forall g, snd s g = snd s' g) ->
    (forall b k, fst (fold_left (exec1 J x) l s) b (move d k x) = fst (fold_left (exec1 J x) l s') b (move d k x)) /\
    (forall g, snd (fold_left (exec1 J x) l s) g = snd (fold_left (exec1 J x) l s') g).
  Proof.
    intros x Lx. induction l as [|q l IH]; intros s s' Hl HM HL; cbn [fold_left]; auto.
    assert (Hv : forall r, (forall b ix, In (b, ix) (dsets r) -> exists k, ix = move d k (repeat 0%Z n)) ->
       at_point J (fst s) (snd s) x r = at_point J (fst s') (snd s') x r).
    { intros r Hr. apply at_point_ext; auto. intros b ix Hb. destruct (Hr b ix Hb) as [k ->].
      rewrite vadd_along; auto. }
    assert (Hq : In q qs) by (apply Hl; left; auto).
    apply IH; [intros; apply Hl; right; auto| |].
    - intros b k. destruct q as [l0 r|bs]; [|apply HM]. destruct l0 as [z|kd g|b0 ix|h args]; try apply HM.
      + destruct kd; apply HM.
      + cbn. rewrite (Hv r).
        * unfold upd. destruct (string_dec b0 b); auto. destruct (list_eq_dec Z.eq_dec (vadd x ix) (move d k x)); auto.
        * intros b' ix' Hb. apply (Al (KEq (EDat b0 ix) r) b' ix'); auto. apply in_app_iff. right. apply in_app_iff. left. apply in_map_iff. eauto.
    - intros g. destruct q as [l0 r|bs]; [|apply HL]. destruct l0 as [z|kd g0|b0 ix|h args]; try apply HL.
      destruct kd; try apply HL. cbn. rewrite (Hv r).
      + unfold updl. destruct (string_dec g0 g); auto.
      + intros b' ix' Hb. apply (Al (KEq (ESym KGridVar g0) r) b' ix'); auto. apply in_app_iff. right. apply in_app_iff. left. apply in_map_iff. eauto.
  Qed.

  Lemma run_point_other : forall x y M b k, List.length x = n -> List.length y = n ->
    nth d x 0%Z = c -> nth d y 0%Z = c -> x <> y ->
    fst (run_point J qs M y) b (move d k x) = M b (move d k x).
  Proof.
    intros x y M b k Lx Ly Hx Hy N. unfold run_point. rewrite run_frame; auto.
    intros q ix Hq Ht E. destruct (Al q b ix Hq) as [j ->]; [apply in_app_iff; auto|].
    rewrite vadd_along in E by auto. apply N. symmetry. apply (lines_disjoint d j k); auto; try congruence; rewrite Ly; auto.
  Qed.

  Lemma run_others : forall pts x M b k, (forall y, In y pts -> List.length y = n /\ nth d y 0%Z = c /\ x <> y) ->
    List.length x = n -> nth d x 0%Z = c ->
    run_kernel J qs pts M b (move d k x) = M b (move d k x).
  Proof.
    induction pts as [|y pts IH]; intros x M b k H Lx Hx; cbn; auto.
    unfold run_kernel in IH. rewrite IH; auto.
    - destruct (H y) as (A & B & C); [left; auto|]. apply run_point_other; auto.
    - intros; apply H; right; auto.
  Qed.

  Lemma run_kernel_line : forall pts M x, NoDup pts -> In x pts ->
    (forall y, In y pts -> List.length y = n /\ nth d y 0%Z = c) ->
    forall b k, run_kernel J qs pts M b (move d k x) = fst (run_point J qs M x) b (move d k x).
  Proof.
    intros pts M x ND Hx H b k. apply in_split in Hx. destruct Hx as (l1 & l2 & ->).
    unfold run_kernel. rewrite fold_left_app. cbn [fold_left].
    assert (Hx : List.length x = n /\ nth d x 0%Z = c) by (apply H, in_app_iff; right; left; auto).
    apply NoDup_remove in ND. destruct ND as [ND Nx].
    change (fold_left (fun M x => fst (run_point J qs M x)) l2 ?a) with (run_kernel J qs l2 a).
    change (fold_left (fun M x => fst (run_point J qs M x)) l1 M) with (run_kernel J qs l1 M).
    rewrite run_others; try tauto.
    - apply (run_point_line x); try tauto; auto. intros b' k'. cbn. apply run_others; try tauto.
      intros y Hy. destruct (H y) as [A B]; [apply in_app_iff; auto|]. repeat split; auto.
      intros ->. apply Nx, in_app_iff. auto.
    - intros y Hy. destruct (H y) as [A B]; [apply in_app_iff; right; right; auto|]. repeat split; auto.
      intros ->. apply Nx, in_app_iff. auto.
  Qed.

  (* after the sweep every statement holds at every point of the plane *)
  Lemma plane_holds : forall pts M x, NoDup pts -> In x pts ->
    (forall y, In y pts -> List.length y = n /\ nth d y 0%Z = c) -> ordered [] qs ->
    exists L, forall q, In q qs -> holds J x (run_kernel J qs pts M, L) q.
  Proof.
    intros pts M x ND Hx H Or. exists (snd (run_point J qs M x)). intros q Hq.
    destruct (H x Hx) as [Lx _].
    pose proof (run_holds V J n x qs M Lx (along_all_on n d qs Al) Or q Hq) as Hh.
    assert (Hv : forall r, (forall b ix, In (b, ix) (dsets r) -> exists k, ix = move d k (repeat 0%Z n)) ->
       at_point J (run_kernel J qs pts M) (snd (run_point J qs M x)) x r =
       at_point J (fst (run_point J qs M x)) (snd (run_point J qs M x)) x r).
    { intros r Hr. apply at_point_ext; auto. intros b ix Hb. destruct (Hr b ix Hb) as [k ->].
      rewrite vadd_along; auto. apply run_kernel_line; auto. }
    destruct q as [l r|bs]; [|exact I]. destruct l as [z|kd g|b ix|h args]; try exact I.
    - destruct kd; try exact I. cbn [holds fst snd] in *. rewrite Hv; auto.
      intros b ix Hb. apply (Al (KEq (ESym KGridVar g) r) b ix); auto. apply in_app_iff. right. apply in_app_iff. left. apply in_map_iff. eauto.
    - cbn [holds fst snd] in *. rewrite Hv.
      + destruct (Al (KEq (EDat b ix) r) b ix) as [k ->]; auto; [apply in_app_iff; left; cbn; auto|].
        rewrite vadd_along in * by auto. rewrite run_kernel_line; auto.
      + intros b' ix' Hb. apply (Al (KEq (EDat b ix) r) b' ix'); auto. apply in_app_iff. right. apply in_app_iff. left. apply in_map_iff. eauto.
  Qed.

  Lemma plane_frame : forall pts M b y,
    (forall x q ix, In x pts -> In q qs -> In (inl (b, ix)) (target q) -> vadd x ix <> y) ->
    run_kernel J qs pts M b y = M b y.
  Proof.
    induction pts as [|x pts IH]; intros M b y H; cbn; auto.
    unfold run_kernel in IH. rewrite IH by (intros; eapply H; eauto; right; auto).
    unfold run_point. rewrite run_frame; auto. intros. eapply H; eauto. left; auto.
  Qed.
End plane.
