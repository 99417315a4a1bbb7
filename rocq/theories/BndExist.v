(* The boundary values and the semi-discrete system of C78 exist. *)
From Verif Require Import Base Expr KernelModel ExprProofs WorkModel ShiftSpec DiscModel DiscSpec DiscProofs DiscRun DiscMain DiscProps ProgModel ProgSpec ProgProofs ProgProps.
From Verif Require Import BCModel BCSpec BndModel BndSpec BndKern.
From Verif Require AdvSpec AdvProofs InvProofs.
From Coq Require Import ZArith Reals Lia Permutation.
Local Open Scope list_scope.

Lemma nodup_app : forall (A : Type) (l l' : list A), NoDup l -> NoDup l' -> (forall x, In x l -> ~ In x l') -> NoDup (l ++ l').
Proof.
  intros A l l' H H' D. induction H as [|x l N H IH]; auto. cbn. constructor.
  - rewrite in_app_iff. intros [C | C]; auto. apply (D x); [left|]; auto.
  - apply IH. intros y Hy. apply D. right. auto.
Qed.
(* ---- every kernel can be swept ---- *)
Definition span (lo hi : Z) : list Z := map (fun i => (lo + Z.of_nat i)%Z) (seq 0 (Z.to_nat (hi - lo))).
Fixpoint box (r : list (Z * Z)) : list (list Z) :=
  match r with [] => [[]] | (lo, hi) :: r => flat_map (fun i => map (cons i) (box r)) (span lo hi) end.
Lemma span_in : forall lo hi i, In i (span lo hi) <-> (lo <= i < hi)%Z.
Proof.
  intros lo hi i. unfold span. rewrite in_map_iff. split.
  - intros (j & <- & Hj). apply in_seq in Hj. lia.
  - intros H. exists (Z.to_nat (i - lo)). rewrite in_seq. lia.
Qed.
Lemma span_nodup : forall lo hi, NoDup (span lo hi).
Proof. intros. unfold span. apply FinFun.Injective_map_NoDup; [intros a b; lia | apply seq_NoDup]. Qed.
Lemma box_in : forall r x, In x (box r) <->
  (List.length x =? List.length r)%nat && forallb (fun p => let '(i, (lo, hi)) := p in ((lo <=? i) && (i <? hi))%Z) (combine x r) = true.
Proof.
  induction r as [|[lo hi] r IH]; intros x.
  - cbn. destruct x; cbn; split; intros H; auto; [destruct H; [discriminate | tauto] | discriminate].
  - cbn [box]. rewrite in_flat_map. destruct x as [|i x].
    + split; [|discriminate]. intros (j & _ & H). apply in_map_iff in H. destruct H as (y & E & _). discriminate.
    + cbn [List.length combine forallb]. change (Datatypes.S (List.length x) =? Datatypes.S (List.length r))%nat with (List.length x =? List.length r)%nat.
      specialize (IH x). rewrite andb_true_iff in IH. rewrite !andb_true_iff, Z.leb_le, Z.ltb_lt. split.
      * intros (j & Hj & H). apply in_map_iff in H. destruct H as (y & E & Hy). injection E as -> ->. apply span_in in Hj. tauto.
      * intros (A & B & C). exists i. rewrite span_in, in_map_iff. split; auto. exists x. tauto.
Qed.
Lemma box_nodup : forall r, NoDup (box r).
Proof.
  induction r as [|[lo hi] r IH]; [repeat constructor; auto|]. cbn [box]. generalize (span_nodup lo hi). induction (span lo hi) as [|i l IHl]; intros N; [constructor|].
  inversion N; subst. cbn [flat_map]. apply nodup_app; auto.
  - apply FinFun.Injective_map_NoDup; auto. intros a b E. injection E as ->. auto.
  - intros x Hx Hf. apply in_map_iff in Hx. destruct Hx as (y & <- & _). apply in_flat_map in Hf. destruct Hf as (j & Hj & Hy).
    apply in_map_iff in Hy. destruct Hy as (z & E & _). injection E as -> _. auto.
Qed.
Definition sweep (bk : bkernel) : list (list Z) := box (total_range (bk_ranges bk) (bk_halos bk)).
Lemma sweep_ok : all_points sweep.
Proof. intros bk. split; [apply box_nodup|]. intros x. unfold sweep. rewrite box_in. reflexivity. Qed.

Section exist.
Variables (J : interp R) (k : nat) (sizes : list Z) (fs : list field) (types : list (boundary * boundary)) (usable : string -> Prop).
Hypothesis HR : reals J.
Hypothesis Bd : boundaries k sizes fs types usable.
Hypothesis Hus : forall b, usable b -> ~ In b (field_names fs).
Variable ord : order_of.
Hypothesis Hord : good_order ord.
Definition spread (S : memory) (u : solution) : memory := fun b x => if in_dec string_dec b (field_names fs) then u (b, x) else S b x.
(* the values made by the kernels themselves *)
Definition continuation (S : memory) (u : solution) : memory :=
  match apply_boundary_conditions ord sizes (block_halos k (List.length sizes)) (arrays_of (List.length sizes) fs) 0 types with
  | Ok ks => run_all J k sizes 0%R ([], []) sweep None ks (spread S u)
  | Err _ => S
  end.
Lemma continuation_ok : forall S u, normals J k sizes types S -> continues J k sizes fs types S u (continuation S u).
Proof.
  intros S u Hn. unfold continuation.
  destruct (kernels_ok J ord k sizes fs types S usable 0%R ([], []) sweep HR Hord Bd Hus sweep_ok Hn) as (ks & -> & X).
  destruct (X None (spread S u)) as [[A B] _].
  - intros b y Hb. unfold spread. destruct (in_dec string_dec b (field_names fs)) as [I|]; auto. exfalso. eapply Hus; eauto.
  - constructor; auto. intros v x Hv Hx. rewrite (A v x Hv Hx). cbn [fst snd]. unfold spread. destruct (in_dec string_dec v (field_names fs)); tauto.
Qed.
End exist.

Section system.
Variables (J : interp R) (k : nat) (dirof : string -> nat) (h : nat -> R) (sizes : list Z) (fs : list field) (types : list (boundary * boundary))
  (register : string -> string) (sys crs : list (string * expr)) (known : list string).
Notation given := (given register sys crs).
Hypothesis PP : periodic_problem (List.length sizes) dirof register sys crs known.
Variable rank : string -> nat.
Hypothesis Hrank : forall b e c ix, In (b, e) crs -> In (c, ix) (dsets e) -> In c (map fst crs) -> (rank c < rank b)%nat.
Notation rel_some := (relation_some dirof sizes sys crs known register PP).
Notation rel_none := (relation_none dirof sizes sys crs known register PP).

Fixpoint closure (B : memory) (n : nat) (b : string) (x : list Z) : R :=
  match ProgModel.relation crs b with
  | Some e => match n with O => 0%R | Datatypes.S n => value J (closure B n) x e end
  | None => B b x
  end.
Lemma closure_other : forall B n b x, ~ In b (map fst crs) -> closure B n b x = B b x.
Proof. intros B n b x H. apply rel_none in H. destruct n; cbn [closure]; rewrite H; auto. Qed.
Lemma closure_enough : forall B n m b x, (rank b < n)%nat -> (rank b < m)%nat -> closure B n b x = closure B m b x.
Proof.
  intros B. induction n as [|n IH]; intros [|m] b x Hn Hm; try lia. cbn [closure].
  destruct (ProgModel.relation crs b) as [e|] eqn:E; auto. apply rel_some in E.
  unfold value. apply eval_ext. intros c ix Hc. destruct (in_dec string_dec c (map fst crs)) as [I | N].
  - specialize (Hrank b e c ix E Hc I). apply IH; lia.
  - rewrite !closure_other; auto.
Qed.
Definition closed (B : memory) : memory := fun b x => closure B (Datatypes.S (rank b)) b x.
Lemma closed_relation : forall B b e x, In (b, e) crs -> closed B b x = value J (closed B) x e.
Proof.
  intros B b e x He. unfold closed at 1. cbn [closure]. rewrite (proj2 (rel_some b e) He).
  unfold value. apply eval_ext. intros c ix Hc. destruct (in_dec string_dec c (map fst crs)) as [I | N].
  - pose proof (Hrank b e c ix He Hc I). apply closure_enough; lia.
  - unfold closed. rewrite !closure_other; auto.
Qed.
Definition joined (S E : memory) : memory := fun b x => if in_dec string_dec b (map fst sys) then E b x else S b x.
Lemma closed_fields : forall S E, bounded_fields J k sizes sys crs S E (closed (joined S E)).
Proof.
  intros S E. constructor.
  - intros b x Hb _. unfold closed. rewrite closure_other; [unfold joined; destruct (in_dec string_dec b (map fst sys)); tauto|].
    intros C. apply (proj1 (proj2 (pp_names _ _ _ _ _ _ PP b C)) Hb).
  - intros b e x He _. apply closed_relation. auto.
  - intros b x N1 N2. unfold closed. rewrite closure_other by auto. unfold joined. destruct (in_dec string_dec b (map fst sys)); tauto.
Qed.
Lemma rhs_reads : forall v rhs b ix, In (v, rhs) sys -> In (b, ix) (dsets rhs) ->
  ix = repeat 0%Z (List.length sizes) /\ (In b (map fst sys) \/ In b (map fst crs) \/ given b).
Proof.
  intros v rhs b ix Hin Hb. destruct (in_disc sys v rhs Hin) as (r & Hr).
  destruct (wf_arrays _ _ _ _ (pp_form _ _ _ _ _ _ PP) r rhs b ix Hr Hb) as (E & N1 & N2). split; auto.
  unfold BndSpec.given. destruct (in_dec string_dec b (map fst sys)); [auto|]. destruct (in_dec string_dec b (map fst crs)); auto 10.
Qed.
Lemma relation_reads : forall b e c ix, In (b, e) crs -> In (c, ix) (dsets e) ->
  ix = repeat 0%Z (List.length sizes) /\ (In c (map fst sys) \/ In c (map fst crs) \/ given c).
Proof.
  intros b e c ix Hin Hc. destruct (pp_local _ _ _ _ _ _ PP b e c ix Hin Hc) as (E & N1 & N2). split; auto.
  unfold BndSpec.given. destruct (in_dec string_dec c (map fst sys)); [auto|]. destruct (in_dec string_dec c (map fst crs)); auto 10.
Qed.
Lemma sys_nodup : NoDup (map fst sys).
Proof. pose proof (pp_arrays _ _ _ _ _ _ PP) as H. unfold AdvSpec.distinct_arrays in H. rewrite advanced_eq in H. apply AdvProofs.NoDup_app_remove_r in H. exact H. Qed.
Definition slope (F : memory) : solution := fun i =>
  match find (fun p => String.eqb (fst i) (fst p)) sys with Some p => sem J k dirof h F (snd p) (snd i) | None => 0%R end.
Lemma slope_value : forall F v rhs x, In (v, rhs) sys -> slope F (v, x) = sem J k dirof h F rhs x.
Proof.
  intros F v rhs x Hin. unfold slope. cbn [fst snd]. pose proof sys_nodup as ND.
  assert (E : find (fun p : string * expr => String.eqb v (fst p)) sys = Some (v, rhs)); [|rewrite E; auto].
  clear - ND Hin. induction sys as [|(w, e) l IH]; [destruct Hin|]. cbn [find fst]. inversion ND; subst. destruct Hin as [E | Hin].
  - injection E as -> ->. rewrite String.eqb_refl. auto.
  - destruct (String.eqb_spec v w) as [-> | N]; auto. exfalso. apply H1. eapply ProgProofs.named; eauto.
Qed.

(* ---- a change of arrays that do not matter ---- *)
Lemma system_same : forall S1 S2 f, (forall b x, given b -> S1 b x = S2 b x) -> boundaries k sizes fs types given ->
  bounded_system J k dirof h sizes fs types sys crs S1 f -> bounded_system J k dirof h sizes fs types sys crs S2 f.
Proof.
  intros S1 S2 f HS Bd Hf u. destruct (Hf u) as (E & F & [C1 C2] & [F1 F2 F3] & V).
  set (G := fun b x => if in_dec string_dec b (map fst sys ++ map fst crs) then F b x else S2 b x).
  assert (GF : forall b x, In b (map fst sys) \/ In b (map fst crs) \/ given b -> G b x = F b x).
  { intros b x H. unfold G. destruct (in_dec string_dec b (map fst sys ++ map fst crs)) as [|N]; auto.
    rewrite in_app_iff in N. destruct H as [H | [H | H]]; [tauto | tauto|]. rewrite F3 by tauto. symmetry. auto. }
  exists E, G. split; [|split].
  - constructor; auto. intros y d l r Hy Ld Et. specialize (C2 y d l r Hy Ld Et).
    set (b := if (nth d y 0 <=? 0)%Z then l else r) in *.
    assert (RW : forall row z, In row (rows_of b) -> map (value J S1 z) row = map (value J S2 z) row).
    { intros row z Hr. apply map_ext_in. intros e He. unfold value. apply eval_ext. intros c ix Hc. apply HS.
      assert (Hr' : In row (rows_of l ++ rows_of r)) by (unfold b in Hr; destruct (_ <=? _)%Z; apply in_app_iff; auto).
      apply (proj2 (proj2 (bd_rows _ _ _ _ _ Bd l r row (nth_error_In _ _ Et) Hr') e He) c ix Hc). }
    destruct C2 as [P Q]. split; auto. destruct b as [|row|row|]; auto; intros vs Hvs; rewrite <- RW by (left; auto); apply Q; auto.
  - constructor.
    + intros b x Hb Hx. rewrite GF by auto. auto.
    + intros b e x He Hx. assert (Hb : In b (map fst crs)) by (eapply ProgProofs.named; eauto). rewrite GF by auto.
      rewrite (F2 b e x He Hx). unfold value. apply eval_ext. intros c ix Hc. symmetry. apply GF. apply (relation_reads b e c ix He Hc).
    + intros b x N1 N2. unfold G. destruct (in_dec string_dec b (map fst sys ++ map fst crs)) as [I|]; auto. apply in_app_iff in I. tauto.
  - intros v rhs x Hv Hx. rewrite (V v rhs x Hv Hx). apply sem_agree. intros b ix Hb y. symmetry. apply GF. apply (rhs_reads v rhs b ix Hv Hb).
Qed.
End system.
