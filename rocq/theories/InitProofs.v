(* Proofs about the initialisation (C77). *)
From Verif Require Import Base BaseProofs Expr ExprProofs KernelModel ShiftSpec ShiftProofs StoreModel StoreShock DiscModel DiscRun ProgModel InitModel InitSpec.
From Verif Require BCModel BCProofs AlgModel AlgSpec AlgProps.
From Coq Require Import ZArith Reals Lia Permutation.
Local Open Scope list_scope.

Section point.
Variables (J : interp R) (truth : R -> bool) (n : nat) (x : list Z).
Hypothesis Lx : List.length x = n.
Notation mem := (string -> list Z -> R).
Notation locals := (string -> R).
Notation st := (mem * locals)%type.
Notation JX := (with_index J x).
Notation E1 s l r := (BCModel.exec1 JX x s (KEq l r)).
Notation val s e := (BCModel.at_point JX (fst s) (snd s) x e).
Definition esec (es : list (expr * expr)) (s : st) : st := fold_left (fun s e => E1 s (fst e) (snd e)) es s.

Lemma exec1_arr : forall (s : st) b r, E1 s (EDat b (repeat 0%Z n)) r = (BCModel.upd (fst s) b x (val s r), snd s).
Proof. intros s b r. cbn [BCModel.exec1]. subst n. rewrite vadd_0_r; auto. Qed.
Lemma exec1_loc : forall (s : st) g r, E1 s (ESym KGridVar g) r = (fst s, BCModel.updl (snd s) g (val s r)).
Proof. reflexivity. Qed.
Lemma upd_here : forall (M : mem) b v, BCModel.upd M b x v b x = v.
Proof. intros. unfold BCModel.upd. destruct (string_dec b b); [|congruence]. destruct (list_eq_dec Z.eq_dec x x); congruence. Qed.
Lemma upd_else : forall (M : mem) b v b' y, b <> b' \/ x <> y -> BCModel.upd M b x v b' y = M b' y.
Proof. intros. unfold BCModel.upd. destruct (string_dec b b'); auto. destruct (list_eq_dec Z.eq_dec x y); auto. destruct H; congruence. Qed.
Lemma updl_here : forall (L : locals) g v, BCModel.updl L g v g = v.
Proof. intros. unfold BCModel.updl. destruct (string_dec g g); congruence. Qed.
Lemma updl_else : forall (L : locals) g v g', g <> g' -> BCModel.updl L g v g' = L g'.
Proof. intros. unfold BCModel.updl. destruct (string_dec g g'); congruence. Qed.

(* s' differs from s only in the slots of S, at x *)
Definition only (S : slot -> Prop) (s s' : st) : Prop :=
  (forall b y, (~ S (Array b) \/ y <> x) -> fst s' b y = fst s b y) /\ (forall g, ~ S (Local g) -> snd s' g = snd s g).
Lemma only_refl : forall S s, only S s s.
Proof. split; auto. Qed.
Lemma only_trans : forall S s1 s2 s3, only S s1 s2 -> only S s2 s3 -> only S s1 s3.
Proof. intros S s1 s2 s3 [A B] [C D]. split; intros; [rewrite C, A | rewrite D, B]; auto. Qed.
Lemma only_weaken : forall (S S' : slot -> Prop) s s', (forall t, S t -> S' t) -> only S s s' -> only S' s s'.
Proof. intros S S' s s' H [A B]. split; intros; [apply A | apply B]; intuition. Qed.
Lemma val_only : forall S s s' e, only S s s' -> (forall t, S t -> ~ uses e t) -> val s' e = val s e.
Proof.
  intros S s s' e [A B] H. apply BCProofs.at_point_ext.
  - intros b ix Hb. apply A. left. intros C. apply (H _ C). cbn. change b with (fst (b, ix)). apply in_map. auto.
  - intros g Hg. apply B. intros C. apply (H _ C). exact Hg.
Qed.

Lemma E1_only : forall s l r, (exists t, is_target n l t) -> only (is_target n l) s (E1 s l r).
Proof.
  intros s l r [[b|g] H]; cbn [is_target] in H; subst l.
  - rewrite exec1_arr. split; cbn [fst snd]; auto. intros b' y Hb. apply upd_else. destruct Hb as [Hb | Hb]; auto.
    left. intros ->. apply Hb. reflexivity.
  - rewrite exec1_loc. split; cbn [fst snd]; auto. intros g' Hg. apply updl_else. intros ->. apply Hg. reflexivity.
Qed.
Definition targets (es : list (expr * expr)) (t : slot) : Prop := exists l r, In (l, r) es /\ is_target n l t.
Definition proper (es : list (expr * expr)) : Prop := forall l r, In (l, r) es -> exists t, is_target n l t.
Lemma esec_only : forall es s, proper es -> only (targets es) s (esec es s).
Proof.
  induction es as [|[l r] es IH]; intros s H; [apply only_refl|]. unfold esec. cbn [fold_left fst snd]. fold (esec es (E1 s l r)).
  eapply only_trans; [eapply only_weaken; [|apply E1_only; apply (H l r); left; auto] | eapply only_weaken; [|apply IH; intros l' r' H'; apply (H l' r'); right; auto]].
  - intros t Ht. exists l, r. split; auto. left. auto.
  - intros t (l' & r' & Hi & Ht). exists l', r'. split; auto. right. auto.
Qed.
Lemma group_branch : forall bs (s : st), exec_group J truth x s bs = esec (branch J truth (fst s) (snd s) x bs) s.
Proof.
  induction bs as [|[es c] bs IH]; intros s; [reflexivity|]. cbn [exec_group]. unfold branch. cbn [find snd]. unfold value_at.
  destruct c as [c|]; [|reflexivity]. change (@fst memory (string -> R) s) with (@fst mem locals s). change (@snd memory (string -> R) s) with (@snd mem locals s).
  destruct (truth (val s c)); [reflexivity|]. rewrite IH. reflexivity.
Qed.
Lemma branch_in : forall M L bs lr, In lr (branch J truth M L x bs) -> exists es c, In (es, c) bs /\ branch J truth M L x bs = es /\ In lr es.
Proof.
  intros M L bs lr. unfold branch. destruct (find _ bs) as [[es c]|] eqn:E; [|intros []]. cbn [fst]. intros H. apply find_some in E. exists es, c. tauto.
Qed.
Lemma branch_cases : forall M L bs, branch J truth M L x bs = [] \/ exists c, In (branch J truth M L x bs, c) bs.
Proof.
  intros M L bs. unfold branch. destruct (find _ bs) as [[es c]|] eqn:E; [|auto]. right. apply find_some in E. exists c. apply E.
Qed.
Lemma branch_same : forall s s' bs, (forall es c, In (es, Some c) bs -> val s' c = val s c) -> branch J truth (fst s') (snd s') x bs = branch J truth (fst s) (snd s) x bs.
Proof.
  intros s s' bs H. unfold branch. induction bs as [|[es c] bs IH]; [reflexivity|]. cbn [find snd].
  assert (E : match c with Some c0 => truth (value_at J (fst s') (snd s') x c0) | None => true end = match c with Some c0 => truth (value_at J (fst s) (snd s) x c0) | None => true end).
  { destruct c as [c|]; auto. unfold value_at. rewrite (H es c); auto. left. auto. }
  rewrite E. clear E. match goal with |- context [if ?b then _ else _] => destruct b end; auto. apply IH. intros es' c' H'. apply (H es' c'). right. auto.
Qed.

Definition here_slots (s : st) (q : keq) (t : slot) : Prop :=
  match q with KEq l _ => is_target n l t | KGroup bs => targets (branch J truth (fst s) (snd s) x bs) t end.
Definition well (q : keq) : Prop :=
  match q with KEq l _ => exists t, is_target n l t | KGroup bs => forall es c l r, In (es, c) bs -> In (l, r) es -> exists t, is_target n l t end.
Lemma here_sets : forall s q t, here_slots s q t -> sets n q t.
Proof.
  intros s [l r|bs] t H; auto. destruct H as (l & r & Hi & Ht). apply branch_in in Hi. destruct Hi as (es & c & Hb & _ & Hi). exists es, c, l, r. auto.
Qed.
Lemma keq_here : forall q (s : st), well q -> only (here_slots s q) s (exec_keq J truth x s q).
Proof.
  intros [l r|bs] s H; [apply E1_only; auto|]. cbn [exec_keq here_slots]. rewrite group_branch. apply esec_only.
  intros l r Hi. apply branch_in in Hi. destruct Hi as (es & c & Hb & _ & Hi). eapply H; eauto.
Qed.
Lemma keq_only : forall q (s : st), well q -> only (sets n q) s (exec_keq J truth x s q).
Proof. intros q s H. eapply only_weaken; [apply here_sets | apply keq_here; auto]. Qed.
Definition run_list (qs : kernel_eqs) (s : st) : st := fold_left (exec_keq J truth x) qs s.
Lemma list_only : forall qs s, (forall q, In q qs -> well q) -> only (fun t => exists q, In q qs /\ sets n q t) s (run_list qs s).
Proof.
  induction qs as [|q qs IH]; intros s H; [apply only_refl|]. unfold run_list. cbn [fold_left]. fold (run_list qs (exec_keq J truth x s q)).
  eapply only_trans; [eapply only_weaken; [|apply keq_only; apply H; left; auto] | eapply only_weaken; [|apply IH; intros q' H'; apply H; right; auto]].
  - intros t Ht. exists q. split; auto. left. auto.
  - intros t (q' & Hi & Ht). exists q'. split; auto. right. auto.
Qed.

(* ---- the equations hold ---- *)
Lemma hold_keep : forall S s s' l r, only S s s' -> (forall t, S t -> ~ is_target n l t /\ ~ uses r t) -> (exists t, is_target n l t) ->
  assignment_holds J (fst s) (snd s) x (l, r) -> assignment_holds J (fst s') (snd s') x (l, r).
Proof.
  intros S s s' l r O H [[b|g] T] A; cbn [is_target] in T; subst l; cbn [assignment_holds fst snd] in *; unfold value_at in *;
    rewrite (val_only S s s' r O) by (intros t Ht; apply (H t Ht)); rewrite <- A.
  - apply O. left. intros C. destruct (H _ C) as [N _]. apply N. reflexivity.
  - apply O. intros C. destruct (H _ C) as [N _]. apply N. reflexivity.
Qed.
Lemma hold_new : forall s l r, (exists t, is_target n l t) -> (forall t, uses r t -> ~ is_target n l t) ->
  let s' := E1 s l r in assignment_holds J (fst s') (snd s') x (l, r).
Proof.
  intros s l r T U s'. pose proof (E1_only s l r T) as O. fold s' in O.
  assert (V : val s' r = val s r) by (apply (val_only _ s s' r O); intros t Ht Hu; apply (U t Hu Ht)).
  destruct T as [[b|g] T]; cbn [is_target] in T; subst l; cbn [assignment_holds fst snd]; unfold value_at; rewrite V; unfold s'.
  - rewrite exec1_arr. cbn [fst]. apply upd_here.
  - rewrite exec1_loc. cbn [snd]. apply updl_here.
Qed.
Lemma straight_proper : forall es, straight n es -> proper es.
Proof. intros es H l r Hi. apply in_split in Hi. destruct Hi as (e1 & e2 & E). apply (H e1 l r e2 E). Qed.
Lemma esec_app : forall e1 e2 s, esec (e1 ++ e2) s = esec e2 (esec e1 s).
Proof. intros. unfold esec. apply fold_left_app. Qed.
Lemma esec_hold : forall es s, straight n es -> let s' := esec es s in forall lr, In lr es -> assignment_holds J (fst s') (snd s') x lr.
Proof.
  intros es s H s' [l r] Hi. apply in_split in Hi. destruct Hi as (e1 & e2 & E). destruct (H e1 l r e2 E) as (T & U & N).
  assert (P : proper e2). { intros l' r' H'. apply (straight_proper es H l' r'). rewrite E. apply in_app_iff. right. right. auto. }
  unfold s'. rewrite E, esec_app. unfold esec at 1 3. cbn [fold_left fst snd]. fold (esec e2 (E1 (esec e1 s) l r)).
  apply (hold_keep (targets e2) (E1 (esec e1 s) l r)); auto.
  - apply esec_only. auto.
  - intros t (l' & r' & H' & Ht). apply (N t l' r' H' Ht).
  - apply hold_new; auto.
Qed.
Lemma run_app : forall l1 l2 s, run_list (l1 ++ l2) s = run_list l2 (run_list l1 s).
Proof. intros. unfold run_list. apply fold_left_app. Qed.
Lemma def_well : forall qs q, definitions n qs -> In q qs -> well q.
Proof.
  intros qs q [H _] Hq. specialize (H q Hq). destruct q as [l r|bs]; cbn [well].
  - apply (straight_proper _ H l r). left. auto.
  - intros es c l r Hb Hi. destruct (H es c Hb) as [S _]. apply (straight_proper _ S l r Hi).
Qed.

Section defs.
Variables (qs : kernel_eqs) (s0 : st).
Hypothesis D : definitions n qs.
Notation sF := (run_list qs s0).
(* before, in and after equation q *)
Lemma around_q : forall q1 q q2, qs = q1 ++ q :: q2 ->
  let s := run_list q1 s0 in let s1 := exec_keq J truth x s q in
  only (here_slots s q) s s1 /\ only (fun t => exists q', In q' q2 /\ sets n q' t) s1 sF.
Proof.
  intros q1 q q2 E s s1.
  assert (W : forall q', In q' (q1 ++ q :: q2) -> well q') by (intros q' H; rewrite <- E in H; eapply def_well; eauto).
  split; [apply keq_here; apply W; apply in_app_iff; right; left; auto|].
  assert (F : sF = run_list q2 s1) by (rewrite E, run_app; reflexivity). rewrite F. apply list_only.
  intros q' H. apply W. apply in_app_iff. right. right. auto.
Qed.
Lemma branch_final : forall q1 bs q2, qs = q1 ++ KGroup bs :: q2 ->
  branch J truth (fst sF) (snd sF) x bs = branch J truth (fst (run_list q1 s0)) (snd (run_list q1 s0)) x bs.
Proof.
  intros q1 bs q2 E. destruct (around_q q1 (KGroup bs) q2 E) as [O1 O2]. apply branch_same. intros es c Hb.
  assert (Hq : In (KGroup bs) qs) by (rewrite E; apply in_app_iff; right; left; auto).
  rewrite (val_only _ _ _ c O2).
  - apply (val_only _ _ _ c O1). intros t Ht Hu. apply here_sets in Ht. destruct D as [D1 _]. destruct (D1 _ Hq es (Some c) Hb) as [_ N].
    apply (N c t eq_refl Hu Ht).
  - intros t (q' & H' & Ht) Hu. destruct D as [_ D2]. destruct (D2 q1 _ q2 q' t E H' Ht) as [_ N]. apply (N c); auto. exists es, (Some c). auto.
Qed.
Lemma all_hold : forall q, In q qs -> equation_holds J truth (fst sF) (snd sF) x q.
Proof.
  intros q Hq. apply in_split in Hq. destruct Hq as (q1 & q2 & E). destruct (around_q q1 q q2 E) as [O1 O2].
  assert (Hq : In q qs) by (rewrite E; apply in_app_iff; right; left; auto).
  assert (Wq : well q) by (eapply def_well; eauto).
  assert (N : forall t, (exists q', In q' q2 /\ sets n q' t) -> ~ sets n q t /\ forall e, evaluates q e -> ~ uses e t).
  { intros t (q' & H' & Ht). destruct D as [_ D2]. exact (D2 q1 q q2 q' t E H' Ht). }
  destruct q as [l r|bs]; cbn [equation_holds].
  - cbn [exec_keq] in O2. apply (hold_keep _ _ _ l r O2); auto.
    + intros t Ht. destruct (N t Ht) as [A B]. split; auto. apply B. reflexivity.
    + apply hold_new; auto. destruct D as [D1 _]. specialize (D1 _ Hq). cbn in D1. destruct (D1 [] l r [] eq_refl) as (_ & U & _). auto.
  - intros [l r] Hi. rewrite (branch_final q1 bs q2 E) in Hi. cbn [exec_keq] in O2. rewrite group_branch in O2.
    set (s := run_list q1 s0) in *. pose proof Hi as Hi'. apply branch_in in Hi'. destruct Hi' as (es & c & Hb & Eb & Hes).
    apply (hold_keep _ _ _ l r O2).
    + intros t Ht. destruct (N t Ht) as [A B]. split.
      * intros C. apply A. exists es, c, l, r. auto.
      * apply B. exists es, c. split; auto. right. eauto.
    + exact (Wq es c l r Hb Hes).
    + assert (SE : straight n es) by (destruct D as [D1 _]; specialize (D1 _ Hq es c Hb); apply D1).
      rewrite <- Eb in SE. apply esec_hold; auto.
Qed.
Lemma all_frame : forall b, (forall q, In q qs -> ~ sets_here J truth n (fst sF) (snd sF) x q b) -> fst sF b x = fst s0 b x.
Proof.
  intros b H.
  assert (G : forall q1 q2, qs = q1 ++ q2 -> fst (run_list q1 s0) b x = fst s0 b x).
  { induction q1 as [|q q1 IH] using rev_ind; intros q2 E; [reflexivity|]. rewrite <- app_assoc in E. cbn [app] in E.
    rewrite run_app. cbn [run_list fold_left]. change (fst (exec_keq J truth x (run_list q1 s0) q) b x = fst s0 b x).
    destruct (around_q q1 q q2 E) as [O1 _]. rewrite (proj1 O1); [apply (IH _ E)|]. left. intros C.
    apply (H q); [rewrite E; apply in_app_iff; right; left; auto|]. destruct q as [l r|bs]; cbn [sets_here here_slots] in *; auto.
    rewrite (branch_final q1 bs q2 E). exact C. }
  apply (G qs []). rewrite app_nil_r. reflexivity.
Qed.
End defs.
End point.

(* ---- all points ---- *)
Definition set_by (n : nat) (qs : kernel_eqs) (b : string) : Prop := exists q, In q qs /\ sets n q (Array b).
Lemma set_dec : forall n qs b, {set_by n qs b} + {~ set_by n qs b}.
Proof.
  intros n qs b.
  assert (T : forall l, {is_target n l (Array b)} + {~ is_target n l (Array b)}) by (intros l; apply expr_eq_dec).
  assert (Q : forall q, {sets n q (Array b)} + {~ sets n q (Array b)}).
  { intros [l r|bs]; [apply T|]. cbn [sets].
    destruct (Exists_dec (fun bc : list (expr * expr) * option expr => Exists (fun lr : expr * expr => is_target n (fst lr) (Array b)) (fst bc)) bs) as [H | H].
    - intros bc. apply Exists_dec. intros lr. apply T.
    - left. apply Exists_exists in H. destruct H as ([es c] & Hb & H). apply Exists_exists in H. destruct H as ([l r] & Hi & H). exists es, c, l, r. auto.
    - right. intros (es & c & l & r & Hb & Hi & Ht). apply H. apply Exists_exists. exists (es, c). split; auto. apply Exists_exists. exists (l, r). auto. }
  destruct (Exists_dec (fun q => sets n q (Array b)) qs Q) as [H | H]; [left | right].
  - apply Exists_exists in H. exact H.
  - intros C. apply H. apply Exists_exists. exact C.
Qed.

Section loop.
Variables (J : interp R) (truth : R -> bool) (n : nat) (qs : kernel_eqs).
Hypothesis LU : local_uses n qs.
Notation mem := (string -> list Z -> R).
Notation EP := (exec_point J truth qs).
Notation isset := (set_by n qs).
Lemma lu_well : forall q, In q qs -> well n q.
Proof. intros q Hq. destruct LU as [H _]. specialize (H q Hq). destruct q; auto. Qed.
Lemma point_only : forall x M, List.length x = n -> only x (fun t => exists q, In q qs /\ sets n q t) (M, fun _ => 0%R) (fold_left (exec_keq J truth x) qs (M, fun _ => 0%R)).
Proof. intros x M Lx. apply list_only; auto. apply lu_well. Qed.
Lemma point_frame : forall x M b y, List.length x = n -> ~ isset b \/ y <> x -> EP M x b y = M b y.
Proof. intros x M b y Lx H. unfold exec_point. apply (point_only x M Lx). exact H. Qed.

Section two.
Variables (x : list Z) (Lx : List.length x = n).
Notation st := (mem * (string -> R))%type.
Notation val s e := (BCModel.at_point (with_index J x) (fst s) (snd s) x e).
Definition alike (s s' : st) : Prop :=
  (forall g, snd s g = snd s' g) /\ (forall b y, y = x \/ ~ isset b -> fst s b y = fst s' b y).
Lemma alike_val : forall s s' q e, In q qs -> evaluates q e -> alike s s' -> val s e = val s' e.
Proof.
  intros s s' q e Hq He [A B]. apply BCProofs.at_point_ext; auto. intros b ix Hb.
  destruct (list_eq_dec Z.eq_dec (vadd x ix) x) as [E | E]; [apply B; auto|]. apply B. right. intros (q' & Hq' & Hs).
  apply E. rewrite (proj2 LU q q' e b ix Hq He Hb Hq' Hs). apply vadd_0_r. auto.
Qed.
Lemma alike_step : forall s s' l r, (exists t, is_target n l t) -> val s r = val s' r -> alike s s' ->
  alike (BCModel.exec1 (with_index J x) x s (KEq l r)) (BCModel.exec1 (with_index J x) x s' (KEq l r)).
Proof.
  intros s s' l r [[b|g] T] V [A B]; cbn [is_target] in T; subst l.
  - rewrite !(exec1_arr J n x Lx). split; cbn [fst snd]; auto. intros b' y H. unfold BCModel.upd. rewrite V. destruct (string_dec b b'); auto. destruct (list_eq_dec Z.eq_dec x y); auto.
  - rewrite !exec1_loc. split; cbn [fst snd]; auto. intros g'. unfold BCModel.updl. rewrite V. destruct (string_dec g g'); auto.
Qed.
Lemma alike_keq : forall q s s', In q qs -> alike s s' -> alike (exec_keq J truth x s q) (exec_keq J truth x s' q).
Proof.
  intros q s s' Hq H. pose proof (lu_well q Hq) as W. destruct q as [l r|bs]; cbn [exec_keq].
  - apply alike_step; auto. eapply alike_val; eauto. reflexivity.
  - rewrite !group_branch. rewrite <- (branch_same J truth x s s' bs).
    2:{ intros es c Hb. symmetry. eapply alike_val; eauto. exists es, (Some c). auto. }
    destruct (branch_cases J truth x (fst s') (snd s') bs) as [-> | (c & Hb)]; [exact H|].
    assert (G : forall es s s', (forall lr, In lr es -> In lr (branch J truth (fst s') (snd s') x bs)) -> alike s s' -> True) by auto. clear G.
    revert Hb. generalize (branch J truth (fst s') (snd s') x bs) as es. intros es Hb.
    assert (G : forall es' s s', incl es' es -> alike s s' -> alike (esec J x es' s) (esec J x es' s')).
    { induction es' as [|[l r] es' IH]; intros t t' Hi Ht; [exact Ht|]. unfold esec. cbn [fold_left fst snd].
      assert (Hlr : In (l, r) es) by (apply Hi; left; auto).
      apply (IH (BCModel.exec1 (with_index J x) x t (KEq l r)) (BCModel.exec1 (with_index J x) x t' (KEq l r))).
      - intros z Hz. apply Hi. right. auto.
      - apply alike_step; auto. apply (W es c l r Hb Hlr). eapply alike_val; eauto. exists es, c. split; eauto. }
    apply G; auto. apply incl_refl.
Qed.
Lemma alike_point : forall M M', (forall b y, y = x \/ ~ isset b -> M b y = M' b y) -> forall b, EP M x b x = EP M' x b x.
Proof.
  intros M M' H b. unfold exec_point.
  assert (G : forall l s s', incl l qs -> alike s s' -> alike (fold_left (exec_keq J truth x) l s) (fold_left (exec_keq J truth x) l s')).
  { induction l as [|q l IH]; intros s s' Hl Hs; [exact Hs|]. cbn [fold_left]. apply IH; [intros z Hz; apply Hl; right; auto|].
    apply alike_keq; auto. apply Hl. left. auto. }
  apply (G qs (M, fun _ => 0%R) (M', fun _ => 0%R) (incl_refl _)); [|auto]. split; auto.
Qed.
End two.

Lemma loop_points : forall pts M, NoDup pts -> (forall p, In p pts -> List.length p = n) ->
  forall b y, (In y pts -> run_ikernel J truth qs pts M b y = EP M y b y) /\ (~ In y pts -> run_ikernel J truth qs pts M b y = M b y).
Proof.
  induction pts as [|p pts IH]; intros M ND HL b y; [split; [intros []|reflexivity]|]. inversion ND as [|? ? Np ND']; subst.
  unfold run_ikernel. cbn [fold_left]. fold (run_ikernel J truth qs pts (EP M p)).
  assert (Lp : List.length p = n) by (apply HL; left; auto).
  assert (HL' : forall z, In z pts -> List.length z = n) by (intros z Hz; apply HL; right; auto).
  destruct (IH (EP M p) ND' HL' b y) as [A B]. split.
  - intros [<- | Hy]; [apply B; auto|]. rewrite (A Hy). assert (Ny : y <> p) by congruence.
    apply (alike_point y (HL' y Hy)). intros b' y' H. apply point_frame; auto. destruct H as [-> | H]; auto.
  - intros Hy. rewrite B by (intros C; apply Hy; right; auto). apply point_frame; auto. right. intros ->. apply Hy. left. auto.
Qed.

(* ---- two memories before the initialisation ---- *)
Section memories.
Hypothesis NE : no_early_use n qs.
Variables (x : list Z) (Lx : List.length x = n) (M1 M2 : mem).
Hypothesis Reads : forall q e b ix, In q qs -> evaluates q e -> In (b, ix) (dsets e) -> ~ isset b -> M1 b (vadd x ix) = M2 b (vadd x ix).
Notation st := (mem * (string -> R))%type.
Notation val s e := (BCModel.at_point (with_index J x) (fst s) (snd s) x e).
Definition equal_on (P : string -> Prop) (s1 s2 : st) : Prop :=
  (forall g, snd s1 g = snd s2 g) /\ (forall b, P b -> fst s1 b x = fst s2 b x) /\
  (forall b y, ~ isset b -> fst s1 b y = M1 b y /\ fst s2 b y = M2 b y).
Lemma equal_val : forall (P : string -> Prop) (s1 s2 : st) q e, In q qs -> evaluates q e -> (forall b, uses e (Array b) -> isset b -> P b) -> equal_on P s1 s2 -> val s1 e = val s2 e.
Proof.
  intros P s1 s2 q e Hq He HP (A & B & C). apply BCProofs.at_point_ext; auto. intros b ix Hb.
  assert (U : uses e (Array b)) by (cbn; change b with (fst (b, ix)); apply in_map; auto).
  destruct (set_dec n qs b) as [S | S].
  - pose proof (HP b U S) as Pb. destruct S as (q' & Hq' & S). rewrite (proj2 LU q q' e b ix Hq He Hb Hq' S), vadd_0_r by auto. apply B. auto.
  - destruct (C b (vadd x ix) S) as [-> ->]. apply (Reads q e b ix); auto.
Qed.
Lemma equal_step : forall (P : string -> Prop) (s1 s2 : st) l r, (exists t, is_target n l t) -> (forall b, is_target n l (Array b) -> isset b) -> val s1 r = val s2 r -> equal_on P s1 s2 ->
  equal_on (fun b => P b \/ is_target n l (Array b)) (BCModel.exec1 (with_index J x) x s1 (KEq l r)) (BCModel.exec1 (with_index J x) x s2 (KEq l r)).
Proof.
  intros P s1 s2 l r [[b|g] T] HS V (A & B & C); cbn [is_target] in T; subst l.
  - rewrite !(exec1_arr J n x Lx). split; [|split]; cbn [fst snd]; auto.
    + intros b' H. unfold BCModel.upd. rewrite V. destruct (string_dec b b'); [destruct (list_eq_dec Z.eq_dec x x); congruence|].
      destruct H as [H | H]; auto. cbn in H. congruence.
    + intros b' y H. rewrite !upd_else; auto; left; intros ->; apply H; apply HS; reflexivity.
  - rewrite !exec1_loc. split; [|split]; cbn [fst snd]; auto.
    + intros g'. unfold BCModel.updl. rewrite V. destruct (string_dec g g'); auto.
    + intros b [H | H]; auto. discriminate.
Qed.
Lemma equal_weaken : forall (P Q : string -> Prop) (s1 s2 : st), (forall b, Q b -> P b) -> equal_on P s1 s2 -> equal_on Q s1 s2.
Proof. intros P Q s1 s2 H (A & B & C). split; [|split]; auto. Qed.
Lemma equal_esec : forall (P : string -> Prop) es c bs, In (KGroup bs) qs -> In (es, c) bs ->
  (forall e b, evaluates (KGroup bs) e -> uses e (Array b) -> isset b -> P b) ->
  forall es' (s1 s2 : st) (Q : string -> Prop), incl es' es -> (forall b, P b -> Q b) -> equal_on Q s1 s2 ->
  equal_on (fun b => Q b \/ exists l r, In (l, r) es' /\ is_target n l (Array b)) (esec J x es' s1) (esec J x es' s2).
Proof.
  intros P es c bs Hq Hb HP. induction es' as [|[l r] es' IH]; intros s1 s2 Q Hi HQ H.
  - cbn. eapply equal_weaken; [|exact H]. intros b [Hb' | (l & r & [] & _)]; auto.
  - assert (Hlr : In (l, r) es) by (apply Hi; left; auto).
    assert (T : exists t, is_target n l t) by (apply (lu_well _ Hq es c l r Hb Hlr)).
    assert (V : val s1 r = val s2 r).
    { eapply (equal_val Q); eauto. exists es, c. split; eauto. intros b U S. apply HQ. apply (HP r b); auto. exists es, c. split; eauto. }
    assert (HS : forall b, is_target n l (Array b) -> isset b) by (intros b Ht; exists (KGroup bs); split; auto; exists es, c, l, r; auto).
    pose proof (equal_step Q s1 s2 l r T HS V H) as H1.
    pose proof (IH _ _ (fun b => Q b \/ is_target n l (Array b)) (fun z Hz => Hi z (or_intror Hz)) (fun b Hb' => or_introl (HQ b Hb')) H1) as H2.
    unfold esec. cbn [fold_left fst snd]. eapply equal_weaken; [|exact H2].
    intros b [H' | (l' & r' & [E | Hin] & Ht)]; auto.
    + injection E as <- <-. auto.
    + right. exists l', r'. auto.
Qed.
Lemma equal_list : forall q1 q2, qs = q1 ++ q2 ->
  equal_on (fun b => exists q0, In q0 q1 /\ surely_sets n q0 b) (run_list J truth x q1 (M1, fun _ => 0%R)) (run_list J truth x q1 (M2, fun _ => 0%R)).
Proof.
  induction q1 as [|q q1 IH] using rev_ind; intros q2 E.
  - split; [|split]; auto. intros b (q0 & [] & _).
  - rewrite <- app_assoc in E. cbn [app] in E. specialize (IH _ E). rewrite !run_app. cbn [run_list fold_left].
    set (s1 := run_list J truth x q1 (M1, fun _ => 0%R)) in *. set (s2 := run_list J truth x q1 (M2, fun _ => 0%R)) in *.
    assert (Hq : In q qs) by (rewrite E; apply in_app_iff; right; left; auto).
    set (P := fun b => exists q0, In q0 q1 /\ surely_sets n q0 b) in *.
    assert (HP : forall e b, evaluates q e -> uses e (Array b) -> isset b -> P b).
    { intros e b He Hu (q' & Hq' & Hs). apply (NE q1 q q2 q' e b E He Hu Hq' Hs). }
    destruct q as [l r|bs]; cbn [exec_keq].
    + assert (V : val s1 r = val s2 r) by (eapply (equal_val P); eauto; [reflexivity | intros b Hu S; apply (HP r b); auto; reflexivity]).
      assert (HS : forall b, is_target n l (Array b) -> isset b) by (intros b Ht; exists (KEq l r); auto).
      pose proof (equal_step P s1 s2 l r (lu_well _ Hq) HS V IH) as H. eapply equal_weaken; [|exact H].
      intros b (q0 & H0 & Hs). apply in_app_iff in H0. destruct H0 as [H0 | [<- | []]]; [left; exists q0; auto | right; exact Hs].
    + rewrite !group_branch. rewrite (branch_same J truth x s1 s2 bs).
      2:{ intros es c Hb. symmetry. eapply (equal_val P); eauto. exists es, (Some c). auto. intros b Hu S. apply (HP c b); auto. exists es, (Some c). auto. }
      destruct (branch_cases J truth x (fst s1) (snd s1) bs) as [Eb | (c & Hb)].
      * rewrite Eb. cbn [esec fold_left]. eapply equal_weaken; [|exact IH]. intros b (q0 & H0 & Hs). apply in_app_iff in H0. destruct H0 as [H0 | [<- | []]]; [exists q0; auto|].
        exfalso. destruct Hs as [(es & Hn) Hall]. unfold branch in Eb.
        destruct (find _ bs) as [[es' c']|] eqn:Ef.
        -- apply find_some in Ef. destruct (Hall es' c' (proj1 Ef)) as (l & r & Hi & _). cbn [fst] in Eb. subst es'. destruct Hi.
        -- apply (find_none _ _ Ef) in Hn. discriminate.
      * pose proof (equal_esec P _ c bs Hq Hb HP _ s1 s2 P (incl_refl _) (fun b H => H) IH) as H. eapply equal_weaken; [|exact H].
        intros b (q0 & H0 & Hs). apply in_app_iff in H0. destruct H0 as [H0 | [<- | []]]; [left; exists q0; auto|]. right. destruct Hs as [_ Hall]. apply (Hall _ c Hb).
Qed.
Lemma equal_point : forall b, (exists q, In q qs /\ surely_sets n q b) -> EP M1 x b x = EP M2 x b x.
Proof. intros b H. destruct (equal_list qs [] (eq_sym (app_nil_r qs))) as (_ & B & _). apply (B b H). Qed.
End memories.
End loop.

Lemma init_points : forall sizes g x, in_ranges (ik_range (init_kernel sizes g)) x = true <-> around 5 sizes x.
Proof.
  intros sizes g x. cbn [init_kernel ik_range]. rewrite in_extended. unfold around. split; intros [L H]; split; auto; intros d Hd; specialize (H d Hd);
    (destruct (in_dec Nat.eq_dec d (seq 0 (List.length sizes))) as [I | I]; [cbn [fst snd] in *; lia | exfalso; apply I; apply in_seq; lia]).
Qed.
