(* Proofs about simulation equations with shock capturing. *)
From Verif Require Import Base BaseProofs Expr ExprProofs FDModel FDProofs WorkModel WorkProofs ShiftSpec ShiftProofs AdvProofs BCProofs DiscSpec DiscModel DiscProofs DiscRun DiscMain LLFModel HybModel HybSpec.
From Coq Require Import QArith ZArith Reals Lia Lra List Permutation FunctionalExtensionality Sorted.
Import ListNotations.
Local Close Scope Q_scope.
Local Open Scope list_scope.

(* ---- shock-capturing derivatives in an expression ---- *)
Lemma is_wd_iff : forall v, is_wd v = true <-> exists f n, v = WD f n.
Proof.
  intros v. split.
  - destruct v as [| | |h args]; try discriminate. destruct h; try discriminate. destruct args as [|a [|c [|]]]; try discriminate; destruct c; try discriminate; destruct k; try discriminate.
    cbn [is_wd]. intros E. apply String.eqb_eq in E. subst f. eexists _, _. reflexivity.
  - intros (f & n & ->). reflexivity.
Qed.
Lemma wds_app : forall h args, wds (EApp h args) = flat_map wds args ++ (if is_wd (EApp h args) then [EApp h args] else []).
Proof. intros. cbn [wds]. f_equal. Qed.
Lemma in_wds : forall e v, In v (wds e) <-> inside v e /\ exists f n, v = WD f n.
Proof.
  intros e v. rewrite <- is_wd_iff. induction e as [q|kd n|b ix|h args IH] using expr_ind'.
  1-3: cbn [wds In]; split; [intros [] | intros (H & D); inversion H; subst; cbn in D; discriminate D].
  rewrite wds_app, in_app_iff, in_flat_map. rewrite Forall_forall in IH. split.
  - intros [(a & Ha & H) | H].
    + apply IH in H; auto. split; [|tauto]. econstructor; eauto. tauto.
    + destruct (is_wd (EApp h args)) eqn:E; [|destruct H]. destruct H as [<- | []]. split; [constructor | auto].
  - intros (Hi & D). inversion Hi as [|? ? ? a Ha Hia]; subst.
    + right. rewrite D. left. auto.
    + left. exists a. split; auto. apply IH; auto.
Qed.

(* ---- grouping by direction ---- *)
Section groups.
Variable dirof : string -> nat.
Notation dir := (wd_dir dirof).
Definition of_dir (d : nat) (l : list expr) : list expr := filter (fun v => Nat.eqb (dir v) d) l.
Lemma wgroup_keys : forall v g, (In (dir v) (map fst g) -> map fst (wgroup_add dirof v g) = map fst g) /\
  (~ In (dir v) (map fst g) -> wgroup_add dirof v g = g ++ [(dir v, [v])]).
Proof.
  intros v. induction g as [|[d l] g (IH1 & IH2)]; [split; [intros [] | auto]|]. cbn [wgroup_add map fst]. destruct (Nat.eqb_spec (dir v) d) as [E | N].
  - split; [auto|]. intros H. exfalso. apply H. left. auto.
  - split; intros H.
    + cbn [map fst]. rewrite IH1; auto. destruct H as [H | H]; [congruence | auto].
    + cbn [app]. f_equal. apply IH2. intro. apply H. right. auto.
Qed.
Lemma wgroup_member : forall v g d l, NoDup (map fst g) -> In (d, l) (wgroup_add dirof v g) ->
  (In (d, l) g /\ d <> dir v) \/ (d = dir v /\ ((exists l0, In (d, l0) g /\ l = l0 ++ [v]) \/ (l = [v] /\ ~ In d (map fst g)))).
Proof.
  intros v. induction g as [|[d0 l0] g IH]; intros d l ND H; cbn [wgroup_add] in H.
  - destruct H as [H | []]. injection H as <- <-. right. split; auto.
  - cbn [map fst] in ND. inversion ND as [|? ? N1 N2]; subst. destruct (Nat.eqb_spec (dir v) d0) as [E | N].
    + destruct H as [H | H].
      * injection H as <- <-. right. split; auto. left. exists l0. split; auto. left. auto.
      * left. split; [right; auto|]. intros ->. apply N1. rewrite <- E. change (dir v) with (fst (dir v, l)). apply in_map. auto.
    + destruct H as [H | H].
      * injection H as <- <-. left. split; [left; auto | auto].
      * destruct (IH d l N2 H) as [(A & B) | (A & [(l1 & B & C) | (B & C)])].
        -- left. split; [right; auto | auto].
        -- right. split; auto. left. exists l1. split; [right; auto | auto].
        -- right. split; auto. right. split; auto. intros [F | F]; [cbn in F; congruence | auto].
Qed.
Lemma groups_spec : forall l, let g := fold_left (fun g v => wgroup_add dirof v g) l [] in
  NoDup (map fst g) /\ (forall d, In d (map fst g) <-> exists v, In v l /\ dir v = d) /\
  forall d vs, In (d, vs) g -> vs = of_dir d l.
Proof.
  intros l. induction l as [|v l (ND & K & S)] using rev_ind; cbv zeta.
  - cbn. split; [constructor|]. split; [intros d; split; [tauto | intros (v & [] & _)] | intros d vs []].
  - rewrite fold_left_app. cbn [fold_left]. set (g := fold_left (fun g v => wgroup_add dirof v g) l []) in *. cbv zeta in *.
    assert (F : forall d, of_dir d (l ++ [v]) = of_dir d l ++ (if Nat.eqb (dir v) d then [v] else [])).
    { intros d. unfold of_dir. rewrite filter_app. cbn [filter]. reflexivity. }
    destruct (wgroup_keys v g) as (G1 & G2).
    assert (P : forall d vs, In (d, vs) (wgroup_add dirof v g) -> vs = of_dir d (l ++ [v])).
    { intros d vs H. rewrite F. destruct (wgroup_member v g d vs ND H) as [(A & B) | (-> & [(l1 & A & ->) | (-> & A)])].
      - destruct (Nat.eqb_spec (dir v) d); [congruence|]. rewrite app_nil_r. apply S. auto.
      - rewrite Nat.eqb_refl. f_equal. apply S. auto.
      - rewrite Nat.eqb_refl. assert (E : of_dir (dir v) l = []); [|rewrite E; auto].
        destruct (of_dir (dir v) l) as [|w t] eqn:E; auto. exfalso. apply A. apply K. exists w.
        assert (Hw : In w (of_dir (dir v) l)) by (rewrite E; left; auto). apply filter_In in Hw. split; [tauto|]. apply Nat.eqb_eq. tauto. }
    destruct (in_dec Nat.eq_dec (dir v) (map fst g)) as [H | H].
    + rewrite (G1 H). split; auto. split; [|exact P]. intros d. rewrite K. split.
      * intros (w & Hw & E). exists w. split; auto. apply in_app_iff. auto.
      * intros (w & Hw & E). apply in_app_iff in Hw. destruct Hw as [Hw | [<- | []]]; [eauto|]. apply K. congruence.
    + split; [rewrite (G2 H); rewrite map_app; cbn [map fst]|split; [|exact P]].
      * apply (Permutation_NoDup (l := dir v :: map fst g)); [apply Permutation_cons_append | constructor; auto].
      * intros d. rewrite (G2 H), map_app, in_app_iff, K. cbn [map fst In]. split.
        -- intros [(w & Hw & E) | [E | []]]; [exists w | exists v]; rewrite in_app_iff; cbn; tauto.
        -- intros (w & Hw & E). apply in_app_iff in Hw. destruct Hw as [Hw | [<- | []]]; [left; eauto | right; auto].
Qed.

Lemma insert_group_perm : forall p g, Permutation (insert_group p g) (p :: g).
Proof.
  intros p. induction g as [|q g IH]; cbn; auto. destruct (Nat.leb (fst p) (fst q)); auto.
  rewrite IH. constructor.
Qed.
Lemma sorted_groups_perm : forall g, Permutation (sorted_groups g) g.
Proof. induction g as [|p g IH]; cbn; auto. rewrite insert_group_perm. auto. Qed.
Lemma insert_group_sorted : forall p g, StronglySorted le (map fst g) -> StronglySorted le (map fst (insert_group p g)).
Proof.
  intros p. induction g as [|q g IH]; intros H; cbn; [repeat constructor|]. cbn [map] in H. inversion H as [|? ? H1 H2]; subst.
  destruct (Nat.leb_spec (fst p) (fst q)) as [L | L]; cbn [map].
  - constructor; auto. constructor; auto. eapply Forall_impl; [|exact H2]. intros; lia.
  - constructor; auto. apply Forall_forall. intros x Hx. apply in_map_iff in Hx. destruct Hx as (y & <- & Hy).
    apply (Permutation_in y (insert_group_perm p g)) in Hy. destruct Hy as [<- | Hy]; [lia|].
    rewrite Forall_forall in H2. apply H2. apply in_map. auto.
Qed.
Lemma sorted_groups_sorted : forall g, StronglySorted le (map fst (sorted_groups g)).
Proof. induction g as [|p g IH]; cbn; [constructor | apply insert_group_sorted; auto]. Qed.
Lemma sorted_unique : forall l m s, NoDup l -> StronglySorted le l -> (forall d, In d l <-> (s <= d < s + m)%nat) -> l = seq s m.
Proof.
  induction l as [|a l IH]; intros m s ND SS H.
  - destruct m; auto. exfalso. apply (H s). lia.
  - inversion ND as [|? ? N1 N2]; subst. inversion SS as [|? ? S1 S2]; subst. rewrite Forall_forall in S2.
    assert (a = s).
    { assert (Ha : In a (a :: l)) by (left; auto). apply H in Ha. assert (Hs : In s (a :: l)) by (apply H; lia).
      destruct Hs as [<- | Hs]; auto. specialize (S2 s Hs). lia. }
    subst a. destruct m; [exfalso; assert (X : In s (s :: l)) by (left; auto); apply H in X; lia|].
    cbn [seq]. f_equal. apply IH; auto. intros d. split.
    + intros Hd. assert (X : In d (s :: l)) by (right; auto). apply H in X. assert (d <> s) by (intros ->; auto). lia.
    + intros Hd. assert (X : In d (s :: l)) by (apply H; lia). destruct X as [<- | X]; [lia | auto].
Qed.
Lemma pairs_map : forall (F : nat -> list expr) g, (forall d vs, In (d, vs) g -> vs = F d) -> g = map (fun d => (d, F d)) (map fst g).
Proof.
  intros F. induction g as [|[d vs] g IH]; intros H; auto. cbn [map fst]. rewrite <- (H d vs) by (left; auto). f_equal.
  apply IH. intros; apply H; right; auto.
Qed.
Lemma all_groups : forall l m, (forall v, In v l -> (dir v < m)%nat) -> (forall d, (d < m)%nat -> exists v, In v l /\ dir v = d) ->
  sorted_groups (fold_left (fun g v => wgroup_add dirof v g) l []) = map (fun d => (d, of_dir d l)) (seq 0 m).
Proof.
  intros l m H1 H2. destruct (groups_spec l) as (ND & K & S). set (g := fold_left _ l []) in *. clearbody g.
  pose proof (sorted_groups_perm g) as P.
  rewrite (pairs_map (fun d => of_dir d l) (sorted_groups g)) by (intros d vs H; apply S; apply (Permutation_in _ P); auto).
  f_equal. apply sorted_unique.
  - apply (Permutation_NoDup (l := map fst g)); auto. symmetry. apply Permutation_map. auto.
  - apply sorted_groups_sorted.
  - intros d. transitivity (In d (map fst g)).
    + split; apply Permutation_in; [|symmetry]; apply Permutation_map; auto.
    + rewrite K. split; [intros (v & Hv & <-); specialize (H1 v Hv); lia | intros Hd; apply H2; lia].
Qed.
End groups.

Lemma filter_single : forall (p : expr -> bool) l a, NoDup l -> (forall v, In v l /\ p v = true <-> v = a) -> filter p l = [a].
Proof.
  intros p l a ND H. assert (N : NoDup (filter p l)) by (apply NoDup_filter; auto).
  assert (E : forall v, In v (filter p l) <-> v = a) by (intros; rewrite filter_In; auto).
  destruct (filter p l) as [|b [|c t]].
  - exfalso. apply (E a). auto.
  - f_equal. apply E. left. auto.
  - exfalso. assert (b = a) by (apply E; left; auto). assert (c = a) by (apply E; right; left; auto). subst. inversion N as [|? ? X]; subst. apply X. left. auto.
Qed.
Lemma flat_map_single : forall A (G : A -> list expr) (F : nat -> expr) l s,
  (forall i x, nth_error l i = Some x -> G x = [F (s + i)%nat]) -> flat_map G l = map F (seq s (List.length l)).
Proof.
  intros A G F. induction l as [|x l IH]; intros s H; auto. cbn [flat_map List.length seq map].
  rewrite (H 0%nat x eq_refl). rewrite Nat.add_0_r. cbn [app]. f_equal. apply IH. intros i y Hy. rewrite (H (S i) y Hy). do 2 f_equal. lia.
Qed.
Lemma filter_flat_map : forall A B (p : B -> bool) (f : A -> list B) l, filter p (flat_map f l) = flat_map (fun x => filter p (f x)) l.
Proof. intros. induction l as [|x l IH]; auto. cbn [flat_map]. rewrite filter_app, IH. auto. Qed.

Lemma nth_error_In' : forall A (l : list A) x, In x l -> exists i, nth_error l i = Some x.
Proof. intros. apply In_nth_error. auto. Qed.

Lemma in_firstn : forall A m (l : list A) a, In a (firstn m l) -> In a l.
Proof. intros A m l a H. rewrite <- (firstn_skipn m l). apply in_or_app. auto. Qed.

(* assignments that do not depend on the arrays written *)
Lemma exec_eqs_stable : forall J k sizes ext eqs M, NoDup (map fst eqs) ->
  (forall a e, In (a, e) eqs -> forall (M M' : memory) x, (forall b y, ~ In b (map fst eqs) -> M b y = M' b y) -> value J M x e = value J M' x e) ->
  forall a e x, In (a, e) eqs -> fold_left (exec_eq J k sizes ext) eqs M a x = if in_range k sizes ext x then value J M x e else M a x.
Proof.
  intros J k sizes ext eqs M0 ND HS.
  assert (G : forall l M, NoDup (map fst l) -> (forall p, In p l -> In p eqs) -> (forall b y, ~ In b (map fst eqs) -> M b y = M0 b y) ->
    forall a e x, In (a, e) l -> fold_left (exec_eq J k sizes ext) l M a x = if in_range k sizes ext x then value J M0 x e else M a x).
  { induction l as [|[a0 e0] l IH]; intros M N HI HM a e x Hin; [destruct Hin|]. cbn [map fst] in N. inversion N as [|? ? N1 N2]; subst.
    cbn [fold_left]. destruct Hin as [E | Hin].
    - injection E as -> ->. rewrite exec_eqs_frame by auto. unfold exec_eq. cbn [fst snd]. rewrite String.eqb_refl. cbn [andb].
      destruct (in_range k sizes ext x); auto. etransitivity; [apply eval_value|]. apply (HS a e (HI _ (or_introl eq_refl))). auto.
    - assert (Na : a <> a0) by (intros ->; apply N1; change a0 with (fst (a0, e)); apply in_map; auto).
      rewrite (IH _ N2) with (e := e); auto.
      + unfold exec_eq. cbn [fst]. destruct (String.eqb_spec a a0); [congruence|]. auto.
      + intros p Hp. apply HI. right. auto.
      + intros b y Hb. unfold exec_eq. cbn [fst]. destruct (String.eqb_spec b a0) as [-> | ]; cbn [andb]; [|apply HM; auto]. exfalso. apply Hb.
        change a0 with (fst (a0, e0)). apply in_map. apply HI. left. auto. }
  apply (G eqs M0 ND); auto.
Qed.

(* value of a right-hand side without the terms that a shock-capturing scheme ignores *)
Section zsem.
Variables (J : interp R) (M : memory) (wd : string -> list Z -> R).
Definition coordinate_of (v : expr) : string := match v with EApp _ [_; ESym KCoord m] => m | _ => EmptyString end.
Fixpoint zsem (e : expr) (x : list Z) : R :=
  match e with
  | ENum q => inum J q
  | ESym kd n => isym J kd n
  | EDat b ix => M b (vadd x ix)
  | EApp hd args =>
      if is_wd e then wd (coordinate_of e) x
      else match hd with HCD => 0%R | HFun _ => 0%R | _ => iapp J hd (map (fun a => zsem a x) args) end
  end.
End zsem.

(* ---- values of terms ---- *)
Lemma hybrid_app : forall J k dirof h M wd hd args x, (forall args', EApp hd args <> EApp HCD args') -> is_wd (EApp hd args) = false ->
  hybrid_value J k dirof h M wd (EApp hd args) x = iapp J hd (map (fun a => hybrid_value J k dirof h M wd a x) args).
Proof.
  intros J k dirof h M wd hd args x H W. destruct hd; try reflexivity; [exfalso; eapply H; reflexivity|].
  destruct args as [|a [|c [|b l]]]; try reflexivity; destruct c; try reflexivity; destruct k0; try reflexivity.
  cbn [is_wd] in W. cbn [hybrid_value]. rewrite W. reflexivity.
Qed.
Lemma hybrid_wd : forall J k dirof h M wd f m x, hybrid_value J k dirof h M wd (WD f m) x = wd m x.
Proof. reflexivity. Qed.
Lemma hybrid_zsem : forall J k dirof h M wd e x,
  (forall v, inside v e -> (forall args, v <> EApp HCD args) /\ forall f args, v = EApp (HFun f) args -> exists g m, v = WD g m) ->
  hybrid_value J k dirof h M wd e x = zsem J M wd e x.
Proof.
  intros J k dirof h M wd. induction e as [q|kd m|b ix|hd args IH] using expr_ind'; intros x H; auto.
  destruct (H _ (in_self _)) as (H1 & H2). cbn [zsem]. destruct (is_wd (EApp hd args)) eqn:W.
  - apply is_wd_iff in W. destruct W as (f & m & W). rewrite W. reflexivity.
  - rewrite hybrid_app by auto.
    assert (A : map (fun a => hybrid_value J k dirof h M wd a x) args = map (fun a => zsem J M wd a x) args).
    { apply map_ext_in. intros a Ha. rewrite Forall_forall in IH. apply IH; auto. intros v Hv. apply H. econstructor; eauto. }
    rewrite A. destruct hd; auto; [exfalso; eapply H1; reflexivity|].
    destruct (H2 _ _ eq_refl) as (f' & m & E). exfalso. assert (X : is_wd (EApp (HFun f) args) = true) by (apply is_wd_iff; eauto). congruence.
Qed.
Lemma hybrid_sem : forall J k dirof h M wd e x, no_function e -> hybrid_value J k dirof h M wd e x = sem J k dirof h M e x.
Proof.
  intros J k dirof h M wd. induction e as [q|kd m|b ix|hd args IH] using expr_ind'; intros x NF; auto. rewrite Forall_forall in IH.
  assert (A : forall y, map (fun a => hybrid_value J k dirof h M wd a y) args = map (fun a => sem J k dirof h M a y) args).
  { intros y. apply map_ext_in. intros a Ha. apply IH; auto. eapply no_function_args; eauto. }
  destruct hd; cbn [hybrid_value sem]; rewrite ?A; auto.
  - destruct args as [|a cs]; auto. apply grid_ext. intros i. apply IH; [left; auto|]. eapply no_function_args; [exact NF | left; auto].
  - exfalso. eapply NF. constructor.
Qed.
Lemma prod_zero : forall l, In 0%R l -> fold_right Rmult 1%R l = 0%R.
Proof. induction l as [|a l IH]; cbn; [tauto|]. intros [-> | H]; [ring | rewrite IH by auto; ring]. Qed.
Lemma sum_zero : forall l, (forall a, In a l -> a = 0%R) -> fold_right Rplus 0%R l = 0%R.
Proof. induction l as [|a l IH]; cbn; auto. intros H. rewrite (H a), IH by auto. ring. Qed.
Lemma zsem_zero : forall J M wd t x, real_arithmetic J -> made_of derivative t -> zsem J M wd t x = 0%R.
Proof.
  intros J M wd t x (_ & Ja & Jm) H. induction H as [v (a & cs & ->)|a args Ha H IH|args H IH].
  - reflexivity.
  - cbn [zsem is_wd]. rewrite Jm. apply prod_zero. apply in_map_iff. eauto.
  - cbn [zsem is_wd]. rewrite Ja. apply sum_zero. intros b Hb. apply in_map_iff in Hb. destruct Hb as (a & <- & Ha). auto.
Qed.
Lemma sem_zero : forall J k dirof h M t x, real_arithmetic J -> made_of derivative t -> (forall v, inside v t -> ~ derivative v) -> sem J k dirof h M t x = 0%R.
Proof.
  intros J k dirof h M t x (_ & Ja & Jm) H. induction H as [v D|a args Ha H IH|args H IH]; intros N.
  - exfalso. apply (N v); auto. constructor.
  - cbn [sem]. rewrite Jm. apply prod_zero. apply in_map_iff. exists a. split; auto. apply IH. intros v Hv. apply N. econstructor; eauto.
  - cbn [sem]. rewrite Ja. apply sum_zero. intros b Hb. apply in_map_iff in Hb. destruct Hb as (a & <- & Ha). apply IH; auto.
    intros v Hv. apply N. econstructor; eauto.
Qed.
Lemma head_cd : forall hd : Expr.head, hd = HCD \/ hd <> HCD.
Proof. intros []; auto; right; discriminate. Qed.
Lemma hybrid_wd_ext : forall J k dirof h M wd wd' e x, (forall f m, inside (WD f m) e -> forall y, wd m y = wd' m y) ->
  hybrid_value J k dirof h M wd e x = hybrid_value J k dirof h M wd' e x.
Proof.
  intros J k dirof h M wd wd'. induction e as [q|kd m|b ix|hd args IH] using expr_ind'; intros x H; auto. rewrite Forall_forall in IH.
  assert (A : forall a y, In a args -> hybrid_value J k dirof h M wd a y = hybrid_value J k dirof h M wd' a y).
  { intros a y Ha. apply IH; auto. intros f m Hi. apply (H f). econstructor; eauto. }
  destruct (is_wd (EApp hd args)) eqn:W.
  - apply is_wd_iff in W. destruct W as (f & m & W). rewrite W, !hybrid_wd. apply (H f). rewrite W. constructor.
  - assert (B : map (fun a => hybrid_value J k dirof h M wd a x) args = map (fun a => hybrid_value J k dirof h M wd' a x) args) by (apply map_ext_in; auto).
    destruct (head_cd hd) as [-> | N].
    + cbn [hybrid_value]. destruct args as [|a cs]; auto. apply grid_ext. intros i. apply A. left. auto.
    + rewrite !hybrid_app by (auto; intros ? E; injection E; intros; auto). rewrite B. auto.
Qed.
Lemma viscous_part : forall rhs, (exists args, rhs = EApp HAdd args \/ rhs = EApp HMul args) -> (forall t, In t (terms rhs) -> has_re t = true -> no_function t) ->
  fst (classify rhs) = match rhs with EApp HAdd args => EApp HAdd (filter has_re args) | _ => if has_re rhs then rhs else ENum 0 end.
Proof.
  intros rhs (args & [-> | ->]) NF.
  - cbn [classify fst zero_functions]. f_equal. apply map_zero_id. intros a Ha. apply filter_In in Ha. apply NF; tauto.
  - unfold classify. destruct (has_re (EApp HMul args)) eqn:HR; cbn [fst]; [|reflexivity]. apply zero_functions_id. apply NF; [left; auto | auto].
Qed.

(* ---- the kernels of a shock-capturing scheme ---- *)
Section main.
Variables (J : interp R) (k ndim : nat) (dirof : string -> nat) (inv : nat -> nat -> expr)
  (dord : expr -> list dset) (sord : list (expr * string) -> list (expr * string)) (worder : list expr -> list expr)
  (h : nat -> R) (sizes : list Z).
Hypothesis HJ : real_arithmetic J.
Hypothesis Hinv : forall M x d m, value J M x (inv d m) = (/ h d ^ m)%R.
Hypothesis Hsz : List.length sizes = ndim.
Hypothesis Hw : forall l, Permutation l (worder l).
Variables (coordinate : nat -> string) (fluxes : nat -> list expr) (eqs : list (string * expr)).
Hypothesis SS : shock_system ndim dirof reserved coordinate fluxes eqs.
Notation n := (List.length eqs).
Definition WDof (d i : nat) : expr := WD (nth i (fluxes d) (ENum 0)) (coordinate d).

Lemma dir_WD : forall d i, (d < ndim)%nat -> wd_dir dirof (WDof d i) = d.
Proof. intros d i Hd. cbn. apply (ss_coordinate _ _ _ _ _ _ SS). auto. Qed.
Lemma WD_inj : forall d i d' i', (d < ndim)%nat -> (d' < ndim)%nat -> (i < n)%nat -> (i' < n)%nat -> WDof d i = WDof d' i' -> d = d' /\ i = i'.
Proof.
  intros d i d' i' Hd Hd' Hi Hi' E. unfold WDof, WD in E. injection E as E1 E2.
  assert (d = d') by (rewrite <- (ss_coordinate _ _ _ _ _ _ SS d Hd), <- (ss_coordinate _ _ _ _ _ _ SS d' Hd'); congruence). subst d'.
  split; auto. destruct (ss_fluxes _ _ _ _ _ _ SS d Hd) as (L & ND & _). apply (proj1 (NoDup_nth _ (ENum 0)) ND i i'); auto; lia.
Qed.
Lemma equation_wds : forall i r rhs v, nth_error eqs i = Some (r, rhs) ->
  (In v (worder (nodup expr_eq_dec (wds rhs))) <-> exists d, (d < ndim)%nat /\ v = WDof d i).
Proof.
  intros i r rhs v E. rewrite <- (ss_one _ _ _ _ _ _ SS i r rhs E v). rewrite <- in_wds, <- (nodup_In expr_eq_dec (wds rhs) v).
  split; apply Permutation_in; [symmetry|]; apply Hw.
Qed.
Lemma groups_ok : sorted_groups (shock_groups dirof worder eqs) = map (fun d => (d, map (WDof d) (seq 0 n))) (seq 0 ndim).
Proof.
  unfold shock_groups. rewrite (all_groups dirof _ ndim).
  - apply map_ext_in. intros d Hd. apply in_seq in Hd. f_equal. unfold of_dir. rewrite filter_flat_map. apply flat_map_single.
    intros i (r & rhs) E. cbn [snd Nat.add]. apply filter_single.
    + apply (Permutation_NoDup (Hw _)). apply NoDup_nodup.
    + intros v. rewrite (equation_wds i r rhs v E), Nat.eqb_eq. split.
      * intros ((d' & Hd' & ->) & E'). rewrite dir_WD in E' by auto. congruence.
      * intros ->. split; [exists d; split; auto; lia | apply dir_WD; lia].
  - intros v Hv. apply in_flat_map in Hv. destruct Hv as ((r & rhs) & Hin & Hv). apply In_nth_error in Hin. destruct Hin as (i & E).
    apply (equation_wds i r rhs v E) in Hv. destruct Hv as (d & Hd & ->). rewrite dir_WD; auto.
  - intros d Hd. destruct (nth_error eqs 0) as [(r & rhs)|] eqn:E.
    + exists (WDof d 0). split; [|apply dir_WD; auto]. apply in_flat_map. exists (r, rhs). split; [eapply nth_error_In; eauto|].
      apply (equation_wds 0 r rhs _ E). eauto.
    + exfalso. apply nth_error_None in E. pose proof (ss_count _ _ _ _ _ _ SS). lia.
Qed.

Definition wks (d : nat) : list string := map wk_name (seq (d * n) n).
Definition all_works : list (expr * string) := flat_map (fun d => combine (map (WDof d) (seq 0 n)) (wks d)) (seq 0 ndim).
Lemma fluxes_nth : forall d, (d < ndim)%nat -> map wd_flux (map (WDof d) (seq 0 n)) = fluxes d.
Proof.
  intros d Hd. rewrite map_map. destruct (ss_fluxes _ _ _ _ _ _ SS d Hd) as (L & _). rewrite <- L.
  cbn [wd_flux WDof WD]. clear. induction (fluxes d) as [|f l IH]; auto. cbn [List.length seq map nth]. f_equal.
  rewrite <- seq_shift, map_map. exact IH.
Qed.
Lemma kernels_ok : forall m s, (s + m <= ndim)%nat ->
  shock_kernels ndim (s * n) (map (fun d => (d, map (WDof d) (seq 0 n))) (seq s m)) =
  Ok (map (fun d => HRec d (wks d) (fluxes d)) (seq s m), flat_map (fun d => combine (map (WDof d) (seq 0 n)) (wks d)) (seq s m)).
Proof.
  induction m as [|m IH]; intros s Hs; auto. cbn [seq map shock_kernels flat_map].
  rewrite map_length, seq_length, (ss_count _ _ _ _ _ _ SS), Nat.eqb_refl, <- (ss_count _ _ _ _ _ _ SS).
  replace (s * n + n)%nat with (S s * n)%nat by (cbn; lia). rewrite IH by lia. cbn [bind fst snd].
  rewrite fluxes_nth by lia. reflexivity.
Qed.
Lemma combine_seq : forall (f : nat -> expr) (g : nat -> string) c m s, combine (map f (seq s m)) (map g (seq (c + s) m)) = map (fun i => (f i, g (c + i)%nat)) (seq s m).
Proof. intros f g c. induction m as [|m IH]; intros s; auto. cbn [seq map combine]. f_equal. rewrite <- IH, Nat.add_succ_r. reflexivity. Qed.
Lemma combine_wks : forall d, combine (map (WDof d) (seq 0 n)) (wks d) = map (fun i => (WDof d i, wk_name (d * n + i))) (seq 0 n).
Proof. intros d. unfold wks. rewrite <- (Nat.add_0_r (d * n)). rewrite combine_seq. rewrite Nat.add_0_r. reflexivity. Qed.
Lemma in_works : forall v w, In (v, w) all_works <-> exists d i, (d < ndim)%nat /\ (i < n)%nat /\ v = WDof d i /\ w = wk_name (d * n + i).
Proof.
  intros v w. unfold all_works. rewrite in_flat_map. split.
  - intros (d & Hd & H). rewrite combine_wks in H. apply in_map_iff in H. destruct H as (i & E & Hi). apply in_seq in Hd. apply in_seq in Hi.
    injection E as <- <-. exists d, i. repeat split; auto; lia.
  - intros (d & i & Hd & Hi & -> & ->). exists d. split; [apply in_seq; lia|]. rewrite combine_wks.
    apply in_map_iff. exists i. split; auto. apply in_seq; lia.
Qed.
Lemma work_of_unique : forall v w l, In (v, w) l -> (forall w', In (v, w') l -> w' = w) -> work_of v l = Some w.
Proof.
  intros v w l Hin U. unfold work_of. destruct (find _ l) as [(v' & w')|] eqn:E.
  - apply find_some in E. destruct E as (E1 & E2). cbn [fst] in E2. destruct (expr_eq_dec v v') as [<- | ]; [|discriminate].
    cbn. f_equal. apply U. auto.
  - exfalso. pose proof (find_none _ _ E (v, w) Hin) as H. cbn in H. destruct (expr_eq_dec v v); congruence.
Qed.
Lemma work_of_WD : forall d i, (d < ndim)%nat -> (i < n)%nat -> work_of (WDof d i) all_works = Some (wk_name (d * n + i)).
Proof.
  intros d i Hd Hi. apply work_of_unique.
  - apply in_works. exists d, i. auto.
  - intros w' H. apply in_works in H. destruct H as (d' & i' & Hd' & Hi' & E & ->). apply WD_inj in E; auto. destruct E as (-> & ->). auto.
Qed.
Lemma shock_ok : ndim <> 0%nat -> shock_discretise ndim dirof inv worder eqs =
  Ok (map (fun d => HRec d (wks d) (fluxes d)) (seq 0 ndim) ++
      [HKer {| k_eqs := map (fun re => (fst re, replace ndim dirof inv all_works (snd re))) eqs; k_ext := [] |}]).
Proof.
  intros H. unfold shock_discretise. rewrite groups_ok.
  pose proof (kernels_ok ndim 0 (le_n _)) as K. cbn [Nat.mul] in K. unfold all_works.
  set (G := map (fun d => (d, map (WDof d) (seq 0 n))) (seq 0 ndim)) in *.
  assert (NE : G <> []) by (unfold G; destruct ndim; [congruence | discriminate]).
  clearbody G. destruct G; [congruence|]. rewrite K. reflexivity.
Qed.

(* ---- execution ---- *)
Variables (sch : LLFModel.scheme) (g : R) (av : averaging) (solution : list string).
Hypothesis Hsol : forall q, In q solution -> ~ reserved q.
Notation FLUX := (fun d M x => flux_at J sizes sch g av solution d (fluxes d) M x).
Notation EXEC := (exec_hybrid J k sizes sch g av solution).

Lemma named : forall a, (forall i, a <> wk_name i) -> ~ reserved a.
Proof. intros a H (i & E). apply (H i). auto. Qed.
Lemma letter_not_wk : forall c s, c <> "w"%char -> ~ reserved (String c s).
Proof. intros c s H (i & E). unfold wk_name in E. cbn in E. congruence. Qed.
Lemma flux_arrays : forall d f b ix, (d < ndim)%nat -> In f (fluxes d) -> In (b, ix) (dsets f) -> ~ reserved b /\ ~ In b (map fst eqs).
Proof.
  intros d f b ix Hd Hf Hb. destruct (ss_fluxes _ _ _ _ _ _ SS d Hd) as (L & _). apply In_nth with (d := ENum 0) in Hf. destruct Hf as (i & Hi & <-).
  destruct (nth_error eqs i) as [(r & rhs)|] eqn:E; [|apply nth_error_None in E; lia].
  assert (X : inside (WDof d i) rhs) by (apply (ss_one _ _ _ _ _ _ SS i r rhs E); exists d; auto).
  apply (ss_arrays _ _ _ _ _ _ SS r rhs b ix); [eapply nth_error_In; eauto|]. eapply inside_dsets; [exact X|].
  unfold WDof, WD. rewrite dsets_app. apply in_flat_map. exists (nth i (fluxes d) (ENum 0)). split; [left|]; auto.
Qed.
Lemma flux_agree : forall d M M' x, (d < ndim)%nat -> (forall b y, ~ reserved b -> M b y = M' b y) -> FLUX d M x = FLUX d M' x.
Proof.
  intros d M M' x Hd H. unfold flux_at.
  replace (fun j => cell_at J sizes solution d (fluxes d) M (move d j x)) with (fun j => cell_at J sizes solution d (fluxes d) M' (move d j x)); auto.
  apply functional_extensionality. intros j. unfold cell_at. f_equal.
  - apply map_ext_in. intros q Hq. symmetry. apply H. auto.
  - apply map_ext_in. intros f Hf. apply value_agree. intros b ix Hb y. symmetry. apply H. eapply flux_arrays; eauto.
  - symmetry. apply H, letter_not_wk. discriminate.
  - apply map_ext_in. intros u Hu. symmetry. apply H. unfold velocities in Hu. apply in_firstn in Hu.
    destruct Hu as [<- | [<- | [<- | []]]]; apply letter_not_wk; discriminate.
  - symmetry. apply H, letter_not_wk. discriminate.
  - symmetry. apply H, letter_not_wk. discriminate.
Qed.
Lemma index_none : forall a l, ~ In a l -> index_of a l = None.
Proof. induction l as [|b l IH]; auto. intros H. cbn. destruct (String.eqb_spec a b) as [-> | N]; [exfalso; apply H; left; auto|]. rewrite IH; auto. intro; apply H; right; auto. Qed.
Lemma index_wk : forall m s i, (i < m)%nat -> index_of (wk_name (s + i)) (map wk_name (seq s m)) = Some i.
Proof.
  induction m as [|m IH]; intros s i Hi; [lia|]. cbn [seq map index_of]. destruct (String.eqb_spec (wk_name (s + i)) (wk_name s)) as [E | N].
  - apply wk_name_inj in E. f_equal. lia.
  - destruct i; [exfalso; apply N; f_equal; lia|]. rewrite Nat.add_succ_r, <- Nat.add_succ_l. rewrite IH by lia. auto.
Qed.
Lemma in_wks : forall d i d', (i < n)%nat -> In (wk_name (d * n + i)) (wks d') -> d' = d.
Proof.
  intros d i d' Hi H. apply in_map_iff in H. destruct H as (j & E & Hj). apply wk_name_inj in E. apply in_seq in Hj. subst j. nia.
Qed.
Lemma recs_run : forall ds M, NoDup ds -> (forall d, In d ds -> (d < ndim)%nat) ->
  let M' := EXEC (map (fun d => HRec d (wks d) (fluxes d)) ds) M in
  (forall b x, ~ reserved b -> M' b x = M b x) /\
  (forall d i x, (i < n)%nat -> ~ In d ds -> M' (wk_name (d * n + i)) x = M (wk_name (d * n + i)) x) /\
  (forall d i x, In d ds -> (i < n)%nat -> in_range 1 sizes [d] x = true -> M' (wk_name (d * n + i)) x = nth i (FLUX d M x) 0%R).
Proof.
  induction ds as [|d0 ds IH]; intros M ND Hd; cbv zeta; [cbn; repeat split; auto; intros ? ? ? []|].
  apply NoDup_cons_iff in ND. destruct ND as (N1 & N2). unfold exec_hybrid. cbn [map fold_left]. set (M1 := exec_hkernel _ _ _ _ _ _ _ M _).
  destruct (IH M1 N2 (fun d H => Hd d (or_intror H))) as (A & B & C).
  assert (F1 : forall b x, ~ reserved b -> M1 b x = M b x).
  { intros b x Hb. unfold M1. cbn [exec_hkernel]. rewrite index_none; auto. intros H. apply in_map_iff in H. destruct H as (i & <- & _). apply Hb. exists i. auto. }
  split; [intros b x Hb; rewrite <- (F1 b x Hb); apply A; auto|]. split.
  - intros d i x Hi Hn. etransitivity; [apply B; auto; intro; apply Hn; right; auto|]. unfold M1. cbn [exec_hkernel].
    rewrite index_none; auto. intros H. apply in_wks in H; auto. apply Hn. left. auto.
  - intros d i x [<- | Hin] Hi Hx.
    + etransitivity; [apply B; auto|]. unfold M1. cbn [exec_hkernel]. unfold wks. rewrite index_wk by auto. rewrite Hx. auto.
    + etransitivity; [apply C; auto|]. f_equal. apply flux_agree; auto. apply Hd. right. auto.
Qed.

Definition wd_value (M : memory) (i : nat) : string -> list Z -> R := flux_difference dirof h (fun d x => FLUX d M x) i.
Lemma form_value : forall M M1 d i x, (d < ndim)%nat -> (i < n)%nat -> in_range 1 sizes [] x = true ->
  (forall d i x, (d < ndim)%nat -> (i < n)%nat -> in_range 1 sizes [d] x = true -> M1 (wk_name (d * n + i)) x = nth i (FLUX d M x) 0%R) ->
  value J M1 x (wd_form ndim inv d (wk_name (d * n + i))) = wd_value M i (coordinate d) x.
Proof.
  intros M M1 d i x Hd Hi Hx H. pose proof (in_range_length 1 ndim sizes Hsz _ _ Hx) as L.
  pose proof (Hinv M1 x d 1) as HI. unfold value in *. unfold wd_form. cbn [eval map].
  destruct HJ as (Jn & Ja & Jm). rewrite Jm, Ja. cbn [map fold_right]. rewrite Jm. cbn [fold_right]. rewrite HI. cbn [eval here]. rewrite Jn.
  rewrite vadd_0_r by auto. rewrite vadd_along by auto. rewrite !H; auto.
  - unfold wd_value, flux_difference. rewrite (ss_coordinate _ _ _ _ _ _ SS d Hd). unfold Q2R. cbn [Qnum Qden pow]. unfold Rdiv. rewrite !Rmult_1_r.
    try (replace (-1 * / 1)%R with (-1)%R by field). ring.
  - apply (in_range_move 1 ndim sizes Hsz d [d] x (-1)%Z); auto; [left; auto | cbn; lia].
  - eapply in_range_weaken; eauto.
Qed.
Lemma is_wd_head : forall hd args, is_wd (EApp hd args) = true -> exists f m, EApp hd args = WD f m.
Proof. intros. apply is_wd_iff. auto. Qed.
Lemma replace_value : forall i r rhs M M1 x, nth_error eqs i = Some (r, rhs) -> in_range 1 sizes [] x = true ->
  (forall b x, ~ reserved b -> M1 b x = M b x) ->
  (forall d i x, (d < ndim)%nat -> (i < n)%nat -> in_range 1 sizes [d] x = true -> M1 (wk_name (d * n + i)) x = nth i (FLUX d M x) 0%R) ->
  forall e, inside e rhs -> value J M1 x (replace ndim dirof inv all_works e) = zsem J M (wd_value M i) e x.
Proof.
  intros i r rhs M M1 x E Hx HM HW. assert (Hin : In (r, rhs) eqs) by (eapply nth_error_In; eauto).
  assert (Hi : (i < n)%nat) by (apply nth_error_Some; congruence).
  induction e as [q|kd m|b ix|hd args IH] using expr_ind'; intros He; auto.
  - cbn [replace zsem]. unfold value. cbn [eval]. apply HM. apply (ss_arrays _ _ _ _ _ _ SS r rhs b ix); auto. eapply inside_dsets; [exact He | left; auto].
  - cbn [zsem]. cbn [replace]. destruct (is_wd (EApp hd args)) eqn:W.
    + apply is_wd_head in W. destruct W as (f & m & W). assert (X : exists d, (d < ndim)%nat /\ EApp hd args = WDof d i).
      { apply (ss_one _ _ _ _ _ _ SS i r rhs E). split; eauto. }
      destruct X as (d & Hd & X). rewrite X, work_of_WD, dir_WD by auto. apply form_value; auto.
    + assert (Z : value J M1 x (ENum 0) = 0%R) by (unfold value; cbn [eval]; rewrite (proj1 HJ); unfold Q2R; cbn; lra).
      assert (A : forall hd', value J M1 x (EApp hd' (map (replace ndim dirof inv all_works) args)) = iapp J hd' (map (fun a => zsem J M (wd_value M i) a x) args)).
      { intros hd'. unfold value. cbn [eval]. f_equal. rewrite map_map. apply map_ext_in. intros a Ha. rewrite Forall_forall in IH. apply IH; auto.
        eapply inside_trans; [|exact He]. econstructor; [exact Ha | constructor]. }
      destruct hd; auto.
Qed.
Lemma replace_stable : forall i r rhs, nth_error eqs i = Some (r, rhs) -> forall (M M' : memory) x, (forall b y, ~ In b (map fst eqs) -> M b y = M' b y) ->
  forall e, inside e rhs -> value J M x (replace ndim dirof inv all_works e) = value J M' x (replace ndim dirof inv all_works e).
Proof.
  intros i r rhs E M M' x H. assert (Hin : In (r, rhs) eqs) by (eapply nth_error_In; eauto).
  assert (Hi : (i < n)%nat) by (apply nth_error_Some; congruence).
  assert (NW : forall j, ~ In (wk_name j) (map fst eqs)).
  { intros j Hj. apply in_map_iff in Hj. destruct Hj as ((r0 & e0) & E0 & H0). apply (ss_residual _ _ _ _ _ _ SS r0 e0 H0). exists j. auto. }
  induction e as [q|kd m|b ix|hd args IH] using expr_ind'; intros He; auto.
  - cbn [replace]. unfold value. cbn [eval]. apply H. apply (ss_arrays _ _ _ _ _ _ SS r rhs b ix); auto. eapply inside_dsets; [exact He | left; auto].
  - cbn [replace]. destruct (is_wd (EApp hd args)) eqn:W.
    + apply is_wd_head in W. destruct W as (f & m & W). assert (X : exists d, (d < ndim)%nat /\ EApp hd args = WDof d i).
      { apply (ss_one _ _ _ _ _ _ SS i r rhs E). split; eauto. }
      destruct X as (d & Hd & X). rewrite X, work_of_WD, dir_WD by auto.
      pose proof (Hinv M x d 1) as I1. pose proof (Hinv M' x d 1) as I2. unfold value in *. unfold wd_form. cbn [eval map here]. rewrite I1, I2. rewrite !H by auto. reflexivity.
    + assert (A : forall hd', value J M x (EApp hd' (map (replace ndim dirof inv all_works) args)) = value J M' x (EApp hd' (map (replace ndim dirof inv all_works) args))).
      { intros hd'. unfold value. cbn [eval]. f_equal. rewrite !map_map. apply map_ext_in. intros a Ha. rewrite Forall_forall in IH. apply IH; auto.
        eapply inside_trans; [|exact He]. econstructor; [exact Ha | constructor]. }
      destruct hd; auto.
Qed.
Lemma exec_hybrid_app : forall l1 l2 M, EXEC (l1 ++ l2) M = EXEC l2 (EXEC l1 M).
Proof. intros. unfold exec_hybrid. apply fold_left_app. Qed.
Lemma exec_hybrid_ker : forall ks M, EXEC (map HKer ks) M = exec J k sizes ks M.
Proof. induction ks as [|kn ks IH]; intros M; auto. unfold exec_hybrid, exec. cbn [map fold_left exec_hkernel]. apply IH. Qed.

Lemma shock_run : ndim <> 0%nat -> exists ks, shock_discretise ndim dirof inv worder eqs = Ok ks /\ forall M,
  (forall b x, ~ reserved b -> ~ In b (map fst eqs) -> EXEC ks M b x = M b x) /\
  (forall i r rhs x, nth_error eqs i = Some (r, rhs) -> in_range 1 sizes [] x = true -> EXEC ks M r x = zsem J M (wd_value M i) rhs x).
Proof.
  intros H0. eexists. split; [apply shock_ok; auto|]. intros M. rewrite exec_hybrid_app.
  destruct (recs_run (seq 0 ndim) M (seq_NoDup _ _)) as (A & _ & C); [intros d Hd; apply in_seq in Hd; lia|].
  set (M1 := EXEC (map (fun d => HRec d (wks d) (fluxes d)) (seq 0 ndim)) M) in *. clearbody M1.
  unfold exec_hybrid. cbn [fold_left exec_hkernel]. unfold exec_kernel. cbn [k_ext k_eqs].
  assert (F : map fst (map (fun re : string * expr => (fst re, replace ndim dirof inv all_works (snd re))) eqs) = map fst eqs) by (rewrite map_map; reflexivity).
  split.
  - intros b x Hb Hr. rewrite exec_eqs_frame by (rewrite F; auto). apply A. auto.
  - intros i r rhs x E Hx. assert (Hin : In (r, rhs) eqs) by (eapply nth_error_In; eauto).
    rewrite exec_eqs_stable with (e := replace ndim dirof inv all_works rhs).
    + assert (Hk : in_range k sizes [] x = true) by (apply grid_point_range; apply grid_point_range in Hx; auto). rewrite Hk.
      apply (replace_value i r rhs M M1 x E Hx A); [|constructor]. intros d j y Hd Hj Hy. apply C; auto. apply in_seq. lia.
    + rewrite F. apply (ss_distinct _ _ _ _ _ _ SS).
    + rewrite F. intros a e Ha N N' y HN. apply in_map_iff in Ha. destruct Ha as ((r0 & rhs0) & E0 & H1). cbn [fst snd] in E0. injection E0 as <- <-.
      apply In_nth_error in H1. destruct H1 as (j & Ej). apply (replace_stable j r0 rhs0 Ej); auto. constructor.
    + apply in_map_iff. exists (r, rhs). auto.
Qed.

(* ---- followed by the central scheme ---- *)
Hypothesis HS : hybrid_system ndim dirof reserved coordinate fluxes eqs.
Hypothesis Hdord : forall e, enumerates (dord e) e.
Hypothesis Hperm : forall l, Permutation l (sord l).
Hypothesis Hinner : forall l l', Permutation l l' -> inner_first l' -> inner_first (sord l).
Variables ccds vcds : list expr.
Hypothesis HC : lists_derivatives eqs (fun t => ~ viscous_term t) ccds.
Hypothesis HV : lists_derivatives eqs viscous_term vcds.

Lemma no_ccds : ccds = [].
Proof.
  destruct ccds as [|v l]; auto. exfalso. destruct (proj1 (proj2 HC v) (or_introl eq_refl)) as ((a & cs & ->) & r & rhs & t & Hin & Ht & Hn & Hi).
  destruct (hs_inviscid _ _ _ _ _ _ HS r rhs t Hin Ht Hn _ Hi) as (N & _). apply (N (a :: cs)). auto.
Qed.
Lemma visc_ok : forall v, In v vcds -> orig ndim dirof v /\ shallow vcds v.
Proof.
  intros v Hv. assert (Hv' := Hv). apply (proj2 HV) in Hv'. destruct Hv' as (Hd & r & rhs & t & Hin & Ht & Hnv & Hi).
  destruct (hs_viscous _ _ _ _ _ _ HS r rhs t Hin Ht Hnv) as (_ & _ & HP). destruct (HP v Hi Hd) as (Pr & L & Co). rewrite nderivs_len in L.
  assert (Hir : inside v rhs) by (eapply inside_trans; eauto; apply terms_inside; auto).
  assert (Or : orig ndim dirof v).
  { split; auto. split; intros b ix Hb; [|apply notwork_reserved]; apply (ss_arrays _ _ _ _ _ _ SS r rhs b ix); auto; eapply inside_dsets; eauto. }
  split; auto. destruct Pr as (a & m & q & Ev & Hdn & Hne).
  assert (E : cds_post v = cds_post a ++ [v]) by (rewrite Ev; apply cds_cd).
  unfold shallow. rewrite E in L. rewrite app_length in L. cbn in L.
  destruct (cds_post a) as [|c [|c' l]] eqn:Ea; [left; auto | | cbn in L; lia].
  right. exists c. split; [auto|].
  assert (Hca : In c (cds_post a)) by (rewrite Ea; left; auto). apply in_cds in Hca. destruct Hca as (Hia & Hcd).
  assert (Hcv : inside c v) by (rewrite Ev; econstructor; [left; reflexivity | auto]).
  split.
  - apply (proj2 HV). split; auto. exists r, rhs, t. split; [auto|split; [auto|split; [auto|]]]. eapply inside_trans; eauto.
  - apply (fewer_coordinates c v m); auto.
    + rewrite Ev, syms_app. apply in_flat_map. exists (ESym KCoord m). split; [right; left; auto | left; auto].
    + apply (Co a m (repeat (ESym KCoord m) q)); auto.
Qed.
Lemma visc_terms : forall r rhs t, In (r, rhs) eqs -> In t (terms rhs) -> has_re t = true -> no_function t.
Proof. intros r rhs t Hin Ht HR. apply has_re_spec in HR. apply (hs_viscous _ _ _ _ _ _ HS r rhs t); auto. Qed.
Definition fv (rhs : expr) : expr := match rhs with EApp HAdd args => EApp HAdd (filter has_re args) | _ => if has_re rhs then rhs else ENum 0 end.
Lemma fv_classify : forall r rhs, In (r, rhs) eqs -> fst (classify rhs) = fv rhs.
Proof. intros r rhs Hin. apply viscous_part; [eapply hs_form; eauto|]. intros t. eapply visc_terms; eauto. Qed.
Lemma fv_dsets : forall r rhs b, In (r, rhs) eqs -> In b (dsets (fv rhs)) -> In b (dsets rhs).
Proof.
  intros r rhs b Hin. destruct (hs_form _ _ _ _ _ _ HS r rhs Hin) as (args & [-> | ->]); unfold fv.
  - rewrite !dsets_app, !in_flat_map. intros (t & Ht & Hb). apply filter_In in Ht. exists t. tauto.
  - destruct (has_re (EApp HMul args)); [auto | intros []].
Qed.
Lemma fv_cds : forall r rhs v, In (r, rhs) eqs -> In v (cds_post (fv rhs)) -> exists t, In t (terms rhs) /\ has_re t = true /\ In v (cds_post t).
Proof.
  intros r rhs v Hin. destruct (hs_form _ _ _ _ _ _ HS r rhs Hin) as (args & [-> | ->]); unfold fv.
  - rewrite cds_post_app. cbn [is_cd]. rewrite app_nil_r, in_flat_map. intros (t & Ht & Hv). apply filter_In in Ht. exists t. tauto.
  - cbn [terms]. destruct (has_re (EApp HMul args)) eqn:HR; [|intros []]. intros H. exists (EApp HMul args). cbn. auto.
Qed.
Lemma split_value : forall r rhs M wd x, In (r, rhs) eqs ->
  (zsem J M wd rhs x + sem J k dirof h M (fv rhs) x = hybrid_value J k dirof h M wd rhs x)%R.
Proof.
  intros r rhs M wd x Hin.
  assert (TV : forall t, In t (terms rhs) -> has_re t = true -> zsem J M wd t x = 0%R /\ sem J k dirof h M t x = hybrid_value J k dirof h M wd t x).
  { intros t Ht HR. apply has_re_spec in HR. destruct (hs_viscous _ _ _ _ _ _ HS r rhs t Hin Ht HR) as (Md & NF & _). split; [apply zsem_zero; auto|].
    symmetry. apply hybrid_sem. auto. }
  assert (TI : forall t, In t (terms rhs) -> has_re t = false -> zsem J M wd t x = hybrid_value J k dirof h M wd t x).
  { intros t Ht HR. symmetry. apply hybrid_zsem. apply (hs_inviscid _ _ _ _ _ _ HS r rhs t); auto. rewrite <- has_re_spec. congruence. }
  destruct (hs_form _ _ _ _ _ _ HS r rhs Hin) as (args & [-> | ->]); unfold fv.
  - cbn [terms] in TV, TI. rewrite sem_add by auto. rewrite hybrid_app; [|discriminate|reflexivity]. cbn [zsem is_wd]. destruct HJ as (_ & Ja & _). rewrite !Ja.
    rewrite <- (sum_filter (fun a => hybrid_value J k dirof h M wd a x) has_re args), <- (sum_filter (fun a => zsem J M wd a x) has_re args).
    rewrite (sum_zero (map (fun a => zsem J M wd a x) (filter has_re args))).
    + rewrite (map_ext_in (fun a => sem J k dirof h M a x) (fun a => hybrid_value J k dirof h M wd a x)).
      * rewrite (map_ext_in (fun a => zsem J M wd a x) (fun a => hybrid_value J k dirof h M wd a x)); [ring|].
        intros a Ha. apply filter_In in Ha. apply TI; [tauto|]. destruct (has_re a); cbn in Ha; destruct Ha; auto.
      * intros a Ha. apply filter_In in Ha. apply TV; tauto.
    + intros a Ha. apply in_map_iff in Ha. destruct Ha as (t & <- & Ht). apply filter_In in Ht. apply TV; tauto.
  - cbn [terms] in TV, TI. destruct (has_re (EApp HMul args)) eqn:HR.
    + destruct (TV _ (or_introl eq_refl) HR) as (-> & ->). ring.
    + rewrite (TI _ (or_introl eq_refl) HR), sem_num0 by auto. ring.
Qed.
Lemma central_run : exists ks, sbli_rhs_discretisation k ndim dirof inv dord sord ccds vcds eqs = Ok ks /\ forall M,
  (forall b x, ~ reserved b -> ~ In b (map fst eqs) -> exec J k sizes ks M b x = M b x) /\
  (forall r rhs x, In (r, rhs) eqs -> in_range k sizes [] x = true -> exec J k sizes ks M r x = (M r x + sem J k dirof h M (fv rhs) x)%R).
Proof.
  unfold sbli_rhs_discretisation. rewrite no_ccds. cbn [convective_kernels group_by_direction fold_left bind app].
  set (V := map (fun re : string * expr => (fst re, fst (classify (snd re)))) eqs).
  assert (FV : map fst V = map fst eqs) by (unfold V; rewrite map_map; reflexivity).
  assert (InV : forall r rhs, In (r, rhs) eqs -> In (r, fv rhs) V).
  { intros r rhs Hin. rewrite <- (fv_classify r rhs Hin). unfold V. apply in_map_iff. exists (r, rhs). auto. }
  destruct vcds as [|v0 vc] eqn:Evc.
  - cbn [viscous_kernels bind]. eexists. split; [reflexivity|]. intros M. split; auto. intros r rhs x Hin Hx. cbn [app exec fold_left].
    assert (Z : sem J k dirof h M (fv rhs) x = 0%R); [|rewrite Z; ring].
    assert (T0 : forall t, In t (terms rhs) -> has_re t = true -> sem J k dirof h M t x = 0%R).
    { intros t Ht HR. apply has_re_spec in HR. apply sem_zero; auto; [apply (hs_viscous _ _ _ _ _ _ HS r rhs t); auto|].
      intros v Hv Hd. apply (proj2 HV v). split; auto. exists r, rhs, t. auto. }
    destruct (hs_form _ _ _ _ _ _ HS r rhs Hin) as (args & [-> | ->]); unfold fv.
    + rewrite sem_add by auto. apply sum_zero. intros a Ha. apply in_map_iff in Ha. destruct Ha as (t & <- & Ht). apply filter_In in Ht. apply T0; tauto.
    + destruct (has_re (EApp HMul args)) eqn:HR; [apply T0; cbn; auto | apply sem_num0; auto].
  - rewrite <- Evc in *.
    destruct (viscous_ok J k ndim dirof inv dord sord h sizes HJ Hinv Hdord Hsz vcds (proj1 HV) visc_ok V) as (kv & Ekv & Xv).
    { congruence. }
    { unfold eqs_ok. rewrite FV. split; [apply (ss_distinct _ _ _ _ _ _ SS)|].
      intros r e Hin. unfold V in Hin. apply in_map_iff in Hin. destruct Hin as ([r0 rhs] & E & Hin). cbn [fst snd] in E. injection E as -> <-.
      rewrite (fv_classify r rhs Hin).
      assert (X : forall b ix, In (b, ix) (dsets (fv rhs)) -> ~ reserved b /\ ~ In b (map fst eqs)).
      { intros b ix Hb. apply (fv_dsets r) in Hb; auto. apply (ss_arrays _ _ _ _ _ _ SS r rhs b ix) in Hb; auto. tauto. }
      split; [apply notwork_reserved; eapply ss_residual; eauto|].
      split. { intros b ix Hb. apply notwork_reserved. apply (X b ix Hb). }
      split. { intros v Hv. apply (fv_cds r) in Hv; auto. destruct Hv as (t & Ht & HR & Hv). apply in_cds in Hv. apply has_re_spec in HR.
               apply (proj2 HV). split; [tauto|]. exists r, rhs, t. tauto. }
      intros b ix Hb. apply (X b ix Hb). }
    { exact Hperm. }
    { eapply Hinner; [|apply (inner_first_sorted ndim dirof sizes Hsz vcds (proj1 HV) visc_ok)]. apply Permutation_map. symmetry. apply csort_perm. }
    rewrite Ekv. eexists. split; [reflexivity|]. intros M. destruct (Xv M) as (Fv & Xw). split.
    + intros b x Nb Nr. apply Fv; [apply notwork_reserved; auto | rewrite FV; auto].
    + intros r rhs x Hin Hx. apply Xw; auto.
Qed.
Theorem hybrid_run : ndim <> 0%nat -> exists ks,
  hybrid_discretise k ndim dirof inv dord sord worder ccds vcds [Shock; CentralDiff] eqs = Ok ks /\ forall M,
  (forall b x, ~ reserved b -> ~ In b (map fst eqs) -> EXEC ks M b x = M b x) /\
  (forall face, (forall d x, (d < ndim)%nat -> numerical_flux J sch g av solution ndim d (fluxes d) M x = Ok (face d x)) ->
    forall i r rhs x, nth_error eqs i = Some (r, rhs) -> grid_point sizes x ->
      EXEC ks M r x = hybrid_value J k dirof h M (flux_difference dirof h face i) rhs x).
Proof.
  intros H0. destruct (shock_run H0) as (k1 & E1 & X1). destruct central_run as (k2 & E2 & X2).
  unfold hybrid_discretise. cbn [mapM discretise_scheme]. rewrite E1, E2. cbn [bind List.concat]. eexists. split; [reflexivity|]. rewrite app_nil_r.
  intros M. rewrite exec_hybrid_app, exec_hybrid_ker. destruct (X1 M) as (F1 & R1). destruct (X2 (EXEC k1 M)) as (F2 & R2). split.
  - intros b x Nb Nr. rewrite F2, F1; auto.
  - intros face Hf i r rhs x E Hx. assert (Hin : In (r, rhs) eqs) by (eapply nth_error_In; eauto).
    rewrite (R2 r rhs) by (auto; apply grid_point_range; auto). rewrite (R1 i r rhs) by (auto; apply grid_point_range; auto).
    rewrite (hybrid_wd_ext J k dirof h M (flux_difference dirof h face i) (wd_value M i)).
    + rewrite <- (split_value r rhs M _ x Hin). f_equal. apply sem_agree. intros b ix Hb y. apply (fv_dsets r) in Hb; auto.
      apply (ss_arrays _ _ _ _ _ _ SS r rhs b ix) in Hb; auto. apply F1; tauto.
    + intros f m Hi y. assert (X : exists d, (d < ndim)%nat /\ WD f m = WDof d i) by (apply (ss_one _ _ _ _ _ _ SS i r rhs E); split; eauto).
      destruct X as (d & Hd & X). unfold WDof, WD in X. injection X as _ ->.
      assert (FE : forall z, FLUX d M z = face d z).
      { intros z. unfold flux_at. specialize (Hf d z Hd). unfold numerical_flux in Hf. rewrite <- Hsz in Hf.
        unfold cell_at, velocities, unit_row. rewrite Hf. auto. }
      unfold wd_value, flux_difference. rewrite (ss_coordinate _ _ _ _ _ _ SS d Hd). rewrite !FE. auto.
Qed.
End main.
