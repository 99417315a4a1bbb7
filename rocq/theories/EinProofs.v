(* Lemmas for the Einstein expansion. *)
From Coq Require Import Permutation.
From Verif Require Import Base BaseProofs AlgProofs EinModel EinSpec.
Local Open Scope list_scope.

(* ---- induction on expressions ---- *)
Section Induction.
  Variable P : ex -> Prop.
  Hypothesis HT : forall b is, P (Tm b is).
  Hypothesis HN : forall z, P (Num z).
  Hypothesis HK : forall i j, P (KD i j).
  Hypothesis HL : forall i j k, P (LC i j k).
  Hypothesis HA : forall es, Forall P es -> P (Add es).
  Hypothesis HM : forall es, Forall P es -> P (Mul es).
  Hypothesis HP : forall e p, P e -> P (Pow e p).
  Hypothesis HF : forall f es, Forall P es -> P (Fn f es).
  Hypothesis HO : forall f es, Forall P es -> P (Op f es).
  Hypothesis HS : forall k e, P e -> P (Sum k e).
  Fixpoint ex_rect' (e : ex) : P e :=
    let fix go (l : list ex) : Forall P l :=
      match l with [] => Forall_nil _ | e :: l => Forall_cons e (ex_rect' e) (go l) end in
    match e with
    | Tm b is => HT b is | Num z => HN z | KD i j => HK i j | LC i j k => HL i j k
    | Add es => HA es (go es) | Mul es => HM es (go es) | Pow e p => HP e p (ex_rect' e)
    | Fn f es => HF f es (go es) | Op f es => HO f es (go es) | Sum k e => HS k e (ex_rect' e)
    end.
End Induction.

Lemma map_same : forall {A} (f : A -> A) l, Forall (fun a => f a = a) l -> map f l = l.
Proof. induction 1; cbn; congruence. Qed.
Lemma map_Forall_ext : forall {A B} (f g : A -> B) l, Forall (fun a => f a = g a) l -> map f l = map g l.
Proof. induction 1; cbn; congruence. Qed.
Lemma fold_and : forall {A} (P : A -> Prop) l, fold_right and True (map P l) <-> Forall P l.
Proof.
  induction l; cbn; split; intros H; auto.
  - destruct H as (H1 & H2). constructor; auto. apply IHl; auto.
  - inversion H; subst. split; auto. apply IHl; auto.
Qed.
Lemma Forall_forallb : forall {A} (p : A -> bool) l, forallb p l = true <-> Forall (fun a => p a = true) l.
Proof. intros. rewrite forallb_forall, Forall_forall. tauto. Qed.
Lemma Forall_imp2 : forall {A} (P Q R : A -> Prop) l, (forall a, P a -> Q a -> R a) -> Forall P l -> Forall Q l -> Forall R l.
Proof. intros A P Q R l H. induction 1; intros H2; constructor; inversion H2; subst; auto. Qed.
Lemma Forall_imp3 : forall {A} (P Q R S : A -> Prop) l, (forall a, P a -> Q a -> R a -> S a) -> Forall P l -> Forall Q l -> Forall R l -> Forall S l.
Proof. intros A P Q R S l H. induction 1; intros H2 H3; constructor; inversion H2; inversion H3; subst; auto. Qed.

(* ---- equality of expressions ---- *)
Lemma ix_eqb_eq : forall a b, ix_eqb a b = true <-> a = b.
Proof.
  intros [s|n] [t|m]; cbn; try (split; discriminate).
  - rewrite String.eqb_eq. split; congruence.
  - rewrite Nat.eqb_eq. split; congruence.
Qed.
Lemma list_eqb_eq : forall {A} (eqb : A -> A -> bool) l, Forall (fun a => forall b, eqb a b = true -> a = b) l ->
  forall m, list_eqb eqb l m = true -> l = m.
Proof.
  intros A eqb. induction 1 as [|a l Ha Hl IH]; intros [|b m]; cbn; try discriminate; auto.
  intros E. apply andb_prop in E. destruct E as (E1 & E2). f_equal; auto.
Qed.
Lemma ex_eqb_eq : forall a b, ex_eqb a b = true -> a = b.
Proof.
  induction a using ex_rect'; intros [] E; cbn in E; try discriminate;
    repeat match goal with H : (_ && _)%bool = true |- _ => apply andb_prop in H; destruct H end;
    repeat match goal with
    | H : String.eqb _ _ = true |- _ => apply String.eqb_eq in H
    | H : Z.eqb _ _ = true |- _ => apply Z.eqb_eq in H
    | H : ix_eqb _ _ = true |- _ => apply ix_eqb_eq in H
    | H : list_eqb ix_eqb _ _ = true |- _ => apply list_eqb_eq in H; [|apply Forall_forall; intros; apply ix_eqb_eq; auto]
    | H : list_eqb ex_eqb _ _ = true |- _ => apply list_eqb_eq in H; [|auto]
    | IH : forall b, ex_eqb ?a b = true -> _, H : ex_eqb ?a _ = true |- _ => apply IH in H
    end; congruence.
Qed.

(* ---- products of different factors are left alone ---- *)
Lemma insert_new : forall b p l, ~ In b (map fst l) -> insert_factor b p l = l ++ [(b, p)].
Proof.
  induction l as [|[c q] l IH]; cbn; auto. intros H. destruct (ex_eqb b c) eqn:E.
  - apply ex_eqb_eq in E. subst. tauto.
  - rewrite IH; auto.
Qed.
Lemma collect_distinct : forall es acc, NoDup (map fst acc ++ map (fun f => fst (base_exp f)) es) ->
  fold_left (fun acc e => let '(b, p) := base_exp e in insert_factor b p acc) es acc = acc ++ map base_exp es.
Proof.
  induction es as [|e es IH]; intros acc H; cbn.
  - rewrite app_nil_r. auto.
  - destruct (base_exp e) as [b p] eqn:E. rewrite insert_new.
    + rewrite IH; [rewrite <- app_assoc; auto|]. rewrite map_app. cbn in H |- *. rewrite E in H. cbn in H.
      rewrite <- app_assoc. exact H.
    + cbn in H. rewrite E in H. cbn in H. apply NoDup_remove in H. intros I. apply H. apply in_app_iff. auto.
Qed.
Lemma rebuild_base : forall e, plain e = true -> rebuild (base_exp e) = e.
Proof.
  destruct e; cbn; auto. intros H. apply andb_prop in H. destruct H as (_ & H). apply andb_prop in H. destruct H as (H1 & H2).
  apply negb_true_iff in H1, H2. rewrite H1, H2. auto.
Qed.
Lemma normalise_id : forall e, plain e = true -> distinct_factors e -> normalise e = e.
Proof.
  assert (G : forall es, Forall (fun e => plain e = true -> distinct_factors e -> normalise e = e) es ->
            forallb plain es = true -> fold_right and True (map distinct_factors es) -> map normalise es = es).
  { intros es H P Q. apply Forall_forallb in P. apply fold_and in Q. apply map_same.
    eapply Forall_imp3; [|exact H|exact P|exact Q]. intros a h p q. apply h; auto. }
  induction e using ex_rect'; cbn [plain distinct_factors normalise]; intros P Q; try (rewrite G by auto; reflexivity); auto.
  - destruct Q as (L & N & Q). rewrite G; auto. unfold collect_factors.
    rewrite collect_distinct by (cbn; exact N). cbn [app]. rewrite map_map.
    rewrite map_same; [|apply Forall_forallb in P; apply Forall_forall; intros a I; rewrite Forall_forall in P; apply rebuild_base; auto].
    destruct es as [|a [|b es]]; cbn in L; try lia. auto.
  - apply andb_prop in P. destruct P as (P & _). rewrite IHe; auto.
  - discriminate.
Qed.

(* ---- counting indices ---- *)
Lemma occurrences_app : forall i a b, occurrences i (a ++ b) = (occurrences i a + occurrences i b)%nat.
Proof. intros. unfold occurrences. rewrite filter_app, app_length. auto. Qed.
Lemma occurrences_in : forall i l, (0 < occurrences i l)%nat <-> In i l.
Proof.
  unfold occurrences. induction l; cbn; [split; [lia|tauto]|]. destruct (String.eqb i a) eqn:E.
  - apply String.eqb_eq in E. subst. cbn. split; auto. lia.
  - rewrite IHl. apply String.eqb_neq in E. split; auto. intros [X|X]; auto. congruence.
Qed.
Lemma occurrences_nodup : forall i l, NoDup l -> occurrences i l = if existsb (String.eqb i) l then 1%nat else 0%nat.
Proof.
  induction 1 as [|a l N D IH]; auto. unfold occurrences in *. cbn. destruct (String.eqb i a) eqn:E; cbn; auto.
  apply String.eqb_eq in E. subst. destruct (existsb (String.eqb a) l) eqn:X; [|congruence].
  apply existsb_exists in X. destruct X as (b & I & E). apply String.eqb_eq in E. subst. contradiction.
Qed.
Lemma occurrences_syms : forall i is, occurrences i (syms is) = times_in i is.
Proof.
  unfold occurrences, times_in, syms. induction is as [|[s|n] is IH]; cbn; auto. rewrite String.eqb_sym.
  destruct (String.eqb s i); cbn; auto.
Qed.
Lemma in_once : forall i l, In i (once l) <-> occurrences i l = 1%nat.
Proof.
  intros. unfold once. rewrite filter_In, Nat.eqb_eq. split; [tauto|]. intros H. split; auto. apply occurrences_in. lia.
Qed.
Lemma in_repeated : forall i l, In i (repeated l) <-> (1 < occurrences i l)%nat.
Proof.
  intros. unfold repeated. rewrite nodup_In, filter_In, Nat.ltb_lt. split; [tauto|]. intros H. split; auto. apply occurrences_in. lia.
Qed.
Lemma nodup_by_count : forall l, (forall i, occurrences i l <= 1)%nat -> NoDup l.
Proof.
  induction l as [|a l IH]; intros H; constructor.
  - intros I. apply occurrences_in in I. specialize (H a). unfold occurrences in *. cbn in H. rewrite String.eqb_refl in H. cbn in H. lia.
  - apply IH. intros i. specialize (H i). unfold occurrences in *. cbn in H. destruct (String.eqb i a); cbn in H; lia.
Qed.
Lemma filter_count : forall i (p : string -> bool) l, (occurrences i (filter p l) <= occurrences i l)%nat /\ (p i = false -> occurrences i (filter p l) = 0%nat).
Proof.
  unfold occurrences. induction l as [|a l [IH1 IH2]]; cbn; auto. split.
  - destruct (p a), (String.eqb i a) eqn:E; cbn; rewrite ?E; cbn; lia.
  - intros H. destruct (p a) eqn:Pa; cbn; auto. destruct (String.eqb i a) eqn:E; auto. apply String.eqb_eq in E. congruence.
Qed.
Lemma nodup_once : forall l, NoDup (once l).
Proof.
  intros l. apply nodup_by_count. intros i. unfold once.
  destruct (filter_count i (fun i => Nat.eqb (occurrences i l) 1) l) as (A & B). destruct (Nat.eqb (occurrences i l) 1) eqn:E.
  - apply Nat.eqb_eq in E. lia.
  - rewrite B; auto.
Qed.
Lemma nodup_repeated : forall l, NoDup (repeated l).
Proof. intros. apply NoDup_nodup. Qed.
Lemma same_set_spec : forall a b, same_set a b = true <-> (forall i, In i a <-> In i b).
Proof.
  intros a b. unfold same_set. rewrite andb_true_iff, !forallb_forall. split.
  - intros (H1 & H2) i. split; intros I; [specialize (H1 i I)|specialize (H2 i I)];
      [apply existsb_exists in H1; destruct H1 as (x & J & E)|apply existsb_exists in H2; destruct H2 as (x & J & E)];
      apply String.eqb_eq in E; subst; auto.
  - intros H. split; intros i I; apply existsb_exists; exists i; rewrite String.eqb_refl; split; auto; apply H; auto.
Qed.

(* ---- results of lists ---- *)
Lemma all_ok_ok : forall {A} (l : list (result A)) rs, all_ok l = Ok rs <-> Forall2 (fun r a => r = Ok a) l rs.
Proof.
  induction l as [|r l IH]; intros rs; cbn.
  - split; intros H; [injection H as <-; constructor|inversion H; auto].
  - split.
    + intros H. apply bind_ok in H. destruct H as (a & E & H). apply bind_ok in H. destruct H as (rs' & E' & H). injection H as <-.
      constructor; auto. apply IH; auto.
    + intros H. inversion H as [|? a ? rs' E H']; subst. cbn. apply IH in H'. rewrite H'. auto.
Qed.
Lemma Forall2_map_l : forall {A B C} (f : A -> B) (R : B -> C -> Prop) l m, Forall2 R (map f l) m <-> Forall2 (fun a c => R (f a) c) l m.
Proof.
  induction l; intros m; cbn; split; intros H; inversion H; subst; constructor; auto; apply IHl; auto.
Qed.

(* ---- sums ---- *)
Lemma sum_app : forall V, lawful V -> forall a b, sum V (a ++ b) = plus V (sum V a) (sum V b).
Proof.
  intros V (C & A & Z). induction a; intros b; cbn.
  - rewrite C, Z. auto.
  - unfold sum in *. rewrite IHa. apply A.
Qed.
Lemma sum_map_plus : forall V, lawful V -> forall {A} (l : list A) f g,
  sum V (map (fun a => plus V (f a) (g a)) l) = plus V (sum V (map f l)) (sum V (map g l)).
Proof.
  intros V L A. pose proof L as (C & As & Z). induction l; intros f g; cbn.
  - rewrite Z. auto.
  - unfold sum in *. rewrite IHl. rewrite <- !As. f_equal. rewrite !As. f_equal. apply C.
Qed.
Lemma sum_zero : forall V, lawful V -> forall {A} (l : list A), sum V (map (fun _ => zero V) l) = zero V.
Proof. intros V (C & A & Z) B. induction l; cbn; auto. unfold sum in *. rewrite IHl. apply Z. Qed.
Lemma sum_swap : forall V, lawful V -> forall {A B} (l : list A) (m : list B) f,
  sum V (map (fun a => sum V (map (fun b => f a b) m)) l) = sum V (map (fun b => sum V (map (fun a => f a b) l)) m).
Proof.
  intros V L A B. induction l; intros m f; cbn.
  - rewrite sum_zero; auto.
  - fold (sum V). rewrite sum_map_plus by auto. f_equal. apply IHl.
Qed.
Lemma sum_over_ext : forall V n ks r f g, (forall r, f r = g r) -> sum_over V n ks r f = sum_over V n ks r g.
Proof. induction ks; cbn; intros; auto. f_equal. apply map_ext. intros. apply IHks; auto. Qed.
Definition respects {A} (f : env -> A) : Prop := forall r r', (forall s, r s = r' s) -> f r = f r'.
Lemma sum_over_respects : forall V n ks f, respects f -> respects (fun r => sum_over V n ks r f).
Proof.
  induction ks; cbn; intros f H r r' E; auto. f_equal. apply map_ext. intros d. apply IHks; auto. intros s. unfold set_index.
  destruct (String.eqb s a); auto.
Qed.
Lemma sum_over_app : forall V n a b r f, sum_over V n (a ++ b) r f = sum_over V n a r (fun r => sum_over V n b r f).
Proof. induction a; cbn; intros; auto. f_equal. apply map_ext. intros. apply IHa. Qed.
Lemma sum_over_perm : forall V n f, lawful V -> respects f -> forall a b, Permutation a b -> NoDup a -> forall r, sum_over V n a r f = sum_over V n b r f.
Proof.
  intros V n f L H. induction 1; intros N r; cbn; auto.
  - inversion N; subst. f_equal. apply map_ext. intros. apply IHPermutation; auto.
  - inversion N as [|? ? N1 N2]; subst. rewrite sum_swap by auto. f_equal. apply map_ext. intros d. f_equal. apply map_ext. intros d'.
    apply (sum_over_respects V n l f H). intros s. unfold set_index.
    destruct (String.eqb s x) eqn:E1, (String.eqb s y) eqn:E2; auto.
    apply String.eqb_eq in E1, E2. subst. destruct N1. left. auto.
  - rewrite IHPermutation1 by auto. apply IHPermutation2. eapply Permutation_NoDup; eauto.
Qed.
Lemma sum_over_same : forall V n f, lawful V -> respects f -> forall a b, NoDup a -> NoDup b -> (forall i, In i a <-> In i b) ->
  forall r, sum_over V n a r f = sum_over V n b r f.
Proof. intros. apply sum_over_perm; auto. apply NoDup_Permutation; auto. Qed.

(* ---- values and environments ---- *)
Lemma at_env_respects : forall x, respects (fun r => at_env r x).
Proof. intros [s|n] r r' E; cbn; auto. Qed.
Lemma meaning_respects : forall V n e, respects (fun r => meaning V n r e).
Proof.
  intros V n. assert (G : forall es, Forall (fun e => respects (fun r => meaning V n r e)) es -> respects (fun r => map (meaning V n r) es)).
  { intros es H r r' E. apply map_Forall_ext. eapply Forall_impl; [|exact H]. intros a Ha. apply Ha. auto. }
  induction e using ex_rect'; cbn [meaning]; intros r r' E; auto.
  - apply (sum_over_respects V n (dummies (Tm b is)) (fun r => component V b (map (at_env r) is))); auto.
    intros r1 r2 E'. f_equal. apply map_ext. intros x. apply at_env_respects; auto.
  - apply (sum_over_respects V n (dummies (KD i j)) (fun r => number V (if Nat.eqb (at_env r i) (at_env r j) then 1 else 0)%Z)); auto.
    intros r1 r2 E'. rewrite (at_env_respects i r1 r2), (at_env_respects j r1 r2); auto.
  - apply (sum_over_respects V n (dummies (LC i j k)) (fun r => number V (lc_value (at_env r i) (at_env r j) (at_env r k)))); auto.
    intros r1 r2 E'. rewrite (at_env_respects i r1 r2), (at_env_respects j r1 r2), (at_env_respects k r1 r2); auto.
  - f_equal. apply G; auto.
  - apply (sum_over_respects V n (dummies (Mul es)) (fun r => times V (map (meaning V n r) es))); auto.
    intros r1 r2 E'. f_equal. apply G; auto.
  - f_equal. apply IHe; auto.
  - f_equal. apply G; auto.
  - apply (sum_over_respects V n (dummies (Op f es)) (fun r => oper V f (map (meaning V n r) es))); auto.
    intros r1 r2 E'. f_equal. apply G; auto.
Qed.
Lemma at_env_put : forall r k d x, at_env r (put k d x) = at_env (set_index r k d) x.
Proof. intros r k d [s|m]; cbn; auto. unfold set_index. destruct (String.eqb s k); auto. Qed.
Lemma value_apply : forall V k d e r, value V r (apply_index k d e) = value V (set_index r k d) e.
Proof.
  intros V k d. assert (G : forall es, Forall (fun e => forall r, value V r (apply_index k d e) = value V (set_index r k d) e) es ->
    forall r, map (value V r) (map (apply_index k d) es) = map (value V (set_index r k d)) es).
  { intros es H r. rewrite map_map. apply map_Forall_ext. eapply Forall_impl; [|exact H]. intros a Ha. apply Ha. }
  induction e using ex_rect'; intros r; cbn [value apply_index]; rewrite ?at_env_put; auto; try (rewrite G; auto).
  - rewrite map_map. f_equal. apply map_ext. intros x. apply at_env_put.
  - rewrite IHe. auto.
Qed.
Lemma value_sum : forall V n k e r, value V r (expand_summations n (Sum k e)) =
  sum V (map (fun d => value V (set_index r k d) (expand_summations n e)) (seq 0 n)).
Proof. intros. cbn. rewrite map_map. f_equal. apply map_ext. intros. apply value_apply. Qed.
Lemma value_summation : forall V n ks e r, value V r (expand_summations n (to_summation e ks)) =
  sum_over V n (rev ks) r (fun r => value V r (expand_summations n e)).
Proof.
  unfold to_summation. induction ks as [|k ks IH]; intros e r; auto. cbn [fold_left rev]. rewrite IH, sum_over_app.
  apply sum_over_ext. intros r'. rewrite value_sum. auto.
Qed.

(* ---- the outer indices ---- *)
Definition indices_of (e : ex) (l : list string) : Prop := NoDup l /\ forall i, In i l <-> free i e = true.
Lemma count_concat : forall i es ls, Forall2 indices_of es ls -> occurrences i (List.concat ls) = List.length (filter (free i) es).
Proof.
  intros i. induction 1 as [|e l es ls (N & H) R IH]; auto. cbn [List.concat filter]. rewrite occurrences_app, IH, occurrences_nodup by auto.
  destruct (free i e) eqn:F.
  - apply H in F. apply occurrences_in in F. rewrite occurrences_nodup in F by auto. destruct (existsb (String.eqb i) l); auto. lia.
  - destruct (existsb (String.eqb i) l) eqn:X; auto. apply existsb_exists in X. destruct X as (j & I & E). apply String.eqb_eq in E. subst.
    apply H in I. congruence.
Qed.
Lemma once_indices : forall l e, (forall i, free i e = Nat.eqb (occurrences i l) 1) -> indices_of e (once l).
Proof. intros l e H. split; [apply nodup_once|]. intros i. rewrite in_once, H, Nat.eqb_eq. tauto. Qed.
Lemma free_named : forall i e, free i e = true -> In i (index_names e).
Proof.
  assert (G : forall i es, Forall (fun e => free i e = true -> In i (index_names e)) es ->
            (exists e, In e es /\ free i e = true) -> In i (List.concat (map index_names es))).
  { intros i es H (e & I & F). rewrite Forall_forall in H. apply in_concat. exists (index_names e). split; auto. apply in_map; auto. }
  intros i. induction e using ex_rect'; cbn [free index_names]; intros F; try discriminate; auto.
  - apply Nat.eqb_eq in F. rewrite <- occurrences_syms in F. apply occurrences_in. lia.
  - apply Nat.eqb_eq in F. rewrite <- occurrences_syms in F. apply occurrences_in. lia.
  - apply Nat.eqb_eq in F. rewrite <- occurrences_syms in F. apply occurrences_in. lia.
  - apply existsb_exists in F. apply G; auto.
  - apply Nat.eqb_eq in F. apply G; auto. destruct (filter (free i) es) as [|x l] eqn:E; [discriminate|].
    exists x. apply filter_In. rewrite E. left. auto.
  - apply existsb_exists in F. apply G; auto.
  - apply Nat.eqb_eq in F. apply G; auto. destruct (filter (free i) es) as [|x l] eqn:E; [discriminate|].
    exists x. apply filter_In. rewrite E. left. auto.
Qed.
Lemma contracted_named : forall i e, contracted i e = true -> In i (index_names e).
Proof.
  assert (G : forall i es, (1 < List.length (filter (free i) es))%nat -> In i (List.concat (map index_names es))).
  { intros i es H. destruct (filter (free i) es) as [|x l] eqn:E; [cbn in H; lia|].
    assert (In x es /\ free i x = true) as (I & F) by (apply filter_In; rewrite E; left; auto).
    apply in_concat. exists (index_names x). split; [apply in_map; auto|apply free_named; auto]. }
  intros i [] H; cbn [contracted index_names] in *; try discriminate; apply Nat.ltb_lt in H; try (apply G; auto);
    rewrite <- occurrences_syms in H; apply occurrences_in; lia.
Qed.
Lemma dummies_repeated : forall e l, (forall i, contracted i e = Nat.ltb 1 (occurrences i l)) ->
  forall i, In i (rev (repeated l)) <-> In i (dummies e).
Proof.
  intros e l H i. rewrite <- in_rev, in_repeated. unfold dummies. rewrite nodup_In, filter_In, H, Nat.ltb_lt. split; [|tauto].
  intros C. split; auto. apply contracted_named. rewrite H. apply Nat.ltb_lt. auto.
Qed.
Lemma nodup_dummies : forall e, NoDup (dummies e).
Proof. intros. apply NoDup_nodup. Qed.

Definition nonempty (l : list string) : bool := match l with [] => false | _ => true end.
Lemma sum_indices_ok : forall es ls l, Forall2 indices_of es ls -> sum_indices ls = Ok l ->
  indices_of (Add es) l /\ (forall a b, In a es -> In b es -> (exists i, free i a = true) -> (exists i, free i b = true) -> forall i, free i a = free i b).
Proof.
  intros es ls l F H. unfold sum_indices in H. fold nonempty in H. 
  assert (T : forall e m, indices_of e m -> (exists i, free i e = true) -> nonempty m = true).
  { intros e m (_ & E) (i & Fi). apply E in Fi. destruct m; [destruct Fi|auto]. }
  assert (X : forall e, In e es -> exists m, In m ls /\ indices_of e m).
  { clear -F. induction F; intros z []; subst; [exists y; split; auto; left; auto|]. destruct (IHF z H0) as (m & I & E). exists m. split; auto. right; auto. }
  assert (Y : forall m, In m ls -> exists e, In e es /\ indices_of e m).
  { clear -F. induction F; intros z []; subst; [exists x; split; auto; left; auto|]. destruct (IHF z H0) as (m & I & E). exists m. split; auto. right; auto. }
  destruct (filter nonempty ls) as [|k ks] eqn:E.
  - injection H as <-. assert (N : forall e i, In e es -> free i e = true -> False).
    { intros e i I Fi. destruct (X e I) as (m & J & K). assert (In m (filter nonempty ls)) by (apply filter_In; split; auto; eapply T; eauto).
      rewrite E in H. destruct H. }
    split.
    + split; [constructor|]. intros i. cbn. split; [tauto|]. intros Q. apply existsb_exists in Q. destruct Q as (e & I & Fi). eapply N; eauto.
    + intros a b Ia Ib (i & Fi) _. destruct (N a i Ia Fi).
  - destruct (forallb (same_set k) ks) eqn:S; [|discriminate]. injection H as <-. rewrite forallb_forall in S.
    assert (Z : forall e i, In e es -> (exists j, free j e = true) -> (free i e = true <-> In i k)).
    { intros e i I Q. destruct (X e I) as (m & J & K). assert (M : In m (filter nonempty ls)) by (apply filter_In; split; auto; eapply T; eauto).
      rewrite E in M. destruct K as (_ & K). rewrite <- K. destruct M as [<-|M]; [tauto|]. specialize (S m M). apply same_set_spec with (i := i) in S. tauto. }
    assert (Kk : In k ls) by (assert (In k (filter nonempty ls)) by (rewrite E; left; auto); apply filter_In in H; tauto).
    assert (Kn : nonempty k = true) by (assert (In k (filter nonempty ls)) by (rewrite E; left; auto); apply filter_In in H; tauto).
    split.
    + destruct (Y k Kk) as (e & I & (N & J)). split; auto. intros i. cbn. rewrite existsb_exists. split.
      * intros Q. exists e. split; auto. apply J; auto.
      * intros (a & Ia & Fa). apply (Z a i Ia); eauto.
    + intros a b Ia Ib Qa Qb i. specialize (Z a i Ia Qa) as Za. specialize (Z b i Ib Qb) as Zb. destruct (free i a), (free i b); auto; destruct Za, Zb; intuition congruence.
Qed.
Lemma sum_indices_works : forall es ls, Forall2 indices_of es ls ->
  (forall a b, In a es -> In b es -> (exists i, free i a = true) -> (exists i, free i b = true) -> forall i, free i a = free i b) ->
  exists l, sum_indices ls = Ok l.
Proof.
  intros es ls F H. unfold sum_indices. fold nonempty. destruct (filter nonempty ls) as [|k ks] eqn:E; [eauto|].
  assert (Y : forall m, In m ls -> exists e, In e es /\ indices_of e m).
  { clear -F. induction F; intros z []; subst; [exists x; split; auto; left; auto|]. destruct (IHF z H0) as (m & I & E). exists m. split; auto. right; auto. }
  replace (forallb (same_set k) ks) with true; [eauto|]. symmetry. apply forallb_forall. intros m M. apply same_set_spec. intros i.
  assert (Q : forall x, In x (k :: ks) -> In x ls /\ nonempty x = true) by (intros x Hx; rewrite <- E in Hx; apply filter_In in Hx; auto).
  destruct (Q k (or_introl eq_refl)) as (Ik & Nk). destruct (Q m (or_intror M)) as (Im & Nm).
  destruct (Y k Ik) as (a & Ia & _ & Ka). destruct (Y m Im) as (b & Ib & _ & Kb). rewrite Ka, Kb.
  rewrite (H a b Ia Ib); [tauto| |].
  - destruct k as [|j k]; [discriminate|]. exists j. apply Ka. left. auto.
  - destruct m as [|j m]; [discriminate|]. exists j. apply Kb. left. auto.
Qed.

(* ---- no summation is left ---- *)
Fixpoint sumfree (e : ex) : bool :=
  match e with
  | Add es | Fn _ es | Mul es | Op _ es => forallb sumfree es
  | Pow e _ => sumfree e
  | Sum _ _ => false
  | _ => true
  end.
Lemma sumfree_apply : forall k d e, sumfree e = true -> sumfree (apply_index k d e) = true.
Proof.
  intros k d. assert (G : forall es, Forall (fun e => sumfree e = true -> sumfree (apply_index k d e) = true) es -> forallb sumfree es = true -> forallb sumfree (map (apply_index k d) es) = true).
  { intros es H S. apply Forall_forallb in S. apply Forall_forallb. apply Forall_map. eapply Forall_imp2; [|exact H|exact S]. intros a h q. apply h; auto. }
  induction e using ex_rect'; cbn; auto.
Qed.
Lemma sumfree_expand : forall n e, sumfree (expand_summations n e) = true.
Proof.
  intros n. assert (G : forall es, Forall (fun e => sumfree (expand_summations n e) = true) es -> forallb sumfree (map (expand_summations n) es) = true).
  { intros es H. apply Forall_forallb. apply Forall_map. auto. }
  induction e using ex_rect'; cbn; auto.
  apply Forall_forallb, Forall_map, Forall_forall. intros d _. apply sumfree_apply; auto.
Qed.
Lemma syms_put : forall i k d is, In i (syms (map (put k d) is)) <-> (In i (syms is) /\ i <> k).
Proof.
  intros i k d is. unfold syms. rewrite !in_flat_map. split.
  - intros (x & I & J). apply in_map_iff in I. destruct I as (y & <- & I). destruct y as [s|m]; cbn in J; [|destruct J].
    destruct (String.eqb s k) eqn:E; [destruct J|]. destruct J as [<-|[]]. apply String.eqb_neq in E. split; auto. exists (Sym s). split; auto. left. auto.
  - intros ((x & I & J) & N). destruct x as [s|m]; [|destruct J]. destruct J as [<-|[]]. exists (Sym s). split; [|left; auto].
    apply in_map_iff. exists (Sym s). split; auto. cbn. destruct (String.eqb s k) eqn:E; auto. apply String.eqb_eq in E. congruence.
Qed.
Lemma names_apply : forall i k d e, In i (index_names (apply_index k d e)) -> In i (index_names e) /\ i <> k.
Proof.
  intros i k d. assert (G : forall es, Forall (fun e => In i (index_names (apply_index k d e)) -> In i (index_names e) /\ i <> k) es ->
     In i (List.concat (map index_names (map (apply_index k d) es))) -> In i (List.concat (map index_names es)) /\ i <> k).
  { intros es H I. rewrite map_map in I. apply in_concat in I. destruct I as (l & I & J). apply in_map_iff in I. destruct I as (e & <- & I).
    rewrite Forall_forall in H. destruct (H e I J) as (A & B). split; auto. apply in_concat. exists (index_names e). split; auto. apply in_map; auto. }
  induction e using ex_rect'; cbn [index_names apply_index]; auto.
  - apply syms_put.
  - apply (syms_put i k d [i0; j]).
  - apply (syms_put i k d [i0; j; k0]).
Qed.
Lemma names_summation : forall n i ks e, In i (index_names (expand_summations n (to_summation e ks))) -> In i (index_names (expand_summations n e)) /\ ~ In i ks.
Proof.
  unfold to_summation. induction ks as [|k ks IH]; intros e H; auto. cbn [fold_left] in H. apply IH in H. destruct H as (H & N).
  cbn [expand_summations index_names] in H. rewrite map_map in H. apply in_concat in H. destruct H as (l & I & J). apply in_map_iff in I.
  destruct I as (d & <- & _). apply names_apply in J. destruct J as (J & M). split; auto. intros [X|X]; auto.
Qed.
Lemma expanded_closed : forall e, sumfree e = true -> (forall i, ~ In i (index_names e)) -> expanded e = true.
Proof.
  assert (S : forall is, (forall i, ~ In i (syms is)) -> forallb is_value is = true).
  { induction is as [|[s|m] is IH]; intros H; cbn; auto. destruct (H s). left. auto. }
  assert (G : forall es, Forall (fun e => sumfree e = true -> (forall i, ~ In i (index_names e)) -> expanded e = true) es ->
     forallb sumfree es = true -> (forall i, ~ In i (List.concat (map index_names es))) -> forallb expanded es = true).
  { intros es H F N. apply Forall_forallb in F. apply Forall_forallb. apply (Forall_imp3 (fun e => sumfree e = true -> (forall i, ~ In i (index_names e)) -> expanded e = true) (fun e => sumfree e = true) (fun e => forall i, ~ In i (index_names e))); auto.
    apply Forall_forall. intros e I i J. apply (N i). apply in_concat. exists (index_names e). split; auto. apply in_map; auto. }
  induction e using ex_rect'; cbn [sumfree index_names expanded]; intros F N; auto.
  - specialize (S [i; j] N). cbn in S. rewrite andb_true_r in S. auto.
  - specialize (S [i; j; k] N). cbn in S. rewrite andb_true_r in S. auto.
Qed.

(* ---- the structure of an expression ---- *)
Definition good (V : values) (n : nat) (e e' : ex) (l : list string) : Prop :=
  indices_of e l /\ consistent e /\
  (forall r, value V r (expand_summations n e') = meaning V n r e) /\
  (forall i, In i (index_names (expand_summations n e')) -> In i l).

Lemma good_lists : forall V n es rs, Forall (fun e => forall e' l, structure e = Ok (e', l) -> good V n e e' l) es ->
  all_ok (map structure es) = Ok rs ->
  Forall2 indices_of es (map snd rs) /\ Forall consistent es /\
  (forall r, map (value V r) (map (expand_summations n) (map fst rs)) = map (meaning V n r) es) /\
  (forall i, In i (List.concat (map index_names (map (expand_summations n) (map fst rs)))) -> In i (List.concat (map snd rs))).
Proof.
  intros V n es rs H E. apply all_ok_ok in E. apply Forall2_map_l in E. induction E as [|e [e' l] es rs E R IH]; cbn.
  - repeat split; auto; try constructor.
  - inversion H as [|? ? H1 H2]; subst. destruct (IH H2) as (A & B & C & Dn). destruct (H1 e' l E) as (P & Q & M & N).
    split; [constructor; auto|]. split; [constructor; auto|]. split.
    + intros r. rewrite M, C. auto.
    + intros i. rewrite !in_app_iff. intros [I|I]; auto.
Qed.
Lemma summed : forall V n e b l (f : env -> D V), lawful V -> respects f ->
  (forall i, contracted i e = Nat.ltb 1 (occurrences i l)) ->
  (forall r, value V r (expand_summations n b) = f r) ->
  forall r, value V r (expand_summations n (to_summation b (repeated l))) = sum_over V n (dummies e) r f.
Proof.
  intros V n e b l f L R C Hv r. rewrite value_summation. rewrite (sum_over_ext _ _ _ _ _ f Hv).
  apply sum_over_same; auto.
  - apply NoDup_rev, nodup_repeated.
  - apply nodup_dummies.
  - apply dummies_repeated; auto.
Qed.
Lemma names_once : forall n b l i, (In i (index_names (expand_summations n b)) -> In i l) ->
  In i (index_names (expand_summations n (to_summation b (repeated l)))) -> In i (once l).
Proof.
  intros n b l i H I. apply names_summation in I. destruct I as (I & N). apply H, occurrences_in in I. rewrite in_repeated in N. apply in_once. lia.
Qed.
Lemma structure_good : forall V n, lawful V -> forall e e' l, structure e = Ok (e', l) -> good V n e e' l.
Proof.
  intros V n L. induction e using ex_rect'; intros e' l E; cbn [structure] in E.
  - injection E as <- <-. split; [apply once_indices; intros i; cbn [free]; rewrite occurrences_syms; auto|]. split; [exact I|]. split.
    + cbn [meaning]. apply summed; auto.
      * intros r1 r2 E'. f_equal. apply map_ext. intros x. apply at_env_respects; auto.
      * intros i. cbn [contracted]. rewrite occurrences_syms. auto.
    + intros i. apply names_once. auto.
  - injection E as <- <-. split; [split; [constructor|intros i; cbn; split; [tauto|discriminate]]|]. split; [exact I|]. split; auto.
  - assert (E' : e' = to_summation (KD i j) (repeated (syms [i; j])) /\ l = once (syms [i; j])) by (cbv zeta in E; split; congruence).
    clear E. destruct E' as (-> & ->). split; [apply once_indices; intros i0; cbn [free]; rewrite occurrences_syms; auto|]. split; [exact I|]. split.
    + cbn [meaning]. apply summed; auto.
      * intros r1 r2 E'. rewrite (at_env_respects i r1 r2), (at_env_respects j r1 r2); auto.
      * intros i0. cbn [contracted]. rewrite occurrences_syms. auto.
    + intros i0. apply names_once. auto.
  - assert (E' : e' = to_summation (LC i j k) (repeated (syms [i; j; k])) /\ l = once (syms [i; j; k])) by (cbv zeta in E; split; congruence).
    clear E. destruct E' as (-> & ->). split; [apply once_indices; intros i0; cbn [free]; rewrite occurrences_syms; auto|]. split; [exact I|]. split.
    + cbn [meaning]. apply summed; auto.
      * intros r1 r2 E'. rewrite (at_env_respects i r1 r2), (at_env_respects j r1 r2), (at_env_respects k r1 r2); auto.
      * intros i0. cbn [contracted]. rewrite occurrences_syms. auto.
    + intros i0. apply names_once. auto.
  - apply bind_ok in E. destruct E as (rs & E & E2). apply bind_ok in E2. destruct E2 as (inds & E2 & E3). injection E3 as <- <-.
    destruct (good_lists V n es rs H E) as (A & B & C & Dn). destruct (sum_indices_ok es _ _ A E2) as (P & Q).
    split; auto. split; [cbn; split; auto; apply fold_and; auto|]. split.
    + intros r. cbn [expand_summations value meaning]. rewrite C. auto.
    + intros i I. cbn [expand_summations index_names] in I. apply Dn in I. destruct P as (_ & P). apply P. cbn.
      clear -A I. induction A as [|e m es ms (N & A1) A2 IH]; cbn in *; [destruct I|]. apply in_app_iff in I. apply orb_true_iff.
      destruct I as [I|I]; [left; apply A1; auto|right; auto].
  - apply bind_ok in E. destruct E as (rs & E & E2). cbv zeta in E2. injection E2 as <- <-.
    destruct (good_lists V n es rs H E) as (A & B & C & Dn).
    split; [apply once_indices; intros i; cbn [free]; rewrite (count_concat i es); auto|]. split; [apply fold_and; auto|]. split.
    + cbn [meaning]. apply summed; auto.
      * intros r1 r2 E'. f_equal. apply map_ext. intros a. apply meaning_respects; auto.
      * intros i. cbn [contracted]. rewrite (count_concat i es); auto.
      * intros r. cbn [expand_summations value]. rewrite C. auto.
    + intros i. apply names_once. auto.
  - apply bind_ok in E. destruct E as ([b m] & E & E2). injection E2 as <- <-. destruct (IHe b m E) as (P & Q & M & N). cbn [fst snd].
    split; [exact P|]. split; [exact Q|]. split; [intros r; cbn [expand_summations value meaning]; rewrite M; auto|exact N].
  - apply bind_ok in E. destruct E as (rs & E & E2). injection E2 as <- <-.
    destruct (good_lists V n es rs H E) as (A & B & C & Dn).
    split; [|split; [apply fold_and; auto|split]].
    + split; [apply NoDup_nodup|]. intros i. rewrite nodup_In. cbn [free]. rewrite existsb_exists.
      clear -A. induction A as [|e m es ms (N & A1) A2 IH]; cbn; [split; [tauto|intros (x & [] & _)]|]. rewrite in_app_iff, IH, A1. split.
      * intros [X|(x & I & X)]; eauto.
      * intros (x & [X|I] & F); subst; eauto.
    + intros r. cbn [expand_summations value meaning]. rewrite C. auto.
    + intros i I. rewrite nodup_In. apply Dn. exact I.
  - apply bind_ok in E. destruct E as (rs & E & E2). cbv zeta in E2. injection E2 as <- <-.
    destruct (good_lists V n es rs H E) as (A & B & C & Dn).
    split; [apply once_indices; intros i; cbn [free]; rewrite (count_concat i es); auto|]. split; [apply fold_and; auto|]. split.
    + cbn [meaning]. apply summed; auto.
      * intros r1 r2 E'. f_equal. apply map_ext. intros a. apply meaning_respects; auto.
      * intros i. cbn [contracted]. rewrite (count_concat i es); auto.
      * intros r. cbn [expand_summations value]. rewrite C. auto.
    + intros i. apply names_once. auto.
  - discriminate.
Qed.

Lemma structure_works : forall e, plain e = true -> consistent e -> exists e' l, structure e = Ok (e', l).
Proof.
  set (V := {| D := unit; zero := tt; plus := fun _ _ => tt; number := fun _ => tt; times := fun _ => tt; power := fun _ _ => tt;
               func := fun _ _ => tt; oper := fun _ _ => tt; component := fun _ _ => tt |}).
  assert (L : lawful V) by (repeat split; intros; try destruct a; reflexivity).
  assert (G : forall es, Forall (fun e => plain e = true -> consistent e -> exists e' l, structure e = Ok (e', l)) es ->
    forallb plain es = true -> fold_right and True (map consistent es) -> exists rs, all_ok (map structure es) = Ok rs).
  { intros es H P C. apply Forall_forallb in P. apply fold_and in C. induction H as [|e es H H2 IH]; [exists []; auto|].
    inversion P; inversion C; subst. destruct IH as (rs & E); auto. destruct H as (e' & l & E'); auto.
    exists ((e', l) :: rs). cbn. rewrite E'. cbn. rewrite E. auto. }
  induction e using ex_rect'; cbn [plain consistent structure]; intros P C; try (do 2 eexists; reflexivity); try discriminate.
  - destruct C as (C & C2). destruct (G es H P C) as (rs & E). rewrite E. cbn [bind].
    destruct (sum_indices_works es (map snd rs)) as (l & E2); auto.
    + destruct (good_lists V 1 es rs) as (A & _); auto. apply Forall_forall. intros. apply structure_good; auto.
    + rewrite E2. do 2 eexists. reflexivity.
  - destruct (G es H P C) as (rs & E). rewrite E. do 2 eexists. reflexivity.
  - apply andb_prop in P. destruct P as (P & _). destruct (IHe P C) as (e' & l & E). rewrite E. do 2 eexists. reflexivity.
  - destruct (G es H P C) as (rs & E). rewrite E. do 2 eexists. reflexivity.
  - destruct (G es H P C) as (rs & E). rewrite E. do 2 eexists. reflexivity.
Qed.

(* ---- assignments of the free indices ---- *)
Lemma value_indices : forall V ks a e r, value V r (apply_indices (combine ks a) e) = value V (set_indices r ks a) e.
Proof.
  unfold apply_indices. induction ks as [|k ks IH]; intros [|d a] e r; auto. cbn [combine fold_left fst snd set_indices].
  rewrite IH, value_apply. auto.
Qed.
Lemma names_indices : forall i ks a e, List.length a = List.length ks -> In i (index_names (apply_indices (combine ks a) e)) ->
  In i (index_names e) /\ ~ In i ks.
Proof.
  unfold apply_indices. induction ks as [|k ks IH]; intros [|d a] e E I; try discriminate; auto. cbn [combine fold_left fst snd] in I.
  apply IH in I; [|cbn in E; lia]. destruct I as (I & N). apply names_apply in I. destruct I as (I & M). split; auto. intros [X|X]; auto.
Qed.
Lemma sumfree_indices : forall m e, sumfree e = true -> sumfree (apply_indices m e) = true.
Proof. unfold apply_indices. induction m; cbn; intros; auto. apply IHm, sumfree_apply; auto. Qed.
Lemma ndindex_length : forall n r, List.length (ndindex n r) = (n ^ r)%nat.
Proof.
  intros n. induction r; auto. cbn [ndindex Nat.pow]. assert (G : forall k s, List.length (flat_map (fun d => map (cons d) (ndindex n r)) (seq s k)) = (k * n ^ r)%nat).
  { induction k; intros s; auto. cbn [seq flat_map]. rewrite app_length, map_length, IHr, IHk. cbn. lia. }
  apply G.
Qed.
Lemma flat_map_nth : forall {A B} (f : A -> list B) m, (forall a, List.length (f a) = m) -> forall l d a p b,
  nth_error l d = Some a -> nth_error (f a) p = Some b -> nth_error (flat_map f l) (d * m + p) = Some b.
Proof.
  intros A B f m L. induction l as [|x l IH]; intros [|d] a p b E F; try discriminate; cbn [flat_map].
  - injection E as <-. cbn. rewrite nth_error_app1; auto. apply nth_error_Some. congruence.
  - cbn in E. rewrite nth_error_app2 by (rewrite L; lia). rewrite L. replace (S d * m + p - m)%nat with (d * m + p)%nat by lia.
    eapply IH; eauto.
Qed.
Lemma nth_error_seq : forall n s d, (d < n)%nat -> nth_error (seq s n) d = Some (s + d)%nat.
Proof.
  induction n; intros s d H; [lia|]. destruct d; cbn; [f_equal; lia|]. rewrite IHn by lia. f_equal. lia.
Qed.
Lemma ndindex_position : forall n a, Forall (fun d => d < n)%nat a -> nth_error (ndindex n (List.length a)) (position n a) = Some a.
Proof.
  intros n. induction 1 as [|d a Hd Ha IH]; auto. cbn [List.length ndindex position].
  apply (flat_map_nth (fun d => map (cons d) (ndindex n (List.length a))) (n ^ List.length a)%nat) with (a := d).
  - intros. rewrite map_length. apply ndindex_length.
  - rewrite nth_error_seq; auto.
  - erewrite map_nth_error; eauto.
Qed.

(* ---- text ---- *)
Lemma strip_some : forall p s r, strip p s = Some r -> s = append p r.
Proof.
  induction p as [|a p IH]; intros s r H; cbn in *; [congruence|]. destruct s as [|c s]; [discriminate|].
  destruct (Ascii.eqb a c) eqn:E; [|discriminate]. apply Ascii.eqb_eq in E. subst. rewrite (IH s r H). auto.
Qed.
Lemma strip_append : forall p s, strip p (append p s) = Some s.
Proof. induction p; cbn; intros; auto. rewrite Ascii.eqb_refl. auto. Qed.
Lemma strip_unrelated : forall k s t, unrelated k s -> strip k (append s t) = None.
Proof.
  induction k as [|a k IH]; intros [|c s] t (A & B); cbn in *; try discriminate.
  destruct (Ascii.eqb a c) eqn:E; auto. apply Ascii.eqb_eq in E. subst. apply IH. split.
  - destruct (ascii_dec c c); [auto|congruence].
  - destruct (ascii_dec c c); [auto|congruence].
Qed.
Lemma replace_enough : forall old new, old <> EmptyString -> forall f1 f2 s, (String.length s <= f1)%nat -> (String.length s <= f2)%nat ->
  replace_fuel f1 old new s = replace_fuel f2 old new s.
Proof.
  intros old new N. induction f1 as [|f1 IH]; intros f2 s H1 H2.
  - destruct s; [|cbn in H1; lia]. destruct f2; auto.
  - destruct f2 as [|f2]; [destruct s; [auto|cbn in H2; lia]|]. cbn [replace_fuel]. destruct s as [|c r]; auto.
    destruct (strip old (String c r)) as [rest|] eqn:E.
    + f_equal. apply IH; apply strip_some in E; assert (L := f_equal String.length E); rewrite length_append in L; cbn in *;
        destruct old; [congruence| |congruence|]; cbn in L; lia.
    + f_equal. apply IH; cbn in *; lia.
Qed.
Lemma replace_step : forall k new c r, py_replace (String "_" k) new (String c r) =
  if Ascii.eqb "_" c then match strip k r with Some rest => append new (py_replace (String "_" k) new rest) | None => String c (py_replace (String "_" k) new r) end
  else String c (py_replace (String "_" k) new r).
Proof.
  intros k new c r. unfold py_replace. cbn [String.length replace_fuel append strip]. destruct (Ascii.eqb "_" c); auto.
  destruct (strip k r) eqn:E; auto. f_equal. apply replace_enough; [discriminate| |auto].
  apply strip_some in E. rewrite E, length_append. lia.
Qed.
Lemma replace_plain : forall k new b s, has_char "_" b = false -> py_replace (String "_" k) new (append b s) = append b (py_replace (String "_" k) new s).
Proof.
  induction b as [|c b IH]; intros s H; auto. cbn [has_char] in H. apply orb_false_iff in H. destruct H as (H1 & H2).
  cbn [append]. rewrite replace_step, H1, IH; auto.
Qed.
Lemma digits_plain : forall s, all_digits s = true -> has_char "_" s = false.
Proof.
  induction s as [|c s IH]; intros H; auto. cbn [all_digits has_char] in *. apply andb_prop in H. destruct H as (D & H). rewrite IH by auto.
  destruct (Ascii.eqb "_" c) eqn:E; auto. apply Ascii.eqb_eq in E. subst. discriminate.
Qed.
Lemma concat_cons : forall x l, String.concat "" (x :: l) = append x (String.concat "" l).
Proof. intros x [|y l]; cbn; auto. rewrite append_nil_r. auto. Qed.
Lemma base_split : forall b1 b2 d1 d2, ends_plain b1 = true -> ends_plain b2 = true -> all_digits d1 = true -> all_digits d2 = true ->
  append b1 d1 = append b2 d2 -> b1 = b2 /\ d1 = d2.
Proof.
  assert (G : forall b d, ends_plain b = true -> b <> EmptyString -> all_digits (append b d) = true -> False).
  { induction b as [|c b IH]; intros d E N A; [congruence|]. cbn [append all_digits] in A. apply andb_prop in A. destruct A as (A1 & A2).
    cbn [ends_plain] in E. destruct b as [|c' b].
    - unfold is_digit in E. unfold digit in A1. rewrite A1 in E. discriminate.
    - apply (IH d); auto. discriminate. }
  induction b1 as [|c b1 IH]; intros [|c' b2] d1 d2 E1 E2 A1 A2 H; cbn [append] in H.
  - auto.
  - exfalso. apply (G (String c' b2) d2); auto; [discriminate|]. cbn [append]. rewrite <- H. auto.
  - exfalso. apply (G (String c b1) d1); auto; [discriminate|]. cbn [append]. rewrite H. auto.
  - injection H as -> H. assert (S : forall c b, ends_plain (String c b) = true -> ends_plain b = true) by (intros x [|y b]; auto).
    destruct (IH b2 d1 d2); eauto. subst. auto.
Qed.
Lemma digit_char : forall n, (n < 10)%nat -> exists c, dec n = String c EmptyString.
Proof. intros n H. do 10 (destruct n as [|n]; [eexists; reflexivity|]). lia. Qed.
Lemma values_digits : forall vs, all_digits (String.concat "" (map ix_text (map Val vs))) = true.
Proof. induction vs; auto. rewrite !map_cons, concat_cons, all_digits_app, IHvs. cbn [ix_text]. rewrite all_digits_dec. auto. Qed.
Lemma values_inj : forall vs ws, Forall (fun n => n < 10)%nat vs -> Forall (fun n => n < 10)%nat ws ->
  String.concat "" (map ix_text (map Val vs)) = String.concat "" (map ix_text (map Val ws)) -> vs = ws.
Proof.
  induction vs as [|v vs IH]; intros [|w ws] H1 H2 E; auto.
  - exfalso. rewrite !map_cons, concat_cons in E. inversion H2; subst. destruct (digit_char w) as (c & X); auto. cbn [ix_text] in E. rewrite X in E. discriminate.
  - exfalso. rewrite !map_cons, concat_cons in E. inversion H1; subst. destruct (digit_char v) as (c & X); auto. cbn [ix_text] in E. rewrite X in E. discriminate.
  - rewrite !map_cons, !concat_cons in E. inversion H1; inversion H2; subst. cbn [ix_text] in E.
    destruct (digit_char v) as (c & X); auto. destruct (digit_char w) as (c' & Y); auto. rewrite X, Y in E. cbn [append] in E. injection E as E1 E2.
    f_equal; [apply dec_inj; congruence|]. apply IH; auto.
Qed.
