From Coq Require Import FinFun.
From Verif Require Import Base BaseProofs WorkModel WorkSpec.

Lemma wk_name_inj i j : wk_name i = wk_name j -> i = j.
Proof. unfold wk_name; intros H. apply append_cancel_l in H. now apply dec_inj. Qed.

(* All names in [l] have an index below [b]. *)
Definition below (b : nat) (l : list string) : Prop :=
  forall w, In w l -> exists i, w = wk_name i /\ i < b.

Lemma below_mono b c l : b <= c -> below b l -> below c l.
Proof. intros H Hb w Hw. destruct (Hb w Hw) as (i & -> & Hi). exists i; split; [easy|lia]. Qed.

Lemma safe_gen m ops : forall s live saved,
  below (work_index s) live ->
  (match saved with [] => True | l :: _ => below (stored_index s) l end) ->
  (forall l, In l saved -> below (stored_index s) l) ->
  (saved <> [] -> stored_index s <= work_index s) ->
  nested m (List.length saved) ops = true ->
  safe s live saved ops.
Proof.
  induction ops as [|o ops IH]; intros s live saved Hl _ Hall Hle Hn; [exact I|].
  destruct o; cbn [safe wstep fst nested] in *.
  - split.
    + intros Hin. destruct (Hl _ Hin) as (i & Hi & Hlt).
      apply wk_name_inj in Hi. lia.
    + apply IH; auto.
      * cbn. intros w [<-|Hw].
        -- exists (work_index s); split; [easy|lia].
        -- destruct (Hl w Hw) as (i & -> & Hi). exists i; split; [easy|lia].
      * destruct saved; auto. apply Hall; now left.
      * cbn. intros H; specialize (Hle H); lia.
  - apply andb_true_iff in Hn as [_ Hn].
    apply IH; auto; cbn.
    + intros l [<-|Hin]; [exact Hl|].
      eapply below_mono; [|apply (Hall l Hin)].
      apply Hle. intros ->; destruct Hin.
  - destruct saved as [|l saved]; [discriminate Hn|].
    cbn [List.length] in Hn. apply IH; auto; cbn.
    + apply Hall; now left.
    + destruct saved; auto. apply Hall; right; now left.
    + intros l' Hin. apply Hall; now right.
  - destruct saved as [|l saved]; [|discriminate Hn].
    apply IH; auto; cbn; [intros w []|congruence].
Qed.

Lemma safe_from_init m ops : nested m 0 ops = true -> safe winit [] [] ops.
Proof.
  intros H. apply safe_gen with (m := m); cbn; auto; try tauto.
  intros w [].
Qed.

Lemma wrun_app s a b :
  wrun s (a ++ b) =
  let '(s1, o1) := wrun s a in let '(s2, o2) := wrun s1 b in (s2, o1 ++ o2).
Proof.
  revert s; induction a as [|o a IH]; intros s; cbn [wrun app].
  - now destruct (wrun s b).
  - destruct (wstep s o) as [s1 out]. rewrite IH.
    destruct (wrun s1 a) as [s2 o2]. destruct (wrun s2 b) as [s3 o3].
    now destruct out.
Qed.

Lemma alloc_run n s :
  wrun s (repeat Alloc n) =
  ({| work_index := work_index s + n; stored_index := stored_index s |},
   map wk_name (seq (work_index s) n)).
Proof.
  revert s; induction n as [|n IH]; intros s; cbn [wrun repeat seq map].
  - rewrite Nat.add_0_r. now destruct s.
  - cbn [wstep]. rewrite IH. cbn [work_index stored_index increase_work_index].
    replace (work_index s + 1) with (S (work_index s)) by lia.
    f_equal. f_equal. lia.
Qed.

Lemma routine_run n s :
  wrun s (Store :: repeat Alloc n ++ [Restore]) =
  (store_work_index s, map wk_name (seq (work_index s) n)).
Proof.
  cbn [wrun wstep]. rewrite wrun_app, alloc_run. cbn [wrun wstep].
  now rewrite app_nil_r.
Qed.

Lemma routine_distinct n s : NoDup (snd (wrun s (Store :: repeat Alloc n ++ [Restore]))).
Proof.
  rewrite routine_run; cbn [snd].
  apply Injective_map_NoDup; [|apply seq_NoDup].
  intros i j; apply wk_name_inj.
Qed.

(* Work index equals the number of live top-level arrays: exact resumption at
   depth one. *)
Lemma resume_gen ops : forall s d,
  nested 1 d ops = true -> closed d ops = true ->
  (forall o, In o ops -> o <> Reset) ->
  d <= 1 ->
  (d = 1 -> stored_index s <= work_index s) ->
  exists k,
    work_index (fst (wrun s ops)) =
    (if d =? 1 then stored_index s else work_index s) + k /\
    k = (top_allocs) d ops.
Proof.
  induction ops as [|o ops IH]; intros s d Hn Hc Hr Hd Hle.
  - cbn in *. exists 0. apply Nat.eqb_eq in Hc. subst. cbn. split; lia.
  - assert (Hr' : forall o', In o' ops -> o' <> Reset) by (intros; apply Hr; now right).
    destruct o; cbn [wrun].
    + destruct (IH (fst (wstep s Alloc)) d) as (k & Hk & Hk'); auto; cbn; [lia|].
      destruct (wrun (fst (wstep s Alloc)) ops) as [s2 o2] eqn:E.
      cbn [wstep fst] in *. rewrite E. cbn [fst] in *.
      exists ((if d =? 0 then 1 else 0) + k). split; [|now rewrite <- Hk'].
      rewrite Hk. destruct d as [|[|d]]; cbn; lia.
    + cbn [nested] in Hn. apply andb_true_iff in Hn as [Hd1 Hn].
      apply Nat.ltb_lt in Hd1. assert (d = 0) by lia. subst d.
      destruct (IH (fst (wstep s Store)) 1) as (k & Hk & Hk'); auto.
      cbn [wstep fst] in *.
      destruct (wrun (store_work_index s) ops) as [s2 o2] eqn:E.
      cbn [fst] in *. exists k. split; [|exact Hk']. rewrite Hk. cbn. lia.
    + cbn [nested closed] in *. destruct d as [|d]; [discriminate|].
      destruct (IH (fst (wstep s Restore)) d) as (k & Hk & Hk'); auto; try (cbn; lia).
      cbn [wstep fst] in *.
      destruct (wrun (reset_work_to_stored s) ops) as [s2 o2] eqn:E.
      cbn [fst] in *. exists k. split; [|exact Hk']. rewrite Hk.
      assert (d = 0) by lia; subst d. cbn. lia.
    + exfalso. apply (Hr Reset); [now left|easy].
Qed.

Lemma resume_depth1 ops :
  nested 1 0 ops = true -> closed 0 ops = true -> (forall o, In o ops -> o <> Reset) ->
  forall s, work_array (fst (wrun s ops)) = wk_name (work_index s + top_allocs 0 ops).
Proof.
  intros Hn Hc Hr s. destruct (resume_gen ops s 0 Hn Hc Hr) as (k & Hk & ->); [lia|lia|].
  unfold work_array. now rewrite Hk.
Qed.

Lemma routine_ok n s :
  let '(s', arrays) := wrun s (Store :: repeat Alloc n ++ [Restore]) in
  List.length arrays = n /\ NoDup arrays /\ work_array s' = work_array s.
Proof.
  pose proof (routine_distinct n s) as H. rewrite routine_run in *.
  cbn [snd] in H. repeat split; [|exact H]. now rewrite map_length, seq_length.
Qed.
