(* Keywords of output objects do not depend on the case of letters. *)
From Verif Require Import Base AlgModel CaseSpec.
From Coq Require Import Ascii.
Local Open Scope list_scope.

Lemma lower1_same a b : same_letter a b -> lower1 a = lower1 b.
Proof.
  intros [->|[H|H]]; [reflexivity| |]; cbn in H;
    repeat (destruct H as [H|H]; [injection H as <- <-; reflexivity|]); destruct H.
Qed.

Lemma lower_same s : forall t, same_up_to_case s t -> lower s = lower t.
Proof.
  unfold same_up_to_case. induction s as [|a s IH]; intros [|b t] H; cbn in H; inversion H; subst; [reflexivity|].
  cbn. rewrite (lower1_same a b) by assumption. rewrite (IH t) by assumption. reflexivity.
Qed.

Lemma lower1_small c : ~ In c capitals -> lower1 c = c.
Proof.
  destruct c as [[] [] [] [] [] [] [] []]; intros H; try reflexivity; exfalso; apply H; vm_compute; auto 30.
Qed.

Lemma lower_small s : no_capitals s -> lower s = s.
Proof.
  unfold no_capitals. induction s as [|c s IH]; cbn; intros H; [reflexivity|].
  inversion H; subst. rewrite lower1_small, IH by assumption. reflexivity.
Qed.

Lemma iohdf5_case arrays every kw kw' :
  Forall2 (fun p q => same_up_to_case (fst p) (fst q) /\ same_up_to_case (snd p) (snd q)) kw kw' ->
  iohdf5 arrays every kw = iohdf5 arrays every kw'.
Proof.
  intros H. unfold iohdf5.
  assert (E : map (fun p => (lower (fst p), lower (snd p))) kw = map (fun p => (lower (fst p), lower (snd p))) kw').
  { induction H as [|p q l l' [H1 H2] H IH]; [reflexivity|]. cbn.
    rewrite (lower_same _ _ H1), (lower_same _ _ H2), IH. reflexivity. }
  rewrite E. destruct H; reflexivity.
Qed.

Lemma iohdf5_kept arrays every kw i :
  Forall (fun p => no_capitals (fst p) /\ no_capitals (snd p)) kw -> kw <> [] ->
  iohdf5 arrays every kw = Ok i -> io_kw i = kw /\ io_arrays i = arrays.
Proof.
  intros H N. unfold iohdf5.
  assert (E : map (fun p => (lower (fst p), lower (snd p))) kw = kw).
  { induction H as [|[a b] l [H1 H2] H IH]; [reflexivity|]. cbn in *.
    rewrite (lower_small _ H1), (lower_small _ H2). f_equal.
    destruct l as [|p l]; [reflexivity|]. apply IH. discriminate. }
  rewrite E. destruct kw as [|p kw]; [contradiction|].
  destruct (get_algorithm_location every (p :: kw)); cbn; intros X; inversion X. auto.
Qed.
