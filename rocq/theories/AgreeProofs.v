(* Programs with several blocks: the schemes of the blocks agree. *)
From Verif Require Import Base AlgModel AlgProofs.
Local Open Scope list_scope.

Lemma all_same_spec {A} (eqb : A -> A -> bool) (l : list A) :
  (forall a b, eqb a b = true -> a = b) -> all_same eqb l = true ->
  l <> [] /\ forall a b, In a l -> In b l -> a = b.
Proof.
  intros He H. destruct l as [|x l]; [discriminate|]. cbn in H. split; [discriminate|].
  assert (F : forall a, In a (x :: l) -> a = x).
  { intros a [->|Ha]; [reflexivity|]. rewrite forallb_forall in H. symmetry. apply He, H, Ha. }
  intros a b Ha Hb. rewrite (F a Ha), (F b Hb). reflexivity.
Qed.

Lemma size_eqb_eq a b : size_eqb a b = true -> a = b.
Proof.
  destruct a, b; cbn; try discriminate; [reflexivity|]. intros H. apply Z.eqb_eq in H. subst. reflexivity.
Qed.

Lemma in_schemes {K} (bs : list (block K)) b sc : In b bs -> In sc (bk_schemes b) -> In sc (all_schemes K bs).
Proof. intros Hb Hs. apply in_flat_map. exists b. auto. Qed.

Lemma schemes_agree {K} (bs : list (block K)) prg :
  spatial_solution bs = Ok prg ->
  (exists b sc, In b bs /\ In sc (bk_schemes b)) /\
  forall b sc b' sc', In b bs -> In sc (bk_schemes b) -> In b' bs -> In sc' (bk_schemes b') ->
    sc_class sc = sc_class sc' /\ sc_iter sc = sc_iter sc' /\ sc_stage sc = sc_stage sc'.
Proof.
  intros H. unfold spatial_solution in H.
  destruct (all_same String.eqb (map sc_class (all_schemes K bs))) eqn:E1; [|discriminate].
  apply bind_ok in H as (a & _ & H). apply bind_ok in H as (t & _ & H).
  destruct (all_same size_eqb (map sc_iter (all_schemes K bs))) eqn:E2; [|discriminate].
  destruct (all_same size_eqb (map sc_stage (all_schemes K bs))) eqn:E3; [|discriminate]. clear H.
  destruct (all_same_spec _ _ (fun a b => proj1 (String.eqb_eq a b)) E1) as [N A1].
  destruct (all_same_spec _ _ size_eqb_eq E2) as [_ A2].
  destruct (all_same_spec _ _ size_eqb_eq E3) as [_ A3]. split.
  - destruct (all_schemes K bs) as [|sc l] eqn:E; [contradiction|].
    assert (I : In sc (all_schemes K bs)) by (rewrite E; left; reflexivity).
    apply in_flat_map in I as (b & Hb & Hs). exists b, sc. auto.
  - intros b sc b' sc' Hb Hs Hb' Hs'.
    assert (I := in_schemes bs b sc Hb Hs). assert (I' := in_schemes bs b' sc' Hb' Hs').
    repeat split; [apply A1|apply A2|apply A3]; apply in_map; assumption.
Qed.
