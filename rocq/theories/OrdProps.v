(* C20-C22: orderings. *)
From Coq Require Import Permutation.
From Verif Require Import Base OrdModel OrdSpec OrdProofs.
Local Open Scope list_scope.

(* C20.  Whatever the iteration order of the dictionary and of the known arrays,
   a returned list contains each relation that is not known once, after
   everything it requires. *)
Theorem C20_order_is_valid :
  forall start d l, NoDup (map fst d) ->
    sort_dictionary max_passes start d = Ok l -> evaluation_order start d l.
Proof. exact (fun start d l => sort_dictionary_sound max_passes start d l). Qed.
Print Assumptions C20_order_is_valid.

(* The sort succeeds exactly when the relations can be evaluated in 1000 rounds:
   cyclic and unsatisfiable requirements are reported as errors. *)
Theorem C20_succeeds_partial :
  forall start d, NoDup (map fst d) ->
    (exists l, sort_dictionary max_passes start d = Ok l) <-> rounds (Z.to_nat 1000) start d.
Proof. exact (fun start d => sort_dictionary_exact max_passes start d). Qed.
Print Assumptions C20_succeeds_partial.

(* An acyclic chain of 1001 relations is rejected. *)
Theorem C20_succeeds_refuted :
  exists d n, NoDup (map fst d) /\ rounds n [] d /\
    forall l, sort_dictionary max_passes [] d <> Ok l.
Proof.
  exists (chain (S max_passes)), (S max_passes). split; [|split].
  - rewrite chain_keys. apply seq_NoDup.
  - exists (fun k => S k). intros k reqs H _. unfold chain in H. apply in_map_iff in H.
    destruct H as (j & E & H). apply in_seq in H. injection E as <- <-. split; [lia|].
    intros r Hr. right. destruct j as [|j]; [destruct Hr|]. destruct Hr as [<- | []].
    split; [|lia]. rewrite chain_keys. apply in_seq. lia.
  - intros l H.
    assert (R : rounds max_passes [] (chain (S max_passes))).
    { apply (proj1 (sort_dictionary_exact max_passes [] (chain (S max_passes))
                      ltac:(rewrite chain_keys; apply seq_NoDup))). exists l. exact H. }
    apply chain_rounds in R. lia.
Qed.
Print Assumptions C20_succeeds_refuted.

(* The kernels of the constituent relations, one per array, come out once each
   in such an order. *)
Theorem C20_kernels :
  forall (K : Type) start (ks : list (crkernel K)) l,
    NoDup (map ck_base ks) -> sort_constituents K max_passes start ks = Ok l ->
    exists cs, l = map ck_kernel cs /\
      evaluation_order start (map (fun c => (ck_base c, ck_requires c)) ks) (map ck_base cs) /\
      (forall c, In c cs <-> In c ks /\ ~ In (ck_base c) start).
Proof. exact (fun K start ks l => sort_constituents_ok K max_passes start ks l). Qed.
Print Assumptions C20_kernels.

Example C20_nonvacuous :
  sort_dictionary max_passes [10; 11] [(3, [2; 10]); (2, [1]); (1, [11]); (10, [3])] = Ok [1; 2; 3] /\
  (exists cs, sort_constituents nat max_passes [10]
     [{| ck_base := 2; ck_index := [0%Z]; ck_requires := [1]; ck_kernel := 102 |};
      {| ck_base := 1; ck_index := [0%Z]; ck_requires := [10]; ck_kernel := 101 |}] = Ok cs /\ cs = [101; 102]) /\
  ~ rounds (Z.to_nat 1000) [] [(1, [2]); (2, [1])] /\
  ~ rounds (Z.to_nat 1000) [] [(1, [5])].
Proof.
  split; [vm_compute; reflexivity|]. split; [eexists; split; [vm_compute; reflexivity|reflexivity]|]. split.
  - intros (rank & R).
    destruct (R 1 [2] (or_introl eq_refl) (fun H => H)) as [_ A].
    destruct (R 2 [1] (or_intror (or_introl eq_refl)) (fun H => H)) as [_ B].
    destruct (A 2 (or_introl eq_refl)) as [[]|[_ A']]. destruct (B 1 (or_introl eq_refl)) as [[]|[_ B']]. lia.
  - intros (rank & R). destruct (R 1 [5] (or_introl eq_refl) (fun H => H)) as [_ A].
    destruct (A 5 (or_introl eq_refl)) as [[]|[[E|[]] _]]. discriminate.
Qed.

(* C21.  After any history of calls of set_equations the block holds every class
   given exactly once; the constituent relations come first and the other
   classes keep the order in which they were given. *)
Theorem C21_classes_ordered :
  forall (A : Type) (is_cr : A -> bool) (calls : list (list A)),
    let final := fold_left (set_equations A is_cr) calls [] in
    exists front,
      final = front ++ filter (fun x => negb (is_cr x)) (List.concat calls) /\
      (forall x, In x front -> is_cr x = true) /\ Permutation final (List.concat calls).
Proof. exact set_equations_history. Qed.
Print Assumptions C21_classes_ordered.

Example C21_nonvacuous :
  fold_left (set_equations nat Nat.even) [[1; 2; 3; 4]; [6; 5]] [] = [6; 2; 4; 1; 3; 5].
Proof. reflexivity. Qed.

(* C22.  For lists of equations and lists of lists of equations the conversion
   returns the converted equations in the same nesting and order. *)
Theorem C22_nesting_partial :
  forall (A B : Type) (conv : A -> B) (eqs : list (nested A)),
    (forall e, In e eqs -> shallow e) ->
    exists out, convert A B conv eqs = Ok out /\
      map as_nested out = map (map_nested conv) eqs.
Proof. exact (fun A B conv eqs => renest_shallow A B conv eqs []). Qed.
Print Assumptions C22_nesting_partial.

(* Deeper nesting is not kept: equations are put in the wrong group and lost. *)
Theorem C22_nesting_refuted :
  exists (eqs : list (nested nat)) out,
    convert nat nat (fun a => a) eqs = Ok out /\
    map as_nested out <> eqs /\
    exists a, In a (flat_map (flatten nat) eqs) /\ ~ In a (flat_map (flatten nat) (map as_nested out)).
Proof.
  exists [NList [NList [NLeaf 1; NLeaf 2]]; NLeaf 3; NLeaf 4]. eexists.
  split; [reflexivity|]. split; [discriminate|].
  exists 4. split; [cbn; auto|]. cbn. intros [|[|[|[]]]]; discriminate.
Qed.
Print Assumptions C22_nesting_refuted.

Example C22_nonvacuous :
  convert nat nat S [NLeaf 1; NList [NLeaf 2; NLeaf 3]; NList []; NLeaf 4]
  = Ok [OOne 2; OSlice [3; 4]; OSlice []; OOne 5] /\
  (forall e, In e [NLeaf 1; NList [NLeaf 2; NLeaf 3]; NList []; NLeaf 4] -> shallow e).
Proof.
  split; [reflexivity|]. cbn. intros e [<- |[<- |[<- |[<- |[]]]]]; cbn; auto.
  - intros x [<- |[<- |[]]]; eexists; reflexivity.
  - intros x [].
Qed.
