(* C49: conditions of boundaries given as nested lists. *)
From Verif Require Import Base BCModel FlatSpec FlatProofs.
Local Open Scope list_scope.

(* C49.  However the conditions are nested, they are read from left to right: the result is
   one pair per direction, whose entries in order are the conditions of the lower and the
   upper side; any other number of conditions is refused. *)
Theorem C49_reading_order :
  forall (A : Type) ndim (t : nest A) (l : list A), reads_as t l ->
    (forall ps, set_boundary_types ndim t = Ok ps <->
       l = flat_map (fun p => [fst p; snd p]) ps /\ List.length ps = ndim) /\
    (List.length l <> ndim * 2 -> set_boundary_types ndim t = Err ValueError).
Proof. exact (fun A => @types_reads A). Qed.
Print Assumptions C49_reading_order.

Example C49_reading_nonvacuous :
  let t := Many [Many [One 1; One 2]; One 3; Many [Many [One 4]]] in
  reads_as t [1; 2; 3; 4] /\ set_boundary_types 2 t = Ok [(1, 2); (3, 4)] /\
  set_boundary_types 3 t = Err ValueError.
Proof.
  split; [|split; reflexivity].
  apply (reads_more _ _ [1; 2] [3; 4]).
  - apply (reads_more _ _ [1] [2]); [constructor|]. apply (reads_more _ _ [2] []); constructor.
  - apply (reads_more _ _ [3] [4]); [constructor|]. apply (reads_more _ _ [4] []); [|constructor].
    apply (reads_more _ _ [4] []); [|constructor]. apply (reads_more _ _ [4] []); constructor.
Qed.
