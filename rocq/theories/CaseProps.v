(* C56: keywords of output objects. *)
From Verif Require Import Base AlgModel CaseSpec CaseProofs.
Local Open Scope list_scope.

(* C56.  Keywords and their values may be written in any case: the object made from them,
   or the error, is the same ... *)
Theorem C56_any_case :
  forall arrays every kw kw',
    Forall2 (fun p q => same_up_to_case (fst p) (fst q) /\ same_up_to_case (snd p) (snd q)) kw kw' ->
    iohdf5 arrays every kw = iohdf5 arrays every kw'.
Proof. exact iohdf5_case. Qed.
Print Assumptions C56_any_case.

(* ... and written without capitals they are kept as they are, with the arrays. *)
Theorem C56_small_letters :
  forall arrays every kw i,
    Forall (fun p => no_capitals (fst p) /\ no_capitals (snd p)) kw -> kw <> [] ->
    iohdf5 arrays every kw = Ok i -> io_kw i = kw /\ io_arrays i = arrays.
Proof. exact iohdf5_kept. Qed.
Print Assumptions C56_small_letters.

Example C56_case_nonvacuous :
  Forall2 (fun p q => same_up_to_case (fst p) (fst q) /\ same_up_to_case (snd p) (snd q))
    [("IOType", "Read"); ("FileName", "Restart_7.H5")]%string [("iotype", "read"); ("filename", "restart_7.h5")]%string /\
  (exists i, iohdf5 ["rho"]%string 0 [("iotype", "read"); ("filename", "restart_7.h5")]%string = Ok i) /\
  Forall (fun p => no_capitals (fst p) /\ no_capitals (snd p)) [("iotype", "read"); ("filename", "restart_7.h5")]%string.
Proof.
  split; [|split; [eexists; reflexivity|]].
  - repeat (apply Forall2_cons || apply Forall2_nil || split);
      first [left; reflexivity | right; left; cbn; tauto].
  - repeat (apply Forall_cons || apply Forall_nil || split); cbn;
      intros H; repeat (destruct H as [H|H]; [discriminate H|]); exact H.
Qed.
