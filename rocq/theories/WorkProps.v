(* C01: work arrays. *)
From Verif Require Import Base WorkModel WorkSpec WorkProofs.

(* Whatever sequence of allocations, saves, restores (nested to any depth) and
   top-level resets is performed on a fresh block, no array in use is ever
   handed out again. *)
Theorem C01_no_live_array_reused :
  forall (depth : nat) (ops : list wop),
    nested depth 0 ops = true -> safe winit [] [] ops.
Proof. exact safe_from_init. Qed.
Print Assumptions C01_no_live_array_reused.

Example C01_no_live_array_reused_nonvacuous :
  nested 2 0 [Alloc; Store; Alloc; Store; Alloc; Restore; Alloc; Restore; Alloc; Reset; Alloc] = true
  /\ snd (wrun winit [Alloc; Store; Alloc; Store; Alloc; Restore; Alloc; Restore; Alloc])
     = ["wk0"; "wk1"; "wk2"; "wk2"; "wk2"]%string.
Proof. split; reflexivity. Qed.

(* A routine that saves, allocates n arrays and restores obtains n pairwise
   different arrays and leaves the block handing out the array it would have
   handed out before. *)
Theorem C01_routine_distinct :
  forall (n : nat) (s : wstate),
    let '(s', arrays) := wrun s (Store :: repeat Alloc n ++ [Restore]) in
    List.length arrays = n /\ NoDup arrays /\ work_array s' = work_array s.
Proof. exact routine_ok. Qed.
Print Assumptions C01_routine_distinct.

(* With saves that are not nested, the arrays taken inside saves are all given
   back: after any such history the next array is the one that follows the
   arrays taken outside saves. *)
Theorem C01_resume_depth_one :
  forall ops : list wop,
    nested 1 0 ops = true -> closed 0 ops = true -> (forall o, In o ops -> o <> Reset) ->
    forall s, work_array (fst (wrun s ops)) = wk_name (work_index s + top_allocs 0 ops).
Proof. exact resume_depth1. Qed.
Print Assumptions C01_resume_depth_one.

Example C01_resume_depth_one_nonvacuous :
  let ops := [Alloc; Store; Alloc; Alloc; Restore; Alloc; Store; Alloc; Restore] in
  nested 1 0 ops = true /\ closed 0 ops = true /\ (forall o, In o ops -> o <> Reset) /\
  work_array (fst (wrun winit ops)) = "wk2"%string.
Proof.
  cbn. repeat split. intros o H; repeat (destruct H as [<-|H]; [discriminate|]); destruct H.
Qed.

(* The full claim also says that an outer routine resumes where it was saved
   when another such routine runs inside it.  It does not: the single saved
   slot is overwritten by the inner save, and the outer restore resumes one
   array too late (wk1 instead of wk0). *)
Theorem C01_nested_resume_refuted :
  exists ops : list wop,
    nested 2 0 ops = true /\ closed 0 ops = true /\
    work_array (fst (wrun winit ops)) <> work_array winit /\
    ops = [Store; Alloc; Store; Alloc; Restore; Restore].
Proof.
  exists [Store; Alloc; Store; Alloc; Restore; Restore].
  repeat split; try reflexivity. discriminate.
Qed.
Print Assumptions C01_nested_resume_refuted.
