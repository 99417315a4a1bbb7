(* What users of the work-array allocator rely on, stated without reference to
   the counters: a stack discipline of live arrays. *)
From Verif Require Import Base WorkModel.

(* [safe s live saved ops]: run the operations; [live] are the arrays currently
   in use, [saved] the stack of live sets at the open saves.  At every
   allocation the array handed out must not be in use.  A restore ends the use
   of everything allocated since the matching save.  A reset (allowed outside
   any save) ends the use of everything. *)
Fixpoint safe (s : wstate) (live : list string) (saved : list (list string))
         (ops : list wop) : Prop :=
  match ops with
  | [] => True
  | Alloc :: ops =>
      ~ In (work_array s) live /\
      safe (fst (wstep s Alloc)) (work_array s :: live) saved ops
  | Store :: ops => safe (fst (wstep s Store)) live (live :: saved) ops
  | Restore :: ops =>
      match saved with
      | [] => safe (fst (wstep s Restore)) live [] ops
      | l :: saved => safe (fst (wstep s Restore)) l saved ops
      end
  | Reset :: ops => safe (fst (wstep s Reset)) [] saved ops
  end.

(* Operation lists in which every restore closes an open save and no reset
   happens inside a save; [d] is the number of open saves, [m] the maximal
   depth allowed. *)
Fixpoint nested (m d : nat) (ops : list wop) : bool :=
  match ops with
  | [] => true
  | Alloc :: ops => nested m d ops
  | Store :: ops => (d <? m)%nat && nested m (S d) ops
  | Restore :: ops => match d with 0 => false | S d => nested m d ops end
  | Reset :: ops => match d with 0 => nested m 0 ops | S _ => false end
  end.

(* Lists that end with no open save. *)
Fixpoint closed (d : nat) (ops : list wop) : bool :=
  match ops with
  | [] => (d =? 0)%nat
  | Alloc :: ops => closed d ops
  | Store :: ops => closed (S d) ops
  | Restore :: ops => match d with 0 => false | S d => closed d ops end
  | Reset :: ops => closed d ops
  end.

(* Number of arrays allocated outside any save (d = number of open saves). *)
Fixpoint top_allocs (d : nat) (ops : list wop) : nat :=
  match ops with
  | [] => 0
  | Alloc :: ops => (if d =? 0 then 1 else 0) + top_allocs d ops
  | Store :: ops => top_allocs (S d) ops
  | Restore :: ops => top_allocs (pred d) ops
  | Reset :: ops => top_allocs d ops
  end.
