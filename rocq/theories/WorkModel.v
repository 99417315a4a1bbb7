(* Model of the work-array counters and kernel counters of a block. *)
From Verif Require Import Base.
Local Open Scope string_scope.

(* grid.py 7-19: WorkDataSet.  Only the two counters matter; the dtype
   placeholder and the shape of the created DataSet are not modelled. *)
Record wstate := { work_index : nat; stored_index : nat }.

(* grid.py 16-17: both counters start at 0. *)
Definition winit : wstate := {| work_index := 0; stored_index := 0 |}.

(* grid.py 21-23 and 76-77: the default name "wk%d" % work_index. *)
Definition wk_name (i : nat) : string := "wk" ++ dec i.

(* grid.py 76-77, 80: work_array() without arguments returns the array named
   after the current index; it does not change the state. *)
Definition work_array (s : wstate) : string := wk_name (work_index s).

(* grid.py 97-102 *)
Definition increase_work_index (s : wstate) : wstate :=
  {| work_index := work_index s + 1; stored_index := stored_index s |}.

(* grid.py 104-108 *)
Definition store_work_index (s : wstate) : wstate :=
  {| work_index := work_index s; stored_index := work_index s |}.

(* grid.py 110-114 *)
Definition reset_work_to_stored (s : wstate) : wstate :=
  {| work_index := stored_index s; stored_index := stored_index s |}.

(* grid.py 90-95 *)
Definition reset_work_index (s : wstate) : wstate :=
  {| work_index := 0; stored_index := stored_index s |}.

(* The usage pattern of all callers (opensblifunctions.py 374-375, 603-604,
   686-687; scheme.py 219-220): take the array, then advance the index. *)
Inductive wop := Alloc | Store | Restore | Reset.

Definition wstep (s : wstate) (o : wop) : wstate * option string :=
  match o with
  | Alloc => (increase_work_index s, Some (work_array s))
  | Store => (store_work_index s, None)
  | Restore => (reset_work_to_stored s, None)
  | Reset => (reset_work_index s, None)
  end.

Fixpoint wrun (s : wstate) (ops : list wop) : wstate * list string :=
  match ops with
  | [] => (s, [])
  | o :: ops =>
      let '(s1, out) := wstep s o in
      let '(s2, outs) := wrun s1 ops in
      (s2, match out with Some w => w :: outs | None => outs end)
  end.
