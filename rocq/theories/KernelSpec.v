(* Specification vocabulary for kernels, independent of how the tables are built. *)
From Verif Require Import Base Expr KernelModel.

(* Equations of a kernel as plain assignments, with the conditions that guard
   them. *)
Definition assignments (q : keq) : list (expr * expr) :=
  match q with KEq l r => [(l, r)] | KGroup bs => flat_map fst bs end.
Definition conditions (q : keq) : list expr :=
  match q with
  | KEq _ _ => []
  | KGroup bs => flat_map (fun b => match snd b with Some c => [c] | None => [] end) bs
  end.

(* The kernel writes / reads array [d] at relative location [o]. *)
Definition writes_at (k : kernel_eqs) (d : string) (o : offset) : Prop :=
  exists q l r, In q k /\ In (l, r) (assignments q) /\ In (d, o) (dsets l).
Definition reads_at (k : kernel_eqs) (d : string) (o : offset) : Prop :=
  exists q, In q k /\
    ((exists l r, In (l, r) (assignments q) /\ In (d, o) (dsets r)) \/
     (exists c, In c (conditions q) /\ In (d, o) (dsets c))).
Definition accesses (k : kernel_eqs) (d : string) (o : offset) : Prop :=
  writes_at k d o \/ reads_at k d o.
Definition writes (k : kernel_eqs) (d : string) : Prop := exists o, writes_at k d o.
Definition reads (k : kernel_eqs) (d : string) : Prop := exists o, reads_at k d o.

(* The kernel assigns to the global value g. *)
Definition assigns_global (k : kernel_eqs) (g : string) : Prop :=
  exists q l r, In q k /\ In (l, r) (assignments q) /\ In g (syms KGlobal l).

(* An actual argument and a formal parameter denote the same object. *)
Definition same_object (a : actual) (f : formal) : Prop :=
  match a, f with
  | ADat n _ _, FDat m _ => n = m
  | AGbl n _, FGbl m _ => n = m
  | AConst n, FConst b => ix_base n = b
  | AIdx, FIdx => True
  | _, _ => False
  end.

(* [ds] and [sts] are some enumeration of the kernel's data sets and of its
   stencil dictionary. *)
Definition enumerates (k : kernel_eqs) (ds : list string)
           (sts : list (string * list offset)) : Prop :=
  (NoDup ds /\ forall x, In x ds <-> In x (lhs_datasetbases k) \/ In x (rhs_datasetbases k)) /\
  (NoDup (map fst sts) /\
   (forall b, In b (map fst sts) <-> exists o, In (b, o) (kernel_dsets k)) /\
   (forall b st, In (b, st) sts -> forall o, In o st <-> In (b, o) (kernel_dsets k))).

Record registration := {
  r_eqs : kernel_eqs; r_ds : list string; r_sts : list (string * list offset) }.

(* All registrations of a history, with the stencil names each kernel got. *)
Fixpoint register_all (b : blk) (h : list registration)
  : blk * list (kernel_eqs * list (string * string)) :=
  match h with
  | [] => (b, [])
  | r :: h =>
      let '(b1, names) := update_block_datasets b (r_ds r) (r_sts r) in
      let '(b2, rest) := register_all b1 h in
      (b2, (r_eqs r, names) :: rest)
  end.

Definition wf_history (h : list registration) : Prop :=
  forall r, In r h -> enumerates (r_eqs r) (r_ds r) (r_sts r).
