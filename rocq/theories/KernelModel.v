(* Model of computational kernels: names, access sets, stencils, registration
   on a block, generated call and generated signature. *)
From Verif Require Import Base Expr.

(* ---- equations inside a kernel ---- *)

(* KEq l r: an OpenSBLIEquation (opensbliequations.py 150-199).
   KGroup bs: a GroupedPiecewise (opensbliobjects.py 585-671): branches of
   equations with a condition; None is the condition True. *)
Inductive keq :=
| KEq (lhs rhs : expr)
| KGroup (branches : list (list (expr * expr) * option expr)).

Definition kernel_eqs := list keq.

(* Base names of the data sets of an expression: expr.atoms(DataSetBase). *)
Definition bases (e : expr) : list string := map fst (dsets e).

Definition cond_bases (c : option expr) : list string :=
  match c with None => [] | Some e => bases e end.
Definition cond_dsets (c : option expr) : list dset :=
  match c with None => [] | Some e => dsets e end.

(* opensbliequations.py 175-177 and opensbliobjects.py 617-630 *)
Definition lhs_of (q : keq) : list string :=
  match q with
  | KEq l _ => bases l
  | KGroup bs => flat_map (fun b => flat_map (fun e => bases (fst e)) (fst b)) bs
  end.

(* opensbliequations.py 179-181 and opensbliobjects.py 646-659: the condition of
   a branch counts as read. *)
Definition rhs_of (q : keq) : list string :=
  match q with
  | KEq _ r => bases r
  | KGroup bs =>
      flat_map (fun b => flat_map (fun e => bases (snd e)) (fst b) ++ cond_bases (snd b)) bs
  end.

(* eq.atoms(DataSet) *)
Definition dsets_of (q : keq) : list dset :=
  match q with
  | KEq l r => dsets l ++ dsets r
  | KGroup bs =>
      flat_map (fun b => flat_map (fun e => dsets (fst e) ++ dsets (snd e)) (fst b)
                         ++ cond_dsets (snd b)) bs
  end.

(* eq.atoms(K) for a class of symbols *)
Definition syms_of (k : kind) (q : keq) : list string :=
  match q with
  | KEq l r => syms k l ++ syms k r
  | KGroup bs =>
      flat_map (fun b => flat_map (fun e => syms k (fst e) ++ syms k (snd e)) (fst b)
                         ++ match snd b with None => [] | Some c => syms k c end) bs
  end.

(* Python sets of names: lists without repetition. *)
Definition set_of (l : list string) : list string := nodup string_dec l.
Definition inset (x : string) (l : list string) : bool :=
  if in_dec string_dec x l then true else false.

(* kernel.py 127-136 *)
Definition lhs_datasetbases (k : kernel_eqs) : list string := set_of (flat_map lhs_of k).
(* kernel.py 138-146 *)
Definition rhs_datasetbases (k : kernel_eqs) : list string := set_of (flat_map rhs_of k).
(* kernel.py 156-162 *)
Definition IndexedConstants (k : kernel_eqs) : list string :=
  set_of (flat_map (syms_of KConstIx) k).
(* kernel.py 164-171: the second set is never filled. *)
Definition global_variables (k : kernel_eqs) : list string * list string :=
  (set_of (flat_map (syms_of KGlobal) k), []).
(* kernel.py 173-179 *)
Definition grid_indices_used (k : kernel_eqs) : bool :=
  match flat_map (syms_of KGridIdx) k with [] => false | _ => true end.

(* kernel.py 237-241 = opsc.py 336-340 *)
Definition k_inouts (k : kernel_eqs) : list string :=
  filter (fun x => inset x (lhs_datasetbases k)) (rhs_datasetbases k).
Definition k_ins (k : kernel_eqs) : list string :=
  filter (fun x => negb (inset x (k_inouts k))) (rhs_datasetbases k).
Definition k_outs (k : kernel_eqs) : list string :=
  filter (fun x => negb (inset x (k_inouts k))) (lhs_datasetbases k).

(* ---- names ---- *)

(* block.py 76-79 *)
Definition blockname (b : nat) : string := ("opensbliblock" ++ decpad 2 b)%string.
(* kernel.py 72 *)
Definition kernelname (b n : nat) : string := (blockname b ++ "Kernel" ++ decpad 3 n)%string.
(* kernel.py 246 *)
Definition iter_name (b n : nat) : string :=
  ("iteration_range_" ++ dec n ++ "_block" ++ dec b)%string.
(* opensbliobjects.py 373-375 *)
Definition dsetbase_name (label : string) (b : nat) : string := (label ++ "_B" ++ dec b)%string.

(* block.py 18-48 with kernel.py 67-76: creating a kernel on block b names it
   after that block's counter and advances the counter. *)
Definition counters := nat -> nat.
Definition new_kernel (c : counters) (b : nat) : counters * string * string :=
  ((fun x => if (x =? b)%nat then c x + 1 else c x)%nat, kernelname b (c b), iter_name b (c b)).

Fixpoint create_kernels (c : counters) (bs : list nat) : list (string * string) :=
  match bs with
  | [] => []
  | b :: bs => let '(c', n, i) := new_kernel c b in (n, i) :: create_kernels c' bs
  end.

(* ---- generated call (kernel.py 232-274) ---- *)

Inductive mode := OPS_READ | OPS_WRITE | OPS_RW.

Inductive actual :=
| ADat (name stencil : string) (m : mode)   (* ops_arg_dat *)
| AConst (name : string)                    (* ops_arg_gbl of an indexed constant *)
| AGbl (name : string) (m : mode)           (* ops_arg_gbl of a global value *)
| AIdx.                                     (* ops_arg_idx *)

(* [ord] is the iteration order of Python sets; the same order is used by the
   generator of the call and by the generator of the signature, because both
   build the sets by the same operations. *)
Definition call_args (ord : list string -> list string) (stn : string -> string)
           (k : kernel_eqs) : result (list actual) :=
  match k with
  | [] => Err ValueError                                   (* 242-243 *)
  | _ =>
    let '(gi, go) := global_variables k in
    Ok (map (fun d => ADat d (stn d) OPS_READ) (ord (k_ins k))       (* 252-253 *)
     ++ map (fun d => ADat d (stn d) OPS_WRITE) (ord (k_outs k))     (* 254-255 *)
     ++ map (fun d => ADat d (stn d) OPS_RW) (ord (k_inouts k))      (* 256-257 *)
     ++ map AConst (ord (IndexedConstants k))                        (* 258-260 *)
     ++ map (fun g => AGbl g OPS_READ) (ord gi)                      (* 266-267 *)
     ++ map (fun g => AGbl g OPS_WRITE) (ord go)                     (* 268-269 *)
     ++ (if grid_indices_used k then [AIdx] else []))                (* 270-271 *)
  end.

(* ---- generated signature (opsc.py 322-362) ---- *)

Inductive formal :=
| FDat (name : string) (const : bool)   (* array parameter; const = 'input' *)
| FGbl (name : string) (const : bool)   (* global value *)
| FConst (base : string)                (* indexed constant, passed as its base *)
| FIdx.                                 (* const int *idx *)

(* The base of an indexed constant "name[index]": the text before '['. *)
Fixpoint ix_base (s : string) : string :=
  match s with
  | EmptyString => EmptyString
  | String c s => if ascii_dec c "["%char then EmptyString else String c (ix_base s)
  end.

(* opsc.py 342-349: data sets, then global values. *)
Definition all_dataset_inps (ord : list string -> list string) (k : kernel_eqs) : list string :=
  let '(gi, go) := global_variables k in
  ord (k_ins k) ++ ord (k_outs k) ++ ord (k_inouts k) ++ ord gi ++ ord go.

Definition header_args (ord : list string -> list string) (k : kernel_eqs) : list formal :=
  let '(gi, go) := global_variables k in
     map (fun d => FDat d true) (ord (k_ins k))
  ++ map (fun d => FDat d false) (ord (k_outs k))
  ++ map (fun d => FDat d false) (ord (k_inouts k))
  ++ map (fun g => FGbl g true) (ord gi)
  ++ map (fun g => FGbl g false) (ord go)
  ++ map (fun c => FConst (ix_base c)) (ord (IndexedConstants k))    (* 352-354 *)
  ++ (if grid_indices_used k then [FIdx] else []).                   (* 356-358 *)

(* opsc.py 363-364: dict(zip(all_dataset_inps, ops_accs)); a later pair for the
   same key overwrites an earlier one. *)
Fixpoint acc_number_from (n : nat) (l : list string) (d : string) : option nat :=
  match l with
  | [] => None
  | x :: l =>
      match acc_number_from (S n) l d with
      | Some m => Some m
      | None => if string_dec x d then Some n else None
      end
  end.
(* opsc.py 123-132 and 233-236: the number in the macro OPS_ACC%d printed for
   an access of data set d. *)
Definition ops_acc (ord : list string -> list string) (k : kernel_eqs) (d : string) : option nat :=
  acc_number_from 0 (all_dataset_inps ord k) d.

(* ---- stencils and registration on a block (kernel.py 181-197, 280-325) ---- *)

Definition offset := list Z.
Definition offset_dec : forall a b : offset, {a = b} + {a <> b} := list_eq_dec Z.eq_dec.

Definition kernel_dsets (k : kernel_eqs) : list dset := flat_map dsets_of k.

(* get_stencils: the offsets at which the kernel touches array b. *)
Definition stencil_of (k : kernel_eqs) (b : string) : list offset :=
  nodup offset_dec (map snd (filter (fun d => if string_dec (fst d) b then true else false)
                                    (kernel_dsets k))).

(* Equality of frozensets. *)
Definition subset_b (a b : list offset) : bool :=
  forallb (fun x => if in_dec offset_dec x b then true else false) a.
Definition same_set (a b : list offset) : bool := subset_b a b && subset_b b a.

(* Block tables: declared data sets and declared stencils (block.py 67, 70).
   Simplification: of the DataSetBase attributes set at kernel.py 304-313 only
   the registration itself is kept; the error branches 298-301 need a data set
   of another block under the same printed name, which the name excludes. *)
Record blk := {
  b_num : nat;
  b_dsets : list string;
  b_stencils : list (list offset * string)
}.
Definition blk_init (n : nat) : blk := {| b_num := n; b_dsets := []; b_stencils := [] |}.

(* kernel.py 294-313 *)
Definition add_dset (b : blk) (d : string) : blk :=
  if inset d (b_dsets b) then b
  else {| b_num := b_num b; b_dsets := b_dsets b ++ [d]; b_stencils := b_stencils b |}.

Definition find_stencil (st : list offset) (l : list (list offset * string)) : option string :=
  match find (fun p => same_set (fst p) st) l with Some p => Some (snd p) | None => None end.

(* kernel.py 318 *)
Definition stencil_name (num i : nat) : string := ("stencil_" ++ dec num ++ "_" ++ decpad 2 i)%string.

(* kernel.py 317-322 for one data set: the block and the name recorded. *)
Definition add_stencil (b : blk) (st : list offset) : blk * string :=
  match find_stencil st (b_stencils b) with
  | Some n => (b, n)
  | None =>
      let n := stencil_name (b_num b) (List.length (b_stencils b)) in
      ({| b_num := b_num b; b_dsets := b_dsets b; b_stencils := b_stencils b ++ [(st, n)] |}, n)
  end.

Fixpoint add_stencils (b : blk) (l : list (string * list offset)) : blk * list (string * string) :=
  match l with
  | [] => (b, [])
  | (d, st) :: l =>
      let '(b1, n) := add_stencil b st in
      let '(b2, ns) := add_stencils b1 l in
      (b2, (d, n) :: ns)
  end.

(* kernel.py 280-325.  [ds] enumerates the data sets of the kernel and [sts]
   the stencil dictionary, in whatever order Python iterates. *)
Definition update_block_datasets (b : blk) (ds : list string)
           (sts : list (string * list offset)) : blk * list (string * string) :=
  add_stencils (fold_left add_dset ds b) sts.

(* ---- iteration ranges (kernel.py 105-125, 214-230; helperfunctions.py 13-30) ---- *)

(* A halo type is the pair (get_halos(0), get_halos(1)); per direction and side
   a kernel holds a set of halo types. *)
Definition halo := (Z * Z)%type.
Definition halo_ranges := list (list halo * list halo).

Fixpoint minl (x : Z) (l : list Z) : Z :=
  match l with [] => x | y :: l => minl (Z.min x y) l end.
Fixpoint maxl (x : Z) (l : list Z) : Z :=
  match l with [] => x | y :: l => maxl (Z.max x y) l end.
Definition halo_min (hs : list halo) : Z :=
  match hs with [] => 0%Z | h :: hs => minl (fst h) (map fst hs) end.
Definition halo_max (hs : list halo) : Z :=
  match hs with [] => 0%Z | h :: hs => maxl (snd h) (map snd hs) end.

(* helperfunctions.py 13-30 *)
Definition get_min_max_halo_values (h : halo_ranges) : list Z * list Z :=
  (map (fun p => halo_min (fst p)) h, map (fun p => halo_max (snd p)) h).

Definition halo_dec : forall a b : halo, {a = b} + {a <> b}.
Proof. decide equality; apply Z.eq_dec. Defined.
Definition set_add (h : halo) (l : list halo) : list halo :=
  if in_dec halo_dec h l then l else l ++ [h].

(* kernel.py 110-117 for a single halo type *)
Definition set_halo_range (hr : halo_ranges) (dir : nat) (side : bool) (h : halo) : halo_ranges :=
  map (fun p => let '(i, (lo, hi)) := p in
                if (i =? dir)%nat then (if side then (lo, set_add h hi) else (set_add h lo, hi))
                else (lo, hi))
      (combine (seq 0 (List.length hr)) hr).

(* kernel.py 119-125 *)
Definition merge_halo_range (a b : halo_ranges) : halo_ranges :=
  map (fun p => let '((alo, ahi), (blo, bhi)) := p in
                (fold_right set_add alo blo, fold_right set_add ahi bhi)) (combine a b).

(* kernel.py 223-229 for numeric ranges [lo, hi) per direction.  The case of
   ranges given as ConstantIndexed (216-222) is not modelled. *)
Definition total_range (ranges : list (Z * Z)) (hr : halo_ranges) : list (Z * Z) :=
  map (fun p => let '((lo, hi), (m, q)) := p in (lo + m, hi + q)%Z)
      (combine ranges (combine (fst (get_min_max_halo_values hr))
                               (snd (get_min_max_halo_values hr)))).
