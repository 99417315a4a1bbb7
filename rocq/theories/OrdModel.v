(* Model of the ordering of equations: opensbliequations.py, block.py. *)
From Verif Require Import Base.

(* ---- opensbliequations.py 358-400: sort_dictionary ---- *)
(* A key is the name of an array; dictionary[key].rhs_datasetbases is a list of
   names.  The list of pairs gives the iteration order of the dictionary, which
   is the same in every pass because the dictionary is not modified. *)
Definition key := nat.
Definition dictionary := list (key * list key).

Definition mem (k : key) (l : list key) : bool := if in_dec Nat.eq_dec k l then true else false.

(* 376, 384: [key for key in dictionary.keys() if key not in order], with the
   zipped requirements *)
Definition remaining (d : dictionary) (order : list key) : dictionary :=
  filter (fun p => negb (mem (fst p) order)) d.

(* 383: one pass; the comprehension is evaluated before order is extended *)
Definition ready (zipped : dictionary) (order : list key) : list key :=
  map fst (filter (fun p => forallb (fun req => mem req order) (snd p)) zipped).

(* 381-397: while key_list, with `more` further passes before iter_count > limit *)
Fixpoint sort_loop (more : nat) (d : dictionary) (order : list key) : result (list key) :=
  match remaining d order with
  | [] => Ok order
  | zipped =>
      let order := order ++ ready zipped order in
      match more with
      | 0 => match remaining d order with [] => Err IndexErr | _ => Err ValueError end
      | S more => sort_loop more d order
      end
  end.

(* 371-400.  `start` is list(set(order + known)): the known arrays in some order. *)
Definition sort_dictionary (limit : nat) (start : list key) (d : dictionary) : result (list key) :=
  bind (sort_loop limit d start) (fun order => Ok (skipn (List.length start) order)).

(* 380, 387: the limit *)
Definition max_passes : nat := Z.to_nat 1000.

(* 335-352: sort_constituents.  Kernels are indexed by DataSets, that is by an
   array name and an index; the dictionary passed on is indexed by the name. *)
Section constituents.
  Variable K : Type.
  Record crkernel := { ck_base : key; ck_index : list Z; ck_requires : list key; ck_kernel : K }.

  (* 345-347: d[key.base] = value; an existing key keeps its position *)
  Fixpoint dict_set (d : list (key * (list key * K))) (k : key) (v : list key * K)
    : list (key * (list key * K)) :=
    match d with
    | [] => [(k, v)]
    | (k', v') :: d => if Nat.eq_dec k k' then (k', v) :: d else (k', v') :: dict_set d k v
    end.
  Definition by_base (ks : list crkernel) : list (key * (list key * K)) :=
    fold_left (fun d c => dict_set d (ck_base c) (ck_requires c, ck_kernel c)) ks [].

  Fixpoint dict_get (d : list (key * (list key * K))) (k : key) : result K :=
    match d with
    | [] => Err KeyErr
    | (k', v) :: d => if Nat.eq_dec k k' then Ok (snd v) else dict_get d k
    end.

  Fixpoint get_all (d : list (key * (list key * K))) (l : list key) : result (list K) :=
    match l with
    | [] => Ok []
    | k :: l => bind (dict_get d k) (fun v => bind (get_all d l) (fun vs => Ok (v :: vs)))
    end.

  Definition sort_constituents (limit : nat) (start : list key) (ks : list crkernel) : result (list K) :=
    let d := by_base ks in
    bind (sort_dictionary limit start (map (fun p => (fst p, fst (snd p))) d)) (get_all d).
End constituents.

(* ---- block.py 218-236: set_equations, sort_equation_classes ---- *)
Section classes.
  Variable A : Type.
  Variable is_cr : A -> bool.          (* isinstance(eq, ConstituentRelations) *)

  Fixpoint remove_nth (n : nat) (l : list A) : list A :=
    match n, l with
    | _, [] => []
    | 0, _ :: l => l
    | S n, x :: l => x :: remove_nth n l
    end.

  (* the body for index `no`: the iterator yields the current element there *)
  Definition sort_step (l : list A) (no : nat) : list A :=
    match nth_error l no with
    | Some eq => if is_cr eq then eq :: remove_nth no l else l
    | None => l
    end.
  Definition sort_equation_classes (l : list A) : list A :=
    fold_left sort_step (seq 0 (List.length l)) l.

  Definition set_equations (l new : list A) : list A := sort_equation_classes (l ++ new).
End classes.

(* ---- block.py 101-136: dataobjects_to_datasets_on_block ---- *)
Section convert.
  Variables A B : Type.
  Variable conv : A -> B.              (* conversion of one equation, 111-121 *)

  Inductive nested := NLeaf (a : A) | NList (l : list nested).

  Fixpoint flatten (e : nested) : list A :=
    match e with
    | NLeaf a => [a]
    | NList l => flat_map flatten l
    end.

  (* an element of the returned list: a slice or a single equation *)
  Inductive outelt := OOne (b : B) | OSlice (l : list B).

  (* 124-131 *)
  Fixpoint renest (store : list B) (loc : nat) (eqs : list nested) : result (list outelt) :=
    match eqs with
    | [] => Ok []
    | NList l :: eqs =>
        let n := List.length l in
        bind (renest store (loc + n) eqs) (fun r => Ok (OSlice (firstn n (skipn loc store)) :: r))
    | NLeaf _ :: eqs =>
        match nth_error store loc with
        | None => Err IndexErr
        | Some b => bind (renest store (S loc) eqs) (fun r => Ok (OOne b :: r))
        end
    end.

  Definition convert (eqs : list nested) : result (list outelt) :=
    renest (map conv (flat_map flatten eqs)) 0 eqs.
End convert.
Arguments NLeaf {A} a. Arguments NList {A} l. Arguments OOne {B} b. Arguments OSlice {B} l.
Arguments ck_base {K} c. Arguments ck_index {K} c. Arguments ck_requires {K} c. Arguments ck_kernel {K} c.
