(* Model of the helper functions a problem script calls around code generation:
   print_iteration_ops, output_hdf5 (utilities/helperfunctions.py), and of the
   datasets that are read from files (core/io_hdf5.py, code_generation/opsc.py). *)
From Verif Require Import Base CodeModel AlgModel KernelModel.
Local Open Scope list_scope.

(* ---- helperfunctions.py 172-190: print_iteration_ops ---- *)

(* "%d" % z *)
Definition decZ (z : Z) : string :=
  if (z <? 0)%Z then append "-" (dec (Z.to_nat (- z))) else dec (Z.to_nat z).

(* f.readlines() (177): the pieces end with their newline, except possibly the
   last.  Other line separators than \n are not modelled. *)
Fixpoint readlines (s : text) : list text :=
  match s with
  | [] => []
  | c :: s' =>
      if ascii_dec c NL then [c] :: readlines s'
      else match readlines s' with
           | [] => [[c]]
           | l :: ls => (c :: l) :: ls
           end
  end.

(* `w in s` for strings *)
Fixpoint occurs_in (w s : text) : bool :=
  match strip_prefix w s with
  | Some _ => true
  | None => match s with [] => false | _ :: s' => occurs_in w s' end
  end.

Definition check_string : text := T "int iter=0;".                     (* 179 *)

(* 181-187: what is added to the line after a match.  [every] is an integer,
   [nan] the argument NaN_check. *)
Definition appended (every : Z) (nan : option text) : text :=
  T "if(fmod(iter+1, " ++ T (decZ every) ++ T ") == 0){" ++ [NL] ++
  T "        ops_printf(""Iteration is %d\n"", iter+1); " ++
  match nan with
  | Some name => [NL] ++ T "        ops_NaNcheck(" ++ name ++ T ");" ++ [NL] ++ T "}" ++ [NL]
  | None => [NL] ++ T "}" ++ [NL]
  end.

(* 178-187: lines[no+1] is updated before the loop reaches it, and the loop then
   sees the updated line; [carry] is what has been added to the first line of
   [lines].  lines[no+1] on the last line is an IndexError. *)
Fixpoint print_loop (ins carry : text) (lines : list text) : result (list text) :=
  match lines with
  | [] => Ok []
  | l :: rest =>
      let line := l ++ carry in
      if occurs_in check_string line then
        match rest with
        | [] => Err IndexErr
        | _ :: _ => bind (print_loop ins ins rest) (fun r => Ok (line :: r))
        end
      else bind (print_loop ins [] rest) (fun r => Ok (line :: r))
  end.

(* 176-190: the new text of the file; the file is written only when the loop
   has ended (188-189). *)
Definition print_iteration_ops (every : Z) (nan : option text) (s : text) : result text :=
  bind (print_loop (appended every nan) [] (readlines s)) (fun ls => Ok (List.concat ls)).

(* ---- helperfunctions.py 80-127: output_hdf5 ---- *)

(* The attributes of one dataset (92-100), without the constant ones. *)
Record h5_meta := {
  h5_dp : list Z; h5_dm : list Z; h5_base : list Z; h5_size : list Z;
  h5_block : string; h5_index : nat }.

Definition item {A} (l : list A) (i : nat) : result A :=
  match nth_error l i with Some a => Ok a | None => Err IndexErr end.

(* [halos[i][j] for i in range(2)] *)
Definition halo_column (halos : list (list Z)) (j : nat) : result (list Z) :=
  bind (item halos 0) (fun h0 => bind (item h0 j) (fun a =>
  bind (item halos 1) (fun h1 => bind (item h1 j) (fun b => Ok [a; b])))).

(* 80-101: set_hdf5_metadata *)
Definition set_hdf5_metadata (ndim b : nat) (halos : list (list Z)) (npoints : list Z)
  : result h5_meta :=
  if negb (List.length halos =? 2)%nat then Err ValueError                       (* 82-83 *)
  else if negb (forallb (fun h => List.length h =? ndim)%nat halos) then Err ValueError  (* 84-86 *)
  else
    bind (halo_column halos 0) (fun dm =>                               (* 88 *)
    bind (halo_column halos 1) (fun dp =>                               (* 90 *)
    Ok {| h5_dp := dp; h5_dm := dm; h5_base := repeat 0%Z ndim; h5_size := npoints;
          h5_block := blockname b; h5_index := b |})).

Section Data.
  Variable A : Type.   (* numpy arrays *)

  Record h5_dataset := { h5_name : string; h5_data : A; h5_info : h5_meta }.
  (* One file with the group of one block: (file name, group name, datasets). *)
  Record h5_file := { h5_fname : string; h5_group : string; h5_dsets : list h5_dataset }.

  (* How a call ends: a file, a failed assertion or another exception. *)
  Inductive h5_outcome := H5File (f : h5_file) | H5Assert | H5Err (e : exn).

  (* 119-126: a name that is in the group already is refused by h5py. *)
  Fixpoint h5_loop (ndim b : nat) (halos : list (list Z)) (npoints : list Z)
      (acc : list h5_dataset) (l : list (A * string)) : result (list h5_dataset) :=
    match l with
    | [] => Ok acc
    | (ar, name) :: l =>
        let dname := dsetbase_name name b in                            (* 123-124 *)
        if in_dec string_dec dname (map h5_name acc) then Err ValueError
        else bind (set_hdf5_metadata ndim b halos npoints) (fun m =>    (* 125 *)
             h5_loop ndim b halos npoints
               (acc ++ [{| h5_name := dname; h5_data := ar; h5_info := m |}]) l)
    end.

  (* 104-127: output_hdf5.  Arrays and names are given as lists: a single one is
     the list with one element (107-110).  [fname] is the keyword filename. *)
  Definition output_hdf5 (arrays : list A) (names : list string) (halos : list (list Z))
      (npoints : list Z) (ndim b : nat) (fname : option string) : h5_outcome :=
    if negb (List.length arrays =? List.length names)%nat then H5Assert  (* 111 *)
    else
      match h5_loop ndim b halos npoints [] (combine arrays names) with
      | Ok ds => H5File {| h5_fname := match fname with Some f => f | None => "data.h5"%string end;
                           h5_group := blockname b; h5_dsets := ds |}
      | Err e => H5Err e
      end.
End Data.
Arguments h5_name {A} _.
Arguments h5_data {A} _.
Arguments h5_info {A} _.
Arguments h5_fname {A} _.
Arguments h5_group {A} _.
Arguments h5_dsets {A} _.
Arguments H5File {A} _.
Arguments H5Assert {A}.
Arguments H5Err {A} _.
Arguments output_hdf5 {A} _ _ _ _ _ _ _.
Arguments h5_loop {A} _ _ _ _ _ _.

(* ---- io_hdf5.py 64-80: set_read_from_hdf5_arrays ---- *)

(* Values of block.block_datasets: a dataset base with its attributes
   read_from_hdf5 and input_file_name, or a DataSet (an access), which is what
   line 77 stores. *)
Inductive entry := EBase (read : bool) (file : option string) | EAccess.
Definition dict := list (string * entry).

Fixpoint get (k : string) (d : dict) : option entry :=
  match d with
  | [] => None
  | (k', e) :: d => if string_dec k k' then Some e else get k d
  end.
Fixpoint modify (k : string) (f : entry -> entry) (d : dict) : dict :=
  match d with
  | [] => []
  | (k', e) :: d => if string_dec k k' then (k', f e) :: d else (k', e) :: modify k f d
  end.

Definition set_read (file : string) (e : entry) : entry :=              (* 73-74 *)
  match e with EBase _ _ => EBase true (Some file) | EAccess => EAccess end.
Definition set_file (file : string) (e : entry) : entry :=              (* 79 *)
  match e with EBase r _ => EBase r (Some file) | EAccess => EAccess end.

(* 70-79; [dset] is the key of the object the local variable dset holds. *)
Fixpoint read_loop (file : string) (dset : option string) (d : dict) (arrays : list string)
  : result dict :=
  match arrays with
  | [] => Ok d
  | ar :: arrays =>
      match get ar d with
      | Some _ => read_loop file (Some ar) (modify ar (set_read file) d) arrays
      | None =>
          match dset with
          | None => Err UnboundLocal                                    (* 79 *)
          | Some k => read_loop file dset (modify k (set_file file) (d ++ [(ar, EAccess)])) arrays
          end
      end
  end.

(* 64-80 *)
Definition set_read_from_hdf5_arrays (i : io) (d : dict) : result dict :=
  match lookup "iotype" (io_kw i) with
  | None => Err KeyErr
  | Some t =>
      if string_dec t "read" then
        let file := match lookup "filename" (io_kw i) with
                    | Some f => f | None => "data.h5"%string end in
        read_loop file None d (io_arrays i)
      else Ok d
  end.

(* block.py 176-178: the last step of discretise, for all requests of the block *)
Fixpoint update_inputs (ios : list io) (d : dict) : result dict :=
  match ios with
  | [] => Ok d
  | i :: ios => bind (set_read_from_hdf5_arrays i d) (update_inputs ios)
  end.

(* ---- opsc.py 494-511, 693-722: declarations of the datasets ---- *)

(* ops_decl_dat_hdf5(block, 1, type, name, file) or ops_decl_dat(block, ..., name) *)
Inductive ddecl := DRead (block name file : string) | DPlain (block name : string).

(* 693-722 *)
Definition declare_dataset (b : nat) (name : string) (e : entry) : result ddecl :=
  match e with
  | EBase true (Some f) => Ok (DRead (blockname b) name f)              (* 702-705 *)
  | EBase true None => Err AttributeErr
  | EBase false _ => Ok (DPlain (blockname b) name)                     (* 706-719 *)
  | EAccess => Err TypeErr                                              (* 497-505 *)
  end.

(* 494-511.  The declarations are listed here in the order of the dictionary;
   the program has them in alphabetical order (508). *)
Fixpoint declare_datasets (b : nat) (d : dict) : result (list ddecl) :=
  match d with
  | [] => Ok []
  | (k, e) :: d =>
      bind (declare_dataset b k e) (fun x =>
      bind (declare_datasets b d) (fun xs => Ok (x :: xs)))
  end.

(* discretise and OPSC for the datasets of one block *)
Definition declarations (b : nat) (ios : list io) (d : dict) : result (list ddecl) :=
  bind (update_inputs ios d) (declare_datasets b).
