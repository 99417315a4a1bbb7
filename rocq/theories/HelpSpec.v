(* Specification vocabulary for C88 and C89. *)
From Verif Require Import Base CodeModel.
Local Open Scope list_scope.

(* ---- C88: reports in the time loop ---- *)

(* The text w occurs in the text s. *)
Definition has (w s : text) : Prop := exists p q, s = p ++ w ++ q.
(* A line that starts a loop over the iterations. *)
Definition starts_loop (l : text) : Prop := has (T "int iter=0;") l.
Definition one_line (l : text) : Prop := ~ In NL l.
(* Lines, each followed by a newline. *)
Definition unlines (ls : list text) : text := List.concat (map (fun l => l ++ [NL]) ls).

(* The statement that reports the iteration: [number] is the interval in decimal
   notation, [nan] the array that is checked as well. *)
Definition report (number : text) (nan : option text) : list text :=
  [ T "if(fmod(iter+1, " ++ number ++ T ") == 0){";
    T "        ops_printf(""Iteration is %d\n"", iter+1); " ] ++
  match nan with
  | Some name => [ T "        ops_NaNcheck(" ++ name ++ T ");" ]
  | None => []
  end ++ [ T "}" ].

(* The text is the decimal notation of the integer. *)
Definition decimal (z : Z) (number : text) : Prop :=
  exists n : nat, (z = Z.of_nat n /\ number = T (dec n)) \/
                  (z = (- Z.of_nat (S n))%Z /\ number = "-"%char :: T (dec (S n))).

(* Is the line before line i one that starts a loop? *)
Definition follows_start (ls : list text) (i : nat) : Prop :=
  exists j l, i = S j /\ nth_error ls j = Some l /\ starts_loop l.

(* [out] gives for every line the lines it becomes: itself, followed by the
   report if the line before it starts a loop. *)
Definition reported (rep : list text) (ls : list text) (out : list (list text)) : Prop :=
  List.length out = List.length ls /\
  forall i l, nth_error ls i = Some l ->
    (follows_start ls i -> nth_error out i = Some (l :: rep)) /\
    (~ follows_start ls i -> nth_error out i = Some [l]).

(* An array name: no semicolon in it. *)
Definition array_name (nan : option text) : Prop :=
  match nan with Some name => ~ In ";"%char name | None => True end.

(* ---- C89: data files ---- *)
From Verif Require Import AlgModel KernelModel HelpModel.

(* The keyword arguments of a request to read, with or without a file name. *)
Definition read_request (fname : option string) : list (string * string) :=
  ("iotype", "Read")%string ::
  match fname with Some f => [("filename", f)]%string | None => [] end.

(* A request that only writes. *)
Definition writes_only (i : io) : Prop := lookup "iotype" (io_kw i) = Some "write"%string.
Definition reads (i : io) : Prop := lookup "iotype" (io_kw i) = Some "read"%string.

(* The datasets of a block before requests are looked at: those of its kernels,
   each once, none of them read from a file. *)
Definition kernel_datasets (d : dict) : Prop :=
  NoDup (map fst d) /\ forall k e, In (k, e) d -> e = EBase false None.

(* The array a declaration declares. *)
Definition declared (x : ddecl) : string :=
  match x with DRead _ n _ => n | DPlain _ n => n end.

(* What the OPS library needs to know about an array of a two-dimensional block:
   lower and upper halos per direction, origin, size and block. *)
Definition plane_meta (m0 p0 m1 p1 : Z) (npoints : list Z) (b : nat) : h5_meta :=
  {| h5_dp := [p0; p1]; h5_dm := [m0; m1]; h5_base := [0; 0]%Z; h5_size := npoints;
     h5_block := blockname b; h5_index := b |}.

(* Dataset [name] of the file holds the data [a] described by [m]; no other
   dataset of the file has this name. *)
Definition holds {A} (f : h5_file A) (name : string) (a : A) (m : h5_meta) : Prop :=
  exists x, In x (h5_dsets f) /\ h5_name x = name /\ h5_data x = a /\ h5_info x = m /\
    forall y, In y (h5_dsets f) -> h5_name y = name -> y = x.
