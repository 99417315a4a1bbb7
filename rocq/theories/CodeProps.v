(* C08-C15: generated text. *)
From Coq Require Import Permutation.
From Verif Require Import Base CodeModel CodeSpec CodeProofs.
Local Open Scope list_scope.
Local Open Scope nat_scope.

(* C08.  Wrapping always succeeds, keeps the sequence of words of the program,
   emits only lines within the limit or lines with a single word, and changes
   nothing if all lines are within the limit. *)
Theorem C08_wrapping :
  forall codes : list text,
  exists ls, wrap_long_lines codes = Ok ls /\
    words (join_lines ls) = words (join_lines codes) /\
    (forall l, In l ls -> List.length l <= 120 \/ one_word l) /\
    ((forall c, In c codes -> List.length c <= 120) -> ls = codes).
Proof. exact wrap_spec. Qed.
Print Assumptions C08_wrapping.

Example C08_nonvacuous :
  let line := T "  a = " ++ repeat "b"%char 60 ++ T " + " ++ repeat "c"%char 80 in
  List.length line = 149 /\
  wrap_long_lines [line; T "x"] =
  Ok [T "   a = " ++ repeat "b"%char 60 ++ T " +"; T "    " ++ repeat "c"%char 80; T "x"].
Proof. split; vm_compute; reflexivity. Qed.

(* C09.  For at least one argument, the printed text denotes the largest of the
   values the arguments denote, in every ordering in which fmax(a, b) denotes
   the larger of the values of a and b. *)
Theorem C09_fmax :
  forall args : list string, args <> [] ->
  exists s, print_Max args = Ok s /\
    forall (V : Type) (le : V -> V -> Prop) (fmax : V -> V -> V) (den : string -> V -> Prop),
      (forall x, le x x) -> (forall x y z, le x y -> le y z -> le x z) ->
      (forall x y, le x (fmax x y) /\ le y (fmax x y) /\ (fmax x y = x \/ fmax x y = y)) ->
      (forall a b x y, den a x -> den b y ->
         den (String.append "fmax(" (String.append a (String.append ", " (String.append b ")")))) (fmax x y)) ->
      forall vals, Forall2 den args vals ->
      exists v, den s v /\ In v vals /\ forall w, In w vals -> le w v.
Proof. exact print_Max_spec. Qed.
Print Assumptions C09_fmax.

Example C09_nonvacuous :
  print_Max ["a"; "b"; "c"]%string = Ok "fmax(a, fmax(b, c))"%string /\
  (forall x y : nat, x <= Nat.max x y /\ y <= Nat.max x y /\ (Nat.max x y = x \/ Nat.max x y = y)).
Proof. split; [reflexivity|]. intros x y. lia. Qed.

(* C10.  The generated tokens are a C program, and running it performs for each
   grouped piecewise the assignments of the first branch that is true. *)
Theorem C10_first_true_branch :
  forall (A C S : Type) (run : A -> S -> S) (test : C -> S -> bool) (eqs : list (geq A C)),
  exists p, parse (body_tokens eqs) = Some p /\
    forall s, exec_all run test p s = meaning_all run test eqs s.
Proof. exact (fun A C S run test qs => piecewise_spec run test qs). Qed.
Print Assumptions C10_first_true_branch.

Example C10_nonvacuous :
  body_tokens [GEq 1; GGroup [([2; 3], Some (CCond 0)); ([4], None); ([5], Some (CCond 1)); ([6], Some CTrue); ([7], Some CTrue)]; GEq 8]
  = [TStmt 1; TIf (CCond 0); TOpen; TStmt 2; TStmt 3; TClose;
     TElse; TIf (CCond 1); TOpen; TStmt 5; TClose; TElse; TOpen; TStmt 6; TClose; TStmt 8].
Proof. reflexivity. Qed.

(* C11.  In any run during which the user declares no constant that looks like
   a generated one: a number is always printed under one name, different
   numbers under different names, and the name is declared once, with that
   value.  Full statement: without the side condition (refuted below). *)
Theorem C11_shared_constants_partial :
  forall (K : Type) (K_dec : forall a b : K, {a = b} + {a <> b}) ops s t,
    no_clash ops -> crun K_dec cinit ops = (s, t) ->
    (forall k n k' n', In (k, n) t -> In (k', n') t -> (k = k' <-> n = n')) /\
    (forall k n, In (k, n) t ->
       In (n, Some k) (constants s) /\ forall v, In (n, v) (constants s) -> v = Some k) /\
    NoDup (map fst (constants s)).
Proof. exact (fun K d => constants_consistent d). Qed.
Print Assumptions C11_shared_constants_partial.

Example C11_nonvacuous :
  let ops := [Declare ["gama"; "Re"]; Use Orat 5; Use Opow 7; Use Orat 5; Declare ["gama"]; Use Odelta 9]%string in
  no_clash ops /\
  crun Nat.eq_dec cinit ops =
  ({| rational_counter := 3; existing := [(9, "inv_2"); (7, "rcinv1"); (5, "rc0")]%string;
      constants := [("gama", None); ("Re", None); ("rc0", Some 5); ("rcinv1", Some 7); ("inv_2", Some 9)]%string |},
   [(5, "rc0"); (7, "rcinv1"); (5, "rc0"); (9, "inv_2")]%string).
Proof.
  split; [|reflexivity].
  intros cs c H Hc. cbn in H.
  repeat (destruct H as [H|H]; [try discriminate H; inversion H; subst; cbn in Hc;
    repeat (destruct Hc as [<-|Hc]; [intros (i & [E|[E|E]]); discriminate E|]); destruct Hc|]).
  destruct H.
Qed.

(* A user constant named like a generated one silently takes its place: the
   rational printed as rc0 is never declared. *)
Theorem C11_shared_constants_refuted :
  exists ops, let '(s, t) := crun Nat.eq_dec cinit ops in
    In (5, "rc0"%string) t /\ ~ In ("rc0"%string, Some 5) (constants s).
Proof.
  exists [Declare ["rc0"%string]; Use Orat 5]. split; [now left|].
  cbn. intros [H|[]]. discriminate H.
Qed.
Print Assumptions C11_shared_constants_refuted.

(* C12.  The list to declare holds each requested constant once, in order of
   first request, with the value it had at its first request. *)
Theorem C12_declared_once_in_order :
  forall (K : Type) (cs : list (cdecl K)),
    let r := fold_left add_constant cs [] in
    first_occurrences (map fst r) (map fst cs) /\
    (forall n v, In (n, v) r ->
       exists pre post, cs = pre ++ (n, v) :: post /\ ~ In n (map fst pre)).
Proof. exact (fun K => declare_fo). Qed.
Print Assumptions C12_declared_once_in_order.

(* Consequence for the generated definitions: if every constant is requested
   after the constants its value mentions, it is also defined after them. *)
Theorem C12_defined_before_use :
  forall (K : Type) (cs : list (cdecl K)) (mentions : string -> list string),
    (forall pre x post, map fst cs = pre ++ x :: post -> forall u, In u (mentions x) -> In u pre) ->
    forall pre x post, map fst (fold_left add_constant cs []) = pre ++ x :: post ->
      forall u, In u (mentions x) -> In u pre.
Proof. exact (fun K cs m => fo_before m _ _ (proj1 (declare_fo cs))). Qed.
Print Assumptions C12_defined_before_use.

Example C12_nonvacuous :
  fold_left add_constant [("Delta0block0", None); ("gama", None); ("inv_0", Some 1); ("gama", Some 2)]%string []
  = [("Delta0block0", None); ("gama", None); ("inv_0", Some 1)]%string.
Proof. reflexivity. Qed.

(* C13.  The collected components are exactly the wanted leaves of the tree,
   each once, in program order. *)
Theorem C13_all_kernels_once :
  forall (want : nat -> bool) (prg : list comp),
    first_occurrences (loop_alg want prg) (filter want (flat_map leaves prg)).
Proof. exact loop_alg_fo. Qed.
Print Assumptions C13_all_kernels_once.

Example C13_nonvacuous :
  loop_alg Nat.even [Leaf 4; Node [Leaf 2; Node [Leaf 3; Leaf 4]; Leaf 6]; Leaf 2] = [4; 2; 6].
Proof. reflexivity. Qed.

(* C14.  With blocks numbered 0..n-1 in order, every kernel goes to the file of
   its block, in order.  Full statement: for any distinct block numbers. *)
Theorem C14_kernel_files_partial :
  forall (A : Type) (n : nat) (ks : list (nat * A)),
    (forall b x, In (b, x) ks -> b < n) ->
    exists fs, write_kernels (seq 0 n) ks = Ok fs /\ List.length fs = n /\
      forall j, j < n -> nth_error fs j = Some (map snd (filter (fun k => (fst k =? j)%nat) ks)).
Proof. exact (fun A => write_kernels_spec). Qed.
Print Assumptions C14_kernel_files_partial.

Example C14_nonvacuous :
  write_kernels (seq 0 2) [(1, "k1"); (0, "k2"); (1, "k3")]%string = Ok [["k2"]; ["k1"; "k3"]]%string.
Proof. reflexivity. Qed.

(* A single block with number 1 makes generation fail, and blocks listed in
   another order swap their kernels. *)
Theorem C14_kernel_files_refuted :
  (exists (blocks : list nat) (ks : list (nat * string)),
     NoDup blocks /\ (forall b x, In (b, x) ks -> In b blocks) /\ write_kernels blocks ks = Err IndexErr) /\
  (exists (blocks : list nat) (ks : list (nat * string)) fs,
     NoDup blocks /\ (forall b x, In (b, x) ks -> In b blocks) /\ write_kernels blocks ks = Ok fs /\
     nth_error blocks 0 = Some 1 /\ nth_error fs 0 = Some ["kernel_of_block_0"%string]).
Proof.
  split.
  - exists [1], [(1, "k"%string)]. split; [repeat constructor; easy|]. split; [|reflexivity].
    intros b x [H|[]]. inversion H. now left.
  - exists [1; 0], [(0, "kernel_of_block_0"%string)]. eexists.
    split; [repeat constructor; cbn; intros H; decompose [or] H; try discriminate; easy|].
    split; [|split; [reflexivity|split; reflexivity]].
    intros b x [H|[]]. inversion H. cbn. auto.
Qed.
Print Assumptions C14_kernel_files_refuted.

(* C15.  If no listed constant is a proper suffix of another constant of the
   program, substitution does exactly what is intended, line by line, and the
   order of the substitutions does not matter. *)
Theorem C15_substitution_partial :
  forall subs subs' ls,
    Forall wf_sub subs -> Forall wf_line ls -> NoDup (map fst subs) -> Permutation subs subs' ->
    (forall p c, In p subs -> In (LInput c) ls -> is_suffix (fst p) c -> fst p = c) ->
    substitute_simulation_parameters subs' (join_lines (map line_text ls)) =
    join_lines (map (intended subs) ls).
Proof. exact substitution_any_order. Qed.
Print Assumptions C15_substitution_partial.

Example C15_nonvacuous :
  let ls := [LOther (T "double dt;"); LInput (T "dt"); LInput (T "Re"); LInput (T "Minf")] in
  let subs := [(T "Re", T "100.0"); (T "dt", T "0.001")] in
  Forall wf_sub subs /\ Forall wf_line ls /\
  map (intended subs) ls = [T "double dt;"; T "dt = 0.001;"; T "Re = 100.0;"; T "Minf=Input;"].
Proof.
  cbv zeta. split; [|split; [|reflexivity]].
  - wf_text.
  - wf_text.
Qed.

(* Full statement: for all names.  It fails when one name ends in another: the
   constant gama receives the value given for a, and its own value is lost. *)
Theorem C15_substitution_refuted :
  exists subs ls,
    Forall wf_sub subs /\ Forall wf_line ls /\ NoDup (map fst subs) /\
    substitute_simulation_parameters subs (join_lines (map line_text ls)) = T "gama = 2.0;" /\
    join_lines (map (intended subs) ls) = T "gama = 1.4;".
Proof. exact substitution_wrong. Qed.
Print Assumptions C15_substitution_refuted.
