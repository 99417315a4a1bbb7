(* C02-C07, C55: kernels. *)
From Coq Require Import Permutation QArith.
From Verif Require Import Base Expr KernelModel KernelSpec KernelProofs.
Local Close Scope Q_scope.
Local Open Scope string_scope.
Local Open Scope list_scope.

(* C02.  Whatever kernels are created on whatever blocks, in any order, all C
   function names and all iteration-range names are pairwise different. *)
Theorem C02_kernel_names_distinct :
  forall (counters0 : counters) (blocks : list nat),
    NoDup (map fst (create_kernels counters0 blocks)) /\
    NoDup (map snd (create_kernels counters0 blocks)).
Proof. exact (fun c bs => create_kernels_nodup bs c). Qed.
Print Assumptions C02_kernel_names_distinct.

Example C02_nonvacuous :
  create_kernels (fun _ => 0) [0; 1; 0]%nat =
  [("opensbliblock00Kernel000", "iteration_range_0_block0");
   ("opensbliblock01Kernel000", "iteration_range_0_block1");
   ("opensbliblock00Kernel001", "iteration_range_1_block0")].
Proof. reflexivity. Qed.

(* Array names of different arrays or blocks differ. *)
Theorem C02_array_names_distinct :
  forall l b m c, dsetbase_name l b = dsetbase_name m c -> l = m /\ b = c.
Proof. exact dsetbase_name_inj. Qed.
Print Assumptions C02_array_names_distinct.

(* C03.  After any history of registrations, every array a kernel accesses has
   exactly one stencil name, that stencil is declared on the block, and it
   consists of exactly the offsets the kernel accesses.  Different declared
   stencils have different names and different contents. *)
Theorem C03_stencils_exact :
  forall num h b recs,
    wf_history h -> register_all (blk_init num) h = (b, recs) ->
    map fst recs = map r_eqs h /\
    (forall k ns, In (k, ns) recs -> forall d o, accesses k d o ->
       exists n st, In (d, n) ns /\ (forall n', In (d, n') ns -> n' = n) /\
                    In (st, n) (b_stencils b) /\ forall o', In o' st <-> accesses k d o') /\
    (forall i j p q, nth_error (b_stencils b) i = Some p -> nth_error (b_stencils b) j = Some q ->
       i <> j -> snd p <> snd q /\ ~ (forall o, In o (fst p) <-> In o (fst q))).
Proof. exact register_from_empty. Qed.
Print Assumptions C03_stencils_exact.

(* C04.  The declared arrays are exactly the arrays used, each once. *)
Theorem C04_arrays_declared_once :
  forall num h b recs,
    wf_history h -> register_all (blk_init num) h = (b, recs) ->
    NoDup (b_dsets b) /\
    forall x, In x (b_dsets b) <-> exists r, In r h /\ (reads (r_eqs r) x \/ writes (r_eqs r) x).
Proof. exact register_dsets_from_empty. Qed.
Print Assumptions C04_arrays_declared_once.

(* The hypotheses of C03 and C04 hold for every kernel with the obvious
   enumeration, and for this two-kernel history. *)
Theorem C03_every_kernel_enumerable :
  forall k, enumerates k (r_ds (enum_of k)) (r_sts (enum_of k)).
Proof. exact enum_of_enumerates. Qed.
Print Assumptions C03_every_kernel_enumerable.

Definition k_ex1 : kernel_eqs :=
  [KEq (EDat "wk0_B0" [0%Z]) (EApp HAdd [EDat "u_B0" [1%Z]; EDat "u_B0" [(-1)%Z]])].
Definition k_ex2 : kernel_eqs :=
  [KEq (EDat "u_B0" [0%Z]) (EApp HAdd [EDat "u_B0" [0%Z]; EDat "wk0_B0" [0%Z]])].
Example C03_nonvacuous :
  wf_history [enum_of k_ex1; enum_of k_ex2] /\
  register_all (blk_init 0) [enum_of k_ex1; enum_of k_ex2] =
  ({| b_num := 0; b_dsets := ["wk0_B0"; "u_B0"];
      b_stencils := [([[0%Z]], "stencil_0_00"); ([[1%Z]; [(-1)%Z]], "stencil_0_01")] |},
   [(k_ex1, [("wk0_B0", "stencil_0_00"); ("u_B0", "stencil_0_01")]);
    (k_ex2, [("u_B0", "stencil_0_00"); ("wk0_B0", "stencil_0_00")])]).
Proof.
  split; [|reflexivity].
  intros r [<-|[<-|[]]]; apply enum_of_enumerates.
Qed.

(* C05.  The call passes as many arguments as the signature has parameters ... *)
Theorem C05_argument_count :
  forall ord stn k args,
    call_args ord stn k = Ok args -> List.length args = List.length (header_args ord k).
Proof. exact call_header_lengths. Qed.
Print Assumptions C05_argument_count.

(* ... and, position by position, the same objects, for every kernel that does
   not use global values and indexed constants together.  Full statement: for
   every kernel.  Missing: exactly the combination refuted below. *)
Theorem C05_call_matches_signature_partial :
  forall ord stn k args,
    (forall l, Permutation (ord l) l) ->
    IndexedConstants k = [] \/ fst (global_variables k) = [] ->
    call_args ord stn k = Ok args ->
    Forall2 same_object args (header_args ord k).
Proof.
  exact (fun ord stn k args Hp => call_header_agree ord stn k args
           (Permutation_nil (Permutation_sym (Hp [])))).
Qed.
Print Assumptions C05_call_matches_signature_partial.

Definition k_rk : kernel_eqs :=
  [KEq (EDat "u_B0" [0%Z]) (EApp HAdd [EDat "u_B0" [0%Z];
     EApp HMul [ESym KConstIx "rknew[stage]"; EDat "Residual0_B0" [0%Z]]]);
   KEq (EDat "x_B0" [0%Z]) (EApp HMul [ESym KGridIdx "idx[0]"; ESym KConst "Delta0block0"])].
Example C05_nonvacuous :
  (IndexedConstants k_rk = [] \/ fst (global_variables k_rk) = []) /\
  call_args (fun l => l) (fun _ => "s") k_rk =
  Ok [ADat "Residual0_B0" "s" OPS_READ; ADat "x_B0" "s" OPS_WRITE; ADat "u_B0" "s" OPS_RW;
      AConst "rknew[stage]"; AIdx].
Proof. split; [right|]; reflexivity. Qed.

(* With a global value and an indexed constant in one kernel, the two texts are
   out of step whatever the iteration order. *)
Theorem C05_call_matches_signature_refuted :
  exists k, forall ord stn args,
    (forall l, Permutation (ord l) l) ->
    call_args ord stn k = Ok args ->
    ~ Forall2 same_object args (header_args ord k).
Proof. exact call_header_mismatch. Qed.
Print Assumptions C05_call_matches_signature_refuted.

(* A second way the signature is wrong: two elements of one indexed constant
   give two formal parameters with the same name, which is not valid C. *)
Theorem C05_parameter_names_refuted :
  exists k, forall ord, (forall l, Permutation (ord l) l) ->
    header_args ord k = [FDat "u_B0" false; FConst "c"; FConst "c"].
Proof. exact header_duplicate. Qed.
Print Assumptions C05_parameter_names_refuted.

(* C06.  Access modes of arrays are exact: each accessed array is passed, and
   the mode says precisely whether it is read and written. *)
Theorem C06_array_modes_partial :
  forall ord stn k args,
    (forall l, Permutation (ord l) l) -> call_args ord stn k = Ok args ->
    (forall d s m, In (ADat d s m) args ->
       match m with
       | OPS_READ => reads k d /\ ~ writes k d
       | OPS_WRITE => writes k d /\ ~ reads k d
       | OPS_RW => reads k d /\ writes k d
       end) /\
    (forall d, reads k d \/ writes k d -> exists m, In (ADat d (stn d) m) args).
Proof.
  exact (fun ord stn k args Hp H => conj (fun d s m => call_modes ord stn k args d s m Hp H)
                                         (fun d => call_complete ord stn k args d Hp H)).
Qed.
Print Assumptions C06_array_modes_partial.

(* Missing for C06: global values.  A global value that the kernel assigns is
   passed read-only. *)
Theorem C06_global_modes_refuted :
  exists k g, assigns_global k g /\
    forall ord stn args, (forall l, Permutation (ord l) l) ->
      call_args ord stn k = Ok args -> In (AGbl g OPS_READ) args.
Proof. exact global_mode_wrong. Qed.
Print Assumptions C06_global_modes_refuted.

(* C07.  The access number printed for an array is the position of that array's
   formal parameter. *)
Theorem C07_access_numbers :
  forall ord k d,
    (forall l, Permutation (ord l) l) -> reads k d \/ writes k d ->
    exists n f, ops_acc ord k d = Some n /\
                nth_error (header_args ord k) n = Some f /\ formal_name f = Some d.
Proof. exact ops_acc_correct. Qed.
Print Assumptions C07_access_numbers.

Example C07_nonvacuous :
  ops_acc (fun l => l) k_rk "u_B0" = Some 2%nat /\
  nth_error (header_args (fun l => l) k_rk) 2 = Some (FDat "u_B0" false) /\ writes k_rk "u_B0".
Proof.
  repeat split. exists [0%Z]. exists (KEq (EDat "u_B0" [0%Z]) (EApp HAdd [EDat "u_B0" [0%Z];
     EApp HMul [ESym KConstIx "rknew[stage]"; EDat "Residual0_B0" [0%Z]]])).
  exists (EDat "u_B0" [0%Z]). eexists. cbn. auto.
Qed.

(* C55.  Iteration ranges.  In each direction the range is the grid range
   extended by the widest registered halo on each side (none: not extended);
   it covers every registered halo, and no narrower range does. *)
Theorem C55_total_range :
  forall ranges hr d lo hi hl hh,
    nth_error ranges d = Some (lo, hi) -> nth_error hr d = Some (hl, hh) ->
    exists a b, nth_error (total_range ranges hr) d = Some (a, b) /\
      (forall h, In h hl -> (a <= lo + fst h)%Z) /\ (forall h, In h hh -> (hi + snd h <= b)%Z) /\
      (hl = [] -> a = lo) /\ (hh = [] -> b = hi) /\
      (hl <> [] -> exists h, In h hl /\ a = (lo + fst h)%Z) /\
      (hh <> [] -> exists h, In h hh /\ b = (hi + snd h)%Z).
Proof. exact total_range_spec. Qed.
Print Assumptions C55_total_range.

(* Registering a halo type adds it to the given direction and side only. *)
Theorem C55_set_halo_range :
  forall hr dir side h d hl hh,
    nth_error hr d = Some (hl, hh) ->
    exists hl' hh', nth_error (set_halo_range hr dir side h) d = Some (hl', hh') /\
      (forall x, In x hl' <-> In x hl \/ (d = dir /\ side = false /\ x = h)) /\
      (forall x, In x hh' <-> In x hh \/ (d = dir /\ side = true /\ x = h)).
Proof. exact set_halo_spec. Qed.
Print Assumptions C55_set_halo_range.

(* Merging covers both kernels' requests and nothing else. *)
Theorem C55_merge_halo_range :
  forall a b d al ah bl bh,
    nth_error a d = Some (al, ah) -> nth_error b d = Some (bl, bh) ->
    exists ml mh, nth_error (merge_halo_range a b) d = Some (ml, mh) /\
      (forall h, In h ml <-> In h al \/ In h bl) /\ (forall h, In h mh <-> In h ah \/ In h bh).
Proof. exact merge_nth. Qed.
Print Assumptions C55_merge_halo_range.

Example C55_nonvacuous :
  total_range [(0, 10); (0, 20)]%Z
    (set_halo_range (set_halo_range [([], []); ([], [])] 1 false (-2, 2)%Z) 1 false (-5, 5)%Z)
  = [(0, 10); (-5, 20)]%Z.
Proof. reflexivity. Qed.
