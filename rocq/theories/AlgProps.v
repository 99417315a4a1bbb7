(* C17, C18, C19, C56, C59, C62: the generated main program. *)
From Coq Require Import Permutation Sorted.
From Verif Require Import Base AlgModel AlgSpec AlgProofs.
Local Open Scope list_scope.

(* The output objects of a block are those made from the user's requests. *)
Definition made_from (rqs : list request) (ios : list io) : Prop :=
  Forall distinct_options rqs /\
  Forall2 (fun r i => iohdf5 (rq_arrays r) (rq_every r) (rq_kwargs r) = Ok i) rqs ios.

Lemma made_from_made : forall rqs ios, made_from rqs ios ->
  Forall distinct_options rqs /\ Forall2 made rqs ios.
Proof. intros rqs ios [D M]. split; [exact D|]. apply (made_block rqs ios M). Qed.

(* C17.  The whole execution: work before the loop; for every step the boundary
   conditions and step start, then for every stage residuals, stage update and
   boundary conditions, then the in-loop work, the monitor, the outputs and the
   step end; then the work and outputs after the loop.  The classes outside the
   stages come in the order of their attribute `order`. *)
Theorem C17_time_loop :
  forall (K : Type) (b : block K) sc s mon rqs prg nst niter,
    bk_schemes b = [sc] -> sc_iter sc = SNiter -> sc_stage sc = SNum nst ->
    sims (sc_solution sc) = [s] -> made_from rqs (bk_io b) ->
    generate_solution b mon = Ok prg ->
    exists ns, sorted_by_order (nonsims (sc_solution sc)) ns /\
    execute niter prg =
    program_trace (Build_phases (kernels_at PBefore ns) (sq_bc s) (sq_start s) (sq_spatial s)
                     (sq_advance s) (kernels_at (PIn 0) ns) (sq_end s) (kernels_at PAfter ns))
                  nst niter mon rqs.
Proof.
  intros K b sc s mon rqs prg nst niter H1 H2 H3 H4 H5. destruct (made_from_made _ _ H5) as [D M].
  exact (single_block_trace K b sc s mon rqs prg nst niter H1 H2 H3 H4 D M).
Qed.
Print Assumptions C17_time_loop.

(* A program with two user classes, metrics and one output request. *)
Definition ex_block : block nat :=
  {| bk_schemes := [{| sc_class := "RungeKuttaLS"; sc_stage := SNum 2; sc_iter := SNiter;
       sc_solution := [EqNonSim {| ns_order := 5; ns_places := [PIn 0; PAfter]; ns_kernels := [50] |};
                       EqConstituent;
                       EqSim {| sq_start := [1]; sq_end := [2]; sq_advance := [3]; sq_bc := [4]; sq_spatial := [6; 7] |};
                       EqMetric {| mt_order := 1; mt_places := [PBefore]; mt_fd := [8]; mt_sd := [9] |}] |}];
     bk_datasets := ["rho"%string];
     bk_io := [{| io_kw := [("iotype", "write")]%string; io_places := [PIn 2; PAfter];
                  io_arrays := ["rho"%string]; io_block := 0 |}] |}.
Definition ex_request := {| rq_arrays := ["rho"%string]; rq_every := 2; rq_kwargs := [] |}.
Example C17_nonvacuous :
  made_from [ex_request] (bk_io ex_block) /\
  exists prg, generate_solution ex_block (Some 3%Z) = Ok prg /\
    execute 2 prg =
    let k n := EKernel n None None in
    let t i n := EKernel n (Some i) None in
    let s i j n := EKernel n (Some i) (Some j) in
    [k 8; k 9;
     t 0%Z 4; t 0%Z 1; s 0%Z 0%Z 6; s 0%Z 0%Z 7; s 0%Z 0%Z 3; s 0%Z 0%Z 4;
     s 0%Z 1%Z 6; s 0%Z 1%Z 7; s 0%Z 1%Z 3; s 0%Z 1%Z 4; t 0%Z 50; EMonitor 0; t 0%Z 2;
     t 1%Z 4; t 1%Z 1; s 1%Z 0%Z 6; s 1%Z 0%Z 7; s 1%Z 0%Z 3; s 1%Z 0%Z 4;
     s 1%Z 1%Z 6; s 1%Z 1%Z 7; s 1%Z 1%Z 3; s 1%Z 1%Z 4; t 1%Z 50;
     EWrite "opensbli_output_000002.h5" ["rho"%string]; t 1%Z 2;
     k 50; EWrite "opensbli_output.h5" ["rho"%string]].
Proof.
  split.
  - split; [repeat constructor|]. repeat constructor.
  - eexists. split; [reflexivity|]. vm_compute. reflexivity.
Qed.

(* C18.  With one write request every m steps and no file name, the files
   written are exactly those of the steps m, 2m, ... up to niter, numbered with
   the step, followed by the final file; no file is written twice. *)
Theorem C18_output_files :
  forall (K : Type) (b : block K) sc s mon r prg nst niter m,
    bk_schemes b = [sc] -> sc_iter sc = SNiter -> sc_stage sc = SNum nst ->
    sims (sc_solution sc) = [s] -> made_from [r] (bk_io b) ->
    generate_solution b mon = Ok prg ->
    is_write r = true -> rq_every r = m -> m <> 0%Z ->
    let steps := filter (fun k => k mod m =? 0)%Z (map Z.of_nat (seq 1 (Z.to_nat niter))) in
    let name k := ("opensbli_output_" ++ decpad 6 (Z.to_nat k) ++ ".h5")%string in
    files (execute niter prg) =
      map (fun k => (name k, rq_arrays r)) steps ++ [("opensbli_output.h5"%string, rq_arrays r)] /\
    NoDup (map name steps ++ ["opensbli_output.h5"%string]).
Proof.
  intros K b sc s mon r prg nst niter m H1 H2 H3 H4 H5 G W E Hm. cbn zeta.
  split; [|apply files_one_distinct].
  destruct (made_from_made _ _ H5) as [D M].
  assert (Hn : option_value "name" (rq_kwargs r) = None).
  { assert (V : Forall (valid_request (bk_datasets b)) [r]).
    { apply (proj1 (accepted K b sc mon [r] H1 D M)). exists prg. exact G. }
    inversion V as [|? ? [_ V2] _]; subst. destruct (V2 W) as [_ V3].
    destruct (option_value "name" (rq_kwargs r)); [destruct V3; contradiction | reflexivity]. }
  destruct (single_block_trace K b sc s mon [r] prg nst niter H1 H2 H3 H4 D M G) as (ns & _ & ->).
  rewrite files_trace. apply files_one; auto.
Qed.
Print Assumptions C18_output_files.

Example C18_nonvacuous : exists prg, generate_solution ex_block None = Ok prg /\
  files (execute 5 prg) = [("opensbli_output_000002.h5", ["rho"]); ("opensbli_output_000004.h5", ["rho"]);
                           ("opensbli_output.h5", ["rho"])]%string.
Proof. eexists. split; [reflexivity|]. vm_compute. reflexivity. Qed.

(* C19.  With one set of simulation equations, every kernel of every class is
   executed at each of its places. *)
Theorem C19_every_class_contributes_partial :
  forall (K : Type) (b : block K) sc s mon rqs prg nst niter,
    bk_schemes b = [sc] -> sc_iter sc = SNiter -> sc_stage sc = SNum nst ->
    sims (sc_solution sc) = [s] -> made_from rqs (bk_io b) ->
    generate_solution b mon = Ok prg ->
    forall k it st, (0 <= it < niter)%Z -> (0 <= st < nst)%Z ->
    (In k (sq_spatial s) \/ In k (sq_advance s) \/ In k (sq_bc s) ->
       In (EKernel k (Some it) (Some st)) (execute niter prg)) /\
    (In k (sq_start s) \/ In k (sq_end s) -> In (EKernel k (Some it) None) (execute niter prg)) /\
    (forall n p, In n (nonsims (sc_solution sc)) -> In p (ns_places n) -> In k (ns_kernels n) ->
       match p with
       | PIn _ => In (EKernel k (Some it) None) (execute niter prg)
       | _ => In (EKernel k None None) (execute niter prg)
       end).
Proof.
  intros K b sc s mon rqs prg nst niter H1 H2 H3 H4 H5 G k it st Hit Hst.
  destruct (made_from_made _ _ H5) as [D M].
  destruct (single_block_trace K b sc s mon rqs prg nst niter H1 H2 H3 H4 D M G) as (ns & [P _] & ->).
  split; [|split].
  - intros Hk. apply (in_step K _ _ _ _ _ it); auto. apply in_stage; auto. cbn.
    rewrite !in_app_iff. tauto.
  - intros Hk. apply (in_step K _ _ _ _ _ it); auto. unfold step. cbn. rewrite !in_app_iff.
    destruct Hk as [Hk|Hk]; [left | do 5 right]; apply in_at; auto. apply in_app_iff. auto.
  - intros n p Hn Hp Hk. assert (Hn' : In n ns) by (eapply Permutation_in; eauto).
    destruct p as [| |f].
    + unfold program_trace. rewrite !in_app_iff. left. apply in_at.
      exact (in_kernels_at K PBefore PBefore ns n k Hn' Hp eq_refl Hk).
    + unfold program_trace. rewrite !in_app_iff. do 2 right. left. apply in_at.
      exact (in_kernels_at K PAfter PAfter ns n k Hn' Hp eq_refl Hk).
    + assert (f = 0%Z).
      { destruct (proj1 (accepted K b sc mon rqs H1 D M) (ex_intro _ prg G)) as (_ & F & _).
        exact (F n f Hn Hp). }
      subst f. apply (in_step K _ _ _ _ _ it); auto. unfold step. cbn. rewrite !in_app_iff.
      do 2 right. left. apply in_at. exact (in_kernels_at K (PIn 0) (PIn 0) ns n k Hn' Hp eq_refl Hk).
Qed.
Print Assumptions C19_every_class_contributes_partial.

(* With two sets of simulation equations, the residuals and boundary conditions
   of one of them are left out of the program without an error. *)
Theorem C19_every_class_contributes_refuted :
  exists (b : block nat) sc s prg,
    bk_schemes b = [sc] /\ In s (sims (sc_solution sc)) /\
    generate_solution b None = Ok prg /\
    sq_spatial s <> [] /\ sq_bc s <> [] /\
    forall niter k it st, In k (sq_spatial s ++ sq_bc s) ->
      ~ In (EKernel k it st) (execute niter prg).
Proof.
  set (s := {| sq_start := []; sq_end := []; sq_advance := [3]; sq_bc := [4]; sq_spatial := [6] |} : simeq nat).
  set (s2 := {| sq_start := []; sq_end := []; sq_advance := [13]; sq_bc := [14]; sq_spatial := [16] |} : simeq nat).
  set (sc := {| sc_class := "RungeKutta"; sc_stage := SNum 3; sc_iter := SNiter; sc_solution := [EqSim s; EqSim s2] |}).
  exists {| bk_schemes := [sc]; bk_datasets := []; bk_io := [] |}, sc, s. eexists.
  split; [reflexivity|]. split; [left; reflexivity|]. split; [reflexivity|].
  split; [discriminate|]. split; [discriminate|].
  intros niter k it st Hk. rewrite run_assemble. cbn [flat_map t_before t_after t_in app].
  rewrite app_nil_r. intros H. apply in_flat_map in H. destruct H as (i & _ & H).
  rewrite !in_app_iff in H. cbn in Hk.
  destruct H as [H|[H|H]].
  - cbn in H. destruct H as [H|[]]. injection H as <- _ _. destruct Hk as [|[|[]]]; discriminate.
  - apply in_flat_map in H. destruct H as (j & _ & H). cbn in H.
    destruct H as [H|[H|[H|[H|[]]]]]; injection H as <- _ _; destruct Hk as [|[|[]]]; discriminate.
  - destruct H.
Qed.
Print Assumptions C19_every_class_contributes_refuted.

(* C56.  Output objects: reading happens before the run only, writing every
   save_every steps (when given) and at the end; anything else is an error. *)
Theorem C56_places :
  forall r i, distinct_options r ->
    iohdf5 (rq_arrays r) (rq_every r) (rq_kwargs r) = Ok i ->
    (is_write r = true -> io_places i = (if (rq_every r =? 0)%Z then [] else [PIn (rq_every r)]) ++ [PAfter]) /\
    (is_write r = false -> io_places i = [PBefore] /\
                           option_value "iotype" (rq_kwargs r) = Some "read"%string).
Proof.
  intros r i D H. assert (M : made r i) by (exists i; auto).
  destruct (made_spec r i D M) as (_ & _ & [(W & P & _)|(W & P & T)]); split; intros W'; try congruence.
  - exact P.
  - split; [exact P|]. unfold iohdf5 in H. apply bind_ok in H. destruct H as (ps & _ & H). injection H as <-.
    cbn in T. unfold is_write in W. destruct (rq_kwargs r) as [|x l] eqn:E; [discriminate|].
    rewrite <- E in *. clear - T E D. unfold distinct_options in D.
    rewrite <- (lookup_option "iotype" (rq_kwargs r) D). exact T.
Qed.
Print Assumptions C56_places.

(* C56.  The program is generated exactly when every class is known, no user
   class asks for a frequency, and every request is valid: its arrays are
   computed by the program, a write request has an array, and a named file is
   neither numbered nor of another type. *)
Theorem C56_accepted :
  forall (K : Type) (b : block K) sc mon rqs,
    bk_schemes b = [sc] -> made_from rqs (bk_io b) ->
    (exists prg, generate_solution b mon = Ok prg) <->
    (forall e, In e (sc_solution sc) -> e <> EqOther) /\
    (forall n f, In n (nonsims (sc_solution sc)) -> In (PIn f) (ns_places n) -> f = 0%Z) /\
    Forall (valid_request (bk_datasets b)) rqs.
Proof.
  intros K b sc mon rqs H1 H2. destruct (made_from_made _ _ H2) as [D M].
  exact (accepted K b sc mon rqs H1 D M).
Qed.
Print Assumptions C56_accepted.

Example C56_nonvacuous :
  (exists i, iohdf5 ["rho"; "u"]%string 100 [("IOType", "Write")]%string = Ok i /\ io_places i = [PIn 100; PAfter]) /\
  (exists i, iohdf5 ["rho"]%string 100 [("iotype", "Read"); ("filename", "restart.h5")]%string = Ok i /\ io_places i = [PBefore]) /\
  iohdf5 ["rho"]%string 0 [("iotype", "append")]%string = Err ValueError /\
  iohdf5 ["rho"]%string 0 [("name", "out.h5")]%string = Err KeyErr /\
  ~ valid_request ["rho"; "u"]%string {| rq_arrays := ["v"%string]; rq_every := 0; rq_kwargs := [] |} /\
  valid_request ["rho"; "u"]%string {| rq_arrays := ["u"%string]; rq_every := 7; rq_kwargs := [] |}.
Proof.
  split; [eexists; split; reflexivity|]. split; [eexists; split; reflexivity|].
  split; [reflexivity|]. split; [reflexivity|]. split.
  - intros [H _]. destruct (H "v"%string (or_introl eq_refl)) as [E|[E|[]]]; discriminate.
  - split; [intros a [<- | []]; cbn; auto|]. intros _. split; [discriminate | exact I].
Qed.

(* C59.  Programs with several blocks: the same time loop, where each phase is
   the concatenation over all blocks, so that no kernel of a phase starts before
   all kernels of the previous phase on all blocks. *)
Theorem C59_phases_of_all_blocks :
  forall (K : Type) (bs : list (block K)) rqs prg nst niter,
    Forall distinct_options rqs ->
    Forall2 (fun r i => iohdf5 (rq_arrays r) (rq_every r) (rq_kwargs r) = Ok i) rqs (flat_map bk_io bs) ->
    (forall b sc, In b bs -> In sc (bk_schemes b) -> sc_iter sc = SNiter /\ sc_stage sc = SNum nst) ->
    spatial_solution bs = Ok prg ->
    exists ns,
      let es := flat_map sc_solution (flat_map bk_schemes bs) in
      sorted_by_order (only_nonsims es) ns /\
      execute niter prg =
      program_trace
        (Build_phases (kernels_at PBefore ns ++ flat_map mt_fd (metrics es) ++ flat_map mt_sd (metrics es))
           (flat_map sq_bc (sims es)) (flat_map sq_start (sims es)) (flat_map sq_spatial (sims es))
           (flat_map sq_advance (sims es)) (kernels_at (PIn 0) ns) (flat_map sq_end (sims es))
           (kernels_at PAfter ns))
        nst niter None rqs.
Proof.
  intros K bs rqs prg nst niter D M. destruct (made_block rqs _ M) as [M' _].
  exact (multi_block_trace K bs rqs prg nst niter D M').
Qed.
Print Assumptions C59_phases_of_all_blocks.

Definition ex_two (n : nat) : block nat :=
  {| bk_schemes := [{| sc_class := "RungeKuttaLS"; sc_stage := SNum 1; sc_iter := SNiter;
       sc_solution := [EqSim {| sq_start := []; sq_end := []; sq_advance := [n + 3]; sq_bc := [n + 4]; sq_spatial := [n + 6] |};
                       EqMetric {| mt_order := 1; mt_places := [PBefore]; mt_fd := [n + 8]; mt_sd := [n + 9] |}] |}];
     bk_datasets := []; bk_io := [] |}.
Example C59_nonvacuous : exists prg, spatial_solution [ex_two 0; ex_two 20] = Ok prg /\
  execute 1 prg =
  [EKernel 8 None None; EKernel 28 None None; EKernel 9 None None; EKernel 29 None None;
   EKernel 4 (Some 0%Z) None; EKernel 24 (Some 0%Z) None;
   EKernel 6 (Some 0%Z) (Some 0%Z); EKernel 26 (Some 0%Z) (Some 0%Z);
   EKernel 3 (Some 0%Z) (Some 0%Z); EKernel 23 (Some 0%Z) (Some 0%Z);
   EKernel 4 (Some 0%Z) (Some 0%Z); EKernel 24 (Some 0%Z) (Some 0%Z)].
Proof. eexists. split; [reflexivity|]. vm_compute. reflexivity. Qed.

(* C62.  The C variables holding output file names are declared once per scope
   if at most one write request has no file name; with two such requests the
   same variable is declared twice in main. *)
Theorem C62_output_buffers_partial :
  forall (K : Type) (b : block K) mon rqs prg,
    made_from rqs (bk_io b) -> generate_solution b mon = Ok prg ->
    List.length (filter unnamed_write rqs) <= 1 ->
    NoDup (flat_map declared prg).
Proof.
  intros K b mon rqs prg [D M] G L. rewrite (single_decls K b mon rqs prg D M G).
  destruct (List.length (filter unnamed_write rqs)) as [|[|n]]; [constructor| |lia].
  constructor; [intros []|constructor].
Qed.
Print Assumptions C62_output_buffers_partial.

Theorem C62_output_buffers_refuted :
  exists (b : block nat) rqs prg,
    made_from rqs (bk_io b) /\ generate_solution b None = Ok prg /\
    ~ NoDup (flat_map declared prg).
Proof.
  set (i := {| io_kw := [("iotype", "write")]%string; io_places := [PAfter]; io_arrays := ["rho"%string]; io_block := 0 |}).
  set (r := {| rq_arrays := ["rho"%string]; rq_every := 0; rq_kwargs := [] |}).
  exists {| bk_schemes := bk_schemes ex_block; bk_datasets := ["rho"%string]; bk_io := [i; i] |}, [r; r].
  eexists. split; [|split; [reflexivity|]].
  - split; repeat constructor.
  - cbn. intros H. inversion H as [|? ? N _]; subst. apply N. left. reflexivity.
Qed.
Print Assumptions C62_output_buffers_refuted.
