(* C88-C89: reports of the iteration, data files. *)
From Verif Require Import Base BaseProofs CodeModel CodeProofs AlgModel KernelModel KernelProofs HelpModel HelpSpec HelpProofs.
Local Open Scope list_scope.

(* C88.  For every program text - its lines and the characters t after the last
   newline - every interval and every array: the statement that reports the
   iteration is added after each line that follows a line which starts a loop
   over the iterations, and nothing else changes.  If there is no such following
   line the call fails. *)
Theorem C88_report :
  forall (every : Z) (number : text) (nan : option text) (ls : list text) (t : text),
    decimal every number -> array_name nan -> (forall l, In l ls -> one_line l) -> one_line t ->
    let rep := report number nan in
    let program := unlines ls ++ t in
    exists out, reported rep ls out /\
      (starts_loop t \/ (t = [] /\ follows_start ls (List.length ls)) ->
         print_iteration_ops every nan program = Err IndexErr) /\
      (~ starts_loop t -> ~ follows_start ls (List.length ls) ->
         print_iteration_ops every nan program = Ok (unlines (List.concat out) ++ t)) /\
      (~ starts_loop t -> t <> [] -> follows_start ls (List.length ls) ->
         print_iteration_ops every nan program = Ok (unlines (List.concat out) ++ t ++ unlines rep)).
Proof.
  intros every number nan ls t Hnum Hn Hl Ht rep program.
  assert (Er : rep = report (T (decZ every)) nan) by (unfold rep; rewrite (decimal_decZ _ _ Hnum); reflexivity).
  clearbody rep. exists (annotate rep false ls).
  split; [apply reported_annotate|]. unfold program. rewrite (print_spec every nan ls t Hn Hl Ht), <- Er.
  pose proof (prev_of_follows ls) as P.
  assert (Hs : startsb t = true <-> starts_loop t) by apply starts_dec.
  split; [|split].
  - intros [H|[-> H]].
    + unfold finish. destruct t as [|c t]; [apply Hs in H; discriminate H|]. rewrite (proj2 Hs H). reflexivity.
    + unfold finish. rewrite (proj2 P H). reflexivity.
  - intros H1 H2. destruct (prev_of false ls) eqn:E; [exfalso; tauto|].
    unfold finish. destruct t as [|c t]; [cbn; rewrite ?app_nil_r; reflexivity|].
    destruct (startsb (c :: t)) eqn:Es; [exfalso; tauto|]. cbn [bind List.concat]. rewrite !app_nil_r. reflexivity.
  - intros H1 H2 H3. rewrite (proj2 P H3). unfold finish. destruct t as [|c t]; [congruence|].
    destruct (startsb (c :: t)) eqn:Es; [exfalso; tauto|]. cbn [bind List.concat]. rewrite app_nil_r, appended_report, <- Er. reflexivity.
Qed.
Print Assumptions C88_report.

(* C88.  In a program with one loop over the iterations, as the generator writes
   it, the report is the first statement in the body of the loop; everything
   before and after is as it was. *)
Theorem C88_first_in_loop :
  forall (every : Z) (number : text) (nan : option text) (upper : text) (before body : list text) (t : text),
    decimal every number -> array_name nan -> (forall l, In l (before ++ body ++ [upper; t]) -> one_line l /\ ~ starts_loop l) ->
    let head := [T "for(int iter=0; iter<=" ++ upper ++ T "; iter++)"; T "{"] in
    print_iteration_ops every nan (unlines (before ++ head ++ body) ++ t) =
    Ok (unlines (before ++ head ++ report number nan ++ body) ++ t).
Proof.
  intros every number nan upper before body t Hnum Hn H head. rewrite (decimal_decZ _ _ Hnum). clear Hnum.
  assert (Hh : forall l, In l head -> one_line l).
  { intros l [<-|[<-|[]]].
    - intros Hi. apply in_app_iff in Hi. destruct Hi as [Hi|Hi]; [cbn in Hi; repeat (destruct Hi as [Hi|Hi]; [discriminate Hi|]); exact Hi|].
      apply in_app_iff in Hi. destruct Hi as [Hi|Hi].
      + apply (proj1 (H upper ltac:(apply in_app_iff; right; apply in_app_iff; right; left; reflexivity))), Hi.
      + cbn in Hi; repeat (destruct Hi as [Hi|Hi]; [discriminate Hi|]); exact Hi.
    - intros Hi. destruct Hi as [Hi|[]]. discriminate Hi. }
  assert (Ho : forall l, In l (before ++ head ++ body) -> one_line l).
  { intros l Hi. apply in_app_iff in Hi. destruct Hi as [Hi|Hi]; [apply H, in_app_iff; auto|].
    apply in_app_iff in Hi. destruct Hi as [Hi|Hi]; [auto|]. apply H, in_app_iff. right. apply in_app_iff. auto. }
  destruct (H t) as [Ht Hst]; [apply in_app_iff; right; apply in_app_iff; right; right; left; reflexivity|].
  rewrite (print_spec every nan _ t Hn Ho Ht).
  set (rep := report (T (decZ every)) nan).
  assert (Hb : forall l, In l before -> startsb l = false).
  { intros l Hi. destruct (startsb l) eqn:E; auto. apply starts_dec in E. exfalso.
    refine (proj2 (H l _) E). apply in_app_iff; auto. }
  assert (Hy : forall l, In l body -> startsb l = false).
  { intros l Hi. destruct (startsb l) eqn:E; auto. apply starts_dec in E. exfalso.
    refine (proj2 (H l _) E). apply in_app_iff; right; apply in_app_iff; auto. }
  assert (A0 : forall ls, (forall l, In l ls -> startsb l = false) ->
      List.concat (annotate rep false ls) = ls /\ prev_of false ls = false).
  { induction ls as [|x ls IH]; intros Hx; [auto|]. cbn [annotate List.concat prev_of].
    rewrite (Hx x (or_introl eq_refl)). destruct IH as [I1 I2]; [intros l Hl; apply Hx; right; exact Hl|].
    rewrite I1. auto. }
  assert (A1 : forall ls rest, (forall l, In l ls -> startsb l = false) ->
      List.concat (annotate rep false (ls ++ rest)) = ls ++ List.concat (annotate rep false rest) /\
      prev_of false (ls ++ rest) = prev_of false rest).
  { induction ls as [|x ls IH]; intros rest Hx; [auto|]. cbn [app annotate List.concat prev_of].
    rewrite (Hx x (or_introl eq_refl)). destruct (IH rest) as [I1 I2]; [intros l Hl; apply Hx; right; exact Hl|].
    rewrite I1. auto. }
  destruct (A1 before (head ++ body) Hb) as [-> ->].
  assert (Es : startsb (T "for(int iter=0; iter<=" ++ upper ++ T "; iter++)") = true).
  { apply starts_dec. exists (T "for("), (T " iter<=" ++ upper ++ T "; iter++)"). reflexivity. }
  assert (Ek : startsb (T "{") = false) by reflexivity.
  unfold head. cbn [app annotate List.concat prev_of]. rewrite Es, Ek.
  destruct (A0 body Hy) as [-> ->].
  assert (Et : startsb t = false) by (destruct (startsb t) eqn:E; auto; apply starts_dec in E; contradiction).
  unfold finish. rewrite Et. destruct t as [|c t]; cbn [bind List.concat]; rewrite ?app_nil_r; rewrite <- ?app_assoc; reflexivity.
Qed.
Print Assumptions C88_first_in_loop.

Example C88_nonvacuous :
  let before := [T "int main(int argc, char **argv)"; T "{"] in
  let body := [T "ops_par_loop(opensbliblock00Kernel000);"; T "}"; T "ops_exit();"] in
  decimal 250 (T "250") /\ array_name (Some (T "rho_B0")) /\
  (forall l, In l (before ++ body ++ [T "niter - 1"; T "}"]) -> one_line l /\ ~ starts_loop l) /\
  print_iteration_ops 250 (Some (T "rho_B0"))
    (unlines (before ++ [T "for(int iter=0; iter<=niter - 1; iter++)"; T "{"] ++ body) ++ T "}") =
  Ok (unlines [T "int main(int argc, char **argv)"; T "{";
       T "for(int iter=0; iter<=niter - 1; iter++)"; T "{";
       T "if(fmod(iter+1, 250) == 0){";
       T "        ops_printf(""Iteration is %d\n"", iter+1); ";
       T "        ops_NaNcheck(rho_B0);"; T "}";
       T "ops_par_loop(opensbliblock00Kernel000);"; T "}"; T "ops_exit();"] ++ T "}") /\
  print_iteration_ops 250 None (T "for(int iter=0; iter<=9; iter++)") = Err IndexErr.
Proof.
  cbv zeta. split; [exists 250%nat; left; split; reflexivity|]. split; [|split; [|split; vm_compute; reflexivity]].
  - intros H. cbn in H. repeat (destruct H as [H|H]; [discriminate H|]). exact H.
  - intros l Hl. split.
    + intros H. repeat (destruct Hl as [<-|Hl]; [cbn in H; repeat (destruct H as [H|H]; [discriminate H|]); exact H|]). exact Hl.
    + intros H. apply starts_dec in H. repeat (destruct Hl as [<-|Hl]; [discriminate H|]). exact Hl.
Qed.

(* C89.  Two-dimensional blocks, file names without capitals, arrays the kernels
   use.  Missing: other numbers of directions, other file names and arrays that
   no kernel uses, see the refutations below. *)
Theorem C89_read_back_partial :
  forall (A : Type) (arrays : list A) (names : list string) (m0 p0 m1 p1 : Z) (npoints : list Z)
         (b : nat) (fname : option string) (save : Z) (ios1 ios2 : list io) (d : dict),
    List.length arrays = List.length names -> NoDup names ->
    match fname with Some f => lower f = f | None => True end ->
    kernel_datasets d -> (forall n, In n names -> In (dsetbase_name n b) (map fst d)) ->
    (forall j, In j (ios1 ++ ios2) -> writes_only j) ->
    exists file i ds,
      output_hdf5 arrays names [[m0; p0]; [m1; p1]] npoints 2 b fname = H5File file /\
      iohdf5 (map (fun n => dsetbase_name n b) names) save (read_request fname) = Ok i /\
      declarations b (ios1 ++ i :: ios2) d = Ok ds /\
      (* every array is declared once *)
      map declared ds = map fst d /\
      (* what has been given is read from where it has been written *)
      (forall k n a, nth_error names k = Some n -> nth_error arrays k = Some a ->
         In (DRead (h5_group file) (dsetbase_name n b) (h5_fname file)) ds /\
         holds file (dsetbase_name n b) a (plane_meta m0 p0 m1 p1 npoints b)) /\
      (* nothing else is read, and nothing else is in the file *)
      (forall x, In x (map fst d) -> (forall n, In n names -> x <> dsetbase_name n b) ->
         In (DPlain (blockname b) x) ds) /\
      map h5_name (h5_dsets file) = map (fun n => dsetbase_name n b) names.
Proof.
  intros A arrays names m0 p0 m1 p1 npoints b fname save ios1 ios2 d Hl Hd Hf Hk Hn Hw.
  destruct (output_plane A arrays names m0 p0 m1 p1 npoints b fname Hl Hd) as (file & F1 & F2 & F3 & F4 & F5).
  destruct (read_declarations b ios1 ios2 (map (fun n => dsetbase_name n b) names) save fname d Hw Hk) as (i & ds & D1 & D2 & D3 & D4).
  { intros x Hx. apply in_map_iff in Hx. destruct Hx as (n & <- & Hi). auto. }
  exists file, i, ds. split; [exact F1|]. split; [exact D1|]. split; [exact D2|]. split; [exact D3|].
  split; [|split; [|exact F4]].
  - intros k n a Hk1 Ha. split; [|exact (F5 k n a Hk1 Ha)].
    rewrite F2, F3. pose proof (nth_error_In _ _ Hk1) as Hi.
    destruct (D4 (dsetbase_name n b) (Hn n Hi)) as [D5 _].
    assert (Hin : In (dsetbase_name n b) (map (fun n => dsetbase_name n b) names)) by (apply in_map_iff; eauto).
    specialize (D5 Hin). destruct fname as [f|]; [rewrite Hf in D5|]; exact D5.
  - intros x Hx Hnn. apply D4; auto. intros Hi. apply in_map_iff in Hi. destruct Hi as (n & <- & Hi). exact (Hnn n Hi eq_refl).
Qed.
Print Assumptions C89_read_back_partial.

(* C89 fails for other numbers of directions: a one-dimensional block never gets
   a file with data; a three-dimensional block is refused when the halos are
   given for its three directions, and a file it gets describes two only. *)
Theorem C89_directions_refuted :
  forall (A : Type) (arrays : list A) (names : list string) (halos : list (list Z)) (npoints : list Z)
         (b : nat) (fname : option string),
    (forall file, output_hdf5 arrays names halos npoints 1 b fname = H5File file -> h5_dsets file = []) /\
    (List.length arrays = List.length names -> arrays <> [] -> List.length halos = 3%nat ->
       output_hdf5 arrays names halos npoints 3 b fname = H5Err ValueError) /\
    (forall file x, output_hdf5 arrays names halos npoints 3 b fname = H5File file -> In x (h5_dsets file) ->
       List.length (h5_dm (h5_info x)) = 2%nat /\ List.length (h5_dp (h5_info x)) = 2%nat).
Proof.
  intros A arrays names halos npoints b fname.
  assert (M1 : forall m, set_hdf5_metadata 1 b halos npoints <> Ok m).
  { intros m. unfold set_hdf5_metadata. destruct halos as [|h0 [|h1 [|h2 halos]]]; cbn; try discriminate.
    destruct h0 as [|x [|y h0]]; cbn; try discriminate.
    destruct h1 as [|x1 [|y1 h1]]; cbn; discriminate. }
  assert (L2 : forall nd m, set_hdf5_metadata nd b halos npoints = Ok m ->
     List.length (h5_dm m) = 2%nat /\ List.length (h5_dp m) = 2%nat).
  { intros nd m. unfold set_hdf5_metadata. destruct (negb _); [discriminate|]. destruct (negb _); [discriminate|].
    assert (C : forall j l, halo_column halos j = Ok l -> List.length l = 2%nat).
    { intros j l. unfold halo_column. repeat (destruct (item _ _); cbn [bind]; [|discriminate]).
      intros H. injection H as <-. reflexivity. }
    destruct (halo_column halos 0) as [dm|] eqn:E0; cbn [bind]; [|discriminate].
    destruct (halo_column halos 1) as [dp|] eqn:E1; cbn [bind]; [|discriminate].
    intros H. injection H as <-. cbn. split; eapply C; eauto. }
  assert (LL : forall nd l acc ds, h5_loop nd b halos npoints acc l = Ok ds ->
     (forall x : h5_dataset A, In x acc -> exists m, set_hdf5_metadata nd b halos npoints = Ok m /\ h5_info x = m) ->
     (forall x, In x ds -> exists m, set_hdf5_metadata nd b halos npoints = Ok m /\ h5_info x = m)).
  { intros nd. induction l as [|[a n] l IH]; intros acc ds H Ha x Hx; cbn [h5_loop] in H.
    - injection H as <-. auto.
    - destruct (in_dec _ _ _); [discriminate|]. destruct (set_hdf5_metadata nd b halos npoints) as [m|] eqn:Em; [|discriminate].
      cbn [bind] in H. refine (IH _ _ H _ x Hx). intros y Hy. apply in_app_iff in Hy. destruct Hy as [Hy|[<-|[]]].
      + auto.
      + exists m. split; reflexivity. }
  split; [|split].
  - intros file. unfold output_hdf5. destruct (negb _); [discriminate|].
    destruct (h5_loop _ _ _ _ _ _) as [ds|] eqn:E; [|discriminate]. intros H. injection H as <-. cbn [h5_dsets].
    destruct ds as [|x ds]; auto. exfalso.
    destruct (LL _ _ _ _ E ltac:(intros ? []) x (or_introl eq_refl)) as (m & Em & _). exact (M1 m Em).
  - intros Hl Hne H3. unfold output_hdf5. rewrite Hl, Nat.eqb_refl. cbn [negb].
    destruct arrays as [|a arrays]; [congruence|]. destruct names as [|n names]; [discriminate|].
    cbn [combine h5_loop map]. destruct (in_dec _ _ _) as [[]|_].
    unfold set_hdf5_metadata. rewrite H3. reflexivity.
  - intros file x. unfold output_hdf5. destruct (negb _); [discriminate|].
    destruct (h5_loop _ _ _ _ _ _) as [ds|] eqn:E; [|discriminate]. intros H. injection H as <-. cbn [h5_dsets].
    intros Hx. destruct (LL _ _ _ _ E ltac:(intros ? []) x Hx) as (m & Em & ->). exact (L2 _ _ Em).
Qed.
Print Assumptions C89_directions_refuted.

(* C89 fails for every file name with a capital: the file is written under the
   name given, the program reads another one. *)
Theorem C89_capitals_refuted :
  forall (A : Type) (arrays : list A) (names : list string) (m0 p0 m1 p1 : Z) (npoints : list Z)
         (b : nat) (f : string) (save : Z) (d : dict),
    List.length arrays = List.length names -> NoDup names -> lower f <> f ->
    kernel_datasets d -> (forall n, In n names -> In (dsetbase_name n b) (map fst d)) ->
    exists file i ds,
      output_hdf5 arrays names [[m0; p0]; [m1; p1]] npoints 2 b (Some f) = H5File file /\
      iohdf5 (map (fun n => dsetbase_name n b) names) save (read_request (Some f)) = Ok i /\
      declarations b [i] d = Ok ds /\ h5_fname file = f /\
      forall n, In n names -> exists g, g <> f /\ In (DRead (blockname b) (dsetbase_name n b) g) ds.
Proof.
  intros A arrays names m0 p0 m1 p1 npoints b f save d Hl Hd Hf Hk Hn.
  destruct (output_plane A arrays names m0 p0 m1 p1 npoints b (Some f) Hl Hd) as (file & F1 & F2 & F3 & F4 & F5).
  destruct (read_declarations b [] [] (map (fun n => dsetbase_name n b) names) save (Some f) d ltac:(intros ? []) Hk) as (i & ds & D1 & D2 & D3 & D4).
  { intros x Hx. apply in_map_iff in Hx. destruct Hx as (n & <- & Hi). auto. }
  exists file, i, ds. split; [exact F1|]. split; [exact D1|]. split; [exact D2|]. split; [exact F2|].
  intros n Hi. exists (lower f). split; [exact Hf|]. apply (D4 _ (Hn n Hi)). apply in_map_iff. eauto.
Qed.
Print Assumptions C89_capitals_refuted.

(* C89 fails for every request to read an array that no kernel uses: no program
   is written. *)
Theorem C89_unused_refuted :
  forall (b : nat) (ios : list io) (d : dict) (i : io) (a : string),
    In i ios -> reads i -> In a (io_arrays i) -> ~ In a (map fst d) ->
    exists e, declarations b ios d = Err e.
Proof. exact unused_fails. Qed.
Print Assumptions C89_unused_refuted.

Example C89_nonvacuous :
  let d := [("rho_B0", EBase false None); ("random_nums_B0", EBase false None)]%string in
  let names := ["random_nums"]%string in
  let halos := [[-5; 5]; [-5; 5]]%Z in
  kernel_datasets d /\ (forall n, In n names -> In (dsetbase_name n 0) (map fst d)) /\ NoDup names /\
  lower "noise.h5" = "noise.h5"%string /\ lower "Noise.h5" <> "Noise.h5"%string /\
  output_hdf5 [7%nat] names halos [512; 512]%Z 2 0 (Some "noise.h5"%string) =
    H5File {| h5_fname := "noise.h5"; h5_group := "opensbliblock00";
              h5_dsets := [{| h5_name := "random_nums_B0"; h5_data := 7%nat;
                              h5_info := {| h5_dp := [5; 5]%Z; h5_dm := [-5; -5]%Z; h5_base := [0; 0]%Z;
                                            h5_size := [512; 512]%Z; h5_block := "opensbliblock00"; h5_index := 0 |} |}] |} /\
  bind (iohdf5 ["random_nums_B0"%string] 0 (read_request (Some "noise.h5"%string))) (fun i => declarations 0 [i] d) =
    Ok [DPlain "opensbliblock00" "rho_B0"; DRead "opensbliblock00" "random_nums_B0" "noise.h5"]%string /\
  bind (iohdf5 ["random_nums_B0"%string] 0 (read_request (Some "Noise.h5"%string))) (fun i => declarations 0 [i] d) =
    Ok [DPlain "opensbliblock00" "rho_B0"; DRead "opensbliblock00" "random_nums_B0" "noise.h5"]%string /\
  bind (iohdf5 ["u_B0"%string] 0 (read_request None)) (fun i => declarations 0 [i] d) = Err UnboundLocal /\
  bind (iohdf5 ["rho_B0"; "u_B0"]%string 0 (read_request None)) (fun i => declarations 0 [i] d) = Err TypeErr /\
  output_hdf5 [7%nat] names [[-5; 5]; [-5; 5]; [-5; 5]]%Z [8; 8; 8]%Z 3 0 None = H5Err ValueError.
Proof.
  cbv zeta. split; [|split; [|split; [|split; [|split]]]].
  - split.
    + cbn. repeat constructor; cbn; intuition discriminate.
    + cbn. intros k e [H|[H|[]]]; injection H as _ <-; reflexivity.
  - intros n [<-|[]]. right. left. reflexivity.
  - repeat constructor. intros [].
  - reflexivity.
  - discriminate.
  - repeat split; vm_compute; reflexivity.
Qed.
