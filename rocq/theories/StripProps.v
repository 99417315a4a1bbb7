(* C90: halo points removed from output files. *)
From Verif Require Import Base BaseProofs AlgModel StripModel StripSpec StoreSpec StoreProofs StripProofs.
Local Open Scope list_scope.

(* C90.  Two or three directions, as many upper as lower halo points, one block.
   Missing: other numbers of directions, different halos and further blocks, see
   the refutations below.  The axes of a dataset x are [axes x]. *)
Theorem C90_interior_partial :
  forall (A : Type) (block : string) (dsets : list (string * sdata A)) (axes : string -> list axis),
    (forall k x, In (k, x) dsets ->
       (List.length (axes k) = 2 \/ List.length (axes k) = 3)%nat /\
       Forall same_halos (axes k) /\
       s_shape x = map extent (axes k) /\ has_shape (s_shape x) (s_data x) /\
       Forall2 (fun d a => Z.abs_nat d = lower_halo a) (s_dm x) (axes k)) ->
    exists out, strip_halos [(block, dsets)] = SOk out /\
      map fst out = map fst dsets /\
      forall i k x, nth_error dsets i = Some (k, x) ->
        exists y, nth_error out i = Some (k, y) /\ interior (axes k) (s_data x) y.
Proof.
  intros A block dsets axes H.
  set (f := fun p : string * sdata A => (fst p, nd_slice (map range_of (axes (fst p))) (s_data (snd p)))).
  exists (map f dsets).
  assert (E : forall l, (forall k x, In (k, x) l -> In (k, x) dsets) -> strip_all l = SOk (map f l)).
  { induction l as [|[k x] l IH]; intros Hl; [reflexivity|]. cbn [strip_all map f fst snd].
    destruct (H k x (Hl k x (or_introl eq_refl))) as (H1 & H2 & H3 & H4 & H5).
    rewrite H3, (read_dataset_eq A (s_dm x) (axes k) (s_data x) H5 H1).
    rewrite IH; [reflexivity|]. intros k' x' Hi. apply Hl. right. exact Hi. }
  split; [cbn [strip_halos]; apply E; auto|]. split; [rewrite map_map; reflexivity|].
  intros i k x Hi. exists (nd_slice (map range_of (axes k)) (s_data x)). split.
  - rewrite nth_error_map, Hi. reflexivity.
  - destruct (H k x (nth_error_In _ _ Hi)) as (H1 & H2 & H3 & H4 & H5).
    apply slice_interior; [exact H2|]. rewrite <- H3. exact H4.
Qed.
Print Assumptions C90_interior_partial.

(* C90 fails for every array whose numbers of lower and upper halo points differ
   in some direction: what is kept is not the interior. *)
Theorem C90_upper_halos_refuted :
  forall (A : Type) (dm : list Z) (axes : list axis) (x : nd A),
    (List.length axes = 2 \/ List.length axes = 3)%nat ->
    Forall (fun a => 0 < points a)%nat axes -> has_shape (map extent axes) x ->
    Forall2 (fun d a => Z.abs_nat d = lower_halo a) dm axes ->
    ~ Forall same_halos axes ->
    exists y, read_dataset dm (map extent axes) x = SOk y /\ ~ interior axes x y.
Proof.
  intros A dm axes x Hn Hp Hs Hd Hh. exists (nd_slice (map range_of axes) x).
  split; [exact (read_dataset_eq A dm axes x Hd Hn)|]. intros [Hi _]. apply Hh. exact (slice_wrong A axes x Hp Hs Hi).
Qed.
Print Assumptions C90_upper_halos_refuted.

(* C90 fails for every file of a one-dimensional block. *)
Theorem C90_one_direction_refuted :
  forall (A : Type) (block name : string) (x : sdata A) (rest : list (string * sdata A)) (groups : list (string * list (string * sdata A))),
    List.length (s_dm x) = 1%nat -> List.length (s_shape x) = 1%nat ->
    strip_halos ((block, (name, x) :: rest) :: groups) = SNameError.
Proof.
  intros A block name x rest groups H1 H2. cbn [strip_halos strip_all]. unfold read_dataset.
  rewrite map_length, combine_length, H1, H2. reflexivity.
Qed.
Print Assumptions C90_one_direction_refuted.

(* C90 fails for files with several blocks: the datasets written are those of the
   first block only, whatever the others contain. *)
Theorem C90_blocks_refuted :
  forall (A : Type) (block : string) (dsets : list (string * sdata A)) (others : list (string * list (string * sdata A))) out,
    strip_halos ((block, dsets) :: others) = SOk out ->
    map fst out = map fst dsets /\ strip_halos [(block, dsets)] = SOk out.
Proof.
  intros A block dsets others out H. cbn [strip_halos] in *. split; [|exact H].
  revert out H. induction dsets as [|[k x] l IH]; intros out H; cbn [strip_all] in H.
  - injection H as <-. reflexivity.
  - destruct (read_dataset _ _ _); try discriminate. destruct (strip_all l) as [r| | |]; try discriminate.
    injection H as <-. cbn. f_equal. apply IH. reflexivity.
Qed.
Print Assumptions C90_blocks_refuted.

(* C90, name of the file written: next to the file read, with _pp added to its name. *)
Theorem C90_output_name :
  forall dir name : string, ~ contains name "/" -> ~ contains name "." ->
    output_path (name ++ ".h5") = Some (name ++ "_pp.h5")%string /\
    output_path (dir ++ "/" ++ name ++ ".h5") = Some (dir ++ "/" ++ name ++ "_pp.h5")%string.
Proof.
  intros dir name Hs Hd. apply free_char in Hs. apply free_char in Hd.
  assert (H : has_char "/" (name ++ ".h5") = false) by (rewrite has_char_app, Hs; reflexivity).
  assert (C : contains (name ++ ".h5") ".h5") by (exists name, EmptyString; reflexivity).
  rewrite (path_plain _ H C), (path_dir dir _ H C). rewrite (hd_dot name "h5" Hd). split; reflexivity.
Qed.
Print Assumptions C90_output_name.

(* ... but names with further dots are cut at the first one, so that different
   files are written to the same place. *)
Theorem C90_output_name_refuted :
  forall name u v : string, ~ contains name "/" -> ~ contains name "." -> ~ contains u "/" -> ~ contains v "/" ->
    output_path (name ++ "." ++ u ++ ".h5") = Some (name ++ "_pp.h5")%string /\
    output_path (name ++ "." ++ u ++ ".h5") = output_path (name ++ "." ++ v ++ ".h5").
Proof.
  intros name u v Hs Hd Hu Hv. apply free_char in Hs, Hd, Hu, Hv.
  assert (P : forall w, has_char "/" w = false -> output_path (name ++ "." ++ w ++ ".h5") = Some (name ++ "_pp.h5")%string).
  { intros w Hw. rewrite path_plain.
    - change ("." ++ w ++ ".h5")%string with (String "." (w ++ ".h5")). rewrite (hd_dot name _ Hd). reflexivity.
    - rewrite has_char_app, Hs. cbn. rewrite has_char_app, Hw. reflexivity.
    - exists (name ++ "." ++ w)%string, EmptyString. rewrite append_assoc. reflexivity. }
  rewrite (P u Hu), (P v Hv). split; reflexivity.
Qed.
Print Assumptions C90_output_name_refuted.

(* A 3 by 4 array with one halo point on all sides: its interior has two points. *)
Example C90_nonvacuous :
  let x := Arr [Arr [Num 1; Num 2; Num 3; Num 4]; Arr [Num 5; Num 6; Num 7; Num 8];
                Arr [Num 9; Num 10; Num 11; Num 12]]%nat in
  let axes := [{| lower_halo := 1; points := 1; upper_halo := 1 |}; {| lower_halo := 1; points := 2; upper_halo := 1 |}]%nat in
  let axes' := [{| lower_halo := 1; points := 1; upper_halo := 1 |}; {| lower_halo := 1; points := 3; upper_halo := 0 |}]%nat in
  let dm := [-1; -1]%Z in
  Forall same_halos axes /\ ~ Forall same_halos axes' /\
  has_shape (map extent axes) x /\ has_shape (map extent axes') x /\
  Forall2 (fun d a => Z.abs_nat d = lower_halo a) dm axes /\ Forall2 (fun d a => Z.abs_nat d = lower_halo a) dm axes' /\
  strip_halos [("opensbliblock00", [("rho_B0", {| s_dm := dm; s_shape := map extent axes; s_data := x |})])]%string =
    SOk [("rho_B0"%string, Arr [Arr [Num 6; Num 7]]%nat)] /\
  output_path "run/opensbli_output.h5" = Some "run/opensbli_output_pp.h5"%string /\
  output_path "case.1.h5" = output_path "case.2.h5" /\
  (~ contains "case" "/" /\ ~ contains "case" ".").
Proof.
  cbv zeta. split; [repeat constructor|]. split.
  - intros H. inversion H as [|? ? _ H2]; subst. inversion H2 as [|? ? H3 _]; subst. discriminate H3.
  - split; [|split].
    + cbn. split; [reflexivity|]. intros y [<-|[<-|[<-|[]]]]; (split; [reflexivity|]); intros z [<-|[<-|[<-|[<-|[]]]]]; exact I.
    + cbn. split; [reflexivity|]. intros y [<-|[<-|[<-|[]]]]; (split; [reflexivity|]); intros z [<-|[<-|[<-|[<-|[]]]]]; exact I.
    + split; [repeat constructor|]. split; [repeat constructor|].
      split; [reflexivity|]. split; [reflexivity|]. split; [reflexivity|].
      split; intros H; apply substring_contains in H; discriminate H.
Qed.
