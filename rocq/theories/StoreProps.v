(* C16: the program reads and writes declared elements of the arrays only. *)
From Verif Require Import Base Expr ExprProofs FDModel WorkModel ShiftSpec ShiftModel DiscModel DiscSpec DiscRun DiscMain DiscProps KernelModel ProgModel ProgSpec ProgProofs ProgProps WenoModel TenoModel LLFModel StoreModel StoreSpec StoreProofs StoreRun StoreShock.
From Verif Require ShiftProofs AdvModel AlgModel AlgSpec AlgProps OrdModel BCSpec BCKern BCMirror BCModel PerProps KernelProofs.
From Coq Require Import QArith ZArith Reals Lia Permutation.
Local Close Scope Q_scope.
Local Open Scope list_scope.

Lemma program_kernels : forall ts ab k dirof inv dord sord num kord sizes sys crs known ccds vcds datasets ios rqs mon blk prg niter,
  coefficients ts = Ok ab -> AlgProps.made_from rqs ios ->
  discretised_block k dirof inv dord sord num kord sizes ts sys crs known ccds vcds datasets ios = Ok blk ->
  AlgModel.generate_solution blk mon = Ok prg ->
  exists sp, all_spatial_kernels k (List.length sizes) dirof inv dord sord num kord crs (map fst sys ++ known) ccds vcds (disc_eqs sys) = Ok sp /\
    AlgModel.execute niter prg =
    AlgSpec.program_trace (phase k sizes sys sp (match ts with LS _ _ => [] | SBLI _ => [SaveOld (adv_eqs sys)] end)
        (match ts with LS _ _ => [LowStorage (adv_eqs sys)] | SBLI _ => [SbliUpdate (adv_eqs sys)] end))
      (Z.of_nat (List.length (fst ab))) niter mon rqs.
Proof.
  intros ts ab k dirof inv dord sord num kord sizes sys crs known ccds vcds datasets ios rqs mon blk prg niter Hab Hio Hblk Hprg.
  unfold discretised_block in Hblk. rewrite Hab in Hblk. cbn [bind] in Hblk.
  destruct (all_spatial_kernels k (List.length sizes) dirof inv dord sord num kord crs (map fst sys ++ known) ccds vcds (disc_eqs sys)) as [sp|] eqn:Esp; [|discriminate].
  cbn [bind] in Hblk. injection Hblk as Hblk. exists sp. split; auto.
  pose proof (AlgProps.C17_time_loop pkernel blk) as X. rewrite <- Hblk in X, Hprg. cbn [AlgModel.bk_schemes AlgModel.bk_io] in X.
  destruct (X _ _ mon rqs prg (Z.of_nat (List.length (fst ab))) niter eq_refl eq_refl eq_refl eq_refl Hio Hprg) as (ns & Hns & E).
  destruct Hns as (Pn & _). cbn in Pn. apply Permutation_nil in Pn. subst ns. exact E.
Qed.
Lemma trace_kernels : forall k sizes sys sp startks advks nst niter mon rqs pk it st,
  In (AlgModel.EKernel pk it st) (AlgSpec.program_trace (phase k sizes sys sp startks advks) nst niter mon rqs) ->
  In pk (map Exchange (BCModel.periodic_all sizes (block_halos k (List.length sizes)) (map fst sys)) ++ startks ++ map Spatial sp ++ advks).
Proof.
  intros k sizes sys sp startks advks nst niter mon rqs pk it st H. unfold AlgSpec.program_trace in H.
  assert (A : forall i s ks, In (AlgModel.EKernel pk it st) (AlgSpec.at_ i s ks) -> In pk ks).
  { intros i s ks Hin. unfold AlgSpec.at_ in Hin. apply in_map_iff in Hin. destruct Hin as (q & E & Hq). congruence. }
  cbn [phase AlgSpec.p_before AlgSpec.p_after AlgSpec.at_ map app] in H. fold (phase k sizes sys sp startks advks) in H.
  apply in_app_iff in H. destruct H as [H | H].
  - apply in_flat_map in H. destruct H as (i & _ & H). unfold AlgSpec.step in H.
    cbn [phase AlgSpec.p_bc AlgSpec.p_start AlgSpec.p_in AlgSpec.p_end AlgSpec.p_spatial AlgSpec.p_advance] in H.
    rewrite !in_app_iff in *. destruct H as [H | [H | [H | [H | [H | H]]]]].
    + apply A in H. rewrite in_app_iff in H. tauto.
    + apply in_flat_map in H. destruct H as (s & _ & H). apply A in H. rewrite !in_app_iff in H. tauto.
    + destruct H.
    + unfold AlgSpec.monitored in H. destruct mon as [f|]; [|destruct H]. destruct ((i =? 0)%Z || _); [|destruct H]. destruct H as [H | []]. discriminate.
    + apply in_flat_map in H. destruct H as (r & _ & H). unfold AlgSpec.written_in in H. destruct (_ && _); [|destruct H]. destruct H as [H | []]. discriminate.
    + destruct H.
  - apply in_flat_map in H. destruct H as (r & _ & H). unfold AlgSpec.written_at_end in H. destruct (AlgSpec.is_write r); [|destruct H]. destruct H as [H | []]. discriminate.
Qed.

(* C16, for one block with periodic boundaries and central differences.  Up to order 10,
   if no array of the problem has a name that OpenSBLI gives no halo points, then every
   kernel of the executed program reads and writes declared elements only.  So what
   happens to lie outside the declared storage neither matters nor changes. *)
Theorem C16_storage_partial :
  forall ts ab k dirof inv dord sord num kord sizes sys crs known ccds vcds datasets ios rqs mon blk prg niter,
    coefficients ts = Ok ab -> (k <= 5)%nat ->
    (forall d m, dsets (inv d m) = []) -> (forall e, enumerates (dord e) e) ->
    (forall a b, num a = num b -> a = b) -> (forall l, Permutation l (kord l)) ->
    periodic_problem (List.length sizes) dirof (register_of ts) sys crs known ->
    (forall a rhs, In (a, rhs) (sys ++ crs) -> ~ own_name a /\ forall b ix, In (b, ix) (dsets rhs) -> ~ own_name b) ->
    (forall d, (d < List.length sizes)%nat -> (0 <= nth d sizes 0)%Z) ->
    lists_derivatives (disc_eqs sys) (fun t => ~ viscous_term t) ccds ->
    lists_derivatives (disc_eqs sys) viscous_term vcds ->
    AlgProps.made_from rqs ios ->
    discretised_block k dirof inv dord sord num kord sizes ts sys crs known ccds vcds datasets ios = Ok blk ->
    AlgModel.generate_solution blk mon = Ok prg ->
    (forall pk it st b y, In (AlgModel.EKernel pk it st) (AlgModel.execute niter prg) -> touches k sizes pk b y -> stored sizes b y = true) /\
    (forall J dt M M', let run := run_program J k sizes dt ab (AlgModel.execute niter prg) in
       (forall b y, stored sizes b y = true -> M b y = M' b y) ->
       (forall b y, stored sizes b y = true -> run M b y = run M' b y) /\
       (forall b y, stored sizes b y = false -> run M b y = M b y)).
Proof.
  intros ts ab k dirof inv dord sord num kord sizes sys crs known ccds vcds datasets ios rqs mon blk prg niter
    Hab Hk Hinv Hdord Hnum Hkord PP Names Hsz HC HV Hio Hblk Hprg.
  destruct (program_kernels _ _ _ _ _ _ _ _ _ _ _ _ _ _ _ _ _ _ _ _ _ niter Hab Hio Hblk Hprg) as (sp & Esp & E). rewrite E. clear E Hblk Hprg.
  assert (X : forall pk it st, In (AlgModel.EKernel pk it st) (AlgSpec.program_trace (phase k sizes sys sp (match ts with LS _ _ => [] | SBLI _ => [SaveOld (adv_eqs sys)] end)
        (match ts with LS _ _ => [LowStorage (adv_eqs sys)] | SBLI _ => [SbliUpdate (adv_eqs sys)] end)) (Z.of_nat (List.length (fst ab))) niter mon rqs) ->
      contained k sizes pk /\ proper_exchange pk).
  { intros pk it st H. apply trace_kernels in H. rewrite !in_app_iff in H.
    assert (TK : forall l, (pk = LowStorage l \/ pk = SaveOld l \/ pk = SbliUpdate l) -> contained k sizes pk /\ proper_exchange pk).
    { intros l [-> | [-> | ->]]; split; try exact I; intros b y [Hy _]; apply (stored_grid k); auto. }
    destruct H as [H | [H | [H | H]]].
    - apply in_map_iff in H. destruct H as (ex & <- & H). split.
      + assert (0 < List.length sizes)%nat. { destruct sizes; [destruct H | cbn; lia]. }
        intros b y. apply (exchange_stored k sizes Hk (map fst sys) ex); auto. intros c Hc. apply in_map_iff in Hc. destruct Hc as ([c' rhs] & Ec & Hc). cbn in Ec. subst c'.
        apply plain_spec. apply (Names c rhs). apply in_app_iff. auto.
      + unfold BCModel.periodic_all in H. apply in_flat_map in H. destruct H as (d & _ & H).
        assert (L : List.length (BCModel.get_halo_values (block_halos k (List.length sizes))) = List.length sizes).
        { apply PerProps.halo_vals_length. apply repeat_length. }
        destruct H as [<- | [<- | []]]; cbn [BCModel.periodic_apply BCModel.get_transfers BCModel.ex_to BCModel.ex_from BCModel.ex_size proper_exchange];
          rewrite !BCKern.set_nth_length, map_length, BCMirror.map2_length by auto; auto.
    - destruct ts; [destruct H|]. destruct H as [<- | []]. eapply TK. eauto.
    - apply in_map_iff in H. destruct H as (kn & <- & H). split; [|exact I].
      intros b y. apply spatial_stored; auto. eapply (spatial_contained k dirof inv dord sord num kord sizes sys crs known (register_of ts) ccds vcds); eauto.
    - destruct ts; destruct H as [<- | []]; eapply TK; eauto. }
  split.
  - intros pk it st b y H. apply (X pk it st H).
  - intros J dt M M' run HM. split; intros b y Hy.
    + apply (events_agree J k sizes dt ab _ X M M' HM b y Hy).
    + apply (events_frame J k sizes dt ab _ X M b y Hy).
Qed.
Print Assumptions C16_storage_partial.

Example C16_storage_nonvacuous :
  exists blk prg, flow_block = Ok blk /\ AlgModel.generate_solution blk None = Ok prg /\
    (exists pk, In (AlgModel.EKernel pk (Some 0%Z) (Some 1%Z)) (AlgModel.execute 1 prg) /\ touches 2 [20]%Z pk "u"%string [-2]%Z) /\
    stored [20]%Z "u"%string [-2]%Z = true /\
    forall J dt M b, run_program J 2 [20]%Z dt ([0; -5/9; -153/128], [1/3; 15/16; 8/15])%R (AlgModel.execute 1 prg) M b [-6]%Z = M b [-6]%Z.
Proof.
  destruct flow_ok as (PP & HC & HV).
  assert (Q : match flow_block with Ok blk => match AlgModel.generate_solution blk None with
    | Ok prg => match nth 5 (AlgModel.execute 1 prg) (AlgModel.EMonitor 0) with AlgModel.EKernel (Spatial _) _ _ => True | _ => False end /\
        match nth 14 (AlgModel.execute 1 prg) (AlgModel.EMonitor 0) with AlgModel.EKernel (Spatial kn) it st =>
        (it, st) = (Some 0%Z, Some 1%Z) /\ map fst (k_eqs kn) = ["u"%string] /\ in_range 2 [20]%Z (k_ext kn) [-2]%Z = true | _ => False end
    | _ => False end | _ => False end).
  { vm_compute. tauto. }
  destruct flow_block as [blk|] eqn:Eb; [|destruct Q].
  destruct (AlgModel.generate_solution blk None) as [prg|] eqn:Ep; [|destruct Q].
  exists blk, prg. split; auto. split; auto. split; [|split; [vm_compute; reflexivity|]].
  - destruct Q as [_ Q]. destruct (nth 14 (AlgModel.execute 1 prg) (AlgModel.EMonitor 0)) as [pk it st | | |] eqn:En; try destruct Q.
    destruct pk as [kn | | | |]; try destruct Q. destruct H0 as [Q1 Q2]. injection H as -> ->. exists (Spatial kn). split.
    + rewrite <- En. apply nth_In. destruct (Nat.lt_ge_cases 14 (List.length (AlgModel.execute 1 prg))) as [L | L]; auto.
      rewrite nth_overflow in En by auto. discriminate.
    + destruct (k_eqs kn) as [|[r e] [|]] eqn:Ek; try discriminate. injection Q1 as ->. exists "u"%string, e, [-2]%Z. rewrite Ek. split; [left; auto|]. split; auto.
  - intros J dt M b.
    assert (W : forall c, In c ["r"; "m"; "u"; "p"; "c"]%string -> ~ own_name c).
    { intros c Hc. apply plain_spec. repeat (destruct Hc as [<- | Hc]; [reflexivity|]). destruct Hc. }
    destruct (C16_storage_partial (LS 3 RKModel.Standard) _ 2 dir3 inv1 set_order inner_order code (fun l => l) [20]%Z flow flow_crs ["c"%string]
      [ProgProps.d1; ProgProps.d2; ProgProps.d3] [ProgProps.d4] ["r"; "m"]%string [] [] None blk prg 1 eq_refl ltac:(lia)) as [_ X]; auto.
    + apply set_order_ok.
    + apply code_inj.
    + intros a rhs Hin. split; [apply W; repeat (destruct Hin as [E | Hin]; [injection E as <- _; cbn; tauto|]); destruct Hin|].
      intros c ix Hc. apply W. repeat (destruct Hin as [E | Hin]; [injection E as <- <-; vm_compute in Hc; repeat (destruct Hc as [E | Hc]; [injection E as <- _; cbn; tauto|]); destruct Hc|]). destruct Hin.
    + intros [|d] Hd; cbn in *; lia.
    + split; constructor.
    + apply (X J dt M M); [auto|]. destruct (stored [20]%Z b [-6]%Z) eqn:Es; auto.
      exfalso. apply stored_iff in Es. destruct Es as [_ Es]. specialize (Es 0%nat ltac:(cbn; lia)). cbn in Es. destruct (no_halo b); lia.
Qed.

(* Refutations of the full claim. *)
(* Above order 10 no such program stays inside the storage: its first exchange of the
   boundary values writes outside the array. *)
Theorem C16_order_limit_refuted :
  forall ts ab k dirof inv dord sord num kord sizes sys crs known ccds vcds datasets ios rqs mon blk prg niter,
    coefficients ts = Ok ab -> (6 <= k)%nat -> sizes <> [] -> sys <> [] -> (forall n, In n sizes -> (0 < n)%Z) -> (0 < niter)%Z ->
    AlgProps.made_from rqs ios ->
    discretised_block k dirof inv dord sord num kord sizes ts sys crs known ccds vcds datasets ios = Ok blk ->
    AlgModel.generate_solution blk mon = Ok prg ->
    exists pk it st b y, In (AlgModel.EKernel pk it st) (AlgModel.execute niter prg) /\ touches k sizes pk b y /\ stored sizes b y = false.
Proof.
  intros ts ab k dirof inv dord sord num kord sizes sys crs known ccds vcds datasets ios rqs mon blk prg niter
    Hab Hk Ns Nsys Hpos Hit Hio Hblk Hprg.
  destruct (program_kernels _ _ _ _ _ _ _ _ _ _ _ _ _ _ _ _ _ _ _ _ _ niter Hab Hio Hblk Hprg) as (sp & Esp & E). rewrite E. clear E Hblk Hprg Esp.
  destruct sizes as [|n sizes]; [congruence|]. destruct sys as [|[v rhs] sys]; [congruence|].
  set (bh := block_halos k (List.length (n :: sizes))).
  set (ex := BCModel.periodic_apply (n :: sizes) bh 0 true (map fst ((v, rhs) :: sys))).
  exists (Exchange ex), (Some 0%Z), None, v, ((- Z.of_nat k)%Z :: repeat 0%Z (List.length sizes)).
  split; [|split].
  - unfold AlgSpec.program_trace. rewrite !in_app_iff. right. left. apply in_flat_map. exists 0%Z. split.
    + unfold AlgSpec.upto. apply in_map_iff. exists 0%nat. split; auto. apply in_seq. lia.
    + unfold AlgSpec.step. rewrite !in_app_iff. left. unfold AlgSpec.at_. apply in_map_iff. exists (Exchange ex). split; auto.
      cbn [phase AlgSpec.p_bc AlgSpec.p_start]. apply in_app_iff. left. apply in_map_iff. exists ex. split; auto.
      unfold BCModel.periodic_all. cbn [List.length seq flat_map]. right. left. reflexivity.
  - split; [left; reflexivity|]. left. unfold ex, BCModel.periodic_apply, BCModel.get_transfers. cbn [BCModel.ex_to BCModel.ex_size].
    assert (Lb : List.length bh = List.length (n :: sizes)) by apply repeat_length.
    assert (G : BCModel.get_halo_values bh = repeat (- Z.of_nat k, Z.of_nat k)%Z (S (List.length sizes))).
    { unfold BCModel.get_halo_values, bh, block_halos. cbn [List.length repeat get_min_max_halo_values map fst snd]. unfold get_min_max_halo_values. cbn [map fst snd].
      rewrite repeat_map. cbn [halo_min halo_max minl maxl fst snd map hd repeat]. f_equal. clear. induction (List.length sizes); cbn; f_equal; auto. }
    rewrite G. cbn [repeat nth map fst snd BCModel.map2 BCModel.set_nth]. unfold BCModel.in_box. cbn [List.length combine forallb].
    assert (L : forall z w, List.length (BCModel.map2 (fun n h => n + 0 + (Z.abs (fst h) + Z.abs (snd h)))%Z sizes (repeat (z, w) (List.length sizes))) = List.length sizes)
      by (intros; apply BCMirror.map2_length; rewrite repeat_length; auto).
    rewrite L, !repeat_length, Nat.eqb_refl. rewrite !andb_true_iff. split; auto. split; [rewrite Z.leb_le, Z.ltb_lt; lia|].
    assert (P : forall m, In m sizes -> (0 < m)%Z) by (intros; apply Hpos; right; auto). clear - P.
    induction sizes as [|m sizes IH]; [reflexivity|]. cbn [List.length repeat map fst snd BCModel.map2 combine forallb]. rewrite !andb_true_iff.
    split; [|apply IH; intros; apply P; right; auto]. specialize (P m (or_introl eq_refl)). rewrite Z.leb_le, Z.ltb_lt. lia.
  - destruct (stored (n :: sizes) v _) eqn:Es; auto. exfalso. apply stored_iff in Es. destruct Es as [_ Es]. specialize (Es 0%nat ltac:(cbn; lia)).
    cbn [nth] in Es. destruct (no_halo v); lia.
Qed.
Print Assumptions C16_order_limit_refuted.

(* Order 12, one dimension *)
Definition adv1 : system := [("u"%string, EApp HMul [ENum (-1); EApp HCD [at1 "u"; x0]])].
Definition adv1_block k n name :=
  discretised_block k dir3 inv1 set_order inner_order (fun s => if String.eqb s name then 0%nat else S (code s)) (fun l => l) [n]%Z (LS 3 RKModel.Standard)
    [(name, EApp HMul [ENum (-1); EApp HCD [at1 name; x0]])] [] [] [EApp HCD [at1 name; x0]] [] [] [].
Example C16_order_limit_nonvacuous :
  exists blk prg, adv1_block 6 20%Z "u"%string = Ok blk /\ AlgModel.generate_solution blk None = Ok prg.
Proof.
  assert (Q : match adv1_block 6 20%Z "u"%string with Ok blk => match AlgModel.generate_solution blk None with Ok _ => True | _ => False end | _ => False end) by (vm_compute; exact I).
  destruct (adv1_block 6 20%Z "u"%string) as [blk|]; [|destruct Q]. destruct (AlgModel.generate_solution blk None) as [prg|] eqn:E; [|destruct Q]. exists blk, prg. auto.
Qed.

(* An advanced array whose name contains "Residual" has no halo points, but its derivative
   reads them. *)
Theorem C16_names_refuted :
  exists blk prg, adv1_block 2 20%Z "uResidual"%string = Ok blk /\ AlgModel.generate_solution blk None = Ok prg /\
  exists pk it st b y, In (AlgModel.EKernel pk it st) (AlgModel.execute 1 prg) /\
    (exists kn, pk = Spatial kn) /\ touches 2 [20]%Z pk b y /\ stored [20]%Z b y = false.
Proof.
  set (res := match adv1_block 2 20%Z "uResidual"%string with Ok blk => match AlgModel.generate_solution blk None with Ok prg => Some (blk, prg) | _ => None end | _ => None end).
  assert (Q : match res with Some (blk, prg) =>
      match nth 2 (AlgModel.execute 1 prg) (AlgModel.EMonitor 0) with
      | AlgModel.EKernel (Spatial kn) it st =>
          match k_eqs kn with [(r, e)] => in_range 2 [20]%Z (k_ext kn) [0]%Z = true /\ existsb (fun d => if dset_eq_dec d ("uResidual"%string, [-2]%Z) then true else false) (dsets e) = true | _ => False end
      | _ => False end | None => False end) by (vm_compute; split; reflexivity).
  destruct (adv1_block 2 20%Z "uResidual"%string) as [blk|] eqn:Eb; [|destruct Q].
  destruct (AlgModel.generate_solution blk None) as [prg|] eqn:Ep; [|destruct Q].
  unfold res in Q. exists blk, prg. split; auto. split; auto.
  destruct (nth 2 (AlgModel.execute 1 prg) (AlgModel.EMonitor 0)) as [pk it st | | |] eqn:En; try contradiction.
  destruct pk as [kn | | | |]; try contradiction. destruct (k_eqs kn) as [|[r e] [|]] eqn:Ek; try contradiction. destruct Q as [Q1 Q2].
  exists (Spatial kn), it, st, "uResidual"%string, [-2]%Z. split; [|split; [eauto | split; [|vm_compute; reflexivity]]].
  - rewrite <- En. apply nth_In. destruct (Nat.lt_ge_cases 2 (List.length (AlgModel.execute 1 prg))) as [L | L]; auto. rewrite nth_overflow in En by auto. discriminate.
  - exists r, e, [0]%Z. rewrite Ek. split; [left; auto|]. split; auto. right. exists [-2]%Z. split; auto.
    apply existsb_exists in Q2. destruct Q2 as (d & Hd & E). destruct (dset_eq_dec d ("uResidual"%string, [-2]%Z)) as [-> | _]; [auto | discriminate].
Qed.
Print Assumptions C16_names_refuted.

(* With two sibling derivatives inside another one, the range of the first grows in the
   direction of the second.  If that is its own direction, it reads twice as far: outside
   the array from order 6 on. *)
Definition twin_a := EApp HCD [at2 "u"; x1].
Definition twin_b := EApp HCD [at2 "v"; x1].
Definition twin_o := EApp HCD [EApp HMul [twin_a; twin_b]; x0].
Definition twin_sys : list (string * expr) :=
  [("Residual0"%string, EApp HAdd [EApp HMul [ENum (-1); EApp HCD [at2 "p"; x0]]; EApp HMul [inv_re; twin_o]])].
Theorem C16_sibling_refuted :
  exists ks kn, sbli_rhs_discretisation 3 2 dir3 inv1 set_order inner_order [EApp HCD [at2 "p"; x0]] [twin_a; twin_b; twin_o] twin_sys = Ok ks /\
    In kn ks /\ touches 3 [10; 10]%Z (Spatial kn) "u"%string [0; -6]%Z /\ stored [10; 10]%Z "u"%string [0; -6]%Z = false.
Proof.
  assert (Q : match sbli_rhs_discretisation 3 2 dir3 inv1 set_order inner_order [EApp HCD [at2 "p"; x0]] [twin_a; twin_b; twin_o] twin_sys with
    | Ok ks => match nth 2 ks {| k_eqs := []; k_ext := [] |} with {| k_eqs := [(r, e)]; k_ext := ext |} =>
        in_range 3 [10; 10]%Z ext [0; -3]%Z = true /\ existsb (fun d => if dset_eq_dec d ("u"%string, [0; -3]%Z) then true else false) (dsets e) = true
      | _ => False end | _ => False end) by (vm_compute; split; reflexivity).
  destruct (sbli_rhs_discretisation 3 2 dir3 inv1 set_order inner_order [EApp HCD [at2 "p"; x0]] [twin_a; twin_b; twin_o] twin_sys) as [ks|]; [|destruct Q].
  exists ks, (nth 2 ks {| k_eqs := []; k_ext := [] |}). destruct (nth 2 ks {| k_eqs := []; k_ext := [] |}) as [eqs ext] eqn:En.
  destruct eqs as [|[r e] [|]]; try contradiction. destruct Q as [Q1 Q2]. split; auto. split; [|split; [|vm_compute; reflexivity]].
  - rewrite <- En. apply nth_In. destruct (Nat.lt_ge_cases 2 (List.length ks)) as [L | L]; auto. rewrite nth_overflow in En by auto. discriminate.
  - exists r, e, [0; -3]%Z. cbn [k_eqs k_ext]. split; [left; auto|]. split; auto. right. exists [0; -3]%Z. split; auto.
    match goal with H : existsb _ _ = true |- _ => apply existsb_exists in H; destruct H as (d & Hd & E) end.
    destruct (dset_eq_dec d ("u"%string, [0; -3]%Z)) as [-> | _]; [auto | discriminate].
Qed.
Print Assumptions C16_sibling_refuted.

(* Shock-capturing schemes.  In direction d, the reconstruction kernel reads values of the
   constituent relations only where their kernels have computed them, and the residual
   kernel reads reconstructions only where they have been computed. *)
Definition reads_computed (sizes : list Z) (h : halo) (sch : scheme) (dirs : list nat) (d : nat) : Prop :=
  (forall x p, in_ranges (reconstruction_range sizes d) x = true -> In p (reconstruction_offsets sch) ->
     in_ranges (relation_range sizes h dirs) (move d p x) = true) /\
  (forall x p, (List.length x = List.length sizes /\ forall i, (i < List.length sizes)%nat -> (0 <= nth i x 0 < nth i sizes 0)%Z) ->
     In p residual_offsets -> in_ranges (reconstruction_range sizes d) (move d p x) = true).
Lemma reads_computed_width : forall sizes sch dirs d k,
  (1 <= k)%Z -> (forall p, In p (stencil_points sch) <-> (1 - k <= p <= k)%Z) -> (d < List.length sizes)%nat -> In d dirs ->
  reads_computed sizes (- k, k + 1)%Z sch dirs d.
Proof.
  intros sizes sch dirs d k Hk Hst Hd Hin. split.
  - intros x p Hx Hp. apply in_extended in Hx. destruct Hx as [L Hx]. apply in_extended. rewrite ShiftProofs.move_length. split; auto.
    assert (P : (1 - k <= p <= k)%Z) by (unfold reconstruction_offsets in Hp; apply in_app_iff in Hp; destruct Hp as [[<- | [<- | []]] | Hp]; [lia | lia | apply Hst; auto]).
    intros i Hi. specialize (Hx i Hi). rewrite StoreShock.nth_move by lia. cbn [fst snd reconstruction_halos] in *.
    destruct (Nat.eq_dec i d) as [-> | N].
    + destruct (in_dec Nat.eq_dec d [d]) as [_ | C]; [|exfalso; apply C; left; auto]. destruct (in_dec Nat.eq_dec d dirs); [lia | contradiction].
    + destruct (in_dec Nat.eq_dec i [d]) as [[C | []] | _]; [congruence|]. destruct (in_dec Nat.eq_dec i dirs); lia.
  - intros x p [L Hx] Hp. apply in_extended. rewrite ShiftProofs.move_length. split; auto. intros i Hi. specialize (Hx i Hi). rewrite StoreShock.nth_move by lia.
    cbn [fst snd reconstruction_halos]. destruct (in_dec Nat.eq_dec i [d]) as [[-> | []] | C].
    + destruct (Nat.eq_dec i i); [|congruence]. destruct Hp as [<- | [<- | []]]; lia.
    + destruct (Nat.eq_dec i d) as [-> | _]; [exfalso; apply C; left; auto | lia].
Qed.
Lemma weno_k_pos : forall order, (1 <= order)%Z -> (1 <= weno_k order)%Z.
Proof. intros. unfold weno_k, FDModel.pyint_half. pose proof (Z.quot_le_lower_bound (order + 1) 2 1 ltac:(lia) ltac:(lia)). lia. Qed.
Theorem C16_weno_kernels :
  forall order fm eps sizes dirs d, (1 <= order)%Z -> (d < List.length sizes)%nat -> In d dirs ->
    reads_computed sizes (weno_halos order) (weno_scheme fm (Z.to_nat (weno_k order)) eps) dirs d.
Proof.
  intros order fm eps sizes dirs d Ho Hd Hin. pose proof (weno_k_pos _ Ho) as P. apply reads_computed_width; auto.
  intros p. rewrite weno_stencil by lia. rewrite Z2Nat.id by lia. reflexivity.
Qed.
Print Assumptions C16_weno_kernels.
Theorem C16_teno_kernels :
  forall order eps CT sizes dirs d, order = 5%nat \/ order = 6%nat -> (d < List.length sizes)%nat -> In d dirs ->
    reads_computed sizes (teno_halos (Z.of_nat order)) (teno_scheme order eps CT) dirs d.
Proof.
  intros order eps CT sizes dirs d Ho Hd Hin. replace (teno_halos (Z.of_nat order)) with (- (3), 3 + 1)%Z by (destruct Ho as [-> | ->]; reflexivity).
  apply reads_computed_width; auto; [lia|]. intros p. rewrite teno_stencil by auto. lia.
Qed.
Print Assumptions C16_teno_kernels.
Example C16_kernels_nonvacuous :
  in_ranges (reconstruction_range [8; 8]%Z 1) [3; 8]%Z = true /\ in_ranges (reconstruction_range [8; 8]%Z 1) [3; 9]%Z = false /\
  weno_halos 5 = (-3, 4)%Z /\
  in_ranges (relation_range [8; 8]%Z (weno_halos 5) [0; 1]%nat) (move 1 3 [3; 8]%Z) = true /\
  in_ranges (relation_range [8; 8]%Z (weno_halos 5) [0]%nat) (move 1 3 [3; 8]%Z) = false.
Proof. repeat split. Qed.

(* The kernels of the constituent relations stay inside the storage exactly up to order 8
   (WENO), and for both accepted orders of TENO.  From WENO order 9 on they write outside
   the arrays. *)
Lemma storage_width : forall sizes dirs b k, (0 <= k)%Z ->
  (forall i, (i < List.length sizes)%nat -> (0 < nth i sizes 0)%Z) -> (exists d, In d dirs /\ (d < List.length sizes)%nat) -> ~ own_name b ->
  ((forall x, in_ranges (relation_range sizes (- k, k + 1)%Z dirs) x = true -> stored sizes b x = true) <-> (k <= 4)%Z).
Proof.
  intros sizes dirs b k Hk Hpos (d & Hin & Hd) Hb. apply plain_spec in Hb. unfold StoreProofs.plain in Hb. split.
  - intros H. set (x := map (fun i => if Nat.eq_dec i d then (nth i sizes 0 + k)%Z else 0%Z) (seq 0 (List.length sizes))).
    assert (Nx : forall i, (i < List.length sizes)%nat -> nth i x 0%Z = if Nat.eq_dec i d then (nth i sizes 0 + k)%Z else 0%Z).
    { intros i Hi. unfold x. erewrite nth_indep by (rewrite map_length, seq_length; auto).
      rewrite (map_nth (fun i => if Nat.eq_dec i d then (nth i sizes 0 + k)%Z else 0%Z) (seq 0 (List.length sizes)) 0%nat i), seq_nth by auto. reflexivity. }
    assert (S : stored sizes b x = true).
    { apply H. apply in_extended. split; [unfold x; rewrite map_length, seq_length; auto|]. intros i Hi. rewrite Nx by auto. specialize (Hpos i Hi). cbn [fst snd].
      destruct (Nat.eq_dec i d) as [-> | N]; [destruct (in_dec Nat.eq_dec d dirs); [lia | contradiction] | destruct (in_dec Nat.eq_dec i dirs); lia]. }
    apply stored_iff in S. destruct S as [_ S]. specialize (S d Hd). rewrite Hb, Nx in S by auto. destruct (Nat.eq_dec d d); [lia | congruence].
  - intros H x Hx. apply in_extended in Hx. destruct Hx as [L Hx]. apply stored_iff. split; auto. intros i Hi. specialize (Hx i Hi). rewrite Hb. cbn [fst snd] in Hx.
    destruct (in_dec Nat.eq_dec i dirs); lia.
Qed.
Theorem C16_weno_storage :
  forall order sizes dirs b, (1 <= order)%Z ->
    (forall i, (i < List.length sizes)%nat -> (0 < nth i sizes 0)%Z) -> (exists d, In d dirs /\ (d < List.length sizes)%nat) -> ~ own_name b ->
    ((forall x, in_ranges (relation_range sizes (weno_halos order) dirs) x = true -> stored sizes b x = true) <-> (order <= 8)%Z).
Proof.
  intros order sizes dirs b Ho Hpos Hd Hb. unfold weno_halos. pose proof (weno_k_pos _ Ho). rewrite storage_width by (auto; lia).
  unfold weno_k, FDModel.pyint_half. pose proof (Z.quot_rem' (order + 1) 2) as Q. pose proof (Z.rem_bound_pos (order + 1) 2 ltac:(lia) ltac:(lia)). lia.
Qed.
Print Assumptions C16_weno_storage.
Theorem C16_teno_storage :
  forall order sizes dirs b x, order = 5%Z \/ order = 6%Z -> ~ own_name b ->
    in_ranges (relation_range sizes (teno_halos order) dirs) x = true -> stored sizes b x = true.
Proof.
  intros order sizes dirs b x Ho Hb Hx. apply plain_spec in Hb. unfold StoreProofs.plain in Hb.
  replace (teno_halos order) with (-3, 4)%Z in Hx by (destruct Ho as [-> | ->]; reflexivity).
  apply in_extended in Hx. destruct Hx as [L Hx]. apply stored_iff. split; auto. intros i Hi. specialize (Hx i Hi). rewrite Hb. cbn [fst snd] in Hx.
  destruct (in_dec Nat.eq_dec i dirs); lia.
Qed.
Print Assumptions C16_teno_storage.
Example C16_shock_storage_nonvacuous :
  in_ranges (relation_range [8; 8]%Z (weno_halos 9) [0; 1]%nat) [0; 13]%Z = true /\ stored [8; 8]%Z "p"%string [0; 13]%Z = false /\
  stored [8; 8]%Z "p"%string [-4; 12]%Z = true /\ ~ own_name "p"%string.
Proof. repeat split; try reflexivity. apply plain_spec. reflexivity. Qed.
