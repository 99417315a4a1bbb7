(* C70: the loops of a generated program may visit their points in any order. *)
From Verif Require Import Base Expr ExprProofs FDModel WorkModel ShiftSpec ShiftModel DiscModel DiscSpec DiscRun DiscMain DiscProps KernelModel ProgModel ProgSpec ProgProofs ProgProps StoreProps LoopModel LoopProofs.
From Verif Require ShiftProofs AdvModel AlgModel AlgSpec AlgProps OrdModel BCSpec BCModel RKModel.
From Coq Require Import QArith ZArith Reals Lia Permutation.
Local Close Scope Q_scope.
Local Open Scope list_scope.

Lemma program_loopable : forall ts ab k dirof inv dord sord num kord sizes sys crs known ccds vcds datasets ios rqs mon blk prg niter,
  coefficients ts = Ok ab ->
  (forall d m, dsets (inv d m) = []) -> (forall e, enumerates (dord e) e) ->
  (forall a b, num a = num b -> a = b) -> (forall l, Permutation l (kord l)) ->
  periodic_problem (List.length sizes) dirof (register_of ts) sys crs known ->
  lists_derivatives (disc_eqs sys) (fun t => ~ viscous_term t) ccds ->
  lists_derivatives (disc_eqs sys) viscous_term vcds ->
  AlgProps.made_from rqs ios ->
  discretised_block k dirof inv dord sord num kord sizes ts sys crs known ccds vcds datasets ios = Ok blk ->
  AlgModel.generate_solution blk mon = Ok prg ->
  forall pk it st, In (AlgModel.EKernel pk it st) (AlgModel.execute niter prg) -> loopable sizes pk.
Proof.
  intros ts ab k dirof inv dord sord num kord sizes sys crs known ccds vcds datasets ios rqs mon blk prg niter
    Hab Hinv Hdord Hnum Hkord PP HC HV Hio Hblk Hprg.
  destruct (program_kernels _ _ _ _ _ _ _ _ _ _ _ _ _ _ _ _ _ _ _ _ _ niter Hab Hio Hblk Hprg) as (sp & Esp & E). rewrite E. clear E Hblk Hprg.
  intros pk it st H. apply trace_kernels in H. rewrite !in_app_iff in H. destruct H as [H | [H | [H | H]]].
  - apply in_map_iff in H. destruct H as (ex & <- & _). exact I.
  - destruct ts; [destruct H | destruct H as [<- | []]; exact I].
  - apply in_map_iff in H. destruct H as (kn & <- & H).
    eapply (spatial_own k dirof inv dord sord num kord sizes sys crs known (register_of ts) ccds vcds); eauto.
  - destruct ts; destruct H as [<- | []]; exact I.
Qed.

(* C70, for one block with periodic boundaries and central differences: whatever order
   each launch of a kernel visits the points of its range in, the arrays have the same
   values when the program ends, namely those of executing one statement after the other
   over the whole range. *)
Theorem C70_any_order_partial :
  forall ts ab k dirof inv dord sord num kord sizes sys crs known ccds vcds datasets ios rqs mon blk prg niter,
    coefficients ts = Ok ab ->
    (forall d m, dsets (inv d m) = []) -> (forall e, enumerates (dord e) e) ->
    (forall a b, num a = num b -> a = b) -> (forall l, Permutation l (kord l)) ->
    periodic_problem (List.length sizes) dirof (register_of ts) sys crs known ->
    lists_derivatives (disc_eqs sys) (fun t => ~ viscous_term t) ccds ->
    lists_derivatives (disc_eqs sys) viscous_term vcds ->
    AlgProps.made_from rqs ios ->
    discretised_block k dirof inv dord sord num kord sizes ts sys crs known ccds vcds datasets ios = Ok blk ->
    AlgModel.generate_solution blk mon = Ok prg ->
    forall J dt order, (forall n ext, BCSpec.sweeps (order n ext) (fun x => in_range k sizes ext x = true)) ->
    forall M b x, loop_program J dt ab order (AlgModel.execute niter prg) 0 M b x =
                  run_program J k sizes dt ab (AlgModel.execute niter prg) M b x.
Proof.
  intros. apply loop_program_any; auto. eapply program_loopable; eauto.
Qed.
Print Assumptions C70_any_order_partial.

(* In particular two executions with different orders agree.  And no kernel of the
   program has a race: what it reads at a point is not what it writes at another point. *)
Theorem C70_no_races_partial :
  forall ts ab k dirof inv dord sord num kord sizes sys crs known ccds vcds datasets ios rqs mon blk prg niter,
    coefficients ts = Ok ab ->
    (forall d m, dsets (inv d m) = []) -> (forall e, enumerates (dord e) e) ->
    (forall a b, num a = num b -> a = b) -> (forall l, Permutation l (kord l)) ->
    periodic_problem (List.length sizes) dirof (register_of ts) sys crs known ->
    lists_derivatives (disc_eqs sys) (fun t => ~ viscous_term t) ccds ->
    lists_derivatives (disc_eqs sys) viscous_term vcds ->
    AlgProps.made_from rqs ios ->
    discretised_block k dirof inv dord sord num kord sizes ts sys crs known ccds vcds datasets ios = Ok blk ->
    AlgModel.generate_solution blk mon = Ok prg ->
    forall kn it st, In (AlgModel.EKernel (Spatial kn) it st) (AlgModel.execute niter prg) ->
    forall r e r' e' b ix x y, In (r, e) (k_eqs kn) -> In (r', e') (k_eqs kn) ->
      in_range k sizes (k_ext kn) x = true -> in_range k sizes (k_ext kn) y = true ->
      (* at x the kernel writes array r; at y it reads array b, offset ix *)
      In (b, ix) (dsets e') -> (r, x) = (b, vadd y ix) -> x = y.
Proof.
  intros ts ab k dirof inv dord sord num kord sizes sys crs known ccds vcds datasets ios rqs mon blk prg niter
    Hab Hinv Hdord Hnum Hkord PP HC HV Hio Hblk Hprg kn it st Hk r e r' e' b ix x y Hr Hr' Hx Hy Hb E.
  assert (Own : loopable sizes (Spatial kn)) by (eapply program_loopable; eauto). cbn [loopable] in Own.
  injection E as -> ->. rewrite (Own r' e' b ix Hr' Hb (in_map fst _ _ Hr)). apply vadd_0_r.
  apply in_range_iff in Hy. tauto.
Qed.
Print Assumptions C70_no_races_partial.

(* The hypotheses hold for the program of C60_nonvacuous (a compressible flow in one
   dimension), with loops that run forwards in even launches and backwards in odd ones. *)
Definition line (k n : nat) (ext : list nat) : list (list Z) :=
  let e := if existsb (Nat.eqb 0) ext then k else 0%nat in
  map (fun i => [Z.of_nat i - Z.of_nat e]%Z) (seq 0 (n + 2 * e)).
Definition zigzag (launch : nat) (ext : list nat) : list (list Z) :=
  if Nat.even launch then line 2 20 ext else rev (line 2 20 ext).
Lemma line_sweeps : forall k n ext, BCSpec.sweeps (line k n ext) (fun x => in_range k [Z.of_nat n] ext x = true).
Proof.
  intros k n ext. unfold line. split.
  - apply FinFun.Injective_map_NoDup; [|apply seq_NoDup]. intros i j H. injection H as H. lia.
  - intros x. rewrite in_map_iff. rewrite in_range_iff. cbn [List.length].
    set (e := if existsb (Nat.eqb 0) ext then k else 0%nat).
    split.
    + intros (i & <- & Hi). apply in_seq in Hi. split; auto. intros d Hd. assert (d = 0)%nat by lia. subst d. cbn [nth].
      unfold e in *. destruct (existsb (Nat.eqb 0) ext) eqn:Ex; unfold ProgProofs.ex; rewrite Ex; lia.
    + intros [L H]. specialize (H 0%nat ltac:(lia)). destruct x as [|z [|]]; try discriminate. cbn [nth] in *.
      exists (Z.to_nat (z + Z.of_nat e)). unfold e in *. unfold ProgProofs.ex in H. destruct (existsb (Nat.eqb 0) ext);
        (split; [f_equal; lia | apply in_seq; lia]).
Qed.
Example C70_nonvacuous :
  (forall n ext, BCSpec.sweeps (zigzag n ext) (fun x => in_range 2 [20]%Z ext x = true)) /\
  hd [] (zigzag 0 []) = [0]%Z /\ hd [] (zigzag 1 [0]%nat) = [21]%Z /\
  exists blk prg, flow_block = Ok blk /\ AlgModel.generate_solution blk None = Ok prg /\
    (exists kn, In (AlgModel.EKernel (Spatial kn) (Some 0%Z) (Some 1%Z)) (AlgModel.execute 1 prg) /\ map fst (k_eqs kn) = ["u"%string]) /\
    forall J dt M b x,
      loop_program J dt ([0; -5/9; -153/128], [1/3; 15/16; 8/15])%R zigzag (AlgModel.execute 1 prg) 0 M b x =
      run_program J 2 [20]%Z dt ([0; -5/9; -153/128], [1/3; 15/16; 8/15])%R (AlgModel.execute 1 prg) M b x.
Proof.
  assert (Z : forall n ext, BCSpec.sweeps (zigzag n ext) (fun x => in_range 2 [20]%Z ext x = true)).
  { intros n ext. unfold zigzag. destruct (line_sweeps 2 20 ext) as [ND H]. destruct (Nat.even n); [split; auto|].
    split; [apply NoDup_rev; auto|]. intros x. rewrite <- in_rev. apply H. }
  split; auto. split; [reflexivity|]. split; [reflexivity|].
  destruct flow_ok as (PP & HC & HV).
  assert (Q : match flow_block with Ok blk => match AlgModel.generate_solution blk None with
    | Ok prg => match nth 14 (AlgModel.execute 1 prg) (AlgModel.EMonitor 0) with AlgModel.EKernel (Spatial kn) it st =>
        (it, st) = (Some 0%Z, Some 1%Z) /\ map fst (k_eqs kn) = ["u"%string] | _ => False end
    | _ => False end | _ => False end).
  { vm_compute. tauto. }
  destruct flow_block as [blk|] eqn:Eb; [|destruct Q].
  destruct (AlgModel.generate_solution blk None) as [prg|] eqn:Ep; [|destruct Q].
  exists blk, prg. split; auto. split; auto. split.
  - destruct (nth 14 (AlgModel.execute 1 prg) (AlgModel.EMonitor 0)) as [pk it st | | |] eqn:En; try contradiction.
    destruct pk as [kn | | | |]; try contradiction. destruct Q as [Q1 Q2]. injection Q1 as -> ->. exists kn. split; auto.
    rewrite <- En. apply nth_In. destruct (Nat.lt_ge_cases 14 (List.length (AlgModel.execute 1 prg))) as [L | L]; auto.
    rewrite nth_overflow in En by auto. discriminate.
  - intros J dt M b x.
    apply (C70_any_order_partial (LS 3 RKModel.Standard) _ 2 dir3 inv1 set_order inner_order code (fun l => l) [20]%Z flow flow_crs ["c"%string]
      [ProgProps.d1; ProgProps.d2; ProgProps.d3] [ProgProps.d4] ["r"; "m"]%string [] [] None blk prg 1 eq_refl); auto.
    + apply set_order_ok.
    + apply code_inj.
    + split; constructor.
Qed.
