(* The program of a block with initialisations: the initialisations, then the program
   without them (C77). *)
From Verif Require Import Base BaseProofs Expr KernelModel WorkModel ShiftSpec StoreModel DiscModel DiscSpec DiscProps ProgModel ProgSpec ProgProps InvSpec InitModel InitSpec.
From Verif Require AdvModel AlgModel AlgSpec AlgProps RKModel BCModel.
From Coq Require Import ZArith Reals Lia Permutation Sorted.
Local Open Scope list_scope.

Definition emap (ev : AlgModel.event pkernel) : AlgModel.event skernel :=
  match ev with
  | AlgModel.EKernel k it st => AlgModel.EKernel (Prog k) it st
  | AlgModel.EWrite f a => AlgModel.EWrite f a
  | AlgModel.EMonitor i => AlgModel.EMonitor i
  | AlgModel.EUndefined => AlgModel.EUndefined
  end.
Lemma at_emap : forall it st ks, AlgSpec.at_ it st (map Prog ks) = map emap (AlgSpec.at_ it st ks).
Proof. intros. unfold AlgSpec.at_. rewrite !map_map. reflexivity. Qed.
Lemma flat_emap : forall (A : Type) (f : A -> list (AlgModel.event skernel)) g l, (forall a, f a = map emap (g a)) -> flat_map f l = map emap (flat_map g l).
Proof. intros A f g l H. induction l as [|a l IH]; auto. cbn. rewrite map_app, H, IH. reflexivity. Qed.
Lemma trace_emap : forall bf bc sta sp adv inn en aft nst niter mon rqs,
  AlgSpec.program_trace (AlgSpec.Build_phases bf (map Prog bc) (map Prog sta) (map Prog sp) (map Prog adv) (map Prog inn) (map Prog en) (map Prog aft)) nst niter mon rqs =
  AlgSpec.at_ None None bf ++ map emap (AlgSpec.program_trace (AlgSpec.Build_phases [] bc sta sp adv inn en aft) nst niter mon rqs).
Proof.
  intros. unfold AlgSpec.program_trace. cbn [AlgSpec.p_before AlgSpec.p_after]. f_equal. cbn [AlgSpec.at_ map app].
  rewrite !map_app. f_equal; [|f_equal].
  - apply flat_emap. intros it. unfold AlgSpec.step. cbn [AlgSpec.p_bc AlgSpec.p_start AlgSpec.p_spatial AlgSpec.p_advance AlgSpec.p_in AlgSpec.p_end].
    rewrite !map_app, <- !at_emap, !map_app. f_equal. f_equal; [|f_equal; f_equal; [|f_equal]].
    + apply flat_emap. intros st. rewrite <- at_emap, !map_app. reflexivity.
    + unfold AlgSpec.monitored. destruct mon; auto. destruct (_ || _); auto.
    + apply flat_emap. intros r. unfold AlgSpec.written_in. destruct (_ && _); auto.
  - apply at_emap.
  - apply flat_emap. intros r. unfold AlgSpec.written_at_end. destruct (AlgSpec.is_write r); auto.
Qed.
Section run.
Variables (J : interp R) (truth : R -> bool) (k : nat) (sizes : list Z) (dt : R) (ab : list R * list R) (points : list (Z * Z) -> list (list Z)).
Lemma run_emap : forall tr M, run_sprogram J truth k sizes dt ab points (map emap tr) M = run_program J k sizes dt ab tr M.
Proof.
  induction tr as [|ev tr IH]; intros M; [reflexivity|]. unfold run_sprogram, run_program in *. cbn [map fold_left]. rewrite IH. f_equal. destruct ev; reflexivity.
Qed.
Lemma run_inits : forall gs M,
  run_sprogram J truth k sizes dt ab points (AlgSpec.at_ None None (map (fun g => Init (init_kernel sizes g)) gs)) M =
  fold_left (fun M g => run_ikernel J truth (gi_eqs g) (points (ik_range (init_kernel sizes g))) M) gs M.
Proof.
  induction gs as [|g gs IH]; intros M; [reflexivity|]. unfold run_sprogram in *. cbn [map AlgSpec.at_ fold_left run_sevent]. exact (IH _).
Qed.
End run.

Definition init_ns (sizes : list Z) (g : gridinit) : AlgModel.nonsim skernel :=
  {| AlgModel.ns_order := order_of_init g; AlgModel.ns_places := [AlgModel.PBefore]; AlgModel.ns_kernels := [Init (init_kernel sizes g)] |}.
Lemma kernels_init : forall sizes gs,
  AlgSpec.kernels_at AlgModel.PBefore (map (init_ns sizes) gs) = map (fun g => Init (init_kernel sizes g)) gs /\
  AlgSpec.kernels_at (AlgModel.PIn 0) (map (init_ns sizes) gs) = [] /\ AlgSpec.kernels_at AlgModel.PAfter (map (init_ns sizes) gs) = [].
Proof.
  intros sizes gs. induction gs as [|g gs (A & B & C)]; [auto|]. split; [|split].
  - change (Init (init_kernel sizes g) :: AlgSpec.kernels_at AlgModel.PBefore (map (init_ns sizes) gs) = map (fun g => Init (init_kernel sizes g)) (g :: gs)). rewrite A. reflexivity.
  - exact B.
  - exact C.
Qed.
Lemma nonsims_init : forall sizes gs, AlgSpec.nonsims (map (init_class sizes) gs) = map (init_ns sizes) gs.
Proof. intros sizes gs. induction gs as [|g gs IH]; auto. cbn. f_equal. exact IH. Qed.
Lemma sims_init : forall sizes gs, AlgSpec.sims (map (init_class sizes) gs) = [].
Proof. intros sizes gs. induction gs as [|g gs IH]; auto. Qed.
Lemma other_init : forall sizes gs e, In e (map (init_class sizes) gs) -> e <> AlgModel.EqOther.
Proof. intros sizes gs e H. apply in_map_iff in H. destruct H as (g & <- & _). discriminate. Qed.
Lemma sorted_map : forall sizes gs, StronglySorted (fun x y => (AlgModel.ns_order x <= AlgModel.ns_order y)%Z) (map (init_ns sizes) gs) ->
  StronglySorted (fun g g' => (order_of_init g <= order_of_init g')%Z) gs.
Proof.
  intros sizes gs. induction gs as [|g gs IH]; intros H; [constructor|]. inversion H as [|? ? H1 H2]; subst. constructor; auto.
  apply Forall_forall. intros g' Hg. rewrite Forall_forall in H2. apply (H2 (init_ns sizes g')). apply in_map. auto.
Qed.

Lemma program_split : forall ts J k dirof h sizes sys crs inits prg,
  generated_with ts J k dirof h sizes sys crs inits prg ->
  exists prg0, generated ts J k dirof h sizes sys crs prg0 /\
    forall niter, exists gs, Permutation inits gs /\ StronglySorted (fun g g' => (order_of_init g <= order_of_init g')%Z) gs /\
    forall truth dt ab points M,
      run_sprogram J truth k sizes dt ab points (AlgModel.execute niter prg) M =
      run_program J k sizes dt ab (AlgModel.execute niter prg0)
        (fold_left (fun M g => run_ikernel J truth (gi_eqs g) (points (ik_range (init_kernel sizes g))) M) gs M).
Proof.
  intros ts J k dirof h sizes sys crs inits prg (HJ & Hsz & arrange & inv & dord & sord & num & kord & known & ccds & vcds & datasets & ios & rqs & mon & blk & Ha & H1 & H2 & H3 & H4 & H5 & H6 & PP & H7 & H8 & H9 & H10 & Hio & Hblk & Hprg).
  unfold initialised_block in Hblk.
  destruct (discretised_block k dirof inv dord sord num kord sizes ts sys crs (known ++ flat_map evaluated_datasets inits) ccds vcds datasets ios) as [b0|] eqn:Eb0; [|discriminate].
  cbn [bind] in Hblk. injection Hblk as Hblk. pose proof Eb0 as Eb. unfold discretised_block in Eb.
  destruct (coefficients ts) as [ab0|] eqn:Eab; [|discriminate]. cbn [bind] in Eb.
  destruct (all_spatial_kernels k (List.length sizes) dirof inv dord sord num kord crs (map fst sys ++ known ++ flat_map evaluated_datasets inits) ccds vcds (disc_eqs sys)) as [sp|] eqn:Esp; [|discriminate].
  cbn [bind] in Eb. injection Eb as Eb. rewrite <- Eb in Hblk. cbn [AlgModel.bk_schemes AlgModel.bk_datasets AlgModel.bk_io map AlgModel.sc_class AlgModel.sc_stage AlgModel.sc_iter AlgModel.sc_solution lift_class app] in Hblk.
  match type of Hblk with {| AlgModel.bk_schemes := [{| AlgModel.sc_solution := arrange ?l |}] |} = _ => set (L := l) in Hblk end.
  pose proof (Ha L) as PL.
  match type of Eb with {| AlgModel.bk_schemes := [?sc]; AlgModel.bk_datasets := _; AlgModel.bk_io := _ |} = _ => set (sc0 := sc) in Eb end.
  destruct (proj1 (AlgProps.C56_accepted skernel blk _ mon rqs ltac:(rewrite <- Hblk; reflexivity) ltac:(rewrite <- Hblk; exact Hio)) (ex_intro _ prg Hprg)) as (_ & _ & Vr).
  rewrite <- Hblk in Vr. cbn [AlgModel.bk_datasets] in Vr.
  assert (G0 : exists prg0, AlgModel.generate_solution b0 mon = Ok prg0).
  { apply (AlgProps.C56_accepted pkernel b0 sc0 mon rqs); [rewrite <- Eb; reflexivity | rewrite <- Eb; exact Hio|]. split; [|split].
    - intros e [<- | [<- | []]]; discriminate.
    - intros nn f [].
    - rewrite <- Eb. exact Vr. }
  destruct G0 as (prg0 & G0).
  pose proof (fun sc s niter => AlgProps.C17_time_loop skernel blk sc s mon rqs prg (Z.of_nat (List.length (fst ab0))) niter) as X.
  rewrite <- Hblk in X, Hprg. cbn [AlgModel.bk_schemes AlgModel.bk_io] in X.
  pose proof (fun s niter => AlgProps.C17_time_loop pkernel b0 sc0 s mon rqs prg0 (Z.of_nat (List.length (fst ab0))) niter) as Y.
  rewrite <- Eb in Y, G0. cbn [AlgModel.bk_schemes AlgModel.bk_io] in Y.
  assert (Sm : AlgSpec.sims (arrange L) = AlgSpec.sims L).
  { assert (P : Permutation (AlgSpec.sims L) (AlgSpec.sims (arrange L))) by (apply Permutation_flat_map; auto).
    unfold L in P at 1. change (AlgSpec.sims L) with (AlgSpec.sims L). unfold L at 2. cbn [AlgSpec.sims flat_map app] in P |- *.
    fold (AlgSpec.sims (map (init_class sizes) inits)) in P |- *. rewrite sims_init in P |- *. cbn [app] in P. apply Permutation_length_1_inv in P. exact P. }
  assert (Sn : Permutation (map (init_ns sizes) inits) (AlgSpec.nonsims (arrange L))).
  { rewrite <- nonsims_init. change (AlgSpec.nonsims (map (init_class sizes) inits)) with (AlgSpec.nonsims L). apply Permutation_flat_map. auto. }
  assert (SL : AlgSpec.sims L = [{| AlgModel.sq_start := map Prog match ts with LS _ _ => [] | SBLI _ => [SaveOld (adv_eqs sys)] end; AlgModel.sq_end := map Prog [];
      AlgModel.sq_advance := map Prog match ts with LS _ _ => [LowStorage (adv_eqs sys)] | SBLI _ => [SbliUpdate (adv_eqs sys)] end;
      AlgModel.sq_bc := map Prog (map Exchange (BCModel.periodic_all sizes (block_halos k (List.length sizes)) (map fst sys)));
      AlgModel.sq_spatial := map Prog (map Spatial sp) |}]).
  { unfold L. cbn [AlgSpec.sims flat_map app]. fold (AlgSpec.sims (map (init_class sizes) inits)). rewrite sims_init. reflexivity. }
  exists prg0. split.
  { split; [exact HJ|]. split; [exact Hsz|]. exists inv, dord, sord, num, kord, (known ++ flat_map evaluated_datasets inits), ccds, vcds, datasets, ios, rqs, mon, b0.
    rewrite <- Eb in Eb0 |- *. repeat (split; [assumption|]). exact G0. }
  intros niter. destruct (X _ _ niter eq_refl eq_refl eq_refl (eq_trans Sm SL) Hio Hprg) as (ns & (Pn & Sns & _) & E).
  destruct (Permutation_map_inv (init_ns sizes) inits (Permutation_sym (Permutation_trans Sn Pn))) as (gs & -> & Pg).
  exists gs. split; [exact Pg|]. split; [apply (sorted_map sizes); exact Sns|].
  intros truth dt ab points M. destruct (kernels_init sizes gs) as (K1 & K2 & K3). rewrite K1, K2, K3 in E. rewrite E.
  change (@nil skernel) with (map Prog (@nil pkernel)). cbn [AlgModel.sq_bc AlgModel.sq_start AlgModel.sq_spatial AlgModel.sq_advance AlgModel.sq_end].
  change (@map pkernel skernel Prog (@map pkernel pkernel (fun x => x) [])) with (map Prog (@nil pkernel)).
  rewrite trace_emap. unfold run_sprogram. rewrite fold_left_app.
  match goal with |- fold_left ?f (map emap ?tr) (fold_left ?f ?t M) = _ =>
    change (run_sprogram J truth k sizes dt ab points (map emap tr) (run_sprogram J truth k sizes dt ab points t M) =
            run_program J k sizes dt ab (AlgModel.execute niter prg0) (fold_left (fun M g => run_ikernel J truth (gi_eqs g) (points (ik_range (init_kernel sizes g))) M) gs M)) end.
  rewrite run_emap, run_inits. f_equal.
  destruct (Y _ niter eq_refl eq_refl eq_refl eq_refl Hio G0) as (ns & Hns & E0). destruct Hns as (Pn0 & _). cbn in Pn0. apply Permutation_nil in Pn0. subst ns. symmetry. exact E0.
Qed.
