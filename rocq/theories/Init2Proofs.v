(* The program of any block with initialisations: the initialisations, then the program
   without them (C87). *)
From Verif Require Import Base BaseProofs Expr KernelModel WorkModel ShiftSpec StoreModel DiscModel ProgModel InitModel InitSpec Init2Model.
From Verif Require AlgModel AlgSpec AlgProps BCModel.
From Coq Require Import ZArith Reals Lia Permutation Sorted.
Local Open Scope list_scope.

Section any.
Context {K : Type}.
Definition emap (ev : AlgModel.event K) : AlgModel.event (wkernel K) :=
  match ev with
  | AlgModel.EKernel k it st => AlgModel.EKernel (Then k) it st
  | AlgModel.EWrite f a => AlgModel.EWrite f a
  | AlgModel.EMonitor i => AlgModel.EMonitor i
  | AlgModel.EUndefined => AlgModel.EUndefined
  end.
Lemma at_emap : forall it st (ks : list K), AlgSpec.at_ it st (map Then ks) = map emap (AlgSpec.at_ it st ks).
Proof. intros. unfold AlgSpec.at_. rewrite !map_map. reflexivity. Qed.
Lemma flat_emap : forall (A : Type) (f : A -> list (AlgModel.event (wkernel K))) g l, (forall a, f a = map emap (g a)) -> flat_map f l = map emap (flat_map g l).
Proof. intros A f g l H. induction l as [|a l IH]; auto. cbn. rewrite map_app, H, IH. reflexivity. Qed.
Lemma trace_emap : forall bf (bc sta sp adv inn en aft : list K) nst niter mon rqs,
  AlgSpec.program_trace (AlgSpec.Build_phases bf (map Then bc) (map Then sta) (map Then sp) (map Then adv) (map Then inn) (map Then en) (map Then aft)) nst niter mon rqs =
  AlgSpec.at_ None None bf ++ map emap (AlgSpec.program_trace (AlgSpec.Build_phases [] bc sta sp adv inn en aft) nst niter mon rqs).
Proof.
  intros. unfold AlgSpec.program_trace. cbn [AlgSpec.p_before AlgSpec.p_after]. f_equal. cbn [AlgSpec.at_ map app].
  rewrite !map_app. f_equal; [|f_equal].
  - apply flat_emap. intros it. unfold AlgSpec.step. cbn [AlgSpec.p_bc AlgSpec.p_start AlgSpec.p_spatial AlgSpec.p_advance AlgSpec.p_in AlgSpec.p_end].
    rewrite !map_app, <- !at_emap, !map_app. f_equal. f_equal; [|f_equal; f_equal; [|f_equal]].
    + apply flat_emap. intros st. rewrite <- at_emap, !map_app. reflexivity.
    + unfold AlgSpec.monitored. destruct mon; auto. destruct (_ || _); auto.
    + apply flat_emap. intros r. unfold AlgSpec.written_in. destruct (_ && _); auto.
  - apply at_emap.
  - apply flat_emap. intros r. unfold AlgSpec.written_at_end. destruct (AlgSpec.is_write r); auto.
Qed.
Section run.
Variables (J : interp R) (truth : R -> bool) (spread : list (Z * Z) -> list (list Z)) (runk : memory -> K -> option Z -> memory).
Definition run_event (M : memory) (ev : AlgModel.event K) : memory := match ev with AlgModel.EKernel x _ stage => runk M x stage | _ => M end.
Lemma run_emap : forall tr M, run_wprogram J truth spread runk (map emap tr) M = fold_left run_event tr M.
Proof.
  induction tr as [|ev tr IH]; intros M; [reflexivity|]. unfold run_wprogram in *. cbn [map fold_left]. rewrite IH. f_equal. destruct ev; reflexivity.
Qed.
Lemma run_inits : forall sizes gs M,
  run_wprogram J truth spread runk (AlgSpec.at_ None None (map (fun g => First (init_kernel sizes g)) gs)) M =
  fold_left (fun M g => run_ikernel J truth (gi_eqs g) (spread (ik_range (init_kernel sizes g))) M) gs M.
Proof.
  induction gs as [|g gs IH]; intros M; [reflexivity|]. unfold run_wprogram in *. cbn [map AlgSpec.at_ fold_left run_wevent]. exact (IH _).
Qed.
End run.

Definition first_ns (sizes : list Z) (g : gridinit) : AlgModel.nonsim (wkernel K) :=
  {| AlgModel.ns_order := order_of_init g; AlgModel.ns_places := [AlgModel.PBefore]; AlgModel.ns_kernels := [First (init_kernel sizes g)] |}.
Lemma kernels_init : forall sizes gs,
  AlgSpec.kernels_at AlgModel.PBefore (map (first_ns sizes) gs) = map (fun g => First (init_kernel sizes g)) gs /\
  AlgSpec.kernels_at (AlgModel.PIn 0) (map (first_ns sizes) gs) = [] /\ AlgSpec.kernels_at AlgModel.PAfter (map (first_ns sizes) gs) = [].
Proof.
  intros sizes gs. induction gs as [|g gs (A & B & C)]; [auto|]. split; [|split].
  - change (First (init_kernel sizes g) :: AlgSpec.kernels_at AlgModel.PBefore (map (first_ns sizes) gs) = map (fun g => First (init_kernel sizes g)) (g :: gs)). rewrite A. reflexivity.
  - exact B.
  - exact C.
Qed.
Lemma nonsims_init : forall sizes gs, AlgSpec.nonsims (map (@first_class K sizes) gs) = map (first_ns sizes) gs.
Proof. intros sizes gs. induction gs as [|g gs IH]; auto. cbn. f_equal. exact IH. Qed.
Lemma sims_init : forall sizes gs, AlgSpec.sims (map (@first_class K sizes) gs) = [].
Proof. intros sizes gs. induction gs as [|g gs IH]; auto. Qed.
Lemma sorted_map : forall sizes gs, StronglySorted (fun x y => (AlgModel.ns_order x <= AlgModel.ns_order y)%Z) (map (first_ns sizes) gs) ->
  StronglySorted (fun g g' => (number_of g <= number_of g')%Z) gs.
Proof.
  assert (N : forall g, order_of_init g = number_of g).
  { intros g. unfold order_of_init, number_of. destruct (gi_order g) as [o|]; auto. destruct (o =? 0)%Z eqn:E; auto. lia. }
  intros sizes gs. induction gs as [|g gs IH]; intros H; [constructor|]. inversion H as [|? ? H1 H2]; subst. constructor; auto.
  apply Forall_forall. intros g' Hg. rewrite Forall_forall in H2. rewrite <- !N. apply (H2 (first_ns sizes g')). apply in_map. auto.
Qed.

Lemma split_program : forall arrange sizes inits (b : AlgModel.block K) sc s nst mon rqs prg,
  (forall l, Permutation l (arrange l)) ->
  AlgModel.bk_schemes b = [sc] -> AlgModel.sc_iter sc = AlgModel.SNiter -> AlgModel.sc_stage sc = AlgModel.SNum nst ->
  AlgModel.sc_solution sc = [AlgModel.EqConstituent; AlgModel.EqSim s] -> AlgProps.made_from rqs (AlgModel.bk_io b) ->
  AlgModel.generate_solution (with_inits arrange sizes inits b) mon = Ok prg ->
  exists prg0, AlgModel.generate_solution b mon = Ok prg0 /\
    forall niter, exists gs, (Permutation inits gs /\ StronglySorted (fun g g' => (number_of g <= number_of g')%Z) gs) /\
    forall J truth spread runk M,
      run_wprogram J truth spread runk (AlgModel.execute niter prg) M =
      fold_left (run_event runk) (AlgModel.execute niter prg0)
        (fold_left (fun M g => run_ikernel J truth (gi_eqs g) (spread (ik_range (init_kernel sizes g))) M) gs M).
Proof.
  intros arrange sizes inits b sc s nst mon rqs prg Ha Hsc Hit Hst Hsol Hio Hprg.
  set (L := map then_class (AlgModel.sc_solution sc) ++ map (first_class sizes) inits).
  set (sc' := {| AlgModel.sc_class := AlgModel.sc_class sc; AlgModel.sc_stage := AlgModel.sc_stage sc; AlgModel.sc_iter := AlgModel.sc_iter sc; AlgModel.sc_solution := arrange L |}).
  assert (Hsc' : AlgModel.bk_schemes (with_inits arrange sizes inits b) = [sc']) by (unfold with_inits; cbn [AlgModel.bk_schemes]; rewrite Hsc; reflexivity).
  pose proof (Ha L) as PL.
  destruct (proj1 (AlgProps.C56_accepted _ (with_inits arrange sizes inits b) sc' mon rqs Hsc' Hio) (ex_intro _ prg Hprg)) as (_ & _ & Vr).
  assert (G0 : exists prg0, AlgModel.generate_solution b mon = Ok prg0).
  { apply (AlgProps.C56_accepted K b sc mon rqs Hsc Hio). rewrite Hsol. split; [|split].
    - intros e [<- | [<- | []]]; discriminate.
    - intros nn f [].
    - exact Vr. }
  destruct G0 as (prg0 & G0). exists prg0. split; auto.
  assert (SL : AlgSpec.sims L = [{| AlgModel.sq_start := map Then (AlgModel.sq_start s); AlgModel.sq_end := map Then (AlgModel.sq_end s);
      AlgModel.sq_advance := map Then (AlgModel.sq_advance s); AlgModel.sq_bc := map Then (AlgModel.sq_bc s); AlgModel.sq_spatial := map Then (AlgModel.sq_spatial s) |}]).
  { unfold L. rewrite Hsol. cbn [map then_class app AlgSpec.sims flat_map]. fold (AlgSpec.sims (map (@first_class K sizes) inits)). rewrite sims_init. reflexivity. }
  assert (Sm : AlgSpec.sims (arrange L) = AlgSpec.sims L).
  { assert (P : Permutation (AlgSpec.sims L) (AlgSpec.sims (arrange L))) by (apply Permutation_flat_map; auto).
    rewrite SL in P |- *. apply Permutation_length_1_inv in P. exact P. }
  assert (Sn : Permutation (map (first_ns sizes) inits) (AlgSpec.nonsims (arrange L))).
  { rewrite <- nonsims_init. replace (AlgSpec.nonsims (map (first_class sizes) inits)) with (AlgSpec.nonsims L) by (unfold L; rewrite Hsol; reflexivity). apply Permutation_flat_map. auto. }
  intros niter.
  destruct (AlgProps.C17_time_loop _ (with_inits arrange sizes inits b) sc' _ mon rqs prg nst niter Hsc' Hit Hst (eq_trans Sm SL) Hio Hprg) as (ns & (Pn & Sns & _) & E).
  cbn [AlgModel.sc_solution sc'] in Pn.
  destruct (Permutation_map_inv (first_ns sizes) inits (Permutation_sym (Permutation_trans Sn Pn))) as (gs & -> & Pg).
  exists gs. split; [split; [exact Pg | apply (sorted_map sizes); exact Sns]|].
  intros J truth spread runk M. destruct (kernels_init sizes gs) as (K1 & K2 & K3). rewrite K1, K2, K3 in E. rewrite E.
  change (@nil (wkernel K)) with (map (@Then K) []). cbn [AlgModel.sq_bc AlgModel.sq_start AlgModel.sq_spatial AlgModel.sq_advance AlgModel.sq_end].
  rewrite trace_emap. unfold run_wprogram. rewrite fold_left_app.
  match goal with |- fold_left ?f (map emap ?tr) (fold_left ?f ?t M) = ?rhs =>
    change (run_wprogram J truth spread runk (map emap tr) (run_wprogram J truth spread runk t M) = rhs) end.
  rewrite run_emap, run_inits. f_equal.
  destruct (AlgProps.C17_time_loop K b sc s mon rqs prg0 nst niter Hsc Hit Hst ltac:(rewrite Hsol; reflexivity) Hio G0) as (ns & Hns & E0).
  destruct Hns as (Pn0 & _). rewrite Hsol in Pn0. cbn in Pn0. apply Permutation_nil in Pn0. subst ns. symmetry. exact E0.
Qed.
End any.
