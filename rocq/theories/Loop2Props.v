(* C85: programs with shock capturing and boundary conditions compute the same whatever the
   order in which the loops visit their points. *)
From Verif Require Import Base BaseProofs Expr ExprProofs FDModel WorkModel ShiftSpec ShiftProofs DiscModel DiscSpec DiscProofs DiscRun DiscMain DiscProps
  LLFModel ProgModel ProgSpec ProgProofs ProgProps HybModel HybSpec HybProofs HybMore HybProps CapModel CapSpec CapProofs CapMore CapProps.
From Verif Require InvSpec AdvModel AdvSpec AlgModel AlgSpec AlgProps OrdModel BCModel BC2Props BCIsoProps RKModel RKSpec WenoModel.
From Verif Require Import BCSpec BCGasSpec BC2Spec BndModel BndSpec BndExist OneModel SideModel SideSpec FaceModel FaceSpec FaceTime FaceProps ShkModel ShkSpec ShkProps
  LoopModel LoopProofs Loop2Model Loop2Proofs Loop2Prog.
From Coq Require Import QArith ZArith Reals Lia Lra Permutation List.
Import ListNotations.
Local Close Scope Q_scope.
Local Open Scope list_scope.

(* Every launch of a kernel visits each point of its range exactly once, in any order. *)
Definition any_order_of (k : nat) (sizes : list Z) (order : nat -> gkernel -> list (list Z)) : Prop :=
  forall n x, sweeps (order n x) (fun y => points_of k sizes x y = true).

(* C85: programs with shock capturing and periodic boundaries. *)
Theorem C85_capturing_any_order : forall ts ab J k sh central dirof h fluxes sizes sys crs prg,
  coefficients ts = Ok ab -> shock_generated ts J k sh central dirof h fluxes sizes sys crs prg ->
  forall sch g av order dt niter M v x, any_order_of k sizes order ->
    loop_gprogram J sizes sch g av (map fst sys) dt ab kind_of order (AlgModel.execute niter prg) 0 M v x =
    run_capturing J k sizes sch g av (map fst sys) dt ab (AlgModel.execute niter prg) M v x.
Proof.
  intros ts ab J k sh central dirof h fluxes sizes sys crs prg Hab
    (HJ & Hs0 & Hsup & Hsz0 & inv & dord & sord & worder & num & kord & coordinate & known & vcds & datasets & ios & rqs & mon & blk &
     Hinv & Hdord & Hperm & Hinner & Hw & Hnum & Hkord & PP & HV & Hcen & Hio & Hblk & Hprg) sch g av order dt niter M v x HO.
  rewrite width_reach in PP.
  assert (Hdim : List.length sizes <> 0%nat) by (destruct sizes; cbn; congruence).
  unfold capturing_block in Hblk. rewrite Hab in Hblk. cbn [bind] in Hblk.
  destruct (capturing_kernels k sh central sizes dirof inv dord sord worder num kord (map fst sys) crs known vcds (disc_eqs sys)) as [(cs, ks)|] eqn:Esp; [|discriminate].
  cbn [bind fst snd] in Hblk. injection Hblk as Hblk.
  assert (TR : AlgModel.execute niter prg =
    AlgSpec.program_trace (CapProofs.phase k sh central sizes sys cs ks (match ts with LS _ _ => [] | SBLI _ => [Step (SaveOld (adv_eqs sys))] end)
        (match ts with LS _ _ => [Step (LowStorage (adv_eqs sys))] | SBLI _ => [Step (SbliUpdate (adv_eqs sys))] end))
      (Z.of_nat (List.length (fst ab))) niter mon rqs).
  { pose proof (AlgProps.C17_time_loop ckernel blk) as X. rewrite <- Hblk in X, Hprg. cbn [AlgModel.bk_schemes AlgModel.bk_io] in X.
    destruct (X _ _ mon rqs prg (Z.of_nat (List.length (fst ab))) niter eq_refl eq_refl eq_refl eq_refl Hio Hprg) as (ns & Hns & E).
    destruct Hns as (Pn & _). cbn in Pn. apply Permutation_nil in Pn. subst ns. exact E. }
  rewrite TR. clear TR. rewrite (gprogram_any J k sizes sch g av (map fst sys) dt ab sweep sweep_ok ckernel kind_of order HO).
  - unfold run_capturing. match goal with |- context[AlgSpec.program_trace ?a ?b ?c ?d ?e] => generalize (AlgSpec.program_trace a b c d e) end.
    intros tr. revert M. induction tr as [|ev tr IH]; intros M; [reflexivity|]. cbn [fold_left]. rewrite IH.
    destruct ev as [y it st | | |]; try reflexivity. destruct y as [r | kn | pk]; reflexivity.
  - intros y it st Hy. apply trace_kernels2 in Hy; [|reflexivity..]. cbn [CapProofs.phase AlgSpec.p_bc AlgSpec.p_start AlgSpec.p_spatial AlgSpec.p_advance] in Hy.
    unfold capturing_kernels in Esp. destruct (hybrid_discretise k (List.length sizes) dirof inv dord sord worder [] vcds (spatial_schemes central) (disc_eqs sys)) as [ks0|] eqn:Eh; [|discriminate].
    cbn [bind] in Esp. destruct (OrdModel.sort_constituents rkernel OrdModel.max_passes _ _) as [cs0|] eqn:Ecs in Esp; [|discriminate]. cbn [bind] in Esp. injection Esp as -> ->.
    rewrite !in_app_iff in Hy. destruct Hy as [Hy | [Hy | [[Hy | Hy] | Hy]]].
    + apply in_map_iff in Hy. destruct Hy as (e & <- & _). exact I.
    + destruct ts; [contradiction|]. destruct Hy as [<- | []]. exact I.
    + apply in_map_iff in Hy. destruct Hy as (r & <- & Hr). cbn [kind_of].
      exact (relations_own J k sh central dirof worder num kord sizes coordinate fluxes sys crs known vcds (register_of ts) Hnum Hkord Hdim PP Hcen g av sch _ cs Ecs r Hr).
    + apply in_map_iff in Hy. destruct Hy as (kn & <- & Hk). cbn [kind_of].
      exact (hybrid_own J k sh central dirof inv dord sord worder h sizes coordinate fluxes sys crs known vcds (register_of ts) Hinv Hdord Hw Hdim PP HV Hcen g av sch ks Eh kn Hk).
    + destruct ts; destruct Hy as [<- | []]; exact I.
Qed.
Print Assumptions C85_capturing_any_order.

(* C85: programs with shock capturing and any of the boundary conditions. *)
Theorem C85_bounded_any_order : forall ts ab J k sh central dirof h fluxes sizes fs g types sys crs prg,
  coefficients ts = Ok ab -> bounded_shock_generated ts J k sh central dirof h fluxes sizes fs g types sys crs prg ->
  forall sch gamma av points order dt niter M v x, all_points points -> any_order_of k sizes order ->
    loop_gprogram J sizes sch gamma av (map fst sys) dt ab (fun x => x) order (AlgModel.execute niter prg) 0 M v x =
    run_gprogram J k sizes sch gamma av (map fst sys) dt ab points (AlgModel.execute niter prg) M v x.
Proof.
  intros ts ab J k sh central dirof h fluxes sizes fs g types sys crs prg Hab (HF & Hs0 & Hsup & FB & Hfs & inv & dord & sord & worder & num & kord & coordinate & known & vcds & datasets & ios & rqs & mon & ord & blk &
    Hinv & Hdord & Hperm & Hinner & Hw & Hnum & Hkord & PP & HV & Hcen & Hio & Hord & Hblk & Hprg) sch gamma av points order dt niter M v x Hp HO.
  rewrite width_reach in PP.
  assert (Hdim : List.length sizes <> 0%nat) by (destruct sizes; cbn; congruence).
  unfold bounded_shock_block in Hblk. rewrite Hab in Hblk. cbn [bind] in Hblk.
  destruct (bounded_kernels k sh central sizes (schemes_of types) dirof inv dord sord worder num kord (map fst sys) crs known vcds (disc_eqs sys)) as [((cs, k1), k2)|] eqn:Esp; [|discriminate].
  cbn [bind fst snd] in Hblk.
  destruct (apply_conditions true ord sizes (capturing_halos k sh central sizes) (arrays_of (List.length sizes) fs) g 0 types) as [bcs|] eqn:Ebc; [|discriminate].
  cbn [bind] in Hblk. injection Hblk as Hblk.
  assert (TR : AlgModel.execute niter prg = AlgSpec.program_trace (fphase ts sys gkernel Ordinary (map Constituent cs ++ map Capture k1 ++ map (fun s => Ordinary (Difference s)) k2) (map Ordinary bcs))
    (Z.of_nat (List.length (fst ab))) niter mon rqs).
  { pose proof (AlgProps.C17_time_loop gkernel blk) as X. rewrite <- Hblk in X, Hprg. cbn [AlgModel.bk_schemes AlgModel.bk_io] in X.
    destruct (X _ _ mon rqs prg (Z.of_nat (List.length (fst ab))) niter eq_refl eq_refl eq_refl eq_refl Hio Hprg) as (ns & Hns & E).
    destruct Hns as (Pn & _). cbn in Pn. apply Permutation_nil in Pn. subst ns. rewrite E. unfold fphase. destruct ts; reflexivity. }
  rewrite TR. clear TR. rewrite (gprogram_any J k sizes sch gamma av (map fst sys) dt ab points Hp gkernel (fun x => x) order HO).
  - reflexivity.
  - intros y it st Hy. apply trace_kernels2 in Hy; [|reflexivity..]. cbn [fphase AlgSpec.p_bc AlgSpec.p_start AlgSpec.p_spatial AlgSpec.p_advance] in Hy.
    unfold bounded_kernels in Esp. cbv zeta in Esp. destruct (shock_discretise (List.length sizes) dirof inv worder (disc_eqs sys)) as [k10|] eqn:E1; [|discriminate]. cbn [bind] in Esp.
    destruct (if central then _ else _) as [k20|] eqn:E2 in Esp; [|discriminate]. cbn [bind] in Esp.
    destruct (OrdModel.sort_constituents rkernel OrdModel.max_passes _ _) as [cs0|] eqn:Ecs in Esp; [|discriminate]. cbn [bind] in Esp. injection Esp as -> -> ->.
    rewrite !in_app_iff in Hy. destruct Hy as [Hy | [Hy | [[Hy | [Hy | Hy]] | Hy]]].
    + apply in_map_iff in Hy. destruct Hy as (b & <- & Hb). refine (conditions_loop J sizes sch gamma av (map fst sys) true ord _ fs g Hord _ types 0 bcs _ (fb_data _ _ _ _ _ FB) Ebc b Hb).
      * unfold capturing_halos. destruct central; apply repeat_length.
      * rewrite (fb_count _ _ _ _ _ FB). auto.
    + destruct ts; [contradiction|]. destruct Hy as [<- | []]. exact I.
    + apply in_map_iff in Hy. destruct Hy as (r & <- & Hr).
      exact (relations_own J k sh central dirof worder num kord sizes coordinate fluxes sys crs known vcds (register_of ts) Hnum Hkord Hdim PP Hcen gamma av sch _ cs Ecs r Hr).
    + apply in_map_iff in Hy. destruct Hy as (kn & <- & Hk).
      exact (capture_own J k sh dirof inv worder h sizes coordinate fluxes sys crs known (register_of ts) Hinv Hw Hdim PP gamma av sch k1 E1 kn Hk).
    + apply in_map_iff in Hy. destruct Hy as (s & <- & Hs). destruct central; [|injection E2 as <-; contradiction].
      exact (central_own J k sh dirof inv dord sord h sizes coordinate fluxes sys crs known vcds (register_of ts) Hinv Hdord PP HV _ k2 E2 s Hs).
    + destruct ts; destruct Hy as [<- | []]; exact I.
Qed.
Print Assumptions C85_bounded_any_order.

(* C85: programs with central differences, one-sided formulas and any of the boundary
   conditions. *)
Theorem C85_faces_any_order : forall ts ab J k dirof h sizes fs g types sys crs prg,
  coefficients ts = Ok ab -> face_generated ts J k dirof h sizes fs g types sys crs prg ->
  forall sch gamma av solution points order dt niter M v x, all_points points -> any_order_of k sizes order ->
    loop_gprogram J sizes sch gamma av solution dt ab Ordinary order (AlgModel.execute niter prg) 0 M v x =
    run_fprogram J k sizes dt ab points (AlgModel.execute niter prg) M v x.
Proof.
  intros ts ab J k dirof h sizes fs g types sys crs prg Hab (HF & FB & Hfs & inv & dord & sord & num & kord & known & ccds & vcds & datasets & ios & rqs & mon & ord & blk &
    Hinv & Hdord & Hperm & Hinner & Hnum & Hkord & PP & HC & HV & Nc & Nv & Hio & Hord & Hblk & Hprg) sch gamma av solution points order dt niter M v x Hp HO.
  unfold face_block in Hblk. rewrite Hab in Hblk. cbn [bind] in Hblk.
  destruct (all_spatial_kernels1 k (List.length sizes) dirof inv dord sord num kord sizes (schemes_of types) crs (map fst sys ++ known) ccds vcds (disc_eqs sys)) as [sp|] eqn:Esp; [|discriminate].
  cbn [bind] in Hblk.
  destruct (apply_conditions false ord sizes (block_halos k (List.length sizes)) (arrays_of (List.length sizes) fs) g 0 types) as [bcs|] eqn:Ebc; [|discriminate].
  cbn [bind] in Hblk. injection Hblk as Hblk.
  assert (TR : AlgModel.execute niter prg = AlgSpec.program_trace (fphase ts sys fkernel (fun x => x) (map Difference sp) bcs) (Z.of_nat (List.length (fst ab))) niter mon rqs).
  { pose proof (AlgProps.C17_time_loop fkernel blk) as X. rewrite <- Hblk in X, Hprg. cbn [AlgModel.bk_schemes AlgModel.bk_io] in X.
    destruct (X _ _ mon rqs prg (Z.of_nat (List.length (fst ab))) niter eq_refl eq_refl eq_refl eq_refl Hio Hprg) as (ns & Hns & E).
    destruct Hns as (Pn & _). cbn in Pn. apply Permutation_nil in Pn. subst ns. exact E. }
  rewrite TR. clear TR. rewrite (gprogram_any J k sizes sch gamma av solution dt ab points Hp fkernel Ordinary order HO).
  - reflexivity.
  - intros y it st Hy. apply trace_kernels2 in Hy; [|reflexivity..]. cbn [fphase AlgSpec.p_bc AlgSpec.p_start AlgSpec.p_spatial AlgSpec.p_advance] in Hy.
    rewrite !in_app_iff in Hy. destruct Hy as [Hy | [Hy | [Hy | Hy]]].
    + refine (conditions_loop J sizes sch gamma av solution false ord _ fs g Hord _ types 0 bcs _ (fb_data _ _ _ _ _ FB) Ebc y Hy).
      * apply repeat_length.
      * rewrite (fb_count _ _ _ _ _ FB). auto.
    + destruct ts; [contradiction|]. destruct Hy as [<- | []]. exact I.
    + apply in_map_iff in Hy. destruct Hy as (s & <- & Hs).
      exact (face_own J k dirof inv dord sord num kord h sizes (schemes_of types) sys crs known ccds vcds (register_of ts) Hinv Hdord Hnum Hkord PP HC HV sp Esp s Hs).
    + destruct ts; destruct Hy as [<- | []]; exact I.
Qed.
Print Assumptions C85_faces_any_order.

(* C85, the consequence for C81: with every order of the points, the loops take that many
   steps of an explicit Runge-Kutta method of the order of the time scheme. *)
Theorem C85_capturing_program_partial : forall ts ab, coefficients ts = Ok ab ->
  exists rows b, RKSpec.explicit rows b /\ order_of ts rows b /\
  forall J k sh central dirof h g av fluxes sizes sys crs prg order dt niter f M,
    shock_generated ts J k sh central dirof h fluxes sizes sys crs prg ->
    shock_semi_discrete J k dirof h (order_scheme sh) g av fluxes sizes sys crs M f ->
    any_order_of k sizes order ->
    let M' := loop_gprogram J sizes (recon sh) g av (map fst sys) dt ab kind_of order (AlgModel.execute niter prg) 0 M in
    (forall v x, In v (map fst sys) -> grid_point sizes x ->
       M' v x = RKSpec.iterate (Z.to_nat niter) (RKSpec.runge_kutta rows b dt f) (fun i => M (fst i) (snd i)) (v, x)) /\
    (forall a y, InvSpec.given ts sys crs a -> M' a y = M a y).
Proof.
  intros ts ab Hab. destruct (C81_program_partial ts ab Hab) as (rows & b & A & B & C). exists rows, b. split; [exact A|]. split; [exact B|].
  intros J k sh central dirof h g av fluxes sizes sys crs prg order dt niter f M G F HO M'.
  destruct (C J k sh central dirof h g av fluxes sizes sys crs prg dt niter f M G F) as [X Y].
  assert (E : forall v x, M' v x = run_capturing J k sizes (recon sh) g av (map fst sys) dt ab (AlgModel.execute niter prg) M v x).
  { intros v x. exact (C85_capturing_any_order ts ab J k sh central dirof h fluxes sizes sys crs prg Hab G (recon sh) g av order dt niter M v x HO). }
  split; intros v x; rewrite E; [apply X | apply Y].
Qed.
Print Assumptions C85_capturing_program_partial.

(* C85, the consequence for C82 and C80: with every order of the points, the loops take that
   many steps of the time scheme, in each of which the conditions are imposed. *)
Theorem C85_bounded_program_partial : forall ts ab J k sh central dirof h fluxes sizes fs g types sys crs prg,
  coefficients ts = Ok ab -> bounded_shock_generated ts J k sh central dirof h fluxes sizes fs g types sys crs prg -> not_circular crs ->
  forall gamma av order dt niter M, any_order_of k sizes order ->
  exists M', (forall v x, M' v x = loop_gprogram J sizes (recon sh) gamma av (map fst sys) dt ab (fun x => x) order (AlgModel.execute niter prg) 0 M v x) /\
    steps J (halo_layers sh k central) true sizes fs g types ts sys crs dt
      (shock_right_hand_sides J k sh central gamma av dirof h fluxes sizes types sys crs) (Z.to_nat niter) ab M M' /\
    forall a y, BndSpec.given (register_of ts) sys crs a -> M' a y = M a y.
Proof.
  intros ts ab J k sh central dirof h fluxes sizes fs g types sys crs prg Hab G Hn gamma av order dt niter M HO.
  exists (run_gprogram J k sizes (recon sh) gamma av (map fst sys) dt ab sweep (AlgModel.execute niter prg) M). split.
  - intros v x. symmetry. exact (C85_bounded_any_order ts ab J k sh central dirof h fluxes sizes fs g types sys crs prg Hab G (recon sh) gamma av sweep order dt niter M v x sweep_ok HO).
  - exact (C82_program_partial ts ab J k sh central dirof h fluxes sizes fs g types sys crs prg Hab G Hn gamma av sweep dt niter M sweep_ok).
Qed.
Print Assumptions C85_bounded_program_partial.
Theorem C85_faces_program_partial : forall ts ab J k dirof h sizes fs g types sys crs prg,
  coefficients ts = Ok ab -> face_generated ts J k dirof h sizes fs g types sys crs prg -> not_circular crs ->
  forall sch gamma av solution order dt niter M, any_order_of k sizes order ->
  exists M', (forall v x, M' v x = loop_gprogram J sizes sch gamma av solution dt ab Ordinary order (AlgModel.execute niter prg) 0 M v x) /\
    steps J (fun _ => k) false sizes fs g types ts sys crs dt (right_hand_sides J k dirof h sizes types sys crs) (Z.to_nat niter) ab M M' /\
    forall a y, BndSpec.given (register_of ts) sys crs a -> M' a y = M a y.
Proof.
  intros ts ab J k dirof h sizes fs g types sys crs prg Hab G Hn sch gamma av solution order dt niter M HO.
  exists (run_fprogram J k sizes dt ab sweep (AlgModel.execute niter prg) M). split.
  - intros v x. symmetry. exact (C85_faces_any_order ts ab J k dirof h sizes fs g types sys crs prg Hab G sch gamma av solution sweep order dt niter M v x sweep_ok HO).
  - exact (C80_program_partial ts ab J k dirof h sizes fs g types sys crs prg Hab G Hn sweep dt niter M sweep_ok).
Qed.
Print Assumptions C85_faces_program_partial.

(* ---- the hypotheses can be met ---- *)
(* forwards in even launches, backwards in odd ones *)
Definition whole (k : nat) (sizes : list Z) (x : gkernel) : list (list Z) :=
  let near e ext := filter (in_range e sizes ext) (box (map (fun n => (- Z.of_nat e, n + Z.of_nat e)%Z) sizes)) in
  match x with
  | Constituent (_, _, ranges) => box ranges
  | Capture (HRec d _ _) => near 1%nat [d]
  | Capture (HKer kn) => near k (k_ext kn)
  | Ordinary (Difference s) => near k (sk_ext s)
  | Ordinary (Other (Inner pk)) => near k (range_of pk)
  | Ordinary (Other (Wall bk)) => sweep bk
  end.
Definition to_and_fro (k : nat) (sizes : list Z) (n : nat) (x : gkernel) : list (list Z) :=
  if Nat.even n then whole k sizes x else rev (whole k sizes x).
Lemma within_box : forall ranges y, In y (box ranges) <-> within ranges y = true.
Proof.
  intros ranges y. rewrite box_in. revert y. induction ranges as [|[lo hi] r IH]; intros [|i y]; cbn [within List.length combine forallb Nat.eqb andb]; try (split; congruence).
  specialize (IH y). rewrite andb_true_iff in *. rewrite !andb_true_iff in *. tauto.
Qed.
Lemma near_ok : forall e sizes ext, sweeps (filter (in_range e sizes ext) (box (map (fun n => (- Z.of_nat e, n + Z.of_nat e)%Z) sizes))) (fun y => in_range e sizes ext y = true).
Proof.
  intros e sizes ext. split; [apply NoDup_filter, box_nodup|]. intros y. rewrite filter_In. split; [tauto|]. intros H. split; auto.
  apply within_box, within_iff. unfold in_range in H. apply andb_true_iff in H. destruct H as [L F]. apply Nat.eqb_eq in L. rewrite map_length. split; auto.
  intros d lo hi Hn. assert (Hd : (d < List.length sizes)%nat) by (rewrite <- (map_length (fun n => (- Z.of_nat e, n + Z.of_nat e)%Z)); apply nth_error_Some; congruence).
  rewrite nth_error_map, (nth_error_nth' sizes 0%Z Hd) in Hn. cbn in Hn. injection Hn as <- <-.
  rewrite forallb_forall in F. specialize (F d). rewrite andb_true_iff, Z.leb_le, Z.ltb_lt in F. destruct (existsb (Nat.eqb d) ext); specialize (F ltac:(apply in_seq; lia)); lia.
Qed.
Lemma to_and_fro_ok : forall k sizes, any_order_of k sizes (to_and_fro k sizes).
Proof.
  intros k sizes n x.
  assert (W : sweeps (whole k sizes x) (fun y => points_of k sizes x y = true)).
  { destruct x as [[[b e] ranges] | [d works fl | kn] | [[bk | pk] | s]]; cbn [whole points_of]; try apply near_ok.
    - split; [apply box_nodup | apply within_box].
    - apply sweep_ok. }
  unfold to_and_fro. destruct (Nat.even n); auto. destruct W as [N H]. split; [apply NoDup_rev; auto|]. intros y. rewrite <- in_rev. apply H.
Qed.
(* The programs of C81, C82 and C80 are generated; the orders differ between launches; the
   wall of C82 keeps zero momentum.  For a kernel that reads what it writes at another point
   the order does matter, also on a boundary. *)
Example C85_nonvacuous :
  hd [] (to_and_fro 2 [20]%Z 0 (Capture (HRec 0 [] []))) = [-1]%Z /\ hd [] (to_and_fro 2 [20]%Z 1 (Capture (HRec 0 [] []))) = [20]%Z /\
  any_order_of 2 [20]%Z (to_and_fro 2 [20]%Z) /\ any_order_of 2 [10; 8]%Z (to_and_fro 2 [10; 8]%Z) /\
  (exists prg, shock_generated (LS 3 RKModel.Standard) J1 2 weno5 true dir3 (fun _ => 1%R) hy_fluxes (map Z.of_nat [20%nat]) cap_sys cap_crs prg) /\
  (exists blk prg, tube_block = Ok blk /\ AlgModel.generate_solution blk None = Ok prg /\
    bounded_shock_generated (LS 3 RKModel.Standard) BC2Props.fullJ 2 weno5 true dir3 (fun _ => 1%R) hy_fluxes [20]%Z tube_fields tube_gas tube_types cap_sys cap_crs prg /\
    forall dt niter M, (0 < niter)%Z ->
      loop_gprogram BC2Props.fullJ [20]%Z (recon weno5) (7/5) Roe ["rho"; "rhou0"; "rhoE"]%string dt ([0; -5/9; -153/128], [1/3; 15/16; 8/15])%R (fun x => x) (to_and_fro 2 [20]%Z)
        (AlgModel.execute niter prg) 0 M "rhou0"%string [19]%Z = 0%R) /\
  (exists blk prg, gas2_block gas2_types = Ok blk /\ AlgModel.generate_solution blk None = Ok prg /\
    face_generated (LS 3 RKModel.Standard) BC2Props.fullJ 2 dir3 (fun _ => 1%R) [10; 8]%Z gas2_fields gas2_gas gas2_types gas2 gas2_crs prg) /\
  (let kn := Constituent ("q"%string, EDat "q" [-1]%Z, [(0, 2)]%Z) in
   let loop n := loop_gkernel BC2Props.fullJ [20]%Z (recon weno5) (7/5) Roe [] 0 ([], []) (to_and_fro 2 [20]%Z n kn) (fun _ y => IZR (nth 0 y 0%Z)) kn None "q"%string [1]%Z in
   loop 0%nat = (-1)%R /\ loop 1%nat = 0%R) /\
  (let kn := Ordinary (Other (Wall {| BCModel.bk_ranges := [(0, 1); (0, 2)]%Z; BCModel.bk_halos := [([], []); ([], [])]; BCModel.bk_eqs := [KernelModel.KEq (EDat "q" [0; 0]%Z) (EDat "q" [0; -1]%Z)] |})) in
   let loop n := loop_gkernel BC2Props.fullJ [10; 8]%Z (recon weno5) (7/5) Roe [] 0 ([], []) (to_and_fro 2 [10; 8]%Z n kn) (fun _ y => IZR (nth 1 y 0%Z)) kn None "q"%string [0; 1]%Z in
   hd [] (to_and_fro 2 [10; 8]%Z 0 kn) = [0; 0]%Z /\ hd [] (to_and_fro 2 [10; 8]%Z 1 kn) = [0; 1]%Z /\ loop 0%nat = (-1)%R /\ loop 1%nat = 0%R).
Proof.
  split; [reflexivity|]. split; [reflexivity|]. split; [apply to_and_fro_ok|]. split; [apply to_and_fro_ok|].
  split. { destruct C81_nonvacuous as (prg & _ & G & _). exists prg. exact G. }
  split. { destruct C82_nonvacuous as (blk & prg & A & B & G & NC & P & Pr & C). exists blk, prg. split; [exact A|]. split; [exact B|]. split; [exact G|]. intros dt niter M Hi.
    etransitivity; [exact (C85_bounded_any_order (LS 3 RKModel.Standard) _ _ _ _ _ _ _ _ _ _ _ _ _ _ prg eq_refl G (recon weno5) (7/5)%R Roe sweep (to_and_fro 2 [20]%Z) dt niter M "rhou0"%string [19]%Z sweep_ok (to_and_fro_ok 2 [20]%Z))|].
    apply (C dt niter M 0%Z Hi). }
  split. { destruct C80_nonvacuous as (blk & prg & A & B & G & _). exists blk, prg. auto. }
  split. { cbv zeta. split; lazy; reflexivity. }
  cbv zeta. split; [|split; [|split]]; lazy; reflexivity.
Qed.
