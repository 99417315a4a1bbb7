(* C86: programs with shock capturing and boundary conditions read and write declared elements
   of the arrays only. *)
From Verif Require Import Base BaseProofs Expr ExprProofs FDModel WorkModel KernelModel ShiftSpec ShiftProofs DiscModel DiscSpec DiscProofs DiscRun DiscMain DiscProps
  LLFModel ProgModel ProgSpec ProgProofs ProgProps HybModel HybSpec HybProofs HybMore HybProps CapModel CapSpec CapProofs CapMore CapProps.
From Verif Require InvSpec AdvModel AdvSpec AlgModel AlgSpec AlgProps OrdModel BCModel BC2Props BCIsoProps RKModel RKSpec WenoModel LLFProofs.
From Verif Require Import BCSpec BCGasSpec BC2Spec BndModel BndSpec BndExist OneModel SideModel SideSpec FaceModel FaceSpec FaceTime FaceProps ShkModel ShkSpec ShkProps.
From Verif Require Loop2Model Loop2Proofs.
From Verif Require Import StoreModel StoreSpec StoreProofs StoreRun StoreShock Store2Spec Store2Run Store2Diff Store2Prog.
From Coq Require Import QArith ZArith Reals Lia Lra Permutation List.
Import ListNotations.
Local Close Scope Q_scope.
Local Close Scope R_scope.
Local Open Scope list_scope.

(* C86, central differences with one-sided formulas and any of the boundary conditions: up to
   order 10, if no array has a name that OpenSBLI gives no halo points, every kernel of the
   executed program reads and writes declared elements only. *)
Theorem C86_faces_partial :
  forall ts ab k dirof inv dord sord num kord sizes fs g types sys crs known ccds vcds datasets ios rqs mon ord blk prg niter,
    coefficients ts = Ok ab -> (k <= 5)%nat ->
    (forall d m, dsets (inv d m) = []) -> (forall e, enumerates (dord e) e) ->
    (forall a b, num a = num b -> a = b) -> (forall l, Permutation l (kord l)) ->
    face_boundaries (fun _ => k) sizes fs g types -> (forall v, In v (field_names fs) <-> In v (map fst sys)) ->
    periodic_problem (List.length sizes) dirof (register_of ts) sys crs known ->
    names_free sys crs -> data_free types ->
    lists_derivatives (disc_eqs sys) (fun t => ~ viscous_term t) ccds ->
    lists_derivatives (disc_eqs sys) viscous_term vcds ->
    AlgProps.made_from rqs ios -> good_order ord ->
    face_block k dirof inv dord sord num kord sizes ts sys crs known ccds vcds datasets ios ord (arrays_of (List.length sizes) fs) g types = Ok blk ->
    AlgModel.generate_solution blk mon = Ok prg ->
    (forall x it st sch solution b y, In (AlgModel.EKernel x it st) (AlgModel.execute niter prg) -> touched k sizes sch solution (Ordinary x) b y -> stored sizes b y = true) /\
    (forall J dt points, all_points points -> confined sizes (run_fprogram J k sizes dt ab points (AlgModel.execute niter prg))).
Proof.
  intros ts ab k dirof inv dord sord num kord sizes fs g types sys crs known ccds vcds datasets ios rqs mon ord blk prg niter
    Hab Hk Hinv Hdord Hnum Hkord FB Hfs PP Names Data HC HV Hio Hord Hblk Hprg.
  unfold face_block in Hblk. rewrite Hab in Hblk. cbn [bind] in Hblk.
  destruct (all_spatial_kernels1 k (List.length sizes) dirof inv dord sord num kord sizes (schemes_of types) crs (map fst sys ++ known) ccds vcds (disc_eqs sys)) as [sp|] eqn:Esp; [|discriminate].
  cbn [bind] in Hblk.
  destruct (apply_conditions false ord sizes (block_halos k (List.length sizes)) (arrays_of (List.length sizes) fs) g 0 types) as [bcs|] eqn:Ebc; [|discriminate].
  cbn [bind] in Hblk. injection Hblk as Hblk.
  assert (TR : AlgModel.execute niter prg = AlgSpec.program_trace (fphase ts sys fkernel (fun x => x) (map Difference sp) bcs) (Z.of_nat (List.length (fst ab))) niter mon rqs).
  { pose proof (AlgProps.C17_time_loop fkernel blk) as X. rewrite <- Hblk in X, Hprg. cbn [AlgModel.bk_schemes AlgModel.bk_io] in X.
    destruct (X _ _ mon rqs prg (Z.of_nat (List.length (fst ab))) niter eq_refl eq_refl eq_refl eq_refl Hio Hprg) as (ns & Hns & E).
    destruct Hns as (Pn & _). cbn in Pn. apply Permutation_nil in Pn. subst ns. exact E. }
  rewrite TR. clear TR.
  assert (Hsz : forall d, (d < List.length sizes)%nat -> (1 <= nth d sizes 0)%Z) by (intros d Hd; pose proof (fb_wide _ _ _ _ _ FB d Hd); lia).
  assert (Pf : forall b, In b (field_names fs) -> plain b).
  { intros b Hb. apply Hfs in Hb. apply in_map_iff in Hb. destruct Hb as ([c rhs] & E & Hb). cbn in E. subst c. apply plain_spec. apply (Names b rhs). apply in_app_iff. auto. }
  assert (X : forall sch solution x it st, In (AlgModel.EKernel x it st) (AlgSpec.program_trace (fphase ts sys fkernel (fun x => x) (map Difference sp) bcs) (Z.of_nat (List.length (fst ab))) niter mon rqs) ->
    inside_storage k sizes sch solution (Ordinary x) /\ Store2Run.proper sch (Ordinary x)).
  { intros sch solution x it st Hy. apply Loop2Proofs.trace_kernels2 in Hy; [|reflexivity..]. cbn [fphase AlgSpec.p_bc AlgSpec.p_start AlgSpec.p_spatial AlgSpec.p_advance] in Hy.
    rewrite !in_app_iff in Hy. destruct Hy as [Hy | [Hy | [Hy | Hy]]].
    + refine (conditions_stored k sizes sch solution false ord _ fs g Hord (central_halos_small k sizes Hk) Hsz Pf types 0 bcs _ (fb_data _ _ _ _ _ FB) _ Ebc x Hy).
      * rewrite (fb_count _ _ _ _ _ FB). auto.
      * intros l r Hin. split; [|intros b Hb; apply plain_spec; apply (Data l r b Hin Hb)].
        intros U b Hb. apply Pf. destruct (fb_gas _ _ _ _ _ FB l r Hin U) as (_ & I & _). apply I. auto.
    + destruct ts; [contradiction|]. destruct Hy as [<- | []]. apply (stepping_stored k sizes sch solution (adv_eqs sys)). auto.
    + apply in_map_iff in Hy. destruct Hy as (s & <- & Hs). split; [|exact I]. intros b y. apply difference_stored; auto.
      exact (face_stored k dirof inv dord sord num kord sizes (schemes_of types) sys crs known ccds vcds (register_of ts) Hsz Hinv Hdord Hnum Hkord PP Names HC HV sp Esp s Hs).
    + destruct ts; destruct Hy as [<- | []]; apply (stepping_stored k sizes sch solution (adv_eqs sys)); auto. }
  split.
  - intros x it st sch solution b y H. apply (X sch solution x it st H).
  - intros J dt points Hp M M' HM.
    pose proof (X (recon (Weno WenoModel.JS 5 1)) []) as X5. split; intros b y Hy.
    + exact (all_agree J k sizes _ 0%R Simple [] dt ab points Hp fkernel Ordinary _ X5 M M' HM b y Hy).
    + exact (all_frame J k sizes _ 0%R Simple [] dt ab points Hp fkernel Ordinary _ X5 M b y Hy).
Qed.
Print Assumptions C86_faces_partial.

(* C86, shock capturing and any of the boundary conditions: the same, for schemes that reach at
   most four points (WENO up to order 8, TENO of orders 5 and 6). *)
Theorem C86_bounded_partial :
  forall ts ab k sh central dirof inv dord sord worder num kord coordinate fluxes sizes fs g types sys crs known vcds datasets ios rqs mon ord blk prg niter,
    coefficients ts = Ok ab -> (k <= 5)%nat -> usable_scheme sh -> (width sh <= 4)%nat -> sizes <> [] ->
    (forall d m, dsets (inv d m) = []) -> (forall e, enumerates (dord e) e) -> (forall l, Permutation l (worder l)) ->
    (forall a b, num a = num b -> a = b) -> (forall l, Permutation l (kord l)) ->
    face_boundaries (halo_layers sh k central) sizes fs g types -> (forall v, In v (field_names fs) <-> In v (map fst sys)) ->
    shock_problem (List.length sizes) (width sh) k dirof (register_of ts) coordinate fluxes sys crs known ->
    names_free sys crs -> data_free types ->
    lists_derivatives (disc_eqs sys) viscous_term vcds -> (central = false -> vcds = []) ->
    AlgProps.made_from rqs ios -> good_order ord ->
    bounded_shock_block k sh central dirof inv dord sord worder num kord sizes ts sys crs known vcds datasets ios ord (arrays_of (List.length sizes) fs) g types = Ok blk ->
    AlgModel.generate_solution blk mon = Ok prg ->
    (forall x it st b y, In (AlgModel.EKernel x it st) (AlgModel.execute niter prg) -> touched k sizes (recon sh) (map fst sys) x b y -> stored sizes b y = true) /\
    (forall J gamma av dt points, all_points points ->
       confined sizes (run_gprogram J k sizes (recon sh) gamma av (map fst sys) dt ab points (AlgModel.execute niter prg))).
Proof.
  intros ts ab k sh central dirof inv dord sord worder num kord coordinate fluxes sizes fs g types sys crs known vcds datasets ios rqs mon ord blk prg niter
    Hab Hk Hus Hwd Hs0 Hinv Hdord Hw Hnum Hkord FB Hfs PP Names Data HV Hcen Hio Hord Hblk Hprg.
  rewrite width_reach in PP, Hwd.
  assert (Hdim : List.length sizes <> 0%nat) by (destruct sizes; cbn; congruence).
  unfold bounded_shock_block in Hblk. rewrite Hab in Hblk. cbn [bind] in Hblk.
  destruct (bounded_kernels k sh central sizes (schemes_of types) dirof inv dord sord worder num kord (map fst sys) crs known vcds (disc_eqs sys)) as [((cs, k1), k2)|] eqn:Esp; [|discriminate].
  cbn [bind fst snd] in Hblk.
  destruct (apply_conditions true ord sizes (capturing_halos k sh central sizes) (arrays_of (List.length sizes) fs) g 0 types) as [bcs|] eqn:Ebc; [|discriminate].
  cbn [bind] in Hblk. injection Hblk as Hblk.
  assert (TR : AlgModel.execute niter prg = AlgSpec.program_trace (fphase ts sys gkernel Ordinary (map Constituent cs ++ map Capture k1 ++ map (fun s => Ordinary (Difference s)) k2) (map Ordinary bcs))
    (Z.of_nat (List.length (fst ab))) niter mon rqs).
  { pose proof (AlgProps.C17_time_loop gkernel blk) as X. rewrite <- Hblk in X, Hprg. cbn [AlgModel.bk_schemes AlgModel.bk_io] in X.
    destruct (X _ _ mon rqs prg (Z.of_nat (List.length (fst ab))) niter eq_refl eq_refl eq_refl eq_refl Hio Hprg) as (ns & Hns & E).
    destruct Hns as (Pn & _). cbn in Pn. apply Permutation_nil in Pn. subst ns. rewrite E. unfold fphase. destruct ts; reflexivity. }
  rewrite TR. clear TR.
  assert (Hsz : forall d, (d < List.length sizes)%nat -> (1 <= nth d sizes 0)%Z) by (intros d Hd; pose proof (fb_wide _ _ _ _ _ FB d Hd); lia).
  assert (Pf : forall b, In b (field_names fs) -> plain b).
  { intros b Hb. apply Hfs in Hb. apply in_map_iff in Hb. destruct Hb as ([c rhs] & E & Hb). cbn in E. subst c. apply plain_spec. apply (Names b rhs). apply in_app_iff. auto. }
  assert (X : forall x it st, In (AlgModel.EKernel x it st) (AlgSpec.program_trace (fphase ts sys gkernel Ordinary (map Constituent cs ++ map Capture k1 ++ map (fun s => Ordinary (Difference s)) k2) (map Ordinary bcs))
      (Z.of_nat (List.length (fst ab))) niter mon rqs) ->
    inside_storage k sizes (recon sh) (map fst sys) x /\ Store2Run.proper (recon sh) x).
  { intros x it st Hy. apply Loop2Proofs.trace_kernels2 in Hy; [|reflexivity..]. cbn [fphase AlgSpec.p_bc AlgSpec.p_start AlgSpec.p_spatial AlgSpec.p_advance] in Hy.
    unfold bounded_kernels in Esp. cbv zeta in Esp. destruct (shock_discretise (List.length sizes) dirof inv worder (disc_eqs sys)) as [k10|] eqn:E1; [|discriminate]. cbn [bind] in Esp.
    destruct (if central then _ else _) as [k20|] eqn:E2 in Esp; [|discriminate]. cbn [bind] in Esp.
    destruct (OrdModel.sort_constituents rkernel OrdModel.max_passes _ _) as [cs0|] eqn:Ecs in Esp; [|discriminate]. cbn [bind] in Esp. injection Esp as -> -> ->.
    rewrite !in_app_iff in Hy. destruct Hy as [Hy | [Hy | [[Hy | [Hy | Hy]] | Hy]]].
    + apply in_map_iff in Hy. destruct Hy as (b & <- & Hb).
      refine (conditions_stored k sizes (recon sh) (map fst sys) true ord _ fs g Hord (capturing_halos_small k sh central sizes Hk Hwd) Hsz Pf types 0 bcs _ (fb_data _ _ _ _ _ FB) _ Ebc b Hb).
      * rewrite (fb_count _ _ _ _ _ FB). auto.
      * intros l r Hin. split; [|intros c Hc; apply plain_spec; apply (Data l r c Hin Hc)].
        intros U c Hc. apply Pf. destruct (fb_gas _ _ _ _ _ FB l r Hin U) as (_ & I & _). apply I. auto.
    + destruct ts; [contradiction|]. destruct Hy as [<- | []]. apply (stepping_stored k sizes (recon sh) (map fst sys) (adv_eqs sys)). auto.
    + apply in_map_iff in Hy. destruct Hy as (r & <- & Hr).
      exact (relations_stored k sh central dirof worder num kord sizes coordinate fluxes sys crs known vcds (register_of ts) Hk Hwd Hnum Hkord Hdim PP Names Hcen _ cs Ecs r Hr).
    + apply in_map_iff in Hy. destruct Hy as (kn & <- & Hkn).
      exact (capture_stored k sh dirof inv worder num sizes coordinate fluxes sys crs known (register_of ts) Hk Hwd Hus Hinv Hw Hnum Hdim PP Names k1 E1 kn Hkn).
    + apply in_map_iff in Hy. destruct Hy as (s & <- & Hs). destruct central; [|injection E2 as <-; contradiction]. split; [|exact I]. intros b y. apply difference_stored; auto.
      exact (central_stored k sh dirof inv dord sord sizes coordinate fluxes sys crs known vcds (register_of ts) Hsz Hinv Hdord PP Names HV _ k2 E2 s Hs).
    + destruct ts; destruct Hy as [<- | []]; apply (stepping_stored k sizes (recon sh) (map fst sys) (adv_eqs sys)); auto. }
  split.
  - intros x it st b y H. apply (X x it st H).
  - intros J gamma av dt points Hp M M' HM. split; intros b y Hy.
    + exact (all_agree J k sizes _ gamma av (map fst sys) dt ab points Hp gkernel (fun x => x) _ X M M' HM b y Hy).
    + exact (all_frame J k sizes _ gamma av (map fst sys) dt ab points Hp gkernel (fun x => x) _ X M b y Hy).
Qed.
Print Assumptions C86_bounded_partial.

(* C86, shock capturing with periodic boundaries. *)
Lemma capturing_trace : forall ts ab k sh central dirof inv dord sord worder num kord sizes sys crs known vcds datasets ios rqs mon blk prg niter,
  coefficients ts = Ok ab -> AlgProps.made_from rqs ios ->
  capturing_block k sh central dirof inv dord sord worder num kord sizes ts sys crs known vcds datasets ios = Ok blk ->
  AlgModel.generate_solution blk mon = Ok prg ->
  exists cs ks, capturing_kernels k sh central sizes dirof inv dord sord worder num kord (map fst sys) crs known vcds (disc_eqs sys) = Ok (cs, ks) /\
  AlgModel.execute niter prg =
    AlgSpec.program_trace (CapProofs.phase k sh central sizes sys cs ks (match ts with LS _ _ => [] | SBLI _ => [Step (SaveOld (adv_eqs sys))] end)
        (match ts with LS _ _ => [Step (LowStorage (adv_eqs sys))] | SBLI _ => [Step (SbliUpdate (adv_eqs sys))] end))
      (Z.of_nat (List.length (fst ab))) niter mon rqs.
Proof.
  intros ts ab k sh central dirof inv dord sord worder num kord sizes sys crs known vcds datasets ios rqs mon blk prg niter Hab Hio Hblk Hprg.
  unfold capturing_block in Hblk. rewrite Hab in Hblk. cbn [bind] in Hblk.
  destruct (capturing_kernels k sh central sizes dirof inv dord sord worder num kord (map fst sys) crs known vcds (disc_eqs sys)) as [(cs, ks)|] eqn:Esp; [|discriminate].
  cbn [bind fst snd] in Hblk. injection Hblk as Hblk. exists cs, ks. split; [reflexivity|].
  pose proof (AlgProps.C17_time_loop ckernel blk) as X. rewrite <- Hblk in X, Hprg. cbn [AlgModel.bk_schemes AlgModel.bk_io] in X.
  destruct (X _ _ mon rqs prg (Z.of_nat (List.length (fst ab))) niter eq_refl eq_refl eq_refl eq_refl Hio Hprg) as (ns & Hns & E).
  destruct Hns as (Pn & _). cbn in Pn. apply Permutation_nil in Pn. subst ns. exact E.
Qed.
Theorem C86_capturing_partial :
  forall ts ab k sh central dirof inv dord sord worder num kord coordinate fluxes sizes sys crs known vcds datasets ios rqs mon blk prg niter,
    coefficients ts = Ok ab -> (k <= 5)%nat -> usable_scheme sh -> (width sh <= 4)%nat ->
    sizes <> [] -> (forall d, (d < List.length sizes)%nat -> (1 <= nth d sizes 0)%Z) ->
    (forall d m, dsets (inv d m) = []) -> (forall e, enumerates (dord e) e) -> (forall l, Permutation l (worder l)) ->
    (forall a b, num a = num b -> a = b) -> (forall l, Permutation l (kord l)) ->
    shock_problem (List.length sizes) (width sh) k dirof (register_of ts) coordinate fluxes sys crs known ->
    names_free sys crs ->
    lists_derivatives (disc_eqs sys) viscous_term vcds -> (central = false -> vcds = []) ->
    AlgProps.made_from rqs ios ->
    capturing_block k sh central dirof inv dord sord worder num kord sizes ts sys crs known vcds datasets ios = Ok blk ->
    AlgModel.generate_solution blk mon = Ok prg ->
    (forall x it st b y, In (AlgModel.EKernel x it st) (AlgModel.execute niter prg) ->
       touched k sizes (recon sh) (map fst sys) (Loop2Model.kind_of x) b y -> stored sizes b y = true) /\
    (forall J gamma av dt, confined sizes (run_capturing J k sizes (recon sh) gamma av (map fst sys) dt ab (AlgModel.execute niter prg))).
Proof.
  intros ts ab k sh central dirof inv dord sord worder num kord coordinate fluxes sizes sys crs known vcds datasets ios rqs mon blk prg niter
    Hab Hk Hus Hwd Hs0 Hsz Hinv Hdord Hw Hnum Hkord PP Names HV Hcen Hio Hblk Hprg.
  rewrite width_reach in PP, Hwd.
  assert (Hdim : List.length sizes <> 0%nat) by (destruct sizes; cbn; congruence).
  destruct (capturing_trace _ _ _ _ _ _ _ _ _ _ _ _ _ _ _ _ _ _ _ _ _ _ _ niter Hab Hio Hblk Hprg) as (cs & ks & Esp & TR).
  rewrite TR. clear TR.
  match goal with |- context[AlgSpec.program_trace ?a ?b ?c ?d ?e] => set (tr := AlgSpec.program_trace a b c d e) end.
  assert (X : forall x it st, In (AlgModel.EKernel x it st) tr ->
    inside_storage k sizes (recon sh) (map fst sys) (Loop2Model.kind_of x) /\ Store2Run.proper (recon sh) (Loop2Model.kind_of x)).
  { intros x it st Hy. unfold tr in Hy. apply Loop2Proofs.trace_kernels2 in Hy; [|reflexivity..]. cbn [CapProofs.phase AlgSpec.p_bc AlgSpec.p_start AlgSpec.p_spatial AlgSpec.p_advance] in Hy.
    unfold capturing_kernels in Esp. destruct (hybrid_discretise k (List.length sizes) dirof inv dord sord worder [] vcds (spatial_schemes central) (disc_eqs sys)) as [ks0|] eqn:Eh; [|discriminate].
    cbn [bind] in Esp. destruct (OrdModel.sort_constituents rkernel OrdModel.max_passes _ _) as [cs0|] eqn:Ecs in Esp; [|discriminate]. cbn [bind] in Esp. injection Esp as -> ->.
    rewrite !in_app_iff in Hy. destruct Hy as [Hy | [Hy | [[Hy | Hy] | Hy]]].
    + apply in_map_iff in Hy. destruct Hy as (e & <- & He). cbn [Loop2Model.kind_of].
      refine (exchanges_stored k sizes (recon sh) (map fst sys) _ _ e (capturing_halos_small k sh central sizes Hk Hwd) Hsz _ He).
      intros b Hb. apply in_map_iff in Hb. destruct Hb as ([c rhs] & E & Hb). cbn in E. subst c. apply plain_spec. apply (Names b rhs). apply in_app_iff. auto.
    + destruct ts; [contradiction|]. destruct Hy as [<- | []]. apply (stepping_stored k sizes (recon sh) (map fst sys) (adv_eqs sys)). auto.
    + apply in_map_iff in Hy. destruct Hy as (r & <- & Hr). cbn [Loop2Model.kind_of].
      exact (relations_stored k sh central dirof worder num kord sizes coordinate fluxes sys crs known vcds (register_of ts) Hk Hwd Hnum Hkord Hdim PP Names Hcen _ cs Ecs r Hr).
    + apply in_map_iff in Hy. destruct Hy as (kn & <- & Hkn). cbn [Loop2Model.kind_of].
      exact (hybrid_stored k sh central dirof inv dord sord worder num sizes coordinate fluxes sys crs known vcds (register_of ts) Hk Hwd Hus Hsz Hinv Hdord Hw Hnum Hdim PP Names HV Hcen ks Eh kn Hkn).
    + destruct ts; destruct Hy as [<- | []]; apply (stepping_stored k sizes (recon sh) (map fst sys) (adv_eqs sys)); auto. }
  split.
  - intros x it st b y H. apply (X x it st H).
  - intros J gamma av dt.
    assert (R : forall M, run_capturing J k sizes (recon sh) gamma av (map fst sys) dt ab tr M =
      run_all J k sizes (recon sh) gamma av (map fst sys) dt ab sweep ckernel Loop2Model.kind_of tr M).
    { clearbody tr. clear X. unfold run_capturing, run_all. induction tr as [|ev tr' IH]; intros M; [reflexivity|]. cbn [fold_left]. rewrite IH.
      destruct ev as [y it st | | |]; try reflexivity. destruct y as [r | kn | pk]; reflexivity. }
    intros M M' HM. split; intros b y Hy; rewrite !R.
    + exact (all_agree J k sizes _ gamma av (map fst sys) dt ab sweep sweep_ok ckernel Loop2Model.kind_of _ X M M' HM b y Hy).
    + exact (all_frame J k sizes _ gamma av (map fst sys) dt ab sweep sweep_ok ckernel Loop2Model.kind_of _ X M b y Hy).
Qed.
Print Assumptions C86_capturing_partial.

Lemma coefficients_length : forall ts ab, coefficients ts = Ok ab -> (0 < List.length (fst ab))%nat.
Proof.
  assert (K : forall ab ab' : list R * list R, Ok ab = Ok ab' -> (0 < List.length (fst ab))%nat -> (0 < List.length (fst ab'))%nat) by (intros ab ab' E; injection E as <-; auto).
  intros [o f | o] ab H; unfold coefficients in H.
  - unfold RKModel.ls_coefficients in H. do 5 (destruct o as [|o]; [destruct f; first [discriminate H | apply (K _ _ H); cbn; lia]|]). destruct f; discriminate H.
  - unfold RKModel.sbli_coefficients in H. do 4 (destruct o as [|o]; [first [discriminate H | apply (K _ _ H); cbn; lia]|]). discriminate H.
Qed.
(* Refutation of the full claim: with WENO schemes of order 9 and more the reconstruction reads
   the density outside its storage. *)
Theorem C86_weno_limit_refuted :
  forall ts ab k fm order eps central dirof inv dord sord worder num kord coordinate fluxes sizes sys crs known vcds datasets ios rqs mon blk prg niter,
    coefficients ts = Ok ab -> (9 <= order)%nat -> sizes <> [] -> (forall d, (d < List.length sizes)%nat -> (1 <= nth d sizes 0)%Z) -> (0 < niter)%Z ->
    (forall l, Permutation l (worder l)) ->
    shock_problem (List.length sizes) ((order + 1) / 2) k dirof (register_of ts) coordinate fluxes sys crs known ->
    AlgProps.made_from rqs ios ->
    capturing_block k (Weno fm order eps) central dirof inv dord sord worder num kord sizes ts sys crs known vcds datasets ios = Ok blk ->
    AlgModel.generate_solution blk mon = Ok prg ->
    exists x it st y, In (AlgModel.EKernel x it st) (AlgModel.execute niter prg) /\
      touched k sizes (recon (Weno fm order eps)) (map fst sys) (Loop2Model.kind_of x) "rho" y /\ stored sizes "rho" y = false.
Proof.
  intros ts ab k fm order eps central dirof inv dord sord worder num kord coordinate fluxes sizes sys crs known vcds datasets ios rqs mon blk prg niter
    Hab Ho Hs0 Hsz Hit Hw PP Hio Hblk Hprg.
  assert (Hdim : List.length sizes <> 0%nat) by (destruct sizes; cbn; congruence).
  destruct (capturing_trace _ _ _ _ _ _ _ _ _ _ _ _ _ _ _ _ _ _ _ _ _ _ _ niter Hab Hio Hblk Hprg) as (cs & ks & Esp & TR).
  rewrite TR. clear TR.
  assert (Hr : (5 <= (order + 1) / 2)%nat) by (apply (Nat.div_le_lower_bound (order + 1) 2 5); lia).
  unfold capturing_kernels in Esp. destruct (hybrid_discretise k (List.length sizes) dirof inv dord sord worder [] vcds (spatial_schemes central) (disc_eqs sys)) as [ks0|] eqn:Eh; [|discriminate].
  cbn [bind] in Esp. destruct (OrdModel.sort_constituents rkernel OrdModel.max_passes _ _) as [cs0|] eqn:Ecs in Esp; [|discriminate]. cbn [bind] in Esp. injection Esp as -> ->.
  pose proof (wf_hweaken (List.length sizes) dirof _ (fun b => exists i, b = wk_name i) coordinate fluxes (disc_eqs sys) (fun b H => or_introl H) (cp_form _ _ _ _ _ _ _ _ _ _ PP)) as SF.
  assert (HR : exists works, In (HRec 0 works (fluxes 0%nat)) ks).
  { unfold hybrid_discretise in Eh.
    pose proof (shock_ok (List.length sizes) dirof inv worder sizes eq_refl Hw coordinate fluxes (disc_eqs sys) (hs_shock _ _ _ _ _ _ SF) Hdim) as E1.
    destruct central; cbn [spatial_schemes mapM discretise_scheme] in Eh; rewrite E1 in Eh; cbn [bind] in Eh.
    - destruct (sbli_rhs_discretisation k (List.length sizes) dirof inv dord sord [] vcds (disc_eqs sys)) as [k2|] eqn:E2; [|discriminate]. cbn [bind List.concat] in Eh.
      injection Eh as <-. eexists. apply in_app_iff. left. apply in_app_iff. left. apply in_map_iff. exists 0%nat. split; [reflexivity|]. apply in_seq. lia.
    - cbn [List.concat] in Eh. injection Eh as <-. eexists. apply in_app_iff. left. apply in_app_iff. left. apply in_map_iff. exists 0%nat. split; [reflexivity|]. apply in_seq. lia. }
  destruct HR as (works & HR).
  pose proof (coefficients_length ts ab Hab) as Hst.
  destruct sizes as [|n sizes]; [congruence|].
  set (z := n :: repeat 0%Z (List.length sizes)).
  exists (Field (HRec 0 works (fluxes 0%nat))), (Some 0%Z), (Some 0%Z), (move 0 (Z.of_nat ((order + 1) / 2)) z). split; [|split].
  - unfold AlgSpec.program_trace. rewrite !in_app_iff. right. left. apply in_flat_map. exists 0%Z. split.
    + unfold AlgSpec.upto. apply in_map_iff. exists 0%nat. split; auto. apply in_seq. lia.
    + unfold AlgSpec.step. rewrite !in_app_iff. right. left. apply in_flat_map. exists 0%Z. split.
      * unfold AlgSpec.upto. apply in_map_iff. exists 0%nat. split; auto. apply in_seq. lia.
      * unfold AlgSpec.at_. apply in_map_iff. exists (Field (HRec 0 works (fluxes 0%nat))). split; auto.
        cbn [CapProofs.phase AlgSpec.p_spatial AlgSpec.p_advance AlgSpec.p_bc]. rewrite !in_app_iff. left. right. apply in_map. exact HR.
  - cbn [Loop2Model.kind_of touched]. exists z. split.
    + apply in_range_iff. split; [unfold z; cbn; rewrite repeat_length; auto|]. intros [|d] Hd.
      * rewrite ex_in by (left; auto). cbn. specialize (Hsz 0%nat ltac:(cbn; lia)). cbn in Hsz. lia.
      * rewrite ex_notin by (intros [E | []]; discriminate). specialize (Hsz (S d) Hd). cbn in *. rewrite nth_repeat. lia.
    + right. exists (Z.of_nat ((order + 1) / 2)). split.
      * cbn [recon]. apply weno_stencil; lia.
      * left. split; auto. apply in_app_iff. right. left. reflexivity.
  - destruct (stored (n :: sizes) "rho" _) eqn:Es; auto. exfalso. apply stored_iff in Es. destruct Es as [_ Es]. specialize (Es 0%nat ltac:(cbn; lia)).
    unfold z in Es. cbn [move nth] in Es. destruct (no_halo "rho"); lia.
Qed.
Print Assumptions C86_weno_limit_refuted.

(* ---- examples ---- *)
Lemma plain_in : forall l, forallb (fun c => negb (no_halo c)) l = true -> forall c, In c l -> ~ own_name c.
Proof. intros l H c Hc. apply plain_spec. rewrite forallb_forall in H. specialize (H c Hc). unfold plain. destruct (no_halo c); [discriminate | reflexivity]. Qed.
Lemma names_free_check : forall sys crs, forallb (fun c => negb (no_halo c)) (flat_map (fun p => fst p :: map fst (dsets (snd p))) (sys ++ crs)) = true -> names_free sys crs.
Proof.
  intros sys crs H a rhs Hin. split; [|intros b ix Hb]; apply (plain_in _ H); apply in_flat_map; exists (a, rhs); (split; [exact Hin|]); [left; auto|].
  right. apply (in_map fst) in Hb. exact Hb.
Qed.
Lemma data_free_check : forall types, forallb (fun c => negb (no_halo c)) (flat_map (fun p => data_arrays (fst p) ++ data_arrays (snd p)) types) = true -> data_free types.
Proof. intros types H l r b Hin Hb. apply (plain_in _ H). apply in_flat_map. exists (l, r). auto. Qed.
(* Flow past a wall of given temperature from an inlet to an outlet: what lies six points
   outside the grid keeps its value, whatever it is. *)
Definition writes_at (z y : list Z) (b : string) (x : fkernel) : bool :=
  match x with
  | Other (Wall bk) => BCModel.bk_points bk z &&
      existsb (fun e => match e with
        | KEq l _ => existsb (fun p => String.eqb (fst p) b && if list_eq_dec Z.eq_dec (ShiftSpec.vadd z (snd p)) y then true else false) (dsets l)
        | _ => false end) (BCModel.bk_eqs bk)
  | _ => false
  end.
Lemma writes_touched : forall k sizes sch solution z y b x, writes_at z y b x = true -> touched k sizes sch solution (Ordinary x) b y.
Proof.
  intros k sizes sch solution z y b [[pk | bk] | s] H; try discriminate. cbn [writes_at] in H. apply andb_true_iff in H. destruct H as [Hz H].
  apply existsb_exists in H. destruct H as (ke & Hin & H). destruct ke as [l r | ?]; try discriminate. apply existsb_exists in H. destruct H as ([c ix] & Hc & H). cbn [fst snd] in H.
  apply andb_true_iff in H. destruct H as [E H]. apply String.eqb_eq in E. subst c. destruct list_eq_dec as [E|]; [|discriminate].
  exists z, l, r. split; auto. split; auto. left. exists ix. auto.
Qed.
Example C86_faces_nonvacuous : exists blk prg, gas2_block gas2_types = Ok blk /\ AlgModel.generate_solution blk None = Ok prg /\
  (exists x it st, In (AlgModel.EKernel x it st) (AlgModel.execute 1 prg) /\ touched 2 [10; 8]%Z (recon weno5) [] (Ordinary x) "e" [11; 3]%Z) /\
  forall J dt M b i, run_fprogram J 2 [10; 8]%Z dt std_ab sweep (AlgModel.execute 1 prg) M b [-6; i]%Z = M b [-6; i]%Z.
Proof.
  assert (Q : match gas2_block gas2_types with Ok blk => match AlgModel.generate_solution blk None with
    | Ok prg => existsb (fun ev => match ev with AlgModel.EKernel x _ _ => writes_at [9; 3]%Z [11; 3]%Z "e" x | _ => false end) (AlgModel.execute 1 prg)
    | _ => false end | _ => false end = true) by (lazy; reflexivity).
  destruct (gas2_block gas2_types) as [blk|] eqn:Eb; [|discriminate].
  destruct (AlgModel.generate_solution blk None) as [prg|] eqn:Ep; [|discriminate]. exists blk, prg. split; auto. split; auto.
  destruct gas2_ok as (PP & HC & HV). split.
  - apply existsb_exists in Q. destruct Q as (ev & Hev & H). destruct ev as [x it st | | |]; try discriminate H. exists x, it, st. split; [exact Hev|]. apply (writes_touched _ _ _ _ _ _ _ _ H).
  - intros J dt M b i. unfold gas2_block in Eb.
    destruct (C86_faces_partial (LS 3 RKModel.Standard) std_ab 2 dir3 inv1 set_order inner_order code (fun l => l) [10; 8]%Z gas2_fields gas2_gas gas2_types gas2 gas2_crs []
      gas2_cds [] ["r"%string] [] [] None set_order blk prg 1 eq_refl ltac:(lia) (fun _ _ => eq_refl) set_order_ok code_inj ltac:(auto) gas2_types_ok ltac:(intros v; cbn; tauto) PP
      ltac:(apply names_free_check; vm_compute; reflexivity) ltac:(apply data_free_check; vm_compute; reflexivity) HC HV ltac:(split; constructor) set_order_ok Eb Ep) as [_ X].
    apply (X J dt sweep sweep_ok M M); [auto|]. destruct (stored [10; 8]%Z b [-6; i]%Z) eqn:Es; auto.
    exfalso. apply stored_iff in Es. destruct Es as [_ Es]. specialize (Es 0%nat ltac:(cbn; lia)). cbn in Es. destruct (no_halo b); lia.
Qed.
(* A shock tube between an inlet and a wall: the boundary conditions fill four layers above
   the grid. *)
Example C86_bounded_nonvacuous : exists blk prg, tube_block = Ok blk /\ AlgModel.generate_solution blk None = Ok prg /\
  (exists x it st, In (AlgModel.EKernel x it st) (AlgModel.execute 1 prg) /\ touched 2 [20]%Z (recon weno5) (map fst cap_sys) x "rhoE" [23]%Z) /\
  forall J dt M b, run_gprogram J 2 [20]%Z (recon weno5) (7/5)%R Roe (map fst cap_sys) dt std_ab sweep (AlgModel.execute 1 prg) M b [25]%Z = M b [25]%Z.
Proof.
  assert (Q : match tube_block with Ok blk => match AlgModel.generate_solution blk None with
    | Ok prg => existsb (fun ev => match ev with AlgModel.EKernel (Ordinary x) _ _ => writes_at [19]%Z [23]%Z "rhoE" x | _ => false end) (AlgModel.execute 1 prg)
    | _ => false end | _ => false end = true) by (lazy; reflexivity).
  destruct hy_ok as (_ & _ & HV).
  destruct tube_block as [blk|] eqn:Eb; [|discriminate].
  destruct (AlgModel.generate_solution blk None) as [prg|] eqn:Ep; [|discriminate]. exists blk, prg. split; auto. split; auto. split.
  - apply existsb_exists in Q. destruct Q as (ev & Hev & H). destruct ev as [x it st | | |]; try discriminate H. destruct x as [x | x | x]; try discriminate H.
    exists (Ordinary x), it, st. split; [exact Hev|]. apply (writes_touched _ _ _ _ _ _ _ _ H).
  - intros J dt M b.
    destruct (C86_bounded_partial (LS 3 RKModel.Standard) std_ab 2 weno5 true dir3 inv1 set_order inner_order (fun l => l) cap_num (fun l => l) (fun _ => "x0"%string) hy_fluxes [20]%Z
      tube_fields tube_gas tube_types cap_sys cap_crs [] [hy_v2; hy_v1] ["rho"; "rhou0"; "rhoE"]%string [] [] None set_order blk prg 1 eq_refl ltac:(lia)
      ltac:(unfold usable_scheme, weno5; split; [lia|]; split; [discriminate | lra]) ltac:(cbn; lia) ltac:(discriminate) (fun _ _ => eq_refl) set_order_ok ltac:(auto) cap_num_inj ltac:(auto)
      tube_ok ltac:(intros v; cbn; tauto) cap_ok ltac:(apply names_free_check; vm_compute; reflexivity) ltac:(apply data_free_check; vm_compute; reflexivity) HV ltac:(discriminate)
      ltac:(split; constructor) set_order_ok Eb Ep) as [_ X].
    apply (X J (7/5)%R Roe dt sweep sweep_ok M M); [auto|]. destruct (stored [20]%Z b [25]%Z) eqn:Es; auto.
    exfalso. apply stored_iff in Es. destruct Es as [_ Es]. specialize (Es 0%nat ltac:(cbn; lia)). cbn in Es. destruct (no_halo b); lia.
Qed.
(* Periodic boundaries, and WENO of order 9 on the same problem. *)
Lemma cap_ok9 : shock_problem 1 5 2 dir3 AdvModel.temp_name (fun _ => "x0"%string) hy_fluxes cap_sys cap_crs [].
Proof.
  pose proof cap_ok as P.
  destruct P as [P1 P2 P3 P4 P5 P6 P7 P8 P9 P10 P11]. constructor; try assumption.
  intros b e c ix d w Hin Hc Hcr HN. assert (N3 : exists w3, needs_layers 1 (reach weno5) 2 dir3 hy_fluxes cap_sys b d w3 /\ (w <= w3 + 2)%nat).
  { destruct HN as [(Hd & F & ->) | (Hdf & ->)]; [exists 3%nat; split; [left; auto | lia] | exists 2%nat; split; [right; auto | lia]]. }
  destruct N3 as (w3 & N3 & L3). destruct (P11 b e c ix d w3 Hin Hc Hcr N3) as (w' & N' & L').
  exists 5%nat.
  assert (Pc : c = "p"%string \/ c = "u0"%string).
  { destruct Hin as [E | [E | [E | [E | []]]]]; injection E as <- <-; vm_compute in Hc;
      repeat (destruct Hc as [Hc | Hc]; [injection Hc as <- <-; cbn in Hcr; intuition discriminate|]); destruct Hc. }
  assert (Dw : (d < 1)%nat /\ (w3 <= 3)%nat).
  { destruct N' as [(Hd & _ & ->) | (_ & ->)]; [split; [exact Hd | exact L']|]. split; [|lia].
    destruct HN as [(Hd & _) | (Hdf & _)]; [exact Hd|]. destruct Hdf as (v & rhs & a & n & cs & ixx & Hv & Hi & Hb & <-).
    assert (D : derivative (EApp HCD (a :: ESym KCoord n :: cs))) by (eexists _, _; reflexivity).
    destruct Hv as [E | [E | [E | []]]]; injection E as <- <-; apply (inside_cds _ _ D) in Hi; vm_compute in Hi;
      repeat (destruct Hi as [E | Hi]; [injection E as <- <- <-; cbn; lia|]); destruct Hi. }
  split; [|lia]. left. split; [lia|]. split; [|reflexivity].
  destruct Pc as [-> | ->]; [right; exists hy_f1, [0%Z]; split; cbn; tauto | left; cbn; tauto].
Qed.
Definition cap_block9 :=
  capturing_block 2 (Weno WenoModel.JS 9 1%R) true dir3 inv1 set_order inner_order (fun l => l) cap_num (fun l => l) [20]%Z (LS 3 RKModel.Standard) cap_sys cap_crs [] [hy_v2; hy_v1] ["rho"; "rhou0"; "rhoE"]%string [].
Example C86_capturing_nonvacuous :
  (exists blk prg, cap_block = Ok blk /\ AlgModel.generate_solution blk None = Ok prg /\
    forall J dt M b, run_capturing J 2 [20]%Z (recon weno5) (7/5)%R Roe (map fst cap_sys) dt std_ab (AlgModel.execute 1 prg) M b [25]%Z = M b [25]%Z) /\
  (exists blk prg, cap_block9 = Ok blk /\ AlgModel.generate_solution blk None = Ok prg /\
    exists x it st y, In (AlgModel.EKernel x it st) (AlgModel.execute 1 prg) /\
      touched 2 [20]%Z (recon (Weno WenoModel.JS 9 1%R)) (map fst cap_sys) (Loop2Model.kind_of x) "rho" y /\ stored [20]%Z "rho" y = false).
Proof.
  destruct hy_ok as (_ & _ & HV). split.
  - assert (Q : match cap_block with Ok blk => match AlgModel.generate_solution blk None with Ok prg => true | _ => false end | _ => false end = true) by (lazy; reflexivity).
    destruct cap_block as [blk|] eqn:Eb; [|discriminate].
    destruct (AlgModel.generate_solution blk None) as [prg|] eqn:Ep; [|discriminate]. exists blk, prg. split; auto. split; auto. intros J dt M b.
    destruct (C86_capturing_partial (LS 3 RKModel.Standard) std_ab 2 weno5 true dir3 inv1 set_order inner_order (fun l => l) cap_num (fun l => l) (fun _ => "x0"%string) hy_fluxes [20]%Z
      cap_sys cap_crs [] [hy_v2; hy_v1] ["rho"; "rhou0"; "rhoE"]%string [] [] None blk prg 1 eq_refl ltac:(lia)
      ltac:(unfold usable_scheme, weno5; split; [lia|]; split; [discriminate | lra]) ltac:(cbn; lia) ltac:(discriminate) ltac:(intros [|d] Hd; cbn in *; lia)
      (fun _ _ => eq_refl) set_order_ok ltac:(auto) cap_num_inj ltac:(auto)
      cap_ok ltac:(apply names_free_check; vm_compute; reflexivity) HV ltac:(discriminate) ltac:(split; constructor) Eb Ep) as [_ X].
    apply (X J (7/5)%R Roe dt M M); [auto|]. destruct (stored [20]%Z b [25]%Z) eqn:Es; auto.
    exfalso. apply stored_iff in Es. destruct Es as [_ Es]. specialize (Es 0%nat ltac:(cbn; lia)). cbn in Es. destruct (no_halo b); lia.
  - assert (Q : match cap_block9 with Ok blk => match AlgModel.generate_solution blk None with Ok prg => true | _ => false end | _ => false end = true) by (lazy; reflexivity).
    destruct cap_block9 as [blk|] eqn:Eb; [|discriminate].
    destruct (AlgModel.generate_solution blk None) as [prg|] eqn:Ep; [|discriminate]. exists blk, prg. split; auto. split; auto.
    apply (C86_weno_limit_refuted (LS 3 RKModel.Standard) std_ab 2 WenoModel.JS 9 1%R true dir3 inv1 set_order inner_order (fun l => l) cap_num (fun l => l) (fun _ => "x0"%string) hy_fluxes [20]%Z
      cap_sys cap_crs [] [hy_v2; hy_v1] ["rho"; "rhou0"; "rhoE"]%string [] [] None blk prg 1 eq_refl ltac:(lia) ltac:(discriminate) ltac:(intros [|d] Hd; cbn in *; lia) ltac:(lia) ltac:(auto)
      cap_ok9 ltac:(split; constructor) Eb Ep).
Qed.
