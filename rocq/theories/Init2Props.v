(* C87: programs with boundary conditions or shock capturing start from their initialisations. *)
From Verif Require Import Base BaseProofs Expr ExprProofs FDModel KernelModel WorkModel ShiftSpec ShiftProofs StoreModel StoreProofs DiscModel DiscSpec DiscProofs DiscRun DiscMain DiscProps
  LLFModel ProgModel ProgSpec ProgProofs ProgProps HybModel HybSpec HybProofs HybMore HybProps InvSpec InvProofs InvProps InitModel InitSpec InitProofs CapModel CapSpec CapProofs CapMore CapProps.
From Verif Require AdvModel AdvSpec AlgModel AlgSpec AlgProps OrdModel BCModel BCSpec BC2Props BCIsoProps RKModel RKSpec WenoModel InitProps.
From Verif Require Import BCSpec BCGasSpec BC2Spec BCGas BndModel BndSpec BndExist OneModel SideModel SideSpec FaceModel FaceSpec FaceKern FaceTime FaceEnd ShkModel ShkSpec Init2Model Init2Spec.
From Verif Require FaceProps ShkProps Init2Proofs.
From Coq Require Import QArith ZArith Reals Lia Lra Permutation List.
Local Close Scope Q_scope.
Local Open Scope list_scope.

Lemma ok_inj : forall A (a b : A), Ok a = Ok b -> a = b.
Proof. intros A a b H. injection H as H. exact H. Qed.
Ltac binds := repeat match goal with
  | H : bind ?r _ = Ok _ |- _ => let E := fresh "E" in destruct r eqn:E; [cbn [bind] in H | discriminate H] end.

(* ---- the program without the initialisations ---- *)
Lemma face_split : forall ts J k dirof h sizes fs g types sys crs inits prg,
  started_face ts J k dirof h sizes fs g types sys crs inits prg ->
  exists prg0, face_generated ts J k dirof h sizes fs g types sys crs prg0 /\
    forall niter, exists gs, in_order inits gs /\
    forall truth spread dt ab points M,
      run_wprogram J truth spread (run_fkernel J k sizes dt ab points) (AlgModel.execute niter prg) M =
      run_fprogram J k sizes dt ab points (AlgModel.execute niter prg0) (initialised_by J truth spread sizes gs M).
Proof.
  intros ts J k dirof h sizes fs g types sys crs inits prg (HF & FB & Hfs & arrange & inv & dord & sord & num & kord & known & ccds & vcds & datasets & ios & rqs & mon & ord & blk &
    Harr & Hinv & Hdord & Hperm & Hinner & Hnum & Hkord & PP & HC & HV & Nc & Nv & Hio & Hord & Hblk & Hprg).
  unfold started_face_block in Hblk.
  destruct (face_block k dirof inv dord sord num kord sizes ts sys crs (known ++ flat_map evaluated_datasets inits) ccds vcds datasets ios ord (arrays_of (List.length sizes) fs) g types) as [b0|] eqn:Eb0; [|discriminate Hblk].
  cbn [bind] in Hblk. apply ok_inj in Hblk. subst blk.
  assert (SH : exists sc s nst, AlgModel.bk_schemes b0 = [sc] /\ AlgModel.sc_iter sc = AlgModel.SNiter /\ AlgModel.sc_stage sc = AlgModel.SNum nst /\
     AlgModel.sc_solution sc = [AlgModel.EqConstituent; AlgModel.EqSim s] /\ AlgModel.bk_io b0 = ios).
  { pose proof Eb0 as E0. unfold face_block in E0. cbv zeta in E0. binds. apply ok_inj in E0. subst b0. eexists _, _, _. do 4 (split; [reflexivity|]). reflexivity. }
  destruct SH as (sc & s & nst & S1 & S2 & S3 & S4 & S5). rewrite <- S5 in Hio.
  destruct (Init2Proofs.split_program arrange sizes inits b0 sc s nst mon rqs prg Harr S1 S2 S3 S4 Hio Hprg) as (prg0 & G0 & X). exists prg0. split.
  - split; [exact HF|]. split; [exact FB|]. split; [exact Hfs|]. rewrite S5 in Hio.
    exists inv, dord, sord, num, kord, (known ++ flat_map evaluated_datasets inits), ccds, vcds, datasets, ios, rqs, mon, ord, b0. repeat (split; [assumption|]). exact G0.
  - intros niter. destruct (X niter) as (gs & Hgs & E). exists gs. split; [exact Hgs|]. intros truth spread dt ab points M. exact (E J truth spread (run_fkernel J k sizes dt ab points) M).
Qed.
Lemma shock_split : forall ts J k sh central dirof h fluxes sizes fs g types sys crs inits prg,
  started_shock ts J k sh central dirof h fluxes sizes fs g types sys crs inits prg ->
  exists prg0, bounded_shock_generated ts J k sh central dirof h fluxes sizes fs g types sys crs prg0 /\
    forall niter, exists gs, in_order inits gs /\
    forall truth spread gamma av dt ab points M,
      run_wprogram J truth spread (run_gkernel J k sizes (recon sh) gamma av (map fst sys) dt ab points) (AlgModel.execute niter prg) M =
      run_gprogram J k sizes (recon sh) gamma av (map fst sys) dt ab points (AlgModel.execute niter prg0) (initialised_by J truth spread sizes gs M).
Proof.
  intros ts J k sh central dirof h fluxes sizes fs g types sys crs inits prg (HF & Hs0 & Hsup & FB & Hfs & arrange & inv & dord & sord & worder & num & kord & coordinate & known & vcds & datasets & ios & rqs & mon & ord & blk &
    Harr & Hinv & Hdord & Hperm & Hinner & Hw & Hnum & Hkord & PP & HV & Hcen & Hio & Hord & Hblk & Hprg).
  unfold started_shock_block in Hblk.
  destruct (bounded_shock_block k sh central dirof inv dord sord worder num kord sizes ts sys crs (known ++ flat_map evaluated_datasets inits) vcds datasets ios ord (arrays_of (List.length sizes) fs) g types) as [b0|] eqn:Eb0; [|discriminate Hblk].
  cbn [bind] in Hblk. apply ok_inj in Hblk. subst blk.
  assert (SH : exists sc s nst, AlgModel.bk_schemes b0 = [sc] /\ AlgModel.sc_iter sc = AlgModel.SNiter /\ AlgModel.sc_stage sc = AlgModel.SNum nst /\
     AlgModel.sc_solution sc = [AlgModel.EqConstituent; AlgModel.EqSim s] /\ AlgModel.bk_io b0 = ios).
  { pose proof Eb0 as E0. unfold bounded_shock_block in E0. cbv zeta in E0. binds. apply ok_inj in E0. subst b0. eexists _, _, _. do 4 (split; [reflexivity|]). reflexivity. }
  destruct SH as (sc & s & nst & S1 & S2 & S3 & S4 & S5). rewrite <- S5 in Hio.
  destruct (Init2Proofs.split_program arrange sizes inits b0 sc s nst mon rqs prg Harr S1 S2 S3 S4 Hio Hprg) as (prg0 & G0 & X). exists prg0. split.
  - split; [exact HF|]. split; [exact Hs0|]. split; [exact Hsup|]. split; [exact FB|]. split; [exact Hfs|]. rewrite S5 in Hio.
    exists inv, dord, sord, worder, num, kord, coordinate, (known ++ flat_map evaluated_datasets inits), vcds, datasets, ios, rqs, mon, ord, b0. repeat (split; [assumption|]). exact G0.
  - intros niter. destruct (X niter) as (gs & Hgs & E). exists gs. split; [exact Hgs|]. intros truth spread gamma av dt ab points M.
    exact (E J truth spread (run_gkernel J k sizes (recon sh) gamma av (map fst sys) dt ab points) M).
Qed.
Lemma capturing_split : forall ts J k sh central dirof h fluxes sizes sys crs inits prg,
  started_capturing ts J k sh central dirof h fluxes sizes sys crs inits prg ->
  exists prg0, shock_generated ts J k sh central dirof h fluxes sizes sys crs prg0 /\
    forall niter, exists gs, in_order inits gs /\
    forall truth spread g av dt ab M,
      run_wprogram J truth spread (run_ckernel J k sizes (recon sh) g av (map fst sys) dt ab) (AlgModel.execute niter prg) M =
      run_capturing J k sizes (recon sh) g av (map fst sys) dt ab (AlgModel.execute niter prg0) (initialised_by J truth spread sizes gs M).
Proof.
  intros ts J k sh central dirof h fluxes sizes sys crs inits prg (HF & Hs0 & Hsup & Hsz & arrange & inv & dord & sord & worder & num & kord & coordinate & known & vcds & datasets & ios & rqs & mon & blk &
    Harr & Hinv & Hdord & Hperm & Hinner & Hw & Hnum & Hkord & PP & HV & Hcen & Hio & Hblk & Hprg).
  unfold started_capturing_block in Hblk.
  destruct (capturing_block k sh central dirof inv dord sord worder num kord sizes ts sys crs (known ++ flat_map evaluated_datasets inits) vcds datasets ios) as [b0|] eqn:Eb0; [|discriminate Hblk].
  cbn [bind] in Hblk. apply ok_inj in Hblk. subst blk.
  assert (SH : exists sc s nst, AlgModel.bk_schemes b0 = [sc] /\ AlgModel.sc_iter sc = AlgModel.SNiter /\ AlgModel.sc_stage sc = AlgModel.SNum nst /\
     AlgModel.sc_solution sc = [AlgModel.EqConstituent; AlgModel.EqSim s] /\ AlgModel.bk_io b0 = ios).
  { pose proof Eb0 as E0. unfold capturing_block in E0. cbv zeta in E0. binds. apply ok_inj in E0. subst b0. eexists _, _, _. do 4 (split; [reflexivity|]). reflexivity. }
  destruct SH as (sc & s & nst & S1 & S2 & S3 & S4 & S5). rewrite <- S5 in Hio.
  destruct (Init2Proofs.split_program arrange sizes inits b0 sc s nst mon rqs prg Harr S1 S2 S3 S4 Hio Hprg) as (prg0 & G0 & X). exists prg0. split.
  - split; [exact HF|]. split; [exact Hs0|]. split; [exact Hsup|]. split; [exact Hsz|]. rewrite S5 in Hio.
    exists inv, dord, sord, worder, num, kord, coordinate, (known ++ flat_map evaluated_datasets inits), vcds, datasets, ios, rqs, mon, b0. repeat (split; [assumption|]). exact G0.
  - intros niter. destruct (X niter) as (gs & Hgs & E). exists gs. split; [exact Hgs|]. intros truth spread g av dt ab M.
    exact (E J truth spread (run_ckernel J k sizes (recon sh) g av (map fst sys) dt ab) M).
Qed.

(* ---- C87 ---- *)
(* For every problem with boundary conditions and initialisations, all contents of the arrays,
   all outcomes of conditions, every order of points and every number of steps: the program
   runs each initialisation once, in the order of their numbers, and then takes that many
   steps of C80 from what they leave.  Arrays the program does not own stay as they leave them. *)
Theorem C87_faces_partial : forall ts ab J k dirof h sizes fs g types sys crs inits prg,
  coefficients ts = Ok ab -> started_face ts J k dirof h sizes fs g types sys crs inits prg -> not_circular crs ->
  forall niter, exists gs, in_order inits gs /\
  forall truth spread points dt M, all_points points ->
    let M0 := initialised_by J truth spread sizes gs M in
    let M' := run_wprogram J truth spread (run_fkernel J k sizes dt ab points) (AlgModel.execute niter prg) M in
    steps J (fun _ => k) false sizes fs g types ts sys crs dt (right_hand_sides J k dirof h sizes types sys crs) (Z.to_nat niter) ab M0 M' /\
    forall a y, BndSpec.given (register_of ts) sys crs a -> M' a y = M0 a y.
Proof.
  intros ts ab J k dirof h sizes fs g types sys crs inits prg Hab Hg Hc niter. destruct (face_split _ _ _ _ _ _ _ _ _ _ _ _ _ Hg) as (prg0 & G0 & X).
  destruct (X niter) as (gs & Hgs & E). exists gs. split; auto. intros truth spread points dt M Hp M0 M'. unfold M'. rewrite E.
  exact (FaceProps.C80_program_partial ts ab J k dirof h sizes fs g types sys crs prg0 Hab G0 Hc points dt niter M0 Hp).
Qed.
Print Assumptions C87_faces_partial.

(* C87: the same with shock capturing: the steps are those of C82. *)
Theorem C87_bounded_partial : forall ts ab J k sh central dirof h fluxes sizes fs g types sys crs inits prg,
  coefficients ts = Ok ab -> started_shock ts J k sh central dirof h fluxes sizes fs g types sys crs inits prg -> not_circular crs ->
  forall niter, exists gs, in_order inits gs /\
  forall truth spread gamma av points dt M, all_points points ->
    let M0 := initialised_by J truth spread sizes gs M in
    let M' := run_wprogram J truth spread (run_gkernel J k sizes (recon sh) gamma av (map fst sys) dt ab points) (AlgModel.execute niter prg) M in
    steps J (halo_layers sh k central) true sizes fs g types ts sys crs dt
      (shock_right_hand_sides J k sh central gamma av dirof h fluxes sizes types sys crs) (Z.to_nat niter) ab M0 M' /\
    forall a y, BndSpec.given (register_of ts) sys crs a -> M' a y = M0 a y.
Proof.
  intros ts ab J k sh central dirof h fluxes sizes fs g types sys crs inits prg Hab Hg Hc niter. destruct (shock_split _ _ _ _ _ _ _ _ _ _ _ _ _ _ _ _ Hg) as (prg0 & G0 & X).
  destruct (X niter) as (gs & Hgs & E). exists gs. split; auto. intros truth spread gamma av points dt M Hp M0 M'. unfold M'. rewrite E.
  exact (ShkProps.C82_program_partial ts ab J k sh central dirof h fluxes sizes fs g types sys crs prg0 Hab G0 Hc gamma av points dt niter M0 Hp).
Qed.
Print Assumptions C87_bounded_partial.

(* C87: with shock capturing and periodic boundaries, a Runge-Kutta method of the order of the
   time scheme is applied to what the initialisations leave. *)
Theorem C87_capturing_partial : forall ts ab, coefficients ts = Ok ab ->
  exists rows b, RKSpec.explicit rows b /\ order_of ts rows b /\
  forall J k sh central dirof h fluxes sizes sys crs inits prg, started_capturing ts J k sh central dirof h fluxes sizes sys crs inits prg ->
  forall niter, exists gs, in_order inits gs /\
  forall truth spread g av dt M f,
    let M0 := initialised_by J truth spread sizes gs M in
    let M' := run_wprogram J truth spread (run_ckernel J k sizes (recon sh) g av (map fst sys) dt ab) (AlgModel.execute niter prg) M in
    shock_semi_discrete J k dirof h (order_scheme sh) g av fluxes sizes sys crs M0 f ->
    (forall v x, In v (map fst sys) -> grid_point sizes x ->
       M' v x = RKSpec.iterate (Z.to_nat niter) (RKSpec.runge_kutta rows b dt f) (fun i => M0 (fst i) (snd i)) (v, x)) /\
    (forall a y, InvSpec.given ts sys crs a -> M' a y = M0 a y).
Proof.
  intros ts ab Hab. destruct (C81_program_partial ts ab Hab) as (rows & b & Ex & Or & X). exists rows, b. split; auto. split; auto.
  intros J k sh central dirof h fluxes sizes sys crs inits prg Hg niter. destruct (capturing_split _ _ _ _ _ _ _ _ _ _ _ _ _ Hg) as (prg0 & G0 & Y).
  destruct (Y niter) as (gs & Hgs & E). exists gs. split; auto. intros truth spread g av dt M f M0 M' Hf. unfold M'. rewrite E.
  exact (X J k sh central dirof h g av fluxes sizes sys crs prg0 dt niter f M0 G0 Hf).
Qed.
Print Assumptions C87_capturing_partial.

(* C87: an inlet with values prescribed from arrays that the program does not own keeps, after
   any number of steps, the values that the initialisations have set. *)
Theorem C87_inlet : forall ts ab J k dirof h sizes fs g types sys crs inits prg,
  coefficients ts = Ok ab -> started_face ts J k dirof h sizes fs g types sys crs inits prg -> not_circular crs ->
  forall niter, (0 < niter)%Z -> exists gs, in_order inits gs /\
  forall truth spread points dt M, all_points points ->
    let M0 := initialised_by J truth spread sizes gs M in
    let M' := run_wprogram J truth spread (run_fkernel J k sizes dt ab points) (AlgModel.execute niter prg) M in
    forall d side ps s b e y, condition_at types d side (Dirichlet ps s) -> In (b, e) ps ->
      (forall a ix, In (a, ix) (dsets e) -> BndSpec.given (register_of ts) sys crs a) ->
      edge (fun _ => k) sizes d side y -> settled (fun _ => k) sizes d y -> M' b y = value J M0 y e.
Proof.
  intros ts ab J k dirof h sizes fs g types sys crs inits prg Hab Hg Hc niter Hn. destruct (face_split _ _ _ _ _ _ _ _ _ _ _ _ _ Hg) as (prg0 & G0 & X).
  destruct (X niter) as (gs & Hgs & E). exists gs. split; auto. intros truth spread points dt M Hp M0 M'. unfold M'. rewrite E.
  exact (FaceProps.C80_dirichlet_held ts ab J k dirof h sizes fs g types sys crs prg0 Hab G0 Hc points dt niter M0 Hp Hn).
Qed.
Print Assumptions C87_inlet.
Theorem C87_shock_inlet : forall ts ab J k sh central dirof h fluxes sizes fs g types sys crs inits prg,
  coefficients ts = Ok ab -> started_shock ts J k sh central dirof h fluxes sizes fs g types sys crs inits prg -> not_circular crs ->
  forall niter, (0 < niter)%Z -> exists gs, in_order inits gs /\
  forall truth spread gamma av points dt M, all_points points ->
    let M0 := initialised_by J truth spread sizes gs M in
    let M' := run_wprogram J truth spread (run_gkernel J k sizes (recon sh) gamma av (map fst sys) dt ab points) (AlgModel.execute niter prg) M in
    forall d side ps s b e y, condition_at types d side (Dirichlet ps s) -> In (b, e) ps ->
      (forall a ix, In (a, ix) (dsets e) -> BndSpec.given (register_of ts) sys crs a) ->
      edge (halo_layers sh k central) sizes d side y -> settled (halo_layers sh k central) sizes d y -> M' b y = value J M0 y e.
Proof.
  intros ts ab J k sh central dirof h fluxes sizes fs g types sys crs inits prg Hab Hg Hc niter Hn. destruct (shock_split _ _ _ _ _ _ _ _ _ _ _ _ _ _ _ _ Hg) as (prg0 & G0 & X).
  destruct (X niter) as (gs & Hgs & E). exists gs. split; auto. intros truth spread gamma av points dt M Hp M0 M'. unfold M'. rewrite E.
  exact (ShkProps.C82_dirichlet_held ts ab J k sh central dirof h fluxes sizes fs g types sys crs prg0 Hab G0 Hc gamma av points dt niter M0 Hp Hn).
Qed.
Print Assumptions C87_shock_inlet.

(* what the initialisation leaves depends on given arrays only *)
Lemma init_same : forall ts J sizes sys crs g,
  local_uses (List.length sizes) (gi_eqs g) -> no_early_use (List.length sizes) (gi_eqs g) ->
  let initialised b := exists q, In q (gi_eqs g) /\ surely_sets (List.length sizes) q b in
  (forall v, In v (map fst sys) -> initialised v) ->
  (forall q b, In q (gi_eqs g) -> sets (List.length sizes) q (Array b) -> initialised b) ->
  (forall q e b, In q (gi_eqs g) -> evaluates q e -> uses e (Array b) -> initialised b \/ InvSpec.given ts sys crs b) ->
  forall truth spread1 spread2,
    (let r := ik_range (init_kernel sizes g) in
     BCSpec.sweeps (spread1 r) (fun x => in_ranges r x = true) /\ BCSpec.sweeps (spread2 r) (fun x => in_ranges r x = true)) ->
  forall M1 M2, (forall b x, InvSpec.given ts sys crs b -> ~ (initialised b /\ InitSpec.around 5 sizes x) -> M1 b x = M2 b x) ->
  InvSpec.same_problem ts sizes sys crs (initialised_by J truth spread1 sizes [g] M1) (initialised_by J truth spread2 sizes [g] M2).
Proof.
  intros ts J sizes sys crs g LU NE initialised Hsys Hset Huse truth spread1 spread2 [S1 S2] M1 M2 HM. unfold initialised_by. cbn [fold_left].
  set (n := List.length sizes) in *. set (qs := gi_eqs g) in *. set (rg := ik_range (init_kernel sizes g)) in *.
  assert (PT : forall points : list (Z * Z) -> list (list Z), BCSpec.sweeps (points rg) (fun x => in_ranges rg x = true) -> forall x, In x (points rg) <-> InitSpec.around 5 sizes x).
  { intros points S x. rewrite (proj2 S). apply init_points. }
  assert (LP : forall (points : list (Z * Z) -> list (list Z)) M, BCSpec.sweeps (points rg) (fun x => in_ranges rg x = true) -> forall b y,
    (InitSpec.around 5 sizes y -> run_ikernel J truth qs (points rg) M b y = exec_point J truth qs M y b y) /\ (~ InitSpec.around 5 sizes y -> run_ikernel J truth qs (points rg) M b y = M b y)).
  { intros points M S b y. destruct (loop_points J truth n qs LU (points rg) M (proj1 S)) with (b := b) (y := y) as [A B].
    - intros p Hp. apply (PT points S) in Hp. eapply InitProps.around_len; eauto.
    - split; intros H; [apply A | apply B]; rewrite (PT points S); auto. }
  assert (IN : forall b x, initialised b -> InitSpec.around 5 sizes x -> run_ikernel J truth qs (spread1 rg) M1 b x = run_ikernel J truth qs (spread2 rg) M2 b x).
  { intros b x Hb Hx. rewrite (proj1 (LP spread1 M1 S1 b x) Hx), (proj1 (LP spread2 M2 S2 b x) Hx).
    apply (equal_point J truth n qs LU NE); auto; [eapply InitProps.around_len; eauto|].
    intros q e b' ix Hq He Hd Nb. assert (Ni : ~ initialised b') by (intros (q' & Hq' & Hs); apply Nb; exists q'; split; auto; apply InitProps.surely; auto).
    apply HM; [|tauto]. destruct (Huse q e b' Hq He) as [C | C]; auto; [|contradiction]. cbn. change b' with (fst (b', ix)). apply in_map. auto. }
  split.
  - intros v x Hv Hx. apply IN; auto. apply InitProps.grid_around; auto. lia.
  - intros b x Hb. destruct (InitProps.around_dec 5 sizes x) as [Hx | Hx].
    2: { rewrite (proj2 (LP spread1 M1 S1 b x) Hx), (proj2 (LP spread2 M2 S2 b x) Hx). apply HM; auto. tauto. }
    destruct (set_dec n qs b) as [(q & Hq & Hs) | S]; [apply IN; auto; eapply Hset; eauto|].
    rewrite (proj1 (LP spread1 M1 S1 b x) Hx), (proj1 (LP spread2 M2 S2 b x) Hx), !(point_frame J truth n qs LU) by (auto; eapply InitProps.around_len; eauto).
    apply HM; auto. intros [(q & Hq & Hs) _]. apply S. exists q. split; auto. apply InitProps.surely. auto.
Qed.
(* C87: if the initialisation sets all advanced arrays, whatever its conditions, and otherwise
   reads arrays that are given, the result with shock capturing depends on nothing else in the
   memory, and not on the order in which the points are initialised. *)
Theorem C87_memory : forall ts ab J k sh central dirof h av gamma fluxes sizes sys crs g prg,
  coefficients ts = Ok ab -> started_capturing ts J k sh central dirof h fluxes sizes sys crs [g] prg -> not_circular crs ->
  local_uses (List.length sizes) (gi_eqs g) -> no_early_use (List.length sizes) (gi_eqs g) ->
  let initialised b := exists q, In q (gi_eqs g) /\ surely_sets (List.length sizes) q b in
  (forall v, In v (map fst sys) -> initialised v) ->
  (forall q b, In q (gi_eqs g) -> sets (List.length sizes) q (Array b) -> initialised b) ->
  (forall q e b, In q (gi_eqs g) -> evaluates q e -> uses e (Array b) -> initialised b \/ InvSpec.given ts sys crs b) ->
  forall truth spread1 spread2,
    (let r := ik_range (init_kernel sizes g) in
     BCSpec.sweeps (spread1 r) (fun x => in_ranges r x = true) /\ BCSpec.sweeps (spread2 r) (fun x => in_ranges r x = true)) ->
  forall M1 M2, (forall b x, InvSpec.given ts sys crs b -> ~ (initialised b /\ InitSpec.around 5 sizes x) -> M1 b x = M2 b x) ->
  forall dt niter, InvSpec.same_problem ts sizes sys crs
    (run_wprogram J truth spread1 (run_ckernel J k sizes (recon sh) gamma av (map fst sys) dt ab) (AlgModel.execute niter prg) M1)
    (run_wprogram J truth spread2 (run_ckernel J k sizes (recon sh) gamma av (map fst sys) dt ab) (AlgModel.execute niter prg) M2).
Proof.
  intros ts ab J k sh central dirof h av gamma fluxes sizes sys crs g prg Hab Hg Hc LU NE initialised Hsys Hset Huse truth spread1 spread2 S M1 M2 HM dt niter.
  destruct (capturing_split _ _ _ _ _ _ _ _ _ _ _ _ _ Hg) as (prg0 & G0 & Y). destruct (Y niter) as (gs & [P _] & E). rewrite !E. clear E Y.
  apply Permutation_length_1_inv in P. subst gs.
  apply (C81_problem ts ab J k sh central central dirof h gamma av fluxes sizes sys crs prg0 prg0 Hab G0 G0 Hc).
  exact (init_same ts J sizes sys crs g LU NE Hsys Hset Huse truth spread1 spread2 S M1 M2 HM).
Qed.
Print Assumptions C87_memory.

(* ---- problems that meet the hypotheses ---- *)
Lemma known_problem : forall n r k dirof reg coordinate fluxes sys crs known,
  shock_problem n r k dirof reg coordinate fluxes sys crs [] -> (forall b, In b (map fst crs) -> ~ In b known) -> shock_problem n r k dirof reg coordinate fluxes sys crs known.
Proof.
  intros n r k dirof reg coordinate fluxes sys crs known H N. destruct H as [H1 H2 H3 H4 H5 H6 H7 H8 H9 H10 H11]. constructor; auto.
  intros b Hb. destruct (H6 b Hb) as (A & B & C & _). auto.
Qed.
(* two initialisations of the tube of C82: the second in the list has no number and comes
   first; the other one sets the flow and the values at the inlet from what it leaves *)
Definition amplitude : gridinit := {| gi_order := None; gi_eqs := [KEq (at1 "amp") (ENum 2)] |}.
Definition slope : gridinit := {| gi_order := Some 3%Z; gi_eqs :=
  [KEq InitProps.gx (EApp HMul [ESym KGridIdx (idx_name 0); ESym KConst "Delta0block0"]);
   KEq (at1 "rin") (EApp HAdd [at1 "amp"; InitProps.gx]);
   KEq (at1 "rho") (at1 "rin"); KEq (at1 "rhou0") (ENum 1); KEq (at1 "rhoE") (at1 "rin"); KEq (at1 "min") (ENum 1); KEq (at1 "ein") (at1 "rin")] |}.
(* a numbering of the arrays that gives these small numbers *)
Definition tube_num (b : string) : nat :=
  if string_dec b "rin" then 0 else if string_dec b "min" then 1 else if string_dec b "ein" then 2 else if string_dec b "amp" then 3 else 4 + cap_num b.
Lemma tube_num_inj : forall a b, tube_num a = tube_num b -> a = b.
Proof.
  intros a b. unfold tube_num. intros H. repeat match type of H with context[string_dec ?x ?y] => destruct (string_dec x y); try subst x end;
  auto; try lia. apply cap_num_inj. lia.
Qed.
Definition started_tube :=
  started_shock_block (@rev _) 2 weno5 true dir3 inv1 set_order inner_order (fun l => l) tube_num (fun l => l) [20]%Z (LS 3 RKModel.Standard) cap_sys cap_crs [] [hy_v2; hy_v1]
    ["rho"; "rhou0"; "rhoE"]%string [] set_order (arrays_of 1 ShkProps.tube_fields) ShkProps.tube_gas ShkProps.tube_types [slope; amplitude].
Lemma started_tube_made : match started_tube with Ok blk => match AlgModel.generate_solution blk None with Ok _ => True | _ => False end | _ => False end.
Proof. vm_compute. exact I. Qed.
Lemma started_tube_generated : forall blk prg, started_tube = Ok blk -> AlgModel.generate_solution blk None = Ok prg ->
  started_shock (LS 3 RKModel.Standard) BC2Props.fullJ 2 weno5 true dir3 (fun _ => 1%R) hy_fluxes [20]%Z ShkProps.tube_fields ShkProps.tube_gas ShkProps.tube_types cap_sys cap_crs [slope; amplitude] prg.
Proof.
  intros blk prg Eb Ep. destruct hy_ok as (_ & _ & HV).
  split; [apply BC2Props.fullJ_functions|]. split; [discriminate|]. split; [unfold usable_scheme, weno5; split; [lia|]; split; [discriminate | lra]|].
  split; [exact ShkProps.tube_ok|]. split; [intros v; cbn; tauto|].
  exists (@rev _), inv1, set_order, inner_order, (fun l => l), tube_num, (fun l => l), (fun _ => "x0"%string), [], [hy_v2; hy_v1], ["rho"; "rhou0"; "rhoE"]%string, [], [], None, set_order, blk.
  split; [apply Permutation_rev|].
  split. { intros M x d m. unfold value, inv1. cbn [eval]. rewrite (r_num _ BC2Props.fullJ_reals), RMicromega.Q2R_1, pow1. lra. }
  split; [apply set_order_ok|]. split; [apply inner_order_perm|]. split; [apply inner_order_inner|]. split; [auto|]. split; [apply tube_num_inj|].
  split; [auto|]. split. { apply known_problem; [exact cap_ok|]. intros b Hb. cbn in Hb. repeat (destruct Hb as [<- | Hb]; [vm_compute; intuition discriminate|]). destruct Hb. }
  split; [exact HV|]. split; [discriminate|]. split; [split; constructor|]. split; [exact set_order_ok|]. split; [exact Eb | exact Ep].
Qed.
Lemma tube_order : forall gs, in_order [slope; amplitude] gs -> gs = [amplitude; slope].
Proof.
  intros gs [P S]. apply Permutation_length_2_inv in P. destruct P as [-> | ->]; auto. exfalso.
  inversion S as [|? ? _ H]; subst. inversion H as [|? ? H1 _]; subst. cbn in H1. lia.
Qed.
Lemma straight_local : forall n qs, (forall q, In q qs -> exists l r s, q = KEq l r /\ is_target n l s /\ forall b ix, In (b, ix) (dsets r) -> ix = repeat 0%Z n) -> local_uses n qs.
Proof.
  intros n qs H. split.
  - intros q Hq. destruct (H q Hq) as (l & r & s & -> & Ht & _). eauto.
  - intros q q' e b ix Hq He Hb _ _. destruct (H q Hq) as (l & r & s & -> & _ & Hr). cbn [evaluates] in He. subst e. exact (Hr b ix Hb).
Qed.
Ltac straight_eqs := apply straight_local; intros q Hq; cbn in Hq; repeat (destruct Hq as [<- | Hq]; [
  first [exists InitProps.gx; eexists; exists (Local "x"); (split; [reflexivity|]); (split; [reflexivity|]); intros b ix Hb; destruct Hb
        | eexists (at1 _), _, (Array _); (split; [reflexivity|]); (split; [reflexivity|]); intros b ix Hb; cbn in Hb; repeat (destruct Hb as [Hb | Hb]; [injection Hb as <- <-; reflexivity|]); destruct Hb]|]); destruct Hq.
Lemma slope_local : local_uses 1 (gi_eqs slope).
Proof. straight_eqs. Qed.
Lemma amplitude_local : local_uses 1 (gi_eqs amplitude).
Proof. straight_eqs. Qed.
(* what they leave *)
Lemma slope_values : forall J truth spread M i, (-5 <= i < 25)%Z ->
  (forall r, BCSpec.sweeps (spread r) (fun x => in_ranges r x = true)) ->
  initialised_by J truth spread [20]%Z [amplitude; slope] M "rin"%string [i]%Z =
  iapp J HAdd [inum J 2; iapp J HMul [IZR i; isym J KConst "Delta0block0"]].
Proof.
  intros J truth spread M i Hi Sp. unfold initialised_by. cbn [fold_left].
  assert (A : InitSpec.around 5 [20]%Z [i]%Z). { split; [reflexivity|]. intros [|d] Hd; cbn in *; lia. }
  assert (LP : forall g M, local_uses 1 (gi_eqs g) -> forall b, run_ikernel J truth (gi_eqs g) (spread (ik_range (init_kernel [20]%Z g))) M b [i]%Z = exec_point J truth (gi_eqs g) M [i]%Z b [i]%Z).
  { intros g N LU b. destruct (loop_points J truth 1 (gi_eqs g) LU (spread (ik_range (init_kernel [20]%Z g))) N (proj1 (Sp _))) with (b := b) (y := [i]%Z) as [X _].
    - intros p Hp. apply (proj2 (Sp _)), init_points in Hp. destruct Hp as [Hp _]. exact Hp.
    - apply X. apply (proj2 (Sp _)), init_points. exact A. }
  rewrite (LP slope _ slope_local).
  set (N := run_ikernel J truth (gi_eqs amplitude) (spread (ik_range (init_kernel [20]%Z amplitude))) M).
  assert (E : N "amp"%string [i]%Z = inum J 2) by (unfold N; rewrite (LP amplitude _ amplitude_local); cbn; rewrite ?Z.add_0_r; destruct (Z.eq_dec i i) as [e | e]; [reflexivity | contradiction]).
  clearbody N. cbn. rewrite ?Z.add_0_r. destruct (Z.eq_dec i i) as [e | e]; [|contradiction]. cbn. rewrite ?Z.add_0_r, E. reflexivity.
Qed.
Lemma tube_inlet_given : forall a, In a ["rin"; "min"; "ein"]%string -> BndSpec.given AdvModel.temp_name cap_sys cap_crs a.
Proof.
  intros a Ha. assert (P : ~ private AdvModel.temp_name cap_sys a).
  { apply cap_private; cbn in Ha; repeat (destruct Ha as [<- | Ha]; [try reflexivity; cbn; intuition discriminate|]); destruct Ha. }
  cbn in Ha. repeat (destruct Ha as [<- | Ha]; [split; [cbn; intuition discriminate|]; split; [cbn; intuition discriminate|]; split; [cbn; intuition discriminate | exact P]|]). destruct Ha.
Qed.
Notation std_ab := ([0; -5/9; -153/128], [1/3; 15/16; 8/15])%R.
(* The program is generated.  Whatever the memory contains, after any number of steps the
   density at the inlet is the one that the initialisations have set there, 2 and the
   coordinate. *)
Example C87_bounded_nonvacuous : exists blk prg,
  started_tube = Ok blk /\ AlgModel.generate_solution blk None = Ok prg /\
  started_shock (LS 3 RKModel.Standard) BC2Props.fullJ 2 weno5 true dir3 (fun _ => 1%R) hy_fluxes [20]%Z ShkProps.tube_fields ShkProps.tube_gas ShkProps.tube_types cap_sys cap_crs [slope; amplitude] prg /\
  not_circular cap_crs /\ all_points sweep /\
  (forall gs, in_order [slope; amplitude] gs <-> gs = [amplitude; slope]) /\
  forall niter, (0 < niter)%Z -> forall truth spread dt M i, (forall r, BCSpec.sweeps (spread r) (fun x => in_ranges r x = true)) -> (-3 <= i <= 0)%Z ->
    run_wprogram BC2Props.fullJ truth spread (run_gkernel BC2Props.fullJ 2 [20]%Z (recon weno5) (7/5) Roe ["rho"; "rhou0"; "rhoE"]%string dt std_ab sweep) (AlgModel.execute niter prg) M "rho"%string [i]%Z = (2 + IZR i)%R.
Proof.
  pose proof started_tube_made as Q. destruct started_tube as [blk|] eqn:Eb; [|destruct Q].
  destruct (AlgModel.generate_solution blk None) as [prg|] eqn:Ep; [|destruct Q]. clear Q. pose proof (started_tube_generated blk prg Eb Ep) as G. clear Eb.
  exists blk, prg. split; [reflexivity|]. split; [exact Ep|]. split; [exact G|]. split; [apply cap_acyclic|]. split; [apply sweep_ok|]. clear Ep. split.
  { intros gs. split; [apply tube_order|]. intros ->. split; [apply perm_swap|]. repeat constructor. cbn. lia. }
  intros niter Hn truth spread dt M i Sp Hi.
  destruct (C87_shock_inlet (LS 3 RKModel.Standard) std_ab _ _ _ _ _ _ _ _ _ _ _ _ _ _ prg eq_refl G cap_acyclic niter Hn) as (gs & Hgs & X). apply tube_order in Hgs. subst gs.
  assert (Nr : forall a, (-3 <= a < 24)%Z -> FaceSpec.around (halo_layers weno5 2 true) [20]%Z [a]).
  { intros a Ha. split; [reflexivity|]. intros [|d] Hd; cbn in Hd |- *; lia. }
  assert (C0 : condition_at ShkProps.tube_types 0 false (Dirichlet [("rho", at1 "rin"); ("rhou0", at1 "min"); ("rhoE", at1 "ein")]%string Carpenter)) by (eexists _, _; split; reflexivity).
  etransitivity; [apply (X truth spread (7/5)%R Roe sweep dt M sweep_ok 0%nat false _ _ "rho"%string (at1 "rin") [i]%Z C0 (or_introl eq_refl))|].
  - intros a ix [E | []]. injection E as <- <-. apply tube_inlet_given. cbn. auto.
  - destruct (Z.eq_dec i 0) as [-> | Ni]; [left; split; [apply Nr; lia | reflexivity]|]. right. exists [0]%Z, (- i)%Z.
    split; [split; [apply Nr; lia | reflexivity]|]. split; [unfold layer; cbn; lia|]. unfold outwards. rewrite Z.opp_involutive. reflexivity.
  - split; [apply Nr; lia|]. intros d Hd. cbn in Hd. lia.
  - unfold value. cbn [eval at1 vadd map combine]. rewrite ?Z.add_0_r.
    etransitivity; [exact (slope_values BC2Props.fullJ truth spread M i ltac:(lia) Sp)|]. cbn. unfold Q2R. cbn. lra.
Qed.

(* periodic boundaries *)
Definition ramp3 : gridinit := {| gi_order := Some 1%Z; gi_eqs :=
  [KEq InitProps.gx (EApp HMul [ESym KGridIdx (idx_name 0); ESym KConst "Delta0block0"]);
   KEq (at1 "rho") (EApp HAdd [ENum 2; InitProps.gx]); KEq (at1 "rhou0") (at1 "rho"); KEq (at1 "rhoE") (EApp HMul [at1 "rho"; at1 "rhou0"])] |}.
Definition started_cap :=
  started_capturing_block (@rev _) 2 weno5 true dir3 inv1 set_order inner_order (fun l => l) cap_num (fun l => l) [20]%Z (LS 3 RKModel.Standard) cap_sys cap_crs [] [hy_v2; hy_v1] ["rho"; "rhou0"; "rhoE"]%string [] [ramp3].
Lemma started_cap_made : match started_cap with Ok blk => match AlgModel.generate_solution blk (Some 10%Z) with Ok _ => True | _ => False end | _ => False end.
Proof. vm_compute. exact I. Qed.
Lemma ramp3_local : local_uses 1 (gi_eqs ramp3).
Proof. straight_eqs. Qed.
Lemma ramp3_sets : forall b, In b ["rho"; "rhou0"; "rhoE"]%string -> exists q, In q (gi_eqs ramp3) /\ surely_sets 1 q b.
Proof.
  intros b [<- | [<- | [<- | []]]]; [exists (nth 1 (gi_eqs ramp3) (KGroup [])) | exists (nth 2 (gi_eqs ramp3) (KGroup [])) | exists (nth 3 (gi_eqs ramp3) (KGroup []))]; (split; [cbn; tauto | reflexivity]).
Qed.
Lemma ramp3_uses : forall q e b, In q (gi_eqs ramp3) -> evaluates q e -> uses e (Array b) -> In b ["rho"; "rhou0"]%string.
Proof. intros q e b Hq He Hu. cbn in Hq. repeat (destruct Hq as [<- | Hq]; [cbn [evaluates] in He; subst e; vm_compute in Hu; cbn; tauto|]). destruct Hq. Qed.
Lemma ramp3_early : no_early_use 1 (gi_eqs ramp3).
Proof.
  intros q1 q q2 q' e b E He Hu _ _. cbn [gi_eqs ramp3] in E. InitProps.split_list E; cbn [evaluates] in He; subst e; vm_compute in Hu; try tauto.
  - destruct Hu as [<- | []]. exists (nth 1 (gi_eqs ramp3) (KGroup [])). split; [cbn; tauto | reflexivity].
  - destruct Hu as [<- | [<- | []]]; [exists (nth 1 (gi_eqs ramp3) (KGroup [])) | exists (nth 2 (gi_eqs ramp3) (KGroup []))]; (split; [cbn; tauto | reflexivity]).
Qed.
(* The program is generated.  The result depends only on given arrays. *)
Example C87_capturing_nonvacuous : exists blk prg,
  started_cap = Ok blk /\ AlgModel.generate_solution blk (Some 10%Z) = Ok prg /\
  started_capturing (LS 3 RKModel.Standard) J1 2 weno5 true dir3 (fun _ => 1%R) hy_fluxes [20]%Z cap_sys cap_crs [ramp3] prg /\ not_circular cap_crs /\
  forall truth dt niter M1 M2 v x, (forall b y, InvSpec.given (LS 3 RKModel.Standard) cap_sys cap_crs b -> M1 b y = M2 b y) ->
    In v ["rho"; "rhou0"; "rhoE"]%string -> grid_point [20]%Z x ->
    run_wprogram J1 truth InitProps.row (run_ckernel J1 2 [20]%Z (recon weno5) (7/5) Roe ["rho"; "rhou0"; "rhoE"]%string dt std_ab) (AlgModel.execute niter prg) M1 v x =
    run_wprogram J1 truth (fun r => rev (InitProps.row r)) (run_ckernel J1 2 [20]%Z (recon weno5) (7/5) Roe ["rho"; "rhou0"; "rhoE"]%string dt std_ab) (AlgModel.execute niter prg) M2 v x.
Proof.
  destruct hy_ok as (_ & _ & HV). pose proof started_cap_made as Q. destruct started_cap as [blk|] eqn:Eb; [|destruct Q].
  destruct (AlgModel.generate_solution blk (Some 10%Z)) as [prg|] eqn:Ep; [|destruct Q]. clear Q.
  assert (G : started_capturing (LS 3 RKModel.Standard) J1 2 weno5 true dir3 (fun _ => 1%R) hy_fluxes [20]%Z cap_sys cap_crs [ramp3] prg).
  { split; [apply J1_real|]. split; [discriminate|]. split; [unfold usable_scheme, weno5; split; [lia|]; split; [discriminate | lra]|]. split; [intros [|d] Hd; cbn in *; lia|].
    exists (@rev _), inv1, set_order, inner_order, (fun l => l), cap_num, (fun l => l), (fun _ => "x0"%string), [], [hy_v2; hy_v1], ["rho"; "rhou0"; "rhoE"]%string, [], [], (Some 10%Z), blk.
    split; [apply Permutation_rev|]. split; [apply inv1_ok|]. split; [apply set_order_ok|]. split; [apply inner_order_perm|]. split; [apply inner_order_inner|]. split; [auto|]. split; [apply cap_num_inj|].
    split; [auto|]. split. { apply known_problem; [exact cap_ok|]. intros b Hb. cbn in Hb. repeat (destruct Hb as [<- | Hb]; [vm_compute; intuition discriminate|]). destruct Hb. }
    split; [exact HV|]. split; [discriminate|]. split; [split; constructor|]. split; [exact Eb | exact Ep]. }
  clear Eb. exists blk, prg. split; [reflexivity|]. split; [exact Ep|]. split; [exact G|]. split; [apply cap_acyclic|]. clear Ep.
  intros truth dt niter M1 M2 v x HM Hv Hx.
  destruct (C87_memory (LS 3 RKModel.Standard) std_ab J1 2 weno5 true dir3 (fun _ => 1%R) Roe (7/5)%R hy_fluxes [20]%Z cap_sys cap_crs ramp3 prg eq_refl G cap_acyclic ramp3_local ramp3_early)
    with (truth := truth) (spread1 := InitProps.row) (spread2 := fun r : list (Z * Z) => rev (InitProps.row r)) (M1 := M1) (M2 := M2) (dt := dt) (niter := niter) as [A _]; [| | | | |exact (A v x Hv Hx)].
  - exact ramp3_sets.
  - intros q b Hq Hs. apply ramp3_sets. cbn in Hq. repeat (destruct Hq as [<- | Hq]; [cbn in Hs; first [discriminate | injection Hs as <-; cbn; tauto]|]). destruct Hq.
  - intros q e b Hq He Hu. left. apply ramp3_sets. destruct (ramp3_uses q e b Hq He Hu) as [<- | [<- | []]]; cbn; tauto.
  - assert (RS : BCSpec.sweeps (InitProps.row (ik_range (init_kernel [20]%Z ramp3))) (fun y => in_ranges (ik_range (init_kernel [20]%Z ramp3)) y = true)) by exact InitProps.row_sweeps.
    split; [exact RS|]. destruct RS as [A B]. split; [apply NoDup_rev; auto|]. intros y. rewrite <- in_rev. apply B.
  - intros b y Hb _. auto.
Qed.

(* boundary conditions without shock capturing: the flow of C80 *)
Definition flow2 : gridinit := {| gi_order := None; gi_eqs :=
  [KEq (at2 "rin") (EApp HAdd [ENum 1; ESym KGridIdx (idx_name 1)]); KEq (at2 "min") (ENum 1); KEq (at2 "ein") (ENum 3);
   KEq (at2 "r") (at2 "rin"); KEq (at2 "m0") (at2 "min"); KEq (at2 "m1") (ENum 0); KEq (at2 "e") (at2 "ein")] |}.
Definition gas_num (b : string) : nat :=
  if string_dec b "r" then 0 else if string_dec b "m0" then 1 else if string_dec b "m1" then 2 else if string_dec b "e" then 3 else
  if string_dec b "u1" then 4 else 5 + tube_num b.
Lemma gas_num_inj : forall a b, gas_num a = gas_num b -> a = b.
Proof.
  intros a b. unfold gas_num. intros H. repeat match type of H with context[string_dec ?x ?y] => destruct (string_dec x y); try subst x end;
  auto; try lia. apply tube_num_inj. lia.
Qed.
Definition started_gas2 :=
  started_face_block (fun l => l) 2 dir3 inv1 set_order inner_order gas_num (fun l => l) [10; 8]%Z (LS 3 RKModel.Standard) FaceProps.gas2 FaceProps.gas2_crs [] FaceProps.gas2_cds [] ["r"]%string []
    set_order (arrays_of 2 FaceProps.gas2_fields) FaceProps.gas2_gas FaceProps.gas2_types [flow2].
Lemma started_gas2_made : match started_gas2 with Ok blk => match AlgModel.generate_solution blk None with Ok _ => True | _ => False end | _ => False end.
Proof. lazy. exact I. Qed.
Lemma flow2_local : local_uses 2 (gi_eqs flow2).
Proof.
  apply straight_local; intros q Hq; cbn in Hq; repeat (destruct Hq as [<- | Hq]; [
    eexists (at2 _), _, (Array _); (split; [reflexivity|]); (split; [reflexivity|]); intros b ix Hb; cbn in Hb; repeat (destruct Hb as [Hb | Hb]; [injection Hb as <- <-; reflexivity|]); destruct Hb|]); destruct Hq.
Qed.
Lemma flow2_values : forall J truth spread M i j, (-5 <= i < 15)%Z -> (-5 <= j < 13)%Z ->
  (forall r, BCSpec.sweeps (spread r) (fun x => in_ranges r x = true)) ->
  initialised_by J truth spread [10; 8]%Z [flow2] M "rin"%string [i; j]%Z = iapp J HAdd [inum J 1; IZR j].
Proof.
  intros J truth spread M i j Hi Hj Sp. unfold initialised_by. cbn [fold_left].
  assert (A : InitSpec.around 5 [10; 8]%Z [i; j]%Z). { split; [reflexivity|]. intros [|[|d]] Hd; cbn in *; lia. }
  destruct (loop_points J truth 2 (gi_eqs flow2) flow2_local (spread (ik_range (init_kernel [10; 8]%Z flow2))) M (proj1 (Sp _))) with (b := "rin"%string) (y := [i; j]%Z) as [X _].
  - intros p Hp. apply (proj2 (Sp _)), init_points in Hp. destruct Hp as [Hp _]. exact Hp.
  - rewrite X; [|apply (proj2 (Sp _)), init_points; exact A]. cbn. rewrite ?Z.add_0_r. destruct (Z.eq_dec i i) as [e | e]; [|contradiction]. destruct (Z.eq_dec j j) as [e' | e']; [|contradiction]. reflexivity.
Qed.
(* The program is generated.  Whatever the memory contains, after any number of steps the
   density at the inlet is the one that the initialisation has set there. *)
Example C87_faces_nonvacuous : exists blk prg,
  started_gas2 = Ok blk /\ AlgModel.generate_solution blk None = Ok prg /\
  started_face (LS 3 RKModel.Standard) BC2Props.fullJ 2 dir3 (fun _ => 1%R) [10; 8]%Z FaceProps.gas2_fields FaceProps.gas2_gas FaceProps.gas2_types FaceProps.gas2 FaceProps.gas2_crs [flow2] prg /\
  not_circular FaceProps.gas2_crs /\ all_points sweep /\
  forall niter, (0 < niter)%Z -> forall truth spread dt M i j, (forall r, BCSpec.sweeps (spread r) (fun x => in_ranges r x = true)) -> (-2 <= i <= 0)%Z -> (0 < j < 7)%Z ->
    run_wprogram BC2Props.fullJ truth spread (run_fkernel BC2Props.fullJ 2 [10; 8]%Z dt std_ab sweep) (AlgModel.execute niter prg) M "r"%string [i; j]%Z = (1 + IZR j)%R.
Proof.
  pose proof started_gas2_made as Q. destruct started_gas2 as [blk|] eqn:Eb; [|destruct Q].
  destruct (AlgModel.generate_solution blk None) as [prg|] eqn:Ep; [|destruct Q]. clear Q.
  assert (G : started_face (LS 3 RKModel.Standard) BC2Props.fullJ 2 dir3 (fun _ => 1%R) [10; 8]%Z FaceProps.gas2_fields FaceProps.gas2_gas FaceProps.gas2_types FaceProps.gas2 FaceProps.gas2_crs [flow2] prg).
  { destruct FaceProps.gas2_ok as (PP & HC & HV).
    split; [apply BC2Props.fullJ_functions|]. split; [exact FaceProps.gas2_types_ok|]. split; [intros v; cbn; tauto|].
    exists (fun l => l), inv1, set_order, inner_order, gas_num, (fun l => l), [], FaceProps.gas2_cds, [], ["r"%string], [], [], None, set_order, blk.
    split; [auto|]. split. { intros M x d m. unfold value, inv1. cbn [eval]. rewrite (r_num _ BC2Props.fullJ_reals), RMicromega.Q2R_1, pow1. lra. }
    split; [apply set_order_ok|]. split; [apply inner_order_perm|]. split; [apply inner_order_inner|]. split; [apply gas_num_inj|]. split; [auto|].
    split. { destruct PP as [P1 P2 P3 P4 P5 P6 P7 P8]. constructor; auto. intros b Hb. destruct (P6 b Hb) as (A & B & C & _). split; [exact A|]. split; [exact B|]. split; [exact C|].
             cbn in Hb. repeat (destruct Hb as [<- | Hb]; [vm_compute; intuition discriminate|]). destruct Hb. }
    split; [exact HC|]. split; [exact HV|]. split; [discriminate|].
    split. { intros _ r rhs t Hr Ht Hv. apply has_re_spec in Hv. destruct (FaceProps.gas2_terms r rhs Hr t Ht). congruence. }
    split; [split; constructor|]. split; [exact set_order_ok|]. split; [exact Eb | exact Ep]. }
  clear Eb. exists blk, prg. split; [reflexivity|]. split; [exact Ep|]. split; [exact G|]. split; [apply FaceProps.gas2_nc|]. split; [apply sweep_ok|]. clear Ep.
  intros niter Hn truth spread dt M i j Sp Hi Hj.
  destruct (C87_inlet (LS 3 RKModel.Standard) std_ab _ _ _ _ _ _ _ _ _ _ _ prg eq_refl G FaceProps.gas2_nc niter Hn) as (gs & Hgs & X).
  destruct Hgs as [P _]. apply Permutation_length_1_inv in P. subst gs.
  assert (Nr : forall a b, (-2 <= a < 12)%Z -> (-2 <= b < 10)%Z -> FaceSpec.around (fun _ => 2%nat) [10; 8]%Z [a; b]).
  { intros a b Ha Hb. split; [reflexivity|]. intros [|[|d]] Hd; cbn in Hd |- *; lia. }
  assert (C0 : condition_at FaceProps.gas2_types 0 false (Dirichlet [("r", at2 "rin"); ("m0", at2 "min"); ("m1", ENum 0); ("e", at2 "ein")]%string Carpenter)) by (eexists _, _; split; reflexivity).
  etransitivity; [apply (X truth spread sweep dt M sweep_ok 0%nat false _ _ "r"%string (at2 "rin") [i; j]%Z C0 (or_introl eq_refl))|].
  - intros a ix [E | []]. injection E as <- <-. split; [cbn; intuition discriminate|]. split; [cbn; intuition discriminate|]. split; [cbn; intuition discriminate|]. apply FaceProps.gas2_private; [cbn; intuition discriminate | reflexivity].
  - destruct (Z.eq_dec i 0) as [-> | Ni]; [left; split; [apply Nr; lia | reflexivity]|]. right. exists [0; j]%Z, (- i)%Z.
    split; [split; [apply Nr; lia | reflexivity]|]. split; [unfold layer; cbn; lia|]. unfold outwards. rewrite Z.opp_involutive. reflexivity.
  - split; [apply Nr; lia|]. intros [|[|d]] Hd; cbn in Hd |- *; lia.
  - unfold value. cbn [eval at2 vadd map combine]. rewrite ?Z.add_0_r.
    etransitivity; [exact (flow2_values BC2Props.fullJ truth spread M i j ltac:(lia) ltac:(lia) Sp)|]. cbn. unfold Q2R. cbn. lra.
Qed.
