(* C82: programs with shock capturing and any of the boundary conditions. *)
From Verif Require Import Base BaseProofs Expr ExprProofs FDModel WorkModel ShiftSpec ShiftProofs DiscModel DiscSpec DiscProofs DiscRun DiscMain DiscProps
  LLFModel ProgModel ProgSpec ProgProofs ProgProps HybModel HybSpec HybProofs HybMore HybProps CapModel CapSpec CapProofs CapMore CapProps.
From Verif Require AdvModel AdvSpec AlgModel AlgSpec AlgProps OrdModel BCModel BC2Props BCIsoProps RKModel RKSpec WenoModel.
From Verif Require Import BCSpec BCGasSpec BC2Spec BCGas BndModel BndSpec BndExist OneModel SideModel SideSpec FaceModel FaceSpec FaceKern FaceTime FaceEnd ShkModel ShkSpec.
From Verif Require ShkProofs.
From Coq Require Import QArith ZArith Reals Lia Lra Permutation List.
Local Close Scope Q_scope.
Local Open Scope list_scope.

(* ---- C82 ---- *)
(* As C80, for programs with a WENO or TENO scheme and perhaps a central scheme: the program
   takes that many steps of the time scheme.  Each step imposes the conditions, takes the
   right-hand sides from the contents of the arrays - differences of the numerical fluxes, and
   central derivatives with one-sided formulas next to the boundaries that have them - advances
   the values at the points of the grid and imposes the conditions again.  The arrays the
   program does not own are unchanged. *)
Theorem C82_program_partial : forall ts ab J k sh central dirof h fluxes sizes fs g types sys crs prg,
  coefficients ts = Ok ab -> bounded_shock_generated ts J k sh central dirof h fluxes sizes fs g types sys crs prg -> not_circular crs ->
  forall gamma av points dt niter M, all_points points ->
    let M' := run_gprogram J k sizes (recon sh) gamma av (map fst sys) dt ab points (AlgModel.execute niter prg) M in
    steps J (halo_layers sh k central) true sizes fs g types ts sys crs dt
      (shock_right_hand_sides J k sh central gamma av dirof h fluxes sizes types sys crs) (Z.to_nat niter) ab M M' /\
    forall a y, BndSpec.given (register_of ts) sys crs a -> M' a y = M a y.
Proof.
  intros ts ab J k sh central dirof h fluxes sizes fs g types sys crs prg Hab (HF & Hs0 & Hsup & FB & Hfs & inv & dord & sord & worder & num & kord & coordinate & known & vcds & datasets & ios & rqs & mon & ord & blk &
    Hinv & Hdord & Hperm & Hinner & Hw & Hnum & Hkord & PP & HV & Hcen & Hio & Hord & Hblk & Hprg) (rank & Hrank) gamma av points dt niter M Hp M'.
  rewrite width_reach in PP.
  assert (Hdim : List.length sizes <> 0%nat) by (destruct sizes; cbn; congruence).
  unfold bounded_shock_block in Hblk. rewrite Hab in Hblk. cbn [bind] in Hblk.
  destruct (bounded_kernels k sh central sizes (schemes_of types) dirof inv dord sord worder num kord (map fst sys) crs known vcds (disc_eqs sys)) as [((cs, k1), k2)|] eqn:Esp; [|discriminate].
  cbn [bind fst snd] in Hblk.
  destruct (apply_conditions true ord sizes (capturing_halos k sh central sizes) (arrays_of (List.length sizes) fs) g 0 types) as [bcs|] eqn:Ebc; [|discriminate].
  cbn [bind] in Hblk. injection Hblk as Hblk.
  assert (TR : AlgModel.execute niter prg = AlgSpec.program_trace (fphase ts sys gkernel Ordinary (map Constituent cs ++ map Capture k1 ++ map (fun s => Ordinary (Difference s)) k2) (map Ordinary bcs))
    (Z.of_nat (List.length (fst ab))) niter mon rqs).
  { pose proof (AlgProps.C17_time_loop gkernel blk) as X. rewrite <- Hblk in X, Hprg. cbn [AlgModel.bk_schemes AlgModel.bk_io] in X.
    destruct (X _ _ mon rqs prg (Z.of_nat (List.length (fst ab))) niter eq_refl eq_refl eq_refl eq_refl Hio Hprg) as (ns & Hns & E).
    destruct Hns as (Pn & _). cbn in Pn. apply Permutation_nil in Pn. subst ns. rewrite E. unfold fphase. destruct ts; reflexivity. }
  assert (S : steps J (halo_layers sh k central) true sizes fs g types ts sys crs dt (shock_right_hand_sides J k sh central gamma av dirof h fluxes sizes types sys crs) (Z.to_nat niter) ab M M').
  { unfold M'. rewrite TR. exact (ShkProofs.program_ok J k sh central dirof inv dord sord worder num kord h gamma av sizes coordinate fluxes sys crs known vcds ts fs g types
      HF Hinv Hdord Hperm Hinner Hw Hnum Hkord Hdim Hsup PP HV Hcen FB Hfs rank Hrank ord points cs k1 k2 bcs dt ab Hord Hp Esp Ebc Hab mon rqs niter M). }
  split; auto. intros a y Ha. destruct (steps_given J (halo_layers sh k central) true sizes fs g types ts sys crs dt _ FB Hfs ab _ M M' S) as [X _]. auto.
Qed.
Print Assumptions C82_program_partial.

(* C82: after at least one step the momentum is zero on walls without slip. *)
Theorem C82_no_slip : forall ts ab J k sh central dirof h fluxes sizes fs g types sys crs prg,
  coefficients ts = Ok ab -> bounded_shock_generated ts J k sh central dirof h fluxes sizes fs g types sys crs prg -> not_circular crs ->
  forall gamma av points dt niter M, all_points points -> (0 < niter)%Z ->
    let M' := run_gprogram J k sizes (recon sh) gamma av (map fst sys) dt ab points (AlgModel.execute niter prg) M in
    forall d side c x m, condition_at types d side c -> no_slip c -> face (halo_layers sh k central) sizes d side x -> settled (halo_layers sh k central) sizes d x ->
      In m (g_momentum g) -> M' m x = 0%R.
Proof.
  intros ts ab J k sh central dirof h fluxes sizes fs g types sys crs prg Hab G Hn gamma av points dt niter M Hp Hi M'.
  destruct (C82_program_partial ts ab J k sh central dirof h fluxes sizes fs g types sys crs prg Hab G Hn gamma av points dt niter M Hp) as [S _]. fold M' in S.
  exact (end_no_slip J (halo_layers sh k central) true sizes fs g types ts sys crs dt _ (proj1 (proj2 (proj2 (proj2 G)))) (proj1 (proj2 (proj2 (proj2 (proj2 G))))) ab _ M M' Hab S ltac:(lia) (proj1 G)).
Qed.
Print Assumptions C82_no_slip.

(* C82: walls with a prescribed temperature have that temperature. *)
Theorem C82_wall_temperature : forall ts ab J k sh central dirof h fluxes sizes fs g types sys crs prg,
  coefficients ts = Ok ab -> bounded_shock_generated ts J k sh central dirof h fluxes sizes fs g types sys crs prg -> not_circular crs ->
  forall gamma av points dt niter M, all_points points -> (0 < niter)%Z ->
    let M' := run_gprogram J k sizes (recon sh) gamma av (map fst sys) dt ab points (AlgModel.execute niter prg) M in
    forall d side x0 s x, condition_at types d side (Isothermal x0 (BCIsoProps.wall_energy (List.length sizes) (g_density g)) s) ->
      face (halo_layers sh k central) sizes d side x -> settled (halo_layers sh k central) sizes d x -> proper J -> M' (g_density g) x <> 0%R ->
      T_at J M' (g_density g) (g_momentum g) (g_energy g) x = const J "Twall".
Proof.
  intros ts ab J k sh central dirof h fluxes sizes fs g types sys crs prg Hab G Hn gamma av points dt niter M Hp Hi M'.
  destruct (C82_program_partial ts ab J k sh central dirof h fluxes sizes fs g types sys crs prg Hab G Hn gamma av points dt niter M Hp) as [S _]. fold M' in S.
  exact (end_wall_temperature J (halo_layers sh k central) true sizes fs g types ts sys crs dt _ (proj1 (proj2 (proj2 (proj2 G)))) (proj1 (proj2 (proj2 (proj2 (proj2 G))))) ab _ M M' Hab S ltac:(lia) (proj1 G)).
Qed.
Print Assumptions C82_wall_temperature.

(* C82: at adiabatic walls the one-sided difference of the temperature is zero. *)
Theorem C82_adiabatic_wall : forall ts ab J k sh central dirof h fluxes sizes fs g types sys crs prg,
  coefficients ts = Ok ab -> bounded_shock_generated ts J k sh central dirof h fluxes sizes fs g types sys crs prg -> not_circular crs ->
  forall gamma av points dt niter M, all_points points -> (0 < niter)%Z ->
    let M' := run_gprogram J k sizes (recon sh) gamma av (map fst sys) dt ab points (AlgModel.execute niter prg) M in
    forall d side c x, condition_at types d side c -> (exists s, c = Adiabatic s \/ c = CarpenterWall s) -> (5 <= nth d sizes 0)%Z ->
      face (halo_layers sh k central) sizes d side x -> settled (halo_layers sh k central) sizes d x -> proper J -> M' (g_density g) x <> 0%R ->
      temperature_slope J g M' d side x = 0%R.
Proof.
  intros ts ab J k sh central dirof h fluxes sizes fs g types sys crs prg Hab G Hn gamma av points dt niter M Hp Hi M'.
  destruct (C82_program_partial ts ab J k sh central dirof h fluxes sizes fs g types sys crs prg Hab G Hn gamma av points dt niter M Hp) as [S _]. fold M' in S.
  exact (end_adiabatic_wall J (halo_layers sh k central) true sizes fs g types ts sys crs dt _ (proj1 (proj2 (proj2 (proj2 G)))) (proj1 (proj2 (proj2 (proj2 (proj2 G))))) ab _ M M' Hab S ltac:(lia) (proj1 G)).
Qed.
Print Assumptions C82_adiabatic_wall.

(* C82: at outlets with a prescribed pressure the pressure, on the face and beyond, is the prescribed one. *)
Theorem C82_outlet_pressure : forall ts ab J k sh central dirof h fluxes sizes fs g types sys crs prg,
  coefficients ts = Ok ab -> bounded_shock_generated ts J k sh central dirof h fluxes sizes fs g types sys crs prg -> not_circular crs ->
  forall gamma av points dt niter M, all_points points -> (0 < niter)%Z ->
    let M' := run_gprogram J k sizes (recon sh) gamma av (map fst sys) dt ab points (AlgModel.execute niter prg) M in
    forall d side s x t, condition_at types d side (PressureOutlet s) -> face (halo_layers sh k central) sizes d side x -> settled (halo_layers sh k central) sizes d x ->
      t = 0%Z \/ layer (halo_layers sh k central) side t -> const J "gama" <> 1%R -> let y := outwards d side t x in M' (g_density g) y <> 0%R ->
      p_at J M' (g_density g) (g_momentum g) (g_energy g) y = const J "back_pressure".
Proof.
  intros ts ab J k sh central dirof h fluxes sizes fs g types sys crs prg Hab G Hn gamma av points dt niter M Hp Hi M'.
  destruct (C82_program_partial ts ab J k sh central dirof h fluxes sizes fs g types sys crs prg Hab G Hn gamma av points dt niter M Hp) as [S _]. fold M' in S.
  exact (end_outlet_pressure J (halo_layers sh k central) true sizes fs g types ts sys crs dt _ (proj1 (proj2 (proj2 (proj2 G)))) (proj1 (proj2 (proj2 (proj2 (proj2 G))))) ab _ M M' Hab S ltac:(lia) (proj1 G)).
Qed.
Print Assumptions C82_outlet_pressure.

(* C82: values prescribed from given arrays are held, on the face and beyond. *)
Theorem C82_dirichlet_held : forall ts ab J k sh central dirof h fluxes sizes fs g types sys crs prg,
  coefficients ts = Ok ab -> bounded_shock_generated ts J k sh central dirof h fluxes sizes fs g types sys crs prg -> not_circular crs ->
  forall gamma av points dt niter M, all_points points -> (0 < niter)%Z ->
    let M' := run_gprogram J k sizes (recon sh) gamma av (map fst sys) dt ab points (AlgModel.execute niter prg) M in
    forall d side ps s b e y, condition_at types d side (Dirichlet ps s) -> In (b, e) ps ->
      (forall a ix, In (a, ix) (dsets e) -> BndSpec.given (register_of ts) sys crs a) ->
      edge (halo_layers sh k central) sizes d side y -> settled (halo_layers sh k central) sizes d y -> M' b y = value J M y e.
Proof.
  intros ts ab J k sh central dirof h fluxes sizes fs g types sys crs prg Hab G Hn gamma av points dt niter M Hp Hi M'.
  destruct (C82_program_partial ts ab J k sh central dirof h fluxes sizes fs g types sys crs prg Hab G Hn gamma av points dt niter M Hp) as [S _]. fold M' in S.
  exact (end_dirichlet_held J (halo_layers sh k central) true sizes fs g types ts sys crs dt _ (proj1 (proj2 (proj2 (proj2 G)))) (proj1 (proj2 (proj2 (proj2 (proj2 G))))) ab _ M M' Hab S ltac:(lia) (proj1 G)).
Qed.
Print Assumptions C82_dirichlet_held.

(* C82: extrapolation continues the values inside constantly (order 0) or linearly (order 1). *)
Theorem C82_extrapolated : forall ts ab J k sh central dirof h fluxes sizes fs g types sys crs prg,
  coefficients ts = Ok ab -> bounded_shock_generated ts J k sh central dirof h fluxes sizes fs g types sys crs prg -> not_circular crs ->
  forall gamma av points dt niter M, all_points points -> (0 < niter)%Z ->
    let M' := run_gprogram J k sizes (recon sh) gamma av (map fst sys) dt ab points (AlgModel.execute niter prg) M in
    forall d side order s x t b, condition_at types d side (Extrapolation order s) -> (3 <= nth d sizes 0)%Z ->
      face (halo_layers sh k central) sizes d side x -> settled (halo_layers sh k central) sizes d x -> layer (halo_layers sh k central) side t -> In b (field_names fs) ->
      (order = 0%Z /\ M' b x = M' b (inwards d side 1 x) /\ M' b (outwards d side t x) = M' b (inwards d side 1 x)) \/
      (order = 1%Z /\ M' b (outwards d side t x) = (M' b x + IZR t * (M' b x - M' b (inwards d side 1 x)))%R).
Proof.
  intros ts ab J k sh central dirof h fluxes sizes fs g types sys crs prg Hab G Hn gamma av points dt niter M Hp Hi M'.
  destruct (C82_program_partial ts ab J k sh central dirof h fluxes sizes fs g types sys crs prg Hab G Hn gamma av points dt niter M Hp) as [S _]. fold M' in S.
  exact (end_extrapolated J (halo_layers sh k central) true sizes fs g types ts sys crs dt _ (proj1 (proj2 (proj2 (proj2 G)))) (proj1 (proj2 (proj2 (proj2 (proj2 G))))) ab _ M M' Hab S ltac:(lia) (proj1 G)).
Qed.
Print Assumptions C82_extrapolated.

(* ---- a problem that meets the hypotheses ---- *)
(* the one-dimensional viscous gas of C81 between an inlet with given values and a wall with a
   given temperature, with WENO of order 5 and central differences of order 4 *)
Definition tube_gas : gas := {| g_density := "rho"; g_momentum := ["rhou0"]; g_energy := "rhoE" |}%string.
Definition tube_fields : list field := [FScalar "rho"; FVector ["rhou0"]; FScalar "rhoE"]%string.
Definition tube_types : list (bcond * bcond) :=
  [(Dirichlet [("rho", at1 "rin"); ("rhou0", at1 "min"); ("rhoE", at1 "ein")]%string Carpenter, Isothermal (ENum 0) (BCIsoProps.wall_energy 1 "rho") Carpenter)].
Notation tube_w := (halo_layers weno5 2 true).
Lemma placed_num1 : forall q, BCSpec.placed 1 (ENum q).
Proof. intros q. split; [intros b ix [] | split; reflexivity]. Qed.
Lemma placed_at1 : forall b, BCSpec.placed 1 (at1 b).
Proof. intros b. split; [intros c ix [E | []]; injection E as <- <-; reflexivity | split; reflexivity]. Qed.
Lemma tube_ok : face_boundaries tube_w [20]%Z tube_fields tube_gas tube_types.
Proof.
  constructor.
  - reflexivity.
  - intros l r [E | []]. injection E as <- <-. split; discriminate.
  - intros [|d] Hd; cbn in *; lia.
  - intros [|d] Hd _; cbn in *; lia.
  - split; [repeat constructor; cbn; intuition discriminate | discriminate].
  - intros vs [E | [E | [E | []]]]; try discriminate. injection E as <-. reflexivity.
  - intros l r _ _. split; [repeat constructor; cbn; intuition discriminate|]. split; [intros b Hb; exact Hb|]. split; [reflexivity | cbn; lia].
  - intros [|d] l r E; cbn in E; [|destruct d; discriminate]. injection E as <- <-. split.
    + split; [repeat constructor; cbn; intuition discriminate|]. split; [intros b Hb; cbn in *; tauto|]. split.
      * intros b e Hb. cbn in Hb. repeat (destruct Hb as [Hb | Hb]; [injection Hb as <- <-; apply placed_at1|]). destruct Hb.
      * intros b e b' ix Hb Hx. cbn in Hb. repeat (destruct Hb as [Hb | Hb]; [injection Hb as <- <-; cbn in Hx; destruct Hx as [Hx | []]; injection Hx as <- <-; cbn; intuition discriminate|]). destruct Hb.
    + intros q [-> | ->]; (split; [|]).
      * apply placed_num1.
      * intros b ix [].
      * split; [|split; reflexivity]. intros b ix [E | []]. injection E as <- <-. reflexivity.
      * intros b ix [E | []]. injection E as <- <-. cbn. intuition discriminate.
Qed.
Definition tube_block :=
  bounded_shock_block 2 weno5 true dir3 inv1 set_order inner_order (fun l => l) cap_num (fun l => l) [20]%Z (LS 3 RKModel.Standard) cap_sys cap_crs [] [hy_v2; hy_v1]
    ["rho"; "rhou0"; "rhoE"]%string [] set_order (arrays_of 1 tube_fields) tube_gas tube_types.
Definition tube_shape (l : list gkernel) : list string :=
  map (fun x => match x with Constituent (b, _, _) => b | Capture _ => "shock" | Ordinary _ => "central" end)%string l.
Lemma tube_made : match tube_block with Ok blk => match AlgModel.generate_solution blk None, AlgModel.bk_schemes blk with Ok _, [sc] =>
    match AlgSpec.sims (AlgModel.sc_solution sc) with [s] =>
      tube_shape (AlgModel.sq_spatial s) = ["u0"; "p"; "a"; "T"; "shock"; "shock"; "central"; "central"; "central"]%string /\ List.length (AlgModel.sq_bc s) = 2%nat
    | _ => False end | _, _ => False end | _ => False end.
Proof. vm_compute. split; reflexivity. Qed.
Lemma tube_generated : forall blk prg, tube_block = Ok blk -> AlgModel.generate_solution blk None = Ok prg ->
  bounded_shock_generated (LS 3 RKModel.Standard) BC2Props.fullJ 2 weno5 true dir3 (fun _ => 1%R) hy_fluxes [20]%Z tube_fields tube_gas tube_types cap_sys cap_crs prg.
Proof.
  intros blk prg Eb Ep. destruct hy_ok as (_ & _ & HV).
  split; [apply BC2Props.fullJ_functions|]. split; [discriminate|]. split; [unfold usable_scheme, weno5; split; [lia|]; split; [discriminate | lra]|].
  split; [exact tube_ok|]. split; [intros v; cbn; tauto|].
  exists inv1, set_order, inner_order, (fun l => l), cap_num, (fun l => l), (fun _ => "x0"%string), [], [hy_v2; hy_v1], ["rho"; "rhou0"; "rhoE"]%string, [], [], None, set_order, blk.
  split. { intros M x d m. unfold value, inv1. cbn [eval]. rewrite (r_num _ BC2Props.fullJ_reals), RMicromega.Q2R_1, pow1. lra. }
  split; [apply set_order_ok|]. split; [apply inner_order_perm|]. split; [apply inner_order_inner|]. split; [auto|]. split; [apply cap_num_inj|].
  split; [auto|]. split; [exact cap_ok|]. split; [exact HV|]. split; [discriminate|]. split; [split; constructor|]. split; [exact set_order_ok|]. split; [exact Eb | exact Ep].
Qed.
Notation std_ab := ([0; -5/9; -153/128], [1/3; 15/16; 8/15])%R.
(* The program is generated.  The momentum on the wall is zero and its temperature is Twall (1
   here) wherever the density is not zero; the inlet keeps the given density. *)
Example C82_nonvacuous : exists blk prg,
  tube_block = Ok blk /\ AlgModel.generate_solution blk None = Ok prg /\
  bounded_shock_generated (LS 3 RKModel.Standard) BC2Props.fullJ 2 weno5 true dir3 (fun _ => 1%R) hy_fluxes [20]%Z tube_fields tube_gas tube_types cap_sys cap_crs prg /\
  not_circular cap_crs /\ all_points sweep /\ proper BC2Props.fullJ /\
  forall dt niter M i, (0 < niter)%Z ->
    let M' := run_gprogram BC2Props.fullJ 2 [20]%Z (recon weno5) (7/5) Roe ["rho"; "rhou0"; "rhoE"]%string dt std_ab sweep (AlgModel.execute niter prg) M in
    M' "rhou0"%string [19]%Z = 0%R /\
    (M' "rho"%string [19]%Z <> 0%R -> T_at BC2Props.fullJ M' "rho" ["rhou0"]%string "rhoE" [19]%Z = 1%R) /\
    ((-3 <= i <= 0)%Z -> M' "rho"%string [i]%Z = M "rin"%string [i]%Z).
Proof.
  pose proof tube_made as Q. destruct tube_block as [blk|] eqn:Eb; [|destruct Q].
  destruct (AlgModel.generate_solution blk None) as [prg|] eqn:Ep; [|destruct Q]. clear Q. pose proof (tube_generated blk prg Eb Ep) as G. clear Eb.
  exists blk, prg.
  assert (Pr : proper BC2Props.fullJ) by (unfold proper, const; cbn; repeat split; lra).
  split; [reflexivity|]. split; [exact Ep|]. split; [exact G|]. split; [apply cap_acyclic|]. split; [apply sweep_ok|]. split; [exact Pr|]. clear Ep.
  intros dt niter M i Hi M'.
  assert (Nr : forall a, (-3 <= a < 24)%Z -> around tube_w [20]%Z [a]).
  { intros a Ha. split; [reflexivity|]. intros [|d] Hd; cbn in Hd |- *; lia. }
  assert (St : forall a, (-3 <= a < 24)%Z -> settled tube_w [20]%Z 0 [a]).
  { intros a Ha. split; [apply Nr; lia|]. intros d Hd. cbn in Hd. lia. }
  assert (C1 : condition_at tube_types 0 true (Isothermal (ENum 0) (BCIsoProps.wall_energy 1 "rho") Carpenter)) by (eexists _, _; split; reflexivity).
  assert (F : face tube_w [20]%Z 0 true [19]%Z) by (split; [apply Nr; lia | reflexivity]).
  split; [|split].
  - apply (C82_no_slip (LS 3 RKModel.Standard) std_ab _ _ _ _ _ _ _ _ _ _ _ _ _ prg eq_refl G cap_acyclic (7/5) Roe sweep dt niter M sweep_ok Hi 0%nat true _ [19]%Z "rhou0"%string C1 I F (St 19%Z ltac:(lia))). left. reflexivity.
  - intros R0. refine (eq_trans (C82_wall_temperature (LS 3 RKModel.Standard) std_ab _ _ _ _ _ _ _ _ _ _ _ _ _ prg eq_refl G cap_acyclic (7/5) Roe sweep dt niter M sweep_ok Hi 0%nat true _ _ [19]%Z C1 F (St 19%Z ltac:(lia)) Pr R0) _). reflexivity.
  - intros Ha.
    assert (C0 : condition_at tube_types 0 false (Dirichlet [("rho", at1 "rin"); ("rhou0", at1 "min"); ("rhoE", at1 "ein")]%string Carpenter)) by (eexists _, _; split; reflexivity).
    transitivity (value BC2Props.fullJ M [i]%Z (at1 "rin")); [|unfold value; cbn; rewrite !Z.add_0_r; reflexivity].
    apply (C82_dirichlet_held (LS 3 RKModel.Standard) std_ab _ _ _ _ _ _ _ _ _ _ _ _ _ prg eq_refl G cap_acyclic (7/5) Roe sweep dt niter M sweep_ok Hi 0%nat false _ _ "rho"%string _ [i]%Z C0 (or_introl eq_refl)).
    + intros a ix [E | []]. injection E as <- <-. split; [cbn; intuition discriminate|]. split; [cbn; intuition discriminate|]. split; [cbn; intuition discriminate|]. apply cap_private; [cbn; intuition discriminate | reflexivity].
    + destruct (Z.eq_dec i 0) as [-> | Ni]; [left; split; [apply Nr; lia | reflexivity]|]. right. exists [0]%Z, (- i)%Z.
      split; [split; [apply Nr; lia | reflexivity]|]. split; [unfold layer; cbn; lia|]. unfold outwards. rewrite Z.opp_involutive. reflexivity.
    + apply St; lia.
Qed.
