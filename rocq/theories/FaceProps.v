(* C80: programs with any of the boundary conditions and one-sided formulas. *)
From Verif Require Import Base Expr ExprProofs FDModel FDProofs WorkModel WorkProofs ShiftSpec ShiftProofs DiscModel DiscSpec DiscProofs DiscRun DiscMain ProgModel ProgSpec ProgProofs.
From Verif Require AdvModel AdvSpec AdvProofs AdvProps AlgModel AlgSpec AlgProps OrdModel OrdSpec OrdProps BCModel BCVec BC2Props BCIsoProps RKModel RKSpec RKProofs RKProps.
From Verif Require Import DiscProps ProgProps BCSpec BCGasSpec BC2Spec BCProofs BCKern BCMirror BCGas BndModel BndSpec BndKern BndExist BndProofs BndProps OneModel SideModel SideSpec SideRun SideMain SideProps FaceModel FaceSpec FaceKern FaceTime FaceProofs FaceEnd.
From Coq Require Import QArith ZArith Reals Lia Lra Permutation List.
Local Close Scope Q_scope.
Local Open Scope list_scope.

(* ---- C80 ---- *)
(* For each time scheme, for every such problem, all initial contents of the arrays, every
   order in which the points of the boundaries are treated and every number of steps: the
   program takes that many steps of the scheme, each of which imposes the conditions, takes
   the right-hand sides from the contents of the arrays with one-sided formulas next to the
   boundaries that have them, advances the values at the points of the grid and imposes the
   conditions again.  The arrays the program does not own are unchanged. *)
Theorem C80_program_partial : forall ts ab J k dirof h sizes fs g types sys crs prg,
  coefficients ts = Ok ab -> face_generated ts J k dirof h sizes fs g types sys crs prg -> not_circular crs ->
  forall points dt niter M, all_points points ->
    let M' := run_fprogram J k sizes dt ab points (AlgModel.execute niter prg) M in
    steps J (fun _ => k) false sizes fs g types ts sys crs dt (right_hand_sides J k dirof h sizes types sys crs) (Z.to_nat niter) ab M M' /\
    forall a y, given (register_of ts) sys crs a -> M' a y = M a y.
Proof.
  intros ts ab J k dirof h sizes fs g types sys crs prg Hab (HF & FB & Hfs & inv & dord & sord & num & kord & known & ccds & vcds & datasets & ios & rqs & mon & ord & blk &
    Hinv & Hdord & Hperm & Hinner & Hnum & Hkord & PP & HC & HV & Nc & Nv & Hio & Hord & Hblk & Hprg) (rank & Hrank) points dt niter M Hp M'.
  unfold face_block in Hblk. rewrite Hab in Hblk. cbn [bind] in Hblk.
  destruct (all_spatial_kernels1 k (List.length sizes) dirof inv dord sord num kord sizes (schemes_of types) crs (map fst sys ++ known) ccds vcds (disc_eqs sys)) as [sp|] eqn:Esp; [|discriminate].
  cbn [bind] in Hblk.
  destruct (apply_conditions false ord sizes (block_halos k (List.length sizes)) (arrays_of (List.length sizes) fs) g 0 types) as [bcs|] eqn:Ebc; [|discriminate].
  cbn [bind] in Hblk. injection Hblk as Hblk.
  assert (TR : AlgModel.execute niter prg = AlgSpec.program_trace (fphase ts sys fkernel (fun x => x) (map Difference sp) bcs) (Z.of_nat (List.length (fst ab))) niter mon rqs).
  { pose proof (AlgProps.C17_time_loop fkernel blk) as X. rewrite <- Hblk in X, Hprg. cbn [AlgModel.bk_schemes AlgModel.bk_io] in X.
    destruct (X _ _ mon rqs prg (Z.of_nat (List.length (fst ab))) niter eq_refl eq_refl eq_refl eq_refl Hio Hprg) as (ns & Hns & E).
    destruct Hns as (Pn & _). cbn in Pn. apply Permutation_nil in Pn. subst ns. exact E. }
  assert (S : steps J (fun _ => k) false sizes fs g types ts sys crs dt (right_hand_sides J k dirof h sizes types sys crs) (Z.to_nat niter) ab M M').
  { unfold M'. rewrite TR. exact (FaceProofs.program_ok J k dirof inv dord sord num kord h sizes sys crs known ccds vcds ts fs g types HF Hinv Hdord Hperm Hinner Hnum Hkord PP HC HV Nc Nv FB Hfs rank Hrank ord points sp bcs dt ab Hord Hp Esp Ebc Hab mon rqs niter M). }
  split; auto. intros a y Ha. destruct (steps_given J (fun _ => k) false sizes fs g types ts sys crs dt _ FB Hfs ab _ M M' S) as [X _]. auto.
Qed.
Print Assumptions C80_program_partial.

(* C80: after at least one step the momentum is zero on walls without slip. *)
Theorem C80_no_slip : forall ts ab J k dirof h sizes fs g types sys crs prg,
  coefficients ts = Ok ab -> face_generated ts J k dirof h sizes fs g types sys crs prg -> not_circular crs ->
  forall points dt niter M, all_points points -> (0 < niter)%Z ->
    let M' := run_fprogram J k sizes dt ab points (AlgModel.execute niter prg) M in
    forall d side c x m, condition_at types d side c -> no_slip c -> face (fun _ => k) sizes d side x -> settled (fun _ => k) sizes d x ->
      In m (g_momentum g) -> M' m x = 0%R.
Proof.
  intros ts ab J k dirof h sizes fs g types sys crs prg Hab G Hn points dt niter M Hp Hi M'.
  destruct (C80_program_partial ts ab J k dirof h sizes fs g types sys crs prg Hab G Hn points dt niter M Hp) as [S _]. fold M' in S.
  exact (end_no_slip J (fun _ => k) false sizes fs g types ts sys crs dt _ (proj1 (proj2 G)) (proj1 (proj2 (proj2 G))) ab _ M M' Hab S ltac:(lia) (proj1 G)).
Qed.
Print Assumptions C80_no_slip.

(* C80: walls with a prescribed temperature have that temperature. *)
Theorem C80_wall_temperature : forall ts ab J k dirof h sizes fs g types sys crs prg,
  coefficients ts = Ok ab -> face_generated ts J k dirof h sizes fs g types sys crs prg -> not_circular crs ->
  forall points dt niter M, all_points points -> (0 < niter)%Z ->
    let M' := run_fprogram J k sizes dt ab points (AlgModel.execute niter prg) M in
    forall d side x0 s x, condition_at types d side (Isothermal x0 (BCIsoProps.wall_energy (List.length sizes) (g_density g)) s) ->
      face (fun _ => k) sizes d side x -> settled (fun _ => k) sizes d x -> proper J -> M' (g_density g) x <> 0%R ->
      T_at J M' (g_density g) (g_momentum g) (g_energy g) x = const J "Twall".
Proof.
  intros ts ab J k dirof h sizes fs g types sys crs prg Hab G Hn points dt niter M Hp Hi M'.
  destruct (C80_program_partial ts ab J k dirof h sizes fs g types sys crs prg Hab G Hn points dt niter M Hp) as [S _]. fold M' in S.
  exact (end_wall_temperature J (fun _ => k) false sizes fs g types ts sys crs dt _ (proj1 (proj2 G)) (proj1 (proj2 (proj2 G))) ab _ M M' Hab S ltac:(lia) (proj1 G)).
Qed.
Print Assumptions C80_wall_temperature.

(* C80: at adiabatic walls the one-sided difference of the temperature is zero. *)
Theorem C80_adiabatic_wall : forall ts ab J k dirof h sizes fs g types sys crs prg,
  coefficients ts = Ok ab -> face_generated ts J k dirof h sizes fs g types sys crs prg -> not_circular crs ->
  forall points dt niter M, all_points points -> (0 < niter)%Z ->
    let M' := run_fprogram J k sizes dt ab points (AlgModel.execute niter prg) M in
    forall d side c x, condition_at types d side c -> (exists s, c = Adiabatic s \/ c = CarpenterWall s) -> (5 <= nth d sizes 0)%Z ->
      face (fun _ => k) sizes d side x -> settled (fun _ => k) sizes d x -> proper J -> M' (g_density g) x <> 0%R ->
      temperature_slope J g M' d side x = 0%R.
Proof.
  intros ts ab J k dirof h sizes fs g types sys crs prg Hab G Hn points dt niter M Hp Hi M'.
  destruct (C80_program_partial ts ab J k dirof h sizes fs g types sys crs prg Hab G Hn points dt niter M Hp) as [S _]. fold M' in S.
  exact (end_adiabatic_wall J (fun _ => k) false sizes fs g types ts sys crs dt _ (proj1 (proj2 G)) (proj1 (proj2 (proj2 G))) ab _ M M' Hab S ltac:(lia) (proj1 G)).
Qed.
Print Assumptions C80_adiabatic_wall.

(* C80: at outlets with a prescribed pressure the pressure, on the face and beyond, is the prescribed one. *)
Theorem C80_outlet_pressure : forall ts ab J k dirof h sizes fs g types sys crs prg,
  coefficients ts = Ok ab -> face_generated ts J k dirof h sizes fs g types sys crs prg -> not_circular crs ->
  forall points dt niter M, all_points points -> (0 < niter)%Z ->
    let M' := run_fprogram J k sizes dt ab points (AlgModel.execute niter prg) M in
    forall d side s x t, condition_at types d side (PressureOutlet s) -> face (fun _ => k) sizes d side x -> settled (fun _ => k) sizes d x ->
      t = 0%Z \/ layer (fun _ => k) side t -> const J "gama" <> 1%R -> let y := outwards d side t x in M' (g_density g) y <> 0%R ->
      p_at J M' (g_density g) (g_momentum g) (g_energy g) y = const J "back_pressure".
Proof.
  intros ts ab J k dirof h sizes fs g types sys crs prg Hab G Hn points dt niter M Hp Hi M'.
  destruct (C80_program_partial ts ab J k dirof h sizes fs g types sys crs prg Hab G Hn points dt niter M Hp) as [S _]. fold M' in S.
  exact (end_outlet_pressure J (fun _ => k) false sizes fs g types ts sys crs dt _ (proj1 (proj2 G)) (proj1 (proj2 (proj2 G))) ab _ M M' Hab S ltac:(lia) (proj1 G)).
Qed.
Print Assumptions C80_outlet_pressure.

(* C80: values prescribed from given arrays are held, on the face and beyond. *)
Theorem C80_dirichlet_held : forall ts ab J k dirof h sizes fs g types sys crs prg,
  coefficients ts = Ok ab -> face_generated ts J k dirof h sizes fs g types sys crs prg -> not_circular crs ->
  forall points dt niter M, all_points points -> (0 < niter)%Z ->
    let M' := run_fprogram J k sizes dt ab points (AlgModel.execute niter prg) M in
    forall d side ps s b e y, condition_at types d side (Dirichlet ps s) -> In (b, e) ps ->
      (forall a ix, In (a, ix) (dsets e) -> given (register_of ts) sys crs a) ->
      edge (fun _ => k) sizes d side y -> settled (fun _ => k) sizes d y -> M' b y = value J M y e.
Proof.
  intros ts ab J k dirof h sizes fs g types sys crs prg Hab G Hn points dt niter M Hp Hi M'.
  destruct (C80_program_partial ts ab J k dirof h sizes fs g types sys crs prg Hab G Hn points dt niter M Hp) as [S _]. fold M' in S.
  exact (end_dirichlet_held J (fun _ => k) false sizes fs g types ts sys crs dt _ (proj1 (proj2 G)) (proj1 (proj2 (proj2 G))) ab _ M M' Hab S ltac:(lia) (proj1 G)).
Qed.
Print Assumptions C80_dirichlet_held.

(* C80: extrapolation continues the values inside constantly (order 0) or linearly (order 1). *)
Theorem C80_extrapolated : forall ts ab J k dirof h sizes fs g types sys crs prg,
  coefficients ts = Ok ab -> face_generated ts J k dirof h sizes fs g types sys crs prg -> not_circular crs ->
  forall points dt niter M, all_points points -> (0 < niter)%Z ->
    let M' := run_fprogram J k sizes dt ab points (AlgModel.execute niter prg) M in
    forall d side order s x t b, condition_at types d side (Extrapolation order s) -> (3 <= nth d sizes 0)%Z ->
      face (fun _ => k) sizes d side x -> settled (fun _ => k) sizes d x -> layer (fun _ => k) side t -> In b (field_names fs) ->
      (order = 0%Z /\ M' b x = M' b (inwards d side 1 x) /\ M' b (outwards d side t x) = M' b (inwards d side 1 x)) \/
      (order = 1%Z /\ M' b (outwards d side t x) = (M' b x + IZR t * (M' b x - M' b (inwards d side 1 x)))%R).
Proof.
  intros ts ab J k dirof h sizes fs g types sys crs prg Hab G Hn points dt niter M Hp Hi M'.
  destruct (C80_program_partial ts ab J k dirof h sizes fs g types sys crs prg Hab G Hn points dt niter M Hp) as [S _]. fold M' in S.
  exact (end_extrapolated J (fun _ => k) false sizes fs g types ts sys crs dt _ (proj1 (proj2 G)) (proj1 (proj2 (proj2 G))) ab _ M M' Hab S ltac:(lia) (proj1 G)).
Qed.
Print Assumptions C80_extrapolated.

(* ---- a problem that meets the hypotheses ---- *)
(* an inviscid gas in two dimensions: r density, m momentum, e energy, p pressure; rin, min and
   ein are given arrays *)
Definition gas2 : system :=
  [("r"%string, EApp HAdd [neg_cd (at2 "m0") x0; neg_cd (at2 "m1") x1]);
   ("m0"%string, EApp HAdd [neg_cd (prod2 "m0" "u0") x0; neg_cd (prod2 "m0" "u1") x1; neg_cd (at2 "p") x0]);
   ("m1"%string, EApp HAdd [neg_cd (prod2 "m1" "u0") x0; neg_cd (prod2 "m1" "u1") x1; neg_cd (at2 "p") x1]);
   ("e"%string, EApp HAdd [neg_cd (ept "u0") x0; neg_cd (ept "u1") x1])].
Definition gas2_crs : list (string * expr) :=
  let over m := EApp HMul [at2 m; EApp HPow [at2 "r"; ENum (-1)]] in
  [("u0", over "m0"); ("u1", over "m1");
   ("p", EApp HMul [EApp HAdd [ESym KConst "gama"; ENum (-1)];
      EApp HAdd [at2 "e"; EApp HMul [ENum (-1 # 2); EApp HAdd [EApp HMul [at2 "m0"; over "m0"]; EApp HMul [at2 "m1"; over "m1"]]]]])]%string.
Definition gas2_cds : list expr :=
  [EApp HCD [at2 "m0"; x0]; EApp HCD [at2 "m1"; x1]; EApp HCD [prod2 "m0" "u0"; x0]; EApp HCD [prod2 "m0" "u1"; x1]; EApp HCD [at2 "p"; x0];
   EApp HCD [prod2 "m1" "u0"; x0]; EApp HCD [prod2 "m1" "u1"; x1]; EApp HCD [at2 "p"; x1]; EApp HCD [ept "u0"; x0]; EApp HCD [ept "u1"; x1]].
Definition gas2_gas : gas := {| g_density := "r"; g_momentum := ["m0"; "m1"]; g_energy := "e" |}%string.
Definition gas2_fields : list field := [FScalar "r"; FVector ["m0"; "m1"]; FScalar "e"]%string.
(* from an inlet with given values to an outlet with a given pressure, along a wall with a
   given temperature *)
Definition gas2_types : list (bcond * bcond) :=
  [(Dirichlet [("r", at2 "rin"); ("m0", at2 "min"); ("m1", ENum 0); ("e", at2 "ein")]%string Carpenter, PressureOutlet ReducedAccess);
   (Isothermal (ENum 0) (BCIsoProps.wall_energy 2 "r") Carpenter, Extrapolation 0 Carpenter)].
(* between two insulated walls *)
Definition gas2_channel : list (bcond * bcond) :=
  [(InletTransfer Carpenter, Extrapolation 1 ReducedOrder); (CarpenterWall Carpenter, Adiabatic Carpenter)].
Lemma gas2_private : forall b, ~ In b ["tempRK_r"; "tempRK_m0"; "tempRK_m1"; "tempRK_e"]%string ->
  match String.get 0 b with Some c => Ascii.eqb c "w" | None => false end = false -> ~ private AdvModel.temp_name gas2 b.
Proof.
  intros b N H [H1 | (v & Hv & ->)]; [revert H1; apply not_wk; auto|].
  destruct Hv as [<- | [<- | [<- | [<- | []]]]]; apply N; cbn; auto.
Qed.
Lemma gas2_terms : forall r rhs, In (r, rhs) (disc_eqs gas2) -> forall t, In t (terms rhs) ->
  has_re t = false /\ exists d, In d gas2_cds /\ cds_post t = [d].
Proof.
  intros r rhs [E | [E | [E | [E | []]]]] t Ht; injection E as <- <-; cbn [terms] in Ht;
    repeat (destruct Ht as [<- | Ht]; [(split; [reflexivity|]); eexists; (split; [|reflexivity]); vm_compute; tauto|]); destruct Ht.
Qed.
Ltac each H := repeat (destruct H as [<- | H]; [|]); [ .. | destruct H].
Lemma gas2_inside : forall r rhs u, In (r, rhs) (disc_eqs gas2) -> inside u rhs -> derivative u -> In u gas2_cds.
Proof.
  intros v rhs u [E | [E | [E | [E | []]]]] Hi Hd; injection E as <- <-; apply (inside_cds u _ Hd) in Hi; vm_compute in Hi; vm_compute; tauto.
Qed.
Lemma gas2_dsets : forall r rhs b ix, In (r, rhs) (disc_eqs gas2) -> In (b, ix) (dsets rhs) -> ix = [0; 0]%Z /\ In b ["m0"; "m1"; "u0"; "u1"; "p"; "e"]%string.
Proof.
  intros r rhs b ix [E | [E | [E | [E | []]]]] Hb; injection E as <- <-; vm_compute in Hb;
    repeat (destruct Hb as [Hb | Hb]; [injection Hb as <- <-; (split; [reflexivity|]); cbn; tauto|]); destruct Hb.
Qed.
Lemma gas2_relations : forall b e c ix, In (b, e) gas2_crs -> In (c, ix) (dsets e) -> ix = [0; 0]%Z /\ In c ["r"; "m0"; "m1"; "e"]%string.
Proof.
  intros b e c ix [E | [E | [E | []]]] Hb; injection E as <- <-; vm_compute in Hb;
    repeat (destruct Hb as [Hb | Hb]; [injection Hb as <- <-; (split; [reflexivity|]); cbn; tauto|]); destruct Hb.
Qed.
Lemma gas2_ok : periodic_problem 2 dir3 AdvModel.temp_name gas2 gas2_crs [] /\
  lists_derivatives (disc_eqs gas2) (fun t => ~ viscous_term t) gas2_cds /\
  lists_derivatives (disc_eqs gas2) viscous_term [].
Proof.
  assert (Dd : forall d, In d gas2_cds -> derivative d).
  { intros d Hd. apply is_cd_derivative. repeat (destruct Hd as [<- | Hd]; [reflexivity|]). destruct Hd. }
  assert (NV : forall r rhs t, In (r, rhs) (disc_eqs gas2) -> In t (terms rhs) -> ~ viscous_term t).
  { intros r rhs t Hr Ht Hv. apply has_re_spec in Hv. destruct (gas2_terms r rhs Hr t Ht). congruence. }
  split; [|split].
  - constructor.
    + constructor.
      * repeat constructor; cbn; intuition discriminate.
      * intros r rhs [E | [E | [E | [E | []]]]]; injection E as <- <-; apply gas2_private; try reflexivity; cbn; intuition discriminate.
      * intros r rhs b ix Hin Hb. destruct (gas2_dsets r rhs b ix Hin Hb) as [-> Hb']. split; [reflexivity|].
        cbn in Hb'. repeat (destruct Hb' as [<- | Hb']; [split; [apply gas2_private; try reflexivity|]; cbn; intuition discriminate|]). destruct Hb'.
      * intros r rhs [E | [E | [E | [E | []]]]]; injection E as <- <-; eexists; left; reflexivity.
      * intros r rhs [E | [E | [E | [E | []]]]]; injection E as <- <-; apply plain_ok; reflexivity.
      * intros r rhs v Hin Hi Hd. apply (gas2_inside r rhs v Hin Hi) in Hd.
        repeat (destruct Hd as [<- | Hd]; [match goal with |- proper_derivative _ _ (EApp HCD [?a; x0]) => exists a, "x0"%string, 0%nat | |- proper_derivative _ _ (EApp HCD [?a; x1]) => exists a, "x1"%string, 0%nat end;
          repeat split; cbn; try lia; discriminate|]). destruct Hd.
      * intros r rhs t v Hin Ht _ Hi Hd. apply (inside_cds v t Hd) in Hi. destruct (gas2_terms r rhs Hin t Ht) as (_ & d & Hd' & E).
        rewrite E in Hi. destruct Hi as [<- | []]. repeat (destruct Hd' as [<- | Hd']; [vm_compute; lia|]). destruct Hd'.
      * intros r rhs t v Hin Ht Vt. exfalso. eapply NV; eauto.
    + assert (C : forall v rhs n, In (v, rhs) gas2 -> In n (syms KCoord rhs) -> n = "x0"%string \/ n = "x1"%string).
      { intros v rhs n [E | [E | [E | [E | []]]]] Hn; injection E as <- <-; vm_compute in Hn; intuition congruence. }
      intros v rhs v' rhs' n n' H H' Hn Hn' E. destruct (C v rhs n H Hn) as [-> | ->], (C v' rhs' n' H' Hn') as [-> | ->]; auto; vm_compute in E; discriminate.
    + unfold AdvSpec.distinct_arrays. vm_compute. repeat constructor; cbn; intuition discriminate.
    + intros v [<- | [<- | [<- | [<- | []]]]]; split; intros i; discriminate.
    + repeat constructor; cbn; intuition discriminate.
    + intros b [<- | [<- | [<- | []]]]; (split; [apply gas2_private; try reflexivity|]; cbn; intuition discriminate).
    + intros b e c ix Hin Hc. destruct (gas2_relations b e c ix Hin Hc) as [-> Hc']. split; [reflexivity|].
      cbn in Hc'. repeat (destruct Hc' as [<- | Hc']; [split; [apply gas2_private; try reflexivity|]; cbn; intuition discriminate|]). destruct Hc'.
    + intros b e v [E | [E | [E | []]]] Hi Hd; injection E as <- <-; apply (inside_cds v _ Hd) in Hi; vm_compute in Hi; destruct Hi.
    + intros b e c ix d Hin Hc Hcr. exfalso. destruct (gas2_relations b e c ix Hin Hc) as [_ Hc']. cbn in Hc', Hcr. intuition (subst; discriminate).
  - split; [repeat constructor; cbn; intuition discriminate|]. intros v. split.
    + intros Hv. split; [apply Dd; auto|].
      assert (Q : forall t, ~ viscous_term t <-> has_re t = false) by (intros t; rewrite <- has_re_spec; destruct (has_re t); split; congruence).
      assert (Q2 : forall u d s i j, nth_error (disc_eqs gas2) i = Some (u, EApp HAdd s) -> nth_error s j = Some (EApp HMul [ENum (-1); d]) -> has_re (EApp HMul [ENum (-1); d]) = false -> In d (cds_post (EApp HMul [ENum (-1); d])) ->
        exists r rhs t, In (r, rhs) (disc_eqs gas2) /\ In t (terms rhs) /\ ~ viscous_term t /\ inside d t).
      { intros u d s i j A B C D. exists u, (EApp HAdd s), (EApp HMul [ENum (-1); d]). split; [eapply nth_error_In; eauto|]. split; [cbn [terms]; eapply nth_error_In; eauto|].
        split; [apply Q; auto|]. apply cds_inside. auto. }
      cbn in Hv. repeat (destruct Hv as [<- | Hv]; [
        first [ eapply (Q2 _ _ _ 0%nat 0%nat); [reflexivity | reflexivity | reflexivity | vm_compute; tauto]
              | eapply (Q2 _ _ _ 0%nat 1%nat); [reflexivity | reflexivity | reflexivity | vm_compute; tauto]
              | eapply (Q2 _ _ _ 1%nat 0%nat); [reflexivity | reflexivity | reflexivity | vm_compute; tauto]
              | eapply (Q2 _ _ _ 1%nat 1%nat); [reflexivity | reflexivity | reflexivity | vm_compute; tauto]
              | eapply (Q2 _ _ _ 1%nat 2%nat); [reflexivity | reflexivity | reflexivity | vm_compute; tauto]
              | eapply (Q2 _ _ _ 2%nat 0%nat); [reflexivity | reflexivity | reflexivity | vm_compute; tauto]
              | eapply (Q2 _ _ _ 2%nat 1%nat); [reflexivity | reflexivity | reflexivity | vm_compute; tauto]
              | eapply (Q2 _ _ _ 2%nat 2%nat); [reflexivity | reflexivity | reflexivity | vm_compute; tauto]
              | eapply (Q2 _ _ _ 3%nat 0%nat); [reflexivity | reflexivity | reflexivity | vm_compute; tauto]
              | eapply (Q2 _ _ _ 3%nat 1%nat); [reflexivity | reflexivity | reflexivity | vm_compute; tauto] ] |]). destruct Hv.
    + intros (Hd & r & rhs & t & Hin & Ht & Nv & Hi). apply (inside_cds v t Hd) in Hi.
      destruct (gas2_terms r rhs Hin t Ht) as (_ & d & Hd' & E). rewrite E in Hi. destruct Hi as [<- | []]. auto.
  - split; [constructor|]. intros v. split; [intros [] | intros (_ & r & rhs & t & Hin & Ht & Nv & _); exfalso; eapply NV; eauto].
Qed.
Definition gas2_block (types : list (bcond * bcond)) :=
  face_block 2 dir3 inv1 set_order inner_order code (fun l => l) [10; 8]%Z (LS 3 RKModel.Standard) gas2 gas2_crs [] gas2_cds [] ["r"]%string []
    set_order (arrays_of 2 gas2_fields) gas2_gas types.
Lemma gas2_common : forall types, List.length types = 2%nat ->
  (forall l r, In (l, r) types -> l <> Central Periodic /\ r <> Central Periodic) ->
  (forall d l r, nth_error types d = Some (l, r) -> admissible 2 gas2_fields gas2_gas d l /\ admissible 2 gas2_fields gas2_gas d r) ->
  face_boundaries (fun _ => 2%nat) [10; 8]%Z gas2_fields gas2_gas types.
Proof.
  intros types L N A. constructor; auto.
  - intros l r Hin. destruct (N l r Hin). tauto.
  - intros [|[|d]] Hd; cbn in *; lia.
  - intros [|[|d]] Hd _; cbn in *; lia.
  - split; [repeat constructor; cbn; intuition discriminate | discriminate].
  - intros vs [E | [E | [E | []]]]; try discriminate. injection E as <-. reflexivity.
  - intros l r _ _. split; [repeat constructor; cbn; intuition discriminate|]. split; [intros b Hb; exact Hb|]. split; [reflexivity | cbn; lia].
Qed.
Lemma placed_num2 : forall q, BCSpec.placed 2 (ENum q).
Proof. intros q. split; [intros b ix [] | split; reflexivity]. Qed.
Lemma placed_at2 : forall b, BCSpec.placed 2 (at2 b).
Proof. intros b. split; [intros c ix [E | []]; injection E as <- <-; reflexivity | split; reflexivity]. Qed.
Lemma gas2_types_ok : face_boundaries (fun _ => 2%nat) [10; 8]%Z gas2_fields gas2_gas gas2_types.
Proof.
  apply gas2_common; [reflexivity | intros l r [E | [E | []]]; injection E as <- <-; split; discriminate|].
  intros [|[|d]] l r E; cbn in E; [| |destruct d; discriminate]; injection E as <- <-; (split; [|exact I]).
  - split; [repeat constructor; cbn; intuition discriminate|]. split; [intros b Hb; cbn in *; tauto|]. split.
    + intros b e Hb. cbn in Hb. repeat (destruct Hb as [Hb | Hb]; [injection Hb as <- <-; first [apply placed_at2 | apply placed_num2]|]). destruct Hb.
    + intros b e b' ix Hb Hx. cbn in Hb. repeat (destruct Hb as [Hb | Hb]; [injection Hb as <- <-; cbn in Hx; first [destruct Hx as [Hx | []]; injection Hx as <- <-; cbn; intuition discriminate | destruct Hx]|]). destruct Hb.
  - intros q [-> | ->]; (split; [|]).
    + apply placed_num2.
    + intros b ix [].
    + split; [|split; reflexivity]. intros b ix [E | []]. injection E as <- <-. reflexivity.
    + intros b ix [E | []]. injection E as <- <-. cbn. intuition discriminate.
Qed.
Lemma gas2_channel_ok : face_boundaries (fun _ => 2%nat) [10; 8]%Z gas2_fields gas2_gas gas2_channel.
Proof.
  apply gas2_common; [reflexivity | intros l r [E | [E | []]]; injection E as <- <-; split; discriminate|].
  intros [|[|d]] l r E; cbn in E; [| |destruct d; discriminate]; injection E as <- <-; (split; [|exact I]); [exact I | reflexivity].
Qed.
Lemma gas2_nc : not_circular gas2_crs.
Proof.
  exists (fun _ => 0%nat). intros b e c ix Hin Hc Hcr. exfalso. destruct (gas2_relations b e c ix Hin Hc) as [_ Hc']. cbn in Hc', Hcr. intuition (subst; discriminate).
Qed.
Lemma gas2_generated : forall types, face_boundaries (fun _ => 2%nat) [10; 8]%Z gas2_fields gas2_gas types ->
  match gas2_block types with Ok blk => match AlgModel.generate_solution blk None with Ok _ => True | _ => False end | _ => False end ->
  exists blk prg, gas2_block types = Ok blk /\ AlgModel.generate_solution blk None = Ok prg /\
    face_generated (LS 3 RKModel.Standard) BC2Props.fullJ 2 dir3 (fun _ => 1%R) [10; 8]%Z gas2_fields gas2_gas types gas2 gas2_crs prg.
Proof.
  intros types FB Q. destruct (gas2_block types) as [blk|] eqn:Eb; [|destruct Q]. destruct (AlgModel.generate_solution blk None) as [prg|] eqn:Ep; [|destruct Q].
  exists blk, prg. split; auto. split; auto. destruct gas2_ok as (PP & HC & HV).
  split; [apply BC2Props.fullJ_functions|]. split; [exact FB|]. split; [intros v; cbn; tauto|].
  exists inv1, set_order, inner_order, code, (fun l => l), [], gas2_cds, [], ["r"%string], [], [], None, set_order, blk.
  split. { intros M x d m. unfold value, inv1. cbn [eval]. rewrite (r_num _ BC2Props.fullJ_reals), RMicromega.Q2R_1, pow1. lra. }
  split; [apply set_order_ok|]. split; [apply inner_order_perm|]. split; [apply inner_order_inner|]. split; [apply code_inj|]. split; [auto|].
  split; [exact PP|]. split; [exact HC|]. split; [exact HV|]. split; [discriminate|].
  split. { intros _ r rhs t Hr Ht Hv. apply has_re_spec in Hv. destruct (gas2_terms r rhs Hr t Ht). congruence. }
  split; [split; constructor|]. split; [exact set_order_ok|]. auto.
Qed.
Lemma gas2_types_generated : match gas2_block gas2_types with Ok blk => match AlgModel.generate_solution blk None with Ok _ => True | _ => False end | _ => False end.
Proof. lazy. exact I. Qed.
Lemma gas2_channel_generated : match gas2_block gas2_channel with Ok blk => match AlgModel.generate_solution blk None with Ok _ => True | _ => False end | _ => False end.
Proof. lazy. exact I. Qed.
Notation std_ab := ([0; -5/9; -153/128], [1/3; 15/16; 8/15])%R.
(* Both programs are generated, with four boundary kernels each.  In the first the momentum
   on the wall is zero and its temperature is Twall (1 here) wherever the density is not zero,
   the inlet keeps the given density and the outlet the given pressure. *)
Example C80_nonvacuous : exists blk prg,
  gas2_block gas2_types = Ok blk /\ AlgModel.generate_solution blk None = Ok prg /\
  face_generated (LS 3 RKModel.Standard) BC2Props.fullJ 2 dir3 (fun _ => 1%R) [10; 8]%Z gas2_fields gas2_gas gas2_types gas2 gas2_crs prg /\
  not_circular gas2_crs /\ all_points sweep /\ proper BC2Props.fullJ /\
  forall dt niter M i j, (0 < niter)%Z ->
    let M' := run_fprogram BC2Props.fullJ 2 [10; 8]%Z dt std_ab sweep (AlgModel.execute niter prg) M in
    ((-2 <= i < 12)%Z -> M' "m0"%string [i; 0]%Z = 0%R /\
       (M' "r"%string [i; 0]%Z <> 0%R -> T_at BC2Props.fullJ M' "r" ["m0"; "m1"]%string "e" [i; 0]%Z = 1%R)) /\
    ((0 < j < 7)%Z -> (-2 <= i <= 0)%Z -> M' "r"%string [i; j]%Z = M "rin"%string [i; j]%Z) /\
    ((0 < j < 7)%Z -> M' "r"%string [11; j]%Z <> 0%R -> p_at BC2Props.fullJ M' "r" ["m0"; "m1"]%string "e" [11; j]%Z = 1%R) /\
    ((-2 <= i < 12)%Z -> M' "e"%string [i; 9]%Z = M' "e"%string [i; 6]%Z).
Proof.
  destruct (gas2_generated gas2_types gas2_types_ok gas2_types_generated) as (blk & prg & Eb & Ep & G). exists blk, prg.
  assert (Pr : proper BC2Props.fullJ) by (unfold proper, const; cbn; repeat split; lra).
  split; auto. split; auto. split; auto. split; [apply gas2_nc|]. split; [apply sweep_ok|]. split; [exact Pr|].
  intros dt niter M i j Hi M'.
  assert (Nr : forall a b, (-2 <= a < 12)%Z -> (-2 <= b < 10)%Z -> around (fun _ => 2%nat) [10; 8]%Z [a; b]).
  { intros a b Ha Hb. split; auto. intros [|[|d]] Hd; cbn in Hd |- *; lia. }
  assert (S0 : forall a, (-2 <= a < 12)%Z -> forall b, (0 < b < 7)%Z -> settled (fun _ => 2%nat) [10; 8]%Z 0 [a; b]).
  { intros a Ha b Hb. split; [apply Nr; lia|]. intros [|[|d]] Hd; cbn in Hd |- *; lia. }
  assert (S1 : forall a b, (-2 <= a < 12)%Z -> (-2 <= b < 10)%Z -> settled (fun _ => 2%nat) [10; 8]%Z 1 [a; b]).
  { intros a b Ha Hb. split; [apply Nr; lia|]. intros [|[|d]] Hd; cbn in Hd |- *; lia. }
  assert (C1 : condition_at gas2_types 1 false (Isothermal (ENum 0) (BCIsoProps.wall_energy 2 "r") Carpenter)) by (eexists _, _; split; reflexivity).
  split; [|split; [|split]].
  - intros Ha. assert (F : face (fun _ => 2%nat) [10; 8]%Z 1 false [i; 0]%Z) by (split; [apply Nr; lia | reflexivity]). split.
    + apply (C80_no_slip (LS 3 RKModel.Standard) std_ab _ _ _ _ _ _ _ _ _ _ prg eq_refl G gas2_nc sweep dt niter M sweep_ok Hi 1%nat false _ [i; 0]%Z "m0"%string C1 I F (S1 i 0%Z Ha ltac:(lia))). left. reflexivity.
    + intros R0. refine (eq_trans (C80_wall_temperature (LS 3 RKModel.Standard) std_ab _ _ _ _ _ _ _ _ _ _ prg eq_refl G gas2_nc sweep dt niter M sweep_ok Hi 1%nat false _ _ [i; 0]%Z C1 F (S1 i 0%Z Ha ltac:(lia)) Pr R0) _). reflexivity.
  - intros Hj Ha.
    assert (C0 : condition_at gas2_types 0 false (Dirichlet [("r", at2 "rin"); ("m0", at2 "min"); ("m1", ENum 0); ("e", at2 "ein")]%string Carpenter)) by (eexists _, _; split; reflexivity).
    transitivity (value BC2Props.fullJ M [i; j]%Z (at2 "rin")); [|unfold value; cbn; rewrite !Z.add_0_r; reflexivity].
    apply (C80_dirichlet_held (LS 3 RKModel.Standard) std_ab _ _ _ _ _ _ _ _ _ _ prg eq_refl G gas2_nc sweep dt niter M sweep_ok Hi 0%nat false _ _ "r"%string _ [i; j]%Z C0 (or_introl eq_refl)).
    + intros a ix [E | []]. injection E as <- <-. split; [cbn; intuition discriminate|]. split; [cbn; intuition discriminate|]. split; [cbn; intuition discriminate|]. apply gas2_private; [cbn; intuition discriminate | reflexivity].
    + destruct (Z.eq_dec i 0) as [-> | Ni]; [left; split; [apply Nr; lia | reflexivity]|]. right. exists [0; j]%Z, (- i)%Z.
      split; [split; [apply Nr; lia | reflexivity]|]. split; [unfold layer; lia|]. unfold outwards. rewrite Z.opp_involutive. reflexivity.
    + apply S0; lia.
  - intros Hj. assert (C0 : condition_at gas2_types 0 true (PressureOutlet ReducedAccess)) by (eexists _, _; split; reflexivity). intros R0.
    assert (F0 : face (fun _ => 2%nat) [10; 8]%Z 0 true [9; j]%Z) by (split; [apply Nr; lia | reflexivity]). assert (L2 : layer (fun _ => 2%nat) true 2) by (unfold layer; lia).
    exact (C80_outlet_pressure (LS 3 RKModel.Standard) std_ab _ _ _ _ _ _ _ _ _ _ prg eq_refl G gas2_nc sweep dt niter M sweep_ok Hi 0%nat true ReducedAccess [9; j]%Z 2%Z C0
      F0 (S0 9%Z ltac:(lia) j Hj) (or_intror L2) (proj1 Pr) R0).
  - intros Ha. assert (C2 : condition_at gas2_types 1 true (Extrapolation 0 Carpenter)) by (eexists _, _; split; reflexivity).
    assert (F7 : face (fun _ => 2%nat) [10; 8]%Z 1 true [i; 7]%Z) by (split; [apply Nr; lia | reflexivity]). assert (L2 : layer (fun _ => 2%nat) true 2) by (unfold layer; lia).
    assert (H3 : (3 <= nth 1 [10; 8] 0)%Z) by (cbn; lia). assert (I3 : In "e"%string (field_names gas2_fields)) by (cbn; tauto).
    destruct (C80_extrapolated (LS 3 RKModel.Standard) std_ab _ _ _ _ _ _ _ _ _ _ prg eq_refl G gas2_nc sweep dt niter M sweep_ok Hi 1%nat true 0%Z Carpenter [i; 7]%Z 2%Z "e"%string C2
      H3 F7 (S1 i 7%Z Ha ltac:(lia)) L2 I3) as [(_ & _ & X) | (X & _)]; [|discriminate]. exact X.
Qed.
(* The wall of the second program is adiabatic. *)
Example C80_channel_nonvacuous : exists blk prg,
  gas2_block gas2_channel = Ok blk /\ AlgModel.generate_solution blk None = Ok prg /\
  face_generated (LS 3 RKModel.Standard) BC2Props.fullJ 2 dir3 (fun _ => 1%R) [10; 8]%Z gas2_fields gas2_gas gas2_channel gas2 gas2_crs prg /\
  forall dt niter M i (side : bool), (0 < niter)%Z -> (-2 <= i < 12)%Z ->
    let M' := run_fprogram BC2Props.fullJ 2 [10; 8]%Z dt std_ab sweep (AlgModel.execute niter prg) M in
    let x := [i; if side then 7 else 0]%Z in
    M' "m1"%string x = 0%R /\ (M' "r"%string x <> 0%R -> temperature_slope BC2Props.fullJ gas2_gas M' 1 side x = 0%R).
Proof.
  destruct (gas2_generated gas2_channel gas2_channel_ok gas2_channel_generated) as (blk & prg & Eb & Ep & G). exists blk, prg.
  assert (Pr : proper BC2Props.fullJ) by (unfold proper, const; cbn; repeat split; lra).
  split; auto. split; auto. split; auto. intros dt niter M i side Hi Ha M' x.
  assert (Nr : around (fun _ => 2%nat) [10; 8]%Z x). { split; auto. intros [|[|d]] Hd; cbn in Hd |- *; unfold x; cbn; destruct side; lia. }
  assert (F : face (fun _ => 2%nat) [10; 8]%Z 1 side x) by (split; [exact Nr | destruct side; reflexivity]).
  assert (S1 : settled (fun _ => 2%nat) [10; 8]%Z 1 x). { split; [exact Nr|]. intros [|[|d]] Hd; cbn in Hd |- *; lia. }
  assert (C : exists c, condition_at gas2_channel 1 side c /\ no_slip c /\ exists s, c = Adiabatic s \/ c = CarpenterWall s).
  { destruct side; eexists; (split; [eexists _, _; split; reflexivity|]); (split; [exact I|]); exists Carpenter; auto. }
  destruct C as (c & C1 & C2 & C3). split.
  - apply (C80_no_slip (LS 3 RKModel.Standard) std_ab _ _ _ _ _ _ _ _ _ _ prg eq_refl G gas2_nc sweep dt niter M sweep_ok Hi 1%nat side c x "m1"%string C1 C2 F S1). right. left. reflexivity.
  - assert (H5 : (5 <= nth 1 [10; 8] 0)%Z) by (cbn; lia). intros R0. exact (C80_adiabatic_wall (LS 3 RKModel.Standard) std_ab _ _ _ _ _ _ _ _ _ _ prg eq_refl G gas2_nc sweep dt niter M sweep_ok Hi 1%nat side c x C1 C3 H5 F S1 Pr R0).
Qed.
