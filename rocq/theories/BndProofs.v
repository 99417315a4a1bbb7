(* Proofs about the whole program with boundaries. *)
From Verif Require Import Base Expr ExprProofs FDModel FDProofs WorkModel WorkProofs ShiftSpec DiscModel DiscSpec DiscProofs DiscRun DiscMain ProgModel ProgSpec ProgProofs.
From Verif Require AdvModel AdvSpec AdvProofs AdvProps AlgModel AlgSpec OrdModel OrdSpec OrdProps BCModel BCSpec RKModel RKSpec RKProofs.
From Verif Require Import BndModel BndSpec BndKern.
From Coq Require Import QArith ZArith Reals Lia Lra Permutation.
Local Close Scope Q_scope.
Local Open Scope list_scope.

Section prog.
Variables (J : interp R) (k : nat) (dirof : string -> nat) (inv : nat -> nat -> expr)
  (dord : expr -> list dset) (sord : list (expr * string) -> list (expr * string))
  (num : string -> OrdModel.key) (kord : list string -> list string) (h : nat -> R) (sizes : list Z)
  (sys crs : list (string * expr)) (known : list string) (ccds vcds : list expr) (register : string -> string).
Notation ndim := (List.length sizes).
Notation eqs := (disc_eqs sys).
Notation E := (cr_directions dirof (ccds ++ vcds)).
Notation near := (BndSpec.near k sizes).
Hypothesis HJ : real_arithmetic J.
Hypothesis Hinv : forall M x d m, value J M x (inv d m) = (/ h d ^ m)%R.
Hypothesis Hdord : forall e, enumerates (dord e) e.
Hypothesis Hperm : forall l, Permutation l (sord l).
Hypothesis Hinner : forall l l', Permutation l l' -> inner_first l' -> inner_first (sord l).
Hypothesis Hnum : forall a b, num a = num b -> a = b.
Hypothesis Hkord : forall l, Permutation l (kord l).
Hypothesis PP : periodic_problem ndim dirof register sys crs known.
Hypothesis HC : lists_derivatives eqs (fun t => ~ viscous_term t) ccds.
Hypothesis HV : lists_derivatives eqs viscous_term vcds.
Hypothesis Nc : ccds <> [].
Hypothesis Nv : vcds = [] -> forall r rhs t, In (r, rhs) eqs -> In t (terms rhs) -> ~ viscous_term t.
Notation given := (given register sys crs).
Notation REQ := (required kord ccds vcds eqs).
Notation CRK := (cr_kernels ndim dirof num kord crs ccds vcds eqs).
Notation START := (map num (nodup string_dec (requires kord crs ccds vcds eqs ++ map fst sys ++ known))).
Notation crk := (ProgProofs.crk dirof num sizes ccds vcds).

Section stage.
(* X: the values of the advanced arrays, F: the arrays that belong to them *)
Variables (S : memory) (X F : memory).
Hypothesis HF : bounded_fields J k sizes sys crs S X F.
Definition shows (M : memory) : Prop :=
  (forall v y, In v (map fst sys) -> near y -> M v y = X v y) /\ (forall b y, given b -> M b y = S b y).

Lemma reads_ok : forall M a M' c y, shows M -> near y ->
  (forall b y, ~ In b (map fst crs) -> M' b y = M b y) ->
  (forall b e y, In b a -> In (b, e) crs -> in_range k sizes (E b) y = true -> M' b y = F b y) ->
  ~ private register sys c -> ~ In c (map fst eqs) ->
  (In c (map fst crs) -> In c a /\ in_range k sizes (E c) y = true) ->
  M' c y = F c y.
Proof.
  intros M a M' c y [HM1 HM2] Hy Hfr Ha Np Nr Hc.
  destruct (in_dec string_dec c (map fst crs)) as [Ic | Ic].
  - destruct (Hc Ic) as [A B]. destruct (in_named _ _ _ Ic) as (e & He). eapply Ha; eauto.
  - rewrite Hfr by auto. destruct (in_dec string_dec c (map fst sys)) as [Is | Is].
    + rewrite HM1 by auto. symmetry. apply (bf_solution _ _ _ _ _ _ _ _ HF); auto.
    + rewrite HM2 by (unfold BndSpec.given; auto). symmetry. apply (bf_other _ _ _ _ _ _ _ _ HF); auto.
Qed.
Lemma range_near : forall D x, in_range k sizes D x = true -> near x.
Proof. intros D x H. exact (ProgProofs.range_near k sizes D x H). Qed.

Lemma cr_run : forall cs M, shows M ->
  OrdSpec.evaluation_order START (map (fun c => (OrdModel.ck_base c, OrdModel.ck_requires c)) CRK) (map OrdModel.ck_base cs) ->
  (forall c, In c cs -> In c CRK) ->
  forall a rest, cs = a ++ rest ->
  let M' := exec J k sizes (map OrdModel.ck_kernel a) M in
  (forall b y, ~ In b (map fst crs) -> M' b y = M b y) /\
  (forall b e y, In (num b) (map OrdModel.ck_base a) -> In (b, e) crs -> in_range k sizes (E b) y = true -> M' b y = F b y).
Proof.
  intros cs M HM EO Hin. induction a as [|c a IH] using rev_ind; intros rest Hcs.
  { split; auto. intros b e y []. }
  rewrite <- app_assoc in Hcs. cbn [app] in Hcs. specialize (IH (c :: rest) Hcs). destruct IH as [IF IV].
  rewrite map_app, exec_app. cbn [map]. set (Ma := exec J k sizes (map OrdModel.ck_kernel a) M) in *.
  assert (Hc : In c CRK) by (apply Hin; rewrite Hcs; apply in_app_iff; right; left; auto).
  pose proof Hc as Hc'. apply (crk_in dirof num kord sizes sys crs known ccds vcds register PP) in Hc'. destruct Hc' as (b0 & e0 & Hreq & He0 & Ec).
  assert (V : forall b y, exec J k sizes [OrdModel.ck_kernel c] Ma b y =
             if String.eqb b b0 && in_range k sizes (E b0) y then value J Ma y e0 else Ma b y).
  { intros b y. rewrite Ec. unfold ProgProofs.crk. cbn [OrdModel.ck_kernel exec fold_left exec_kernel k_eqs k_ext]. unfold exec_eq. cbn [fst snd].
    destruct (String.eqb b b0 && in_range k sizes (E b0) y); [apply eval_value | reflexivity]. }
  assert (W : forall y, in_range k sizes (E b0) y = true -> value J Ma y e0 = F b0 y).
  { intros y Hy. assert (Ly : List.length y = ndim) by (apply in_range_iff in Hy; tauto).
    rewrite (bf_relation _ _ _ _ _ _ _ _ HF b0 e0 y He0 (range_near _ _ Hy)). unfold value. apply eval_ext. intros c0 ix Hix.
    destruct (pp_local _ _ _ _ _ _ PP b0 e0 c0 ix He0 Hix) as (-> & Np & Nr). rewrite vadd_0_r by auto.
    apply (reads_ok M (filter (fun b => if in_dec Nat.eq_dec (num b) (map OrdModel.ck_base a) then true else false) (map fst crs)) Ma c0 y HM (range_near _ _ Hy) IF); auto.
    - intros b e y0 Hb Hbe Hr. apply filter_In in Hb. destruct Hb as [_ Hb]. destruct (in_dec Nat.eq_dec (num b) (map OrdModel.ck_base a)); [|discriminate].
      eapply IV; eauto.
    - intros Hcr. split.
      + apply filter_In. split; auto. destruct (in_dec Nat.eq_dec (num c0) (map OrdModel.ck_base a)) as [|N]; auto. exfalso.
        destruct EO as (_ & _ & EO). specialize (EO (map OrdModel.ck_base a) (OrdModel.ck_base c) (map OrdModel.ck_base rest) (OrdModel.ck_requires c)).
        destruct (EO ltac:(rewrite Hcs, map_app; reflexivity) ltac:(apply in_map_iff; exists c; auto) (num c0)) as [A | A].
        * rewrite Ec. cbn [ProgProofs.crk OrdModel.ck_requires]. apply in_map. apply nodup_In. unfold arrays_in.
          change c0 with (fst (c0, repeat 0%Z ndim)). apply in_map. auto.
        * eapply (start_not_cr dirof num kord sizes sys crs known ccds vcds register Hnum PP); eauto.
        * auto.
      + eapply in_range_incl; [|exact Hy]. intros d Hd. apply (dirs_iff dirof sizes sys crs known ccds vcds register PP HC HV).
        apply (dirs_iff dirof sizes sys crs known ccds vcds register PP HC HV) in Hd. eapply pp_ranges; eauto. }
  split.
  - intros b y Nb. rewrite V. destruct (String.eqb_spec b b0) as [-> | N]; [exfalso; apply Nb; eapply named; eauto|]. cbn [andb]. auto.
  - intros b e y Hb He Hy. rewrite V. destruct (String.eqb_spec b b0) as [-> | N].
    + rewrite Hy. cbn [andb]. auto.
    + cbn [andb]. rewrite map_app in Hb. apply in_app_iff in Hb. destruct Hb as [Hb | [Hb | []]]; [eapply IV; eauto|].
      exfalso. rewrite Ec in Hb. cbn in Hb. apply Hnum in Hb. congruence.
Qed.
End stage.

Lemma spatial_ok : forall sp, all_spatial_kernels k ndim dirof inv dord sord num kord crs (map fst sys ++ known) ccds vcds eqs = Ok sp ->
  forall S X F M, bounded_fields J k sizes sys crs S X F -> shows S X M ->
  let M' := exec J k sizes sp M in
  (forall v rhs r x, In (v, rhs) sys -> In (r, rhs) eqs -> grid_point sizes x -> M' r x = sem J k dirof h F rhs x) /\
  (forall b y, ~ In b (map fst eqs) -> ~ In b (map fst crs) -> (forall i, b <> wk_name i) -> M' b y = M b y).
Proof.
  intros sp Esp S X F M HF HM M'. unfold all_spatial_kernels in Esp.
  destruct (residual_ok J k ndim dirof inv dord sord h sizes HJ Hinv Hdord eq_refl Hperm Hinner eqs
     (wf_weaken _ _ _ reserved _ (fun b H => or_introl H) (pp_form _ _ _ _ _ _ PP)) ccds vcds HC HV Nc Nv) as (ks & Eks & Y).
  rewrite Eks in Esp. cbn [bind] in Esp.
  destruct (OrdModel.sort_constituents kernel OrdModel.max_passes START CRK) as [cs|] eqn:Ecs; [|discriminate].
  cbn [bind] in Esp. injection Esp as <-.
  destruct (OrdProps.C20_kernels kernel START CRK cs (crk_nodup dirof num kord sizes sys crs ccds vcds Hnum Hkord) Ecs) as (cl & -> & EO & Hcl).
  destruct (cr_run S X F HF cl M HM EO (fun c H => proj1 (proj1 (Hcl c) H)) cl [] (eq_sym (app_nil_r cl))) as [CF CV].
  unfold M'. rewrite exec_app. set (Mc := exec J k sizes (map OrdModel.ck_kernel cl) M) in *.
  destruct (Y Mc) as [X1 X2]. split.
  - intros v rhs r x Hv Hr Hx. rewrite (X1 r rhs x Hr Hx).
    apply (sem_reach J k dirof h sizes E Mc F rhs []).
    + intros b ix Hb. destruct (wf_arrays _ _ _ _ (pp_form _ _ _ _ _ _ PP) r rhs b ix Hr Hb) as (Ei & Np & Nr).
      split; auto. split; [intros d []|]. intros y Hy.
      apply (reads_ok S X F HF M REQ Mc b y HM (range_near _ _ Hy) CF); auto.
      * intros b' e y' Hb' He Hy'. eapply CV; eauto.
        apply in_map_iff. exists (crk b' e). split; auto. apply Hcl. split.
        -- apply (crk_in dirof num kord sizes sys crs known ccds vcds register PP). exists b', e. split; auto.
        -- apply (start_not_cr dirof num kord sizes sys crs known ccds vcds register Hnum PP). eapply named; eauto.
      * intros _. split; auto. apply (required_reads dirof kord sizes sys crs known ccds vcds register Hkord PP HC Nc v rhs b ix); auto.
    + intros u Hi Hd. destruct (deriv_shape dirof sizes sys crs known ccds vcds register PP HC HV v rhs u Hv Hi Hd) as (a & n & m & Eu & Hn & Ha & Hw). exists a, n, m. repeat split; auto.
    + apply grid_point_range. auto.
  - intros b y Nr Ncr Nw. rewrite X2; auto. intros (i & Ei). apply (Nw i Ei).
Qed.

(* ---- time stepping ---- *)
Section time.
Variables (ord : BCModel.order_of) (fs : list BCSpec.field) (types : list (boundary * boundary)) (points : BCModel.bkernel -> list (list Z)).
Variables (S : memory) (f : solution -> solution) (sp : list kernel) (bcs : list xkernel) (dt : R) (ab : list R * list R).
Hypothesis HR : BCSpec.reals J.
Hypothesis Hord : BCSpec.good_order ord.
Hypothesis Bd : boundaries k sizes fs types given.
Hypothesis Hfs : forall v, In v (BCSpec.field_names fs) <-> In v (map fst sys).
Hypothesis Hpts : forall bk, BCSpec.sweeps (points bk) (fun x => BCModel.bk_points bk x = true).
Hypothesis Hnm : normals J k sizes types S.
Hypothesis Hf : bounded_system J k dirof h sizes fs types sys crs S f.
Hypothesis Esp : all_spatial_kernels k ndim dirof inv dord sord num kord crs (map fst sys ++ known) ccds vcds eqs = Ok sp.
Hypothesis Ebc : apply_boundary_conditions ord sizes (block_halos k ndim) (BCSpec.arrays_of ndim fs) 0 types = Ok bcs.
Notation RUN := (run_xevent J k sizes dt ab points).
Notation free := (free sizes types).
Notation cont := (continues J k sizes fs types S).
Notation SPK := (map (fun s => Inner (Spatial s)) sp).

Definition interior (U : solution) (M : memory) : Prop :=
  (forall v x, In v (map fst sys) -> free x -> M v x = U (v, x)) /\ (forall b y, given b -> M b y = S b y).
Definition registered (T : solution) (M : memory) : Prop :=
  forall v x, In v (map fst sys) -> free x -> M (register v) x = T (v, x).
Definition holds (U : solution) (M : memory) : Prop := cont U M /\ forall b y, given b -> M b y = S b y.

Lemma cont_ext : forall U U' M, (forall v x, In v (map fst sys) -> free x -> U (v, x) = U' (v, x)) -> cont U M -> cont U' M.
Proof.
  intros U U' M H [A B]. constructor; auto. intros v x Hv Hx. rewrite (A v x Hv Hx). apply H; auto. apply Hfs. auto.
Qed.
Lemma exchanged : forall st U M, interior U M ->
  holds U (run_all J k sizes dt ab points st bcs M) /\ forall b y, ~ In b (map fst sys) -> run_all J k sizes dt ab points st bcs M b y = M b y.
Proof.
  intros st U M [HI HO].
  destruct (kernels_ok J ord k sizes fs types S given dt ab points HR Hord Bd) with (1 := fun b (H : given b) C => proj1 H (proj1 (Hfs b) C)) as (ks & Ek & X); auto.
  rewrite Ebc in Ek. injection Ek as <-. destruct (X st M HO) as [C Fr]. split; [split|].
  - eapply cont_ext; [|exact C]. intros v x Hv Hx. cbn [fst snd]. apply HI; auto.
  - intros b y Hb. rewrite Fr; auto. rewrite Hfs. apply Hb.
  - intros b y Hb. apply Fr. rewrite Hfs. auto.
Qed.
Lemma holds_interior : forall U M, holds U M -> interior U M.
Proof. intros U M [A B]. split; auto. intros v x Hv Hx. apply (c_free _ _ _ _ _ _ _ _ A); auto. apply Hfs. auto. Qed.
Lemma run_at : forall it st ks M, fold_left RUN (AlgSpec.at_ it st ks) M = run_all J k sizes dt ab points st ks M.
Proof. intros it st. induction ks as [|pk ks IH]; intros M; auto. cbn. apply IH. Qed.
Lemma run_spatial : forall st M, run_all J k sizes dt ab points st SPK M = exec J k sizes sp M.
Proof. intros st. unfold exec, run_all. generalize sp as l. induction l as [|kn l IH]; intros M; auto. cbn. apply IH. Qed.

(* the spatial kernels of a stage *)
Lemma stage_residual : forall U T M, holds U M -> registered T M ->
  let M' := exec J k sizes sp M in
  interior U M' /\ registered T M' /\
  forall e v x, In e (adv_eqs sys) -> AdvSpec.advances e v -> free x -> M' (AdvModel.eq_residual e) x = f U (v, x).
Proof.
  intros U T M HM HT M'. destruct (Hf U) as (X & F & HX & HF & Hfv).
  assert (SM : shows S X M).
  { destruct HM as [A B]. split; auto. intros v y Hv Hy. apply (continues_unique J k sizes fs types S given Bd U M X); auto. apply Hfs. auto. }
  destruct (spatial_ok sp Esp S X F M HF SM) as [A B].
  fold M' in A, B. destruct (holds_interior _ _ HM) as [I1 I2]. split; [split|split].
  - intros v x Hv Hx. destruct (sys_names dirof sizes sys crs known register PP v Hv) as (N1 & N2 & N3 & _). rewrite B by auto. apply I1; auto.
  - intros b y Ob. destruct Ob as (O1 & O2 & O3 & O4). rewrite B; auto; [apply I2; unfold BndSpec.given; auto|]. intros i ->. apply O4. left. eauto.
  - intros v x Hv Hx. destruct (sys_names dirof sizes sys crs known register PP v Hv) as (_ & _ & _ & N1 & N2 & N3 & _). rewrite B by auto. apply HT; auto.
  - intros e v x He Hv Hx.
    assert (Q : exists rhs, In (v, rhs) sys /\ In (AdvModel.eq_residual e, rhs) eqs).
    { clear - He Hv. unfold adv_eqs, AdvModel.with_residuals, disc_eqs in *. rewrite map_length in He. revert He. generalize 0%nat as s.
      induction sys as [|[w q] l IH]; intros s He; [destruct He|]. cbn in He. destruct He as [<- | He].
      - unfold AdvSpec.advances in Hv. cbn in Hv. injection Hv as ->. exists q. split; left; reflexivity.
      - destruct (IH _ He) as (rhs & P & Q). exists rhs. split; right; auto. }
    destruct Q as (rhs & Hin & Hr). rewrite (A v rhs _ x Hin Hr (proj1 Hx)). symmetry. apply Hfv; auto.
Qed.
Lemma free_range : forall x, free x -> in_range k sizes [] x = true.
Proof. intros x [G _]. apply grid_point_range. auto. Qed.

Definition state_ok (m : solution * solution) (M : memory) : Prop := holds (fst m) M /\ registered (snd m) M.
Lemma after_exchange : forall st U T M, interior U M -> registered T M -> state_ok (U, T) (run_all J k sizes dt ab points st bcs M).
Proof.
  intros st U T M HI HT. destruct (exchanged st U M HI) as [A B]. split; auto. intros v x Hv Hx. cbn [snd]. rewrite B; auto.
  destruct (sys_names dirof sizes sys crs known register PP v Hv) as (_ & _ & _ & _ & _ & _ & N). auto.
Qed.

(* one stage of each scheme *)
Lemma ls_stage_ok : register = AdvModel.temp_name -> forall it st M m, state_ok m M ->
  state_ok (RKModel.ls_stage _ dt f m (nth st (fst ab) 0%R, nth st (snd ab) 0%R))
    (fold_left RUN (AlgSpec.at_ it (Some (Z.of_nat st)) (SPK ++ [Inner (LowStorage (adv_eqs sys))] ++ bcs)) M).
Proof.
  intros ER it st M [U T] [HM HT]. cbn [fst snd] in HM, HT. rewrite run_at, run_all_app, run_spatial. rewrite run_all_app.
  cbn [run_all fold_left run_xkernel run_pkernel]. rewrite Nat2Z.id. cbn [RKModel.ls_stage].
  destruct (stage_residual U T M HM HT) as (I1 & I2 & I3). set (M1 := exec J k sizes sp M) in *.
  set (a := nth st (fst ab) 0%R). set (b := nth st (snd ab) 0%R).
  assert (DA : AdvSpec.distinct_arrays AdvModel.temp_name (adv_eqs sys)) by (rewrite <- ER; apply (pp_arrays _ _ _ _ _ _ PP)).
  destruct (AdvProps.C63_low_storage_update_partial (list Z) (in_range k sizes []) (adv_eqs sys) dt a b M1 (one_each sys) DA) as [P Q].
  apply after_exchange.
  - split.
    + intros v x Hv Hx. destruct (advanced_by sys v Hv) as (e & He & Hev). pose proof (free_range x Hx) as Hx'.
      destruct (P e v x He Hev Hx') as [P1 P2]. rewrite P2, P1. rewrite (I3 e v x He Hev Hx). rewrite (proj1 I1 v x Hv Hx).
      rewrite <- ER. rewrite (I2 v x Hv Hx). reflexivity.
    + intros w y Ow. rewrite Q; [apply (proj2 I1); auto|]. right. intros e v He Hev. pose proof (advanced_in sys e v He Hev) as Hv.
      destruct Ow as (O1 & O2 & O3 & O4). split; [intros ->; auto|]. intros ->. apply O4. right. exists v. rewrite ER. auto.
  - intros v x Hv Hx. destruct (advanced_by sys v Hv) as (e & He & Hev). pose proof (free_range x Hx) as Hx'.
    destruct (P e v x He Hev Hx') as [P1 P2]. rewrite ER, P1. rewrite (I3 e v x He Hev Hx). rewrite <- ER, (I2 v x Hv Hx). reflexivity.
Qed.
Lemma sbli_stage_ok : register = AdvModel.old_name -> forall it st M m, state_ok m M ->
  state_ok (RKModel.sbli_stage _ dt f m (nth st (fst ab) 0%R, nth st (snd ab) 0%R))
    (fold_left RUN (AlgSpec.at_ it (Some (Z.of_nat st)) (SPK ++ [Inner (SbliUpdate (adv_eqs sys))] ++ bcs)) M).
Proof.
  intros ER it st M [U T] [HM HT]. cbn [fst snd] in HM, HT. rewrite run_at, run_all_app, run_spatial. rewrite run_all_app.
  cbn [run_all fold_left run_xkernel run_pkernel]. rewrite Nat2Z.id. cbn [RKModel.sbli_stage].
  destruct (stage_residual U T M HM HT) as (I1 & I2 & I3). set (M1 := exec J k sizes sp M) in *.
  set (a := nth st (fst ab) 0%R). set (b := nth st (snd ab) 0%R).
  assert (DA : AdvSpec.distinct_arrays AdvModel.old_name (adv_eqs sys)) by (rewrite <- ER; apply (pp_arrays _ _ _ _ _ _ PP)).
  destruct (AdvProps.C63_sbli_update_partial (list Z) (in_range k sizes []) (adv_eqs sys) dt a b M1 (one_each sys) DA) as [P Q].
  apply after_exchange.
  - split.
    + intros v x Hv Hx. destruct (advanced_by sys v Hv) as (e & He & Hev). pose proof (free_range x Hx) as Hx'.
      destruct (P e v x He Hev Hx') as (_ & _ & P1 & P2). rewrite P1. rewrite (I3 e v x He Hev Hx).
      rewrite <- ER. rewrite (I2 v x Hv Hx). reflexivity.
    + intros w y Ow. refine (eq_trans (proj2 (Q w y _)) (proj2 I1 w y Ow)). right. intros e v He Hev. pose proof (advanced_in sys e v He Hev) as Hv.
      destruct Ow as (O1 & O2 & O3 & O4). split; [intros ->; auto|]. intros ->. apply O4. right. exists v. rewrite ER. auto.
  - intros v x Hv Hx. destruct (advanced_by sys v Hv) as (e & He & Hev). pose proof (free_range x Hx) as Hx'.
    destruct (P e v x He Hev Hx') as (_ & _ & P1 & P2). rewrite ER, P2. rewrite (I3 e v x He Hev Hx). rewrite <- ER, (I2 v x Hv Hx). reflexivity.
Qed.
Lemma cont_same : forall U M M', (forall v y, In v (BCSpec.field_names fs) -> M' v y = M v y) -> cont U M -> cont U M'.
Proof.
  intros U M M' H [A B]. constructor.
  - intros v x Hv Hx. rewrite H by auto. auto.
  - intros y d l r Hy Ld Et. apply (bv_ext J sizes fs S M M'); auto.
Qed.
Lemma save_ok : register = AdvModel.old_name -> forall U M, holds U M ->
  state_ok (U, U) (AdvModel.run (list Z) (in_range k sizes []) (AdvModel.sbli_save (adv_eqs sys)) M).
Proof.
  intros ER U M HM. assert (DA : AdvSpec.distinct_arrays AdvModel.old_name (adv_eqs sys)) by (rewrite <- ER; apply (pp_arrays _ _ _ _ _ _ PP)).
  destruct (AdvProps.C63_sbli_update_partial (list Z) (in_range k sizes []) (adv_eqs sys) dt 0%R 0%R M (one_each sys) DA) as [P Q].
  split; [split|]; cbn [fst snd].
  - apply (cont_same U M); [|apply HM]. intros v y Hv. apply Hfs in Hv. destruct (in_range k sizes [] y) eqn:Ey; [|apply Q; auto].
    destruct (advanced_by sys v Hv) as (e & He & Hev). apply (P e v y He Hev Ey).
  - intros w y Ow. refine (eq_trans (proj1 (Q w y _)) (proj2 HM w y Ow)). right. intros e v He Hev. pose proof (advanced_in sys e v He Hev) as Hv.
    destruct Ow as (O1 & O2 & O3 & O4). split; [intros ->; auto|]. intros ->. apply O4. right. exists v. rewrite ER. auto.
  - intros v x Hv Hx. destruct (advanced_by sys v Hv) as (e & He & Hev). pose proof (free_range x Hx) as Hx'.
    rewrite ER. destruct (P e v x He Hev Hx') as (P1 & _). rewrite P1. apply (holds_interior _ _ HM); auto.
Qed.

(* ---- steps and the program ---- *)
Lemma run_files : forall (g : AlgSpec.request -> list (AlgModel.event xkernel)) rqs M,
  (forall r ev, In ev (g r) -> exists a b, ev = AlgModel.EWrite a b) -> fold_left RUN (flat_map g rqs) M = M.
Proof.
  intros g rqs M H. induction rqs as [|r rqs IH]; auto. cbn [flat_map]. rewrite fold_left_app.
  assert (Q : forall l M, (forall ev, In ev l -> exists a b, ev = @AlgModel.EWrite xkernel a b) -> fold_left RUN l M = M).
  { induction l as [|ev l IHl]; intros M' Hl; auto. cbn [fold_left]. destruct (Hl ev (or_introl eq_refl)) as (a & b & ->). cbn [run_xevent].
    apply IHl. intros. apply Hl. right. auto. }
  rewrite (Q (g r)) by (intros ev Hev; exact (H r ev Hev)). exact IH.
Qed.
Lemma run_monitor : forall mon it M, fold_left RUN (AlgSpec.monitored mon it) M = M.
Proof. intros [fq|] it M; auto. unfold AlgSpec.monitored. destruct (_ || _); auto. Qed.

Section scheme.
Variables (startks advks : list xkernel) (stg : solution * solution -> R * R -> solution * solution)
  (prep : solution * solution -> solution * solution).
Hypothesis Hlen : List.length (fst ab) = List.length (snd ab).
Hypothesis Hstart : forall it M m, state_ok m M -> state_ok (prep m) (fold_left RUN (AlgSpec.at_ it None startks) M).
Hypothesis Hstage : forall it st M m, state_ok m M ->
  state_ok (stg m (nth st (fst ab) 0%R, nth st (snd ab) 0%R))
    (fold_left RUN (AlgSpec.at_ it (Some (Z.of_nat st)) (SPK ++ advks ++ bcs)) M).
Definition phase : AlgSpec.phases xkernel := AlgSpec.Build_phases [] bcs startks SPK advks [] [] [].
Notation nst := (Z.of_nat (List.length (fst ab))).
Definition one_step (m : solution * solution) : solution * solution := fold_left stg (combine (fst ab) (snd ab)) (prep m).

Lemma stages_ok : forall it l m M, state_ok m M ->
  state_ok (fold_left (fun m i => stg m (nth i (fst ab) 0%R, nth i (snd ab) 0%R)) l m)
    (fold_left RUN (flat_map (fun st => AlgSpec.at_ it (Some st) (SPK ++ advks ++ bcs)) (map Z.of_nat l)) M).
Proof.
  intros it. induction l as [|i l IH]; intros m M H; auto. cbn [map flat_map fold_left]. rewrite fold_left_app. apply IH. apply Hstage. auto.
Qed.
Lemma step_ok : forall mon rqs it m M, interior (fst m) M -> registered (snd m) M ->
  state_ok (one_step m) (fold_left RUN (AlgSpec.step phase nst mon rqs it) M).
Proof.
  intros mon rqs it [U T] M HI HT. unfold AlgSpec.step. cbn [phase AlgSpec.p_bc AlgSpec.p_start AlgSpec.p_in AlgSpec.p_end AlgSpec.p_spatial AlgSpec.p_advance].
  rewrite !fold_left_app. cbn [AlgSpec.at_ map fold_left].
  rewrite run_monitor.
  match goal with |- state_ok _ (fold_left _ (flat_map (AlgSpec.written_in it) rqs) ?M0) => rewrite (run_files (AlgSpec.written_in it) rqs M0) end.
  2:{ intros r ev H. unfold AlgSpec.written_in in H. destruct (_ && _); [|contradiction]. destruct H as [<- | []]. eauto. }
  unfold one_step. rewrite combine_nth_seq by auto. rewrite fold_left_map. unfold AlgSpec.upto. rewrite Nat2Z.id. apply stages_ok.
  unfold AlgSpec.at_ at 1. rewrite map_app, fold_left_app. apply Hstart. fold (AlgSpec.at_ (K := xkernel) (Some it) None bcs). rewrite run_at.
  apply after_exchange; auto.
Qed.
Lemma steps_ok : forall mon rqs l m M, interior (fst m) M -> registered (snd m) M ->
  let m' := RKSpec.iterate (List.length l) one_step m in
  let M' := fold_left RUN (flat_map (AlgSpec.step phase nst mon rqs) l) M in
  interior (fst m') M' /\ registered (snd m') M' /\ (l <> [] -> holds (fst m') M').
Proof.
  intros mon rqs. induction l as [|it l IH]; intros m M HI HT; [split; [|split]; auto; congruence|].
  cbn [flat_map List.length RKSpec.iterate]. cbn zeta. rewrite fold_left_app.
  destruct (step_ok mon rqs it m M HI HT) as [A B]. destruct l as [|it' l].
  - cbn [flat_map fold_left List.length RKSpec.iterate]. split; [apply holds_interior; auto|]. split; auto.
  - destruct (IH (one_step m) (fold_left RUN (AlgSpec.step phase nst mon rqs it) M)) as (P & Q & W); auto; [apply holds_interior; auto|].
    split; [exact P|]. split; [exact Q|]. intros _. apply W. discriminate.
Qed.
Lemma program_ok : forall mon rqs niter (rk : solution -> solution) M,
  (forall m, fst (one_step m) = rk (fst m)) -> (forall b y, given b -> M b y = S b y) ->
  let M' := run_xprogram J k sizes dt ab points (AlgSpec.program_trace phase nst niter mon rqs) M in
  (forall v x, In v (map fst sys) -> free x -> M' v x = RKSpec.iterate (Z.to_nat niter) rk (fun i => M (fst i) (snd i)) (v, x)) /\
  ((0 < niter)%Z -> cont (fun i => M' (fst i) (snd i)) M') /\
  (forall b y, given b -> M' b y = S b y).
Proof.
  intros mon rqs niter rk M Hrk HS M'. unfold M', run_xprogram, AlgSpec.program_trace.
  cbn [phase AlgSpec.p_before AlgSpec.p_after AlgSpec.at_ map app]. fold phase. rewrite fold_left_app.
  match goal with |- context [fold_left _ (flat_map AlgSpec.written_at_end rqs) ?M0] => rewrite (run_files AlgSpec.written_at_end rqs M0) end.
  2:{ intros r ev H. unfold AlgSpec.written_at_end in H. destruct (AlgSpec.is_write r); [|contradiction]. destruct H as [<- | []]. eauto. }
  set (m := ((fun i => M (fst i) (snd i)) : solution, (fun i => M (register (fst i)) (snd i)) : solution)).
  destruct (steps_ok mon rqs (AlgSpec.upto niter) m M) as (A & B & W).
  - split; auto.
  - intros v x Hv Hx. reflexivity.
  - destruct A as [A1 A2]. split; [|split]; auto.
    + intros v x Hv Hx. rewrite (A1 v x Hv Hx). f_equal.
      assert (Q : forall n m0, fst (RKSpec.iterate n one_step m0) = RKSpec.iterate n rk (fst m0)).
      { induction n as [|n IH]; intros m0; auto. cbn. rewrite IH, Hrk. reflexivity. }
      rewrite Q. unfold AlgSpec.upto. rewrite map_length, seq_length. reflexivity.
    + intros Hn. destruct W as [C _].
      { unfold AlgSpec.upto. destruct (Z.to_nat niter) eqn:En; [lia|]. cbn. discriminate. }
      eapply cont_ext; [|exact C]. intros v x Hv Hx. cbn [fst snd]. symmetry. apply A1; auto.
Qed.
End scheme.
End time.
End prog.
