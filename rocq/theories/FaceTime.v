(* Time stepping of programs with boundary conditions, whatever the spatial kernels are. *)
From Verif Require Import Base Expr WorkModel ShiftSpec DiscModel DiscSpec DiscProofs DiscRun DiscMain ProgModel ProgSpec ProgProofs.
From Verif Require AdvModel AdvSpec AdvProofs AdvProps AlgModel AlgSpec BCModel BCSpec RKModel RKSpec RKProofs RKProps.
From Verif Require Import BndModel BndSpec BndKern BndProofs DiscProps ProgProps FaceModel FaceSpec FaceKern.
From Coq Require Import ZArith Reals Lia Lra Permutation List.
Local Open Scope list_scope.

Section time.
Variables (J : interp R) (k : nat) (w : bool -> nat) (shock : bool) (sizes : list Z) (fs : list BCSpec.field) (g : gas) (types : list (bcond * bcond)).
Variables (ts : timescheme) (sys crs : list (string * expr)) (dt : R) (ab : list R * list R) (points : BCModel.bkernel -> list (list Z)).
Variable RHS : memory -> solution -> Prop.
Variables (K : Type) (run : memory -> K -> option Z -> memory) (inj : fkernel -> K) (spk bcs : list K).
Notation register := (register_of ts).
Notation given := (BndSpec.given register sys crs).
Notation ALL := (run_all K run).
Hypothesis Hrun : forall M x st, run M (inj x) st = run_fkernel J k sizes dt ab points M x st.
Hypothesis FB : face_boundaries w sizes fs g types.
Hypothesis Hfs : forall v, In v (BCSpec.field_names fs) <-> In v (map fst sys).
Hypothesis Hreg : forall v, In v (map fst sys) -> ~ In (register v) (map fst sys).
Hypothesis DA0 : AdvSpec.distinct_arrays register (adv_eqs sys).
Hypothesis Hab : coefficients ts = Ok ab.
Hypothesis spatial_rhs : forall st M, exists r, RHS M r /\
  let M' := ALL st spk M in
  (forall e v x, In e (adv_eqs sys) -> AdvSpec.advances e v -> grid_point sizes x -> M' (AdvModel.eq_residual e) x = r (v, x)) /\
  (forall v x, In v (map fst sys) -> M' v x = M v x /\ M' (register v) x = M (register v) x) /\
  (forall b x, given b -> M' b x = M b x).
Hypothesis bcs_imposed : forall st M, imposed J w shock sizes fs g types M (ALL st bcs M).
Definition run_event (M : memory) (ev : AlgModel.event K) : memory := match ev with AlgModel.EKernel x _ stage => run M x stage | _ => M end.
Notation RUN := run_event.
Notation ADV := (match ts with LS _ _ => [inj (Other (Inner (LowStorage (adv_eqs sys))))] | SBLI _ => [inj (Other (Inner (SbliUpdate (adv_eqs sys))))] end).
Notation START_ := (match ts with LS _ _ => [] | SBLI _ => [inj (Other (Inner (SaveOld (adv_eqs sys))))] end).
Notation IMP := (imposed J w shock sizes fs g types).
Notation STAGE := (stage J w shock sizes fs g types ts sys crs dt RHS).

Lemma run_all_app : forall st a b M, ALL st (a ++ b) M = ALL st b (ALL st a M).
Proof. intros. unfold run_all. apply fold_left_app. Qed.
Lemma run_at : forall it st ks M, fold_left RUN (AlgSpec.at_ it st ks) M = ALL st ks M.
Proof. intros it st. induction ks as [|pk ks IH]; intros M; auto. cbn. apply IH. Qed.
Lemma bcs_frame : forall st M b y, ~ In b (map fst sys) -> ALL st bcs M b y = M b y.
Proof.
  intros st M b y Nb. apply (imposed_from_keeps J w shock sizes fs g types FB types 0 M _ b y); auto; [apply bcs_imposed|]. left. rewrite Hfs. auto.
Qed.
(* what is in the registers, or it is not read in this stage *)
Definition linked (i : nat) (M : memory) (T : solution) : Prop :=
  forall v x, In v (map fst sys) -> grid_point sizes x ->
    M (register v) x = T (v, x) \/ match ts with LS _ _ => nth i (fst ab) 0%R = 0%R | SBLI _ => False end.
Lemma given_new : forall b, given b -> ~ In b (map fst sys) /\ forall v, In v (map fst sys) -> b <> v /\ b <> register v.
Proof.
  intros b (O1 & O2 & O3 & O4). split; auto. intros v Hv. split; [intros ->; auto|]. intros ->. apply O4. right. eauto.
Qed.

Lemma stage_ok : forall it st M T, linked st M T ->
  let M' := fold_left RUN (AlgSpec.at_ it (Some (Z.of_nat st)) (spk ++ ADV ++ bcs)) M in
  exists T', STAGE (nth st (fst ab) 0%R, nth st (snd ab) 0%R) (M, T) (M', T') /\ forall i, linked i M' T'.
Proof.
  intros it st M T HT. cbn zeta. rewrite run_at, !run_all_app.
  destruct (spatial_rhs (Some (Z.of_nat st)) M) as (r & Hr & I1 & I2 & I3). set (M1 := ALL (Some (Z.of_nat st)) spk M) in *.
  set (a := nth st (fst ab) 0%R) in *. set (b := nth st (snd ab) 0%R).
  set (M2 := ALL (Some (Z.of_nat st)) ADV M1). set (M3 := ALL (Some (Z.of_nat st)) bcs M2).
  exists (fun i => M3 (register (fst i)) (snd i)).
  assert (R3 : forall v x, In v (map fst sys) -> M3 (register v) x = M2 (register v) x) by (intros v x Hv; apply bcs_frame, Hreg, Hv).
  split; [|intros i v x Hv Hx; left; reflexivity].
  unfold STAGE. cbn [fst snd]. exists r, M2. split; [exact Hr|].
  assert (C : (forall v x, In v (map fst sys) -> grid_point sizes x ->
         match ts with
         | LS _ _ => M2 (register v) x = a * T (v, x) + dt * r (v, x) /\ M2 v x = M v x + b * M2 (register v) x
         | SBLI _ => M2 v x = T (v, x) + dt * b * r (v, x) /\ M2 (register v) x = T (v, x) + dt * a * r (v, x)
         end)%R /\
      (forall v x, In v (map fst sys) -> ~ grid_point sizes x -> M2 v x = M v x) /\
      (forall c x, given c -> M2 c x = M c x)).
  { unfold linked in HT. pose proof DA0 as DA. pose proof given_new as GN. clear Hab DA0 spatial_rhs Hreg.
    destruct ts as [order form | order]; cbn [register_of] in *; unfold M2; unfold run_all; cbn [fold_left]; rewrite Hrun; cbn [run_fkernel run_xkernel run_pkernel]; rewrite Nat2Z.id.
    - destruct (AdvProps.C63_low_storage_update_partial (list Z) (in_range k sizes []) (adv_eqs sys) dt a b M1 (one_each sys) DA) as [P Q].
      split; [|split].
      + intros v x Hv Hx. destruct (advanced_by sys v Hv) as (e & He & Hev). pose proof Hx as Hx'. apply (grid_point_range k) in Hx'.
        destruct (P e v x He Hev Hx') as [P1 P2]. split.
        * refine (eq_trans P1 _). rewrite (I1 e v x He Hev Hx). rewrite (proj2 (I2 v x Hv)). f_equal.
          destruct (HT v x Hv Hx) as [-> | Za]; auto. unfold a. rewrite Za. ring.
        * refine (eq_trans P2 _). rewrite (proj1 (I2 v x Hv)). reflexivity.
      + intros v x Hv Hx. refine (eq_trans (Q v x _) (proj1 (I2 v x Hv))). left. destruct (in_range k sizes [] x) eqn:Ex; auto. exfalso. apply Hx. apply (grid_point_range k). auto.
      + intros c x Hc. refine (eq_trans (Q c x _) (I3 c x Hc)). right. intros e v He Hev. apply GN; auto. eapply advanced_in; eauto.
    - destruct (AdvProps.C63_sbli_update_partial (list Z) (in_range k sizes []) (adv_eqs sys) dt a b M1 (one_each sys) DA) as [P Q].
      split; [|split].
      + intros v x Hv Hx. destruct (advanced_by sys v Hv) as (e & He & Hev). pose proof Hx as Hx'. apply (grid_point_range k) in Hx'.
        destruct (P e v x He Hev Hx') as (_ & _ & P1 & P2). destruct (HT v x Hv Hx) as [ET | []]. rewrite <- ET, <- (proj2 (I2 v x Hv)), <- (I1 e v x He Hev Hx). split; [exact P1 | exact P2].
      + intros v x Hv Hx. refine (eq_trans (proj2 (Q v x _)) (proj1 (I2 v x Hv))). left. destruct (in_range k sizes [] x) eqn:Ex; auto. exfalso. apply Hx. apply (grid_point_range k). auto.
      + intros c x Hc. refine (eq_trans (proj2 (Q c x _)) (I3 c x Hc)). right. intros e v He Hev. apply GN; auto. eapply advanced_in; eauto. }
  destruct C as (C1 & C2 & C3). split; [|split; [|split]]; auto; [|apply bcs_imposed].
  intros v x Hv Hx. rewrite R3 by auto. apply C1; auto.
Qed.

(* ---- steps and the program ---- *)
Lemma run_files : forall (wr : AlgSpec.request -> list (AlgModel.event K)) rqs M,
  (forall r ev, In ev (wr r) -> exists a b, ev = AlgModel.EWrite a b) -> fold_left RUN (flat_map wr rqs) M = M.
Proof.
  intros wr rqs M H. induction rqs as [|r rqs IH]; auto. cbn [flat_map]. rewrite fold_left_app.
  assert (Q : forall l M, (forall ev, In ev l -> exists a b, ev = @AlgModel.EWrite K a b) -> fold_left RUN l M = M).
  { induction l as [|ev l IHl]; intros M' Hl; auto. cbn [fold_left]. destruct (Hl ev (or_introl eq_refl)) as (a & b & ->). cbn [run_event].
    apply IHl. intros. apply Hl. right. auto. }
  rewrite (Q (wr r)) by (intros ev Hev; exact (H r ev Hev)). exact IH.
Qed.
Lemma run_monitor : forall mon it M, fold_left RUN (AlgSpec.monitored mon it) M = M.
Proof. intros [fq|] it M; auto. unfold AlgSpec.monitored. destruct (_ || _); auto. Qed.
Definition fphase : AlgSpec.phases K := AlgSpec.Build_phases [] bcs START_ spk ADV [] [] [].
Notation nst := (Z.of_nat (List.length (fst ab))).
Notation STAGES := (stages J w shock sizes fs g types ts sys crs dt RHS).

Lemma stages_ok : forall it l M T, match l with [] => True | i :: _ => linked i M T end -> exists T',
  STAGES (map (fun i => (nth i (fst ab) 0%R, nth i (snd ab) 0%R)) l) (M, T)
    (fold_left RUN (flat_map (fun st => AlgSpec.at_ it (Some st) (spk ++ ADV ++ bcs)) (map Z.of_nat l)) M, T').
Proof.
  intros it. induction l as [|i l IH]; intros M T H; [exists T; reflexivity|]. cbn [map flat_map stages]. rewrite fold_left_app.
  destruct (stage_ok it i M T H) as (T1 & S1 & L1).
  match goal with |- exists T', exists s1, _ /\ stages _ _ _ _ _ _ _ _ _ _ _ _ _ _ (fold_left RUN _ ?M1, T') =>
    destruct (IH M1 T1) as (T' & S'); [destruct l; auto; apply L1|]; exists T', (M1, T1); split; [exact S1 | exact S'] end.
Qed.
Lemma first_zero : match ts with LS _ _ => nth 0 (fst ab) 0%R = 0%R | SBLI _ => True end.
Proof.
  destruct ts as [order form | order]; auto. cbn in Hab. destruct (RKProps.C23_rejected_orders order form ab Hab) as [-> | [-> ->]].
  - destruct form; cbn in Hab; injection Hab as <-; reflexivity.
  - cbn in Hab. injection Hab as <-. reflexivity.
Qed.
Lemma step_ok : forall mon rqs it M,
  step J w shock sizes fs g types ts sys crs dt RHS ab M (fold_left RUN (AlgSpec.step fphase nst mon rqs it) M).
Proof.
  intros mon rqs it M. unfold AlgSpec.step. cbn [fphase AlgSpec.p_bc AlgSpec.p_start AlgSpec.p_in AlgSpec.p_end AlgSpec.p_spatial AlgSpec.p_advance].
  rewrite !fold_left_app. cbn [AlgSpec.at_ map fold_left].
  rewrite run_monitor.
  match goal with |- context [fold_left _ (flat_map (AlgSpec.written_in it) rqs) ?M0] => rewrite (run_files (AlgSpec.written_in it) rqs M0) end.
  2:{ intros r ev H. unfold AlgSpec.written_in in H. destruct (_ && _); [|contradiction]. destruct H as [<- | []]. eauto. }
  unfold AlgSpec.at_ at 2. rewrite map_app, fold_left_app.
  fold (AlgSpec.at_ (K := K) (Some it) None bcs). fold (AlgSpec.at_ (K := K) (Some it) None START_). rewrite (run_at (Some it) None bcs M).
  set (M1 := ALL None bcs M). set (M2 := fold_left RUN (AlgSpec.at_ (Some it) None START_) M1).
  assert (Q : exists T, (forall c x, In c (map fst sys) \/ given c -> M2 c x = M1 c x) /\
      (forall v x, In v (map fst sys) -> grid_point sizes x -> T (v, x) = match ts with LS _ _ => 0%R | SBLI _ => M1 v x end) /\ linked 0 M2 T).
  { unfold linked. pose proof first_zero as FZ. pose proof DA0 as DA. pose proof given_new as GN. clear Hab DA0 spatial_rhs Hreg.
    unfold M2. destruct ts as [order form | order]; cbn [register_of AlgSpec.at_ map fold_left run_event] in *; try (rewrite Hrun; cbn [run_fkernel run_xkernel run_pkernel]).
    - exists (fun _ => 0%R). auto.
    - destruct (AdvProps.C63_sbli_update_partial (list Z) (in_range k sizes []) (adv_eqs sys) dt 0%R 0%R M1 (one_each sys) DA) as [P Q].
      exists (fun i => M1 (fst i) (snd i)). split; [|split; [reflexivity|]].
      + intros c x [Hc | Hc].
        * destruct (in_range k sizes [] x) eqn:Ex; [|apply Q; auto]. destruct (advanced_by sys c Hc) as (e & He & Hev). apply (P e c x He Hev Ex).
        * apply Q. right. intros e v He Hev. apply GN; auto. eapply advanced_in; eauto.
      + intros v x Hv Hx. left. destruct (advanced_by sys v Hv) as (e & He & Hev). apply (grid_point_range k) in Hx. apply (P e v x He Hev Hx). }
  destruct Q as (T & Q1 & Q2 & Q3). pose proof (coefficients_len ts ab Hab) as Hlen.
  unfold AlgSpec.upto. rewrite Nat2Z.id.
  destruct (stages_ok (Some it) (seq 0 (List.length (fst ab))) M2 T) as (T' & S'); [destruct (List.length (fst ab)); cbn [seq]; auto|].
  exists M1, M2, T, T'. split; [apply bcs_imposed|]. split; [exact Q1|]. split; [exact Q2|].
  rewrite combine_nth_seq by auto. exact S'.
Qed.
Lemma steps_ok : forall mon rqs l M,
  steps J w shock sizes fs g types ts sys crs dt RHS (List.length l) ab M (fold_left RUN (flat_map (AlgSpec.step fphase nst mon rqs) l) M).
Proof.
  intros mon rqs. induction l as [|it l IH]; intros M; [reflexivity|]. cbn [flat_map List.length steps]. rewrite fold_left_app.
  eexists. split; [apply step_ok | apply IH].
Qed.
Lemma program_ok : forall mon rqs niter M,
  steps J w shock sizes fs g types ts sys crs dt RHS (Z.to_nat niter) ab M
    (fold_left RUN (AlgSpec.program_trace fphase nst niter mon rqs) M).
Proof.
  intros mon rqs niter M. unfold AlgSpec.program_trace.
  cbn [fphase AlgSpec.p_before AlgSpec.p_after AlgSpec.at_ map app]. fold fphase. rewrite fold_left_app.
  match goal with |- context [fold_left _ (flat_map AlgSpec.written_at_end rqs) ?M0] => rewrite (run_files AlgSpec.written_at_end rqs M0) end.
  2:{ intros r ev H. unfold AlgSpec.written_at_end in H. destruct (AlgSpec.is_write r); [|contradiction]. destruct H as [<- | []]. eauto. }
  pose proof (steps_ok mon rqs (AlgSpec.upto niter) M) as H.
  assert (L : List.length (AlgSpec.upto niter) = Z.to_nat niter) by (unfold AlgSpec.upto; rewrite map_length, seq_length; reflexivity).
  rewrite L in H. exact H.
Qed.
End time.
