(* C81: what a program with shock capturing computes and preserves. *)
From Verif Require Import Base BaseProofs Expr ExprProofs FDModel WorkModel ShiftSpec ShiftProofs DiscModel DiscSpec DiscProofs DiscRun DiscMain DiscProps
  WFSpec LLFModel ProgModel ProgSpec ProgProofs ProgProps HybModel HybSpec HybProofs HybMore HybProps InvSpec InvProofs InvProps CapModel CapSpec CapProofs CapMore.
From Verif Require AdvModel AdvSpec AlgModel AlgSpec AlgProps OrdModel BCModel RKModel RKSpec RKProps WenoModel.
From Coq Require Import QArith ZArith Reals Lia Lra List Permutation.
Import ListNotations.
Local Close Scope Q_scope.
Local Open Scope list_scope.

(* the model chooses the scheme and halos of that order *)
Lemma order_recon : forall sh, order_scheme sh = recon sh.
Proof. intros [fm order eps | order eps CT]; reflexivity. Qed.
Lemma width_reach : forall sh, width sh = reach sh.
Proof. intros [fm order eps | order eps CT]; reflexivity. Qed.

(* C81, for one block with periodic boundaries and a WENO or TENO scheme, with or without a
   central scheme for the viscous terms.  For each time scheme there is an explicit
   Runge-Kutta method of its order, such that for every such problem, every initial content
   of the arrays and every number of steps, the generated program leaves in the advanced
   arrays at every grid point that many steps of the method applied to the semi-discrete
   system, and leaves the arrays it does not own unchanged. *)
Theorem C81_program_partial :
  forall ts ab, coefficients ts = Ok ab ->
  exists rows b, RKSpec.explicit rows b /\ order_of ts rows b /\
  forall J k sh central dirof h g av fluxes sizes sys crs prg dt niter f M,
    shock_generated ts J k sh central dirof h fluxes sizes sys crs prg ->
    shock_semi_discrete J k dirof h (order_scheme sh) g av fluxes sizes sys crs M f ->
    let M' := run_capturing J k sizes (recon sh) g av (map fst sys) dt ab (AlgModel.execute niter prg) M in
    (forall v x, In v (map fst sys) -> grid_point sizes x ->
       M' v x = RKSpec.iterate (Z.to_nat niter) (RKSpec.runge_kutta rows b dt f) (fun i => M (fst i) (snd i)) (v, x)) /\
    (forall a y, given ts sys crs a -> M' a y = M a y).
Proof.
  intros ts ab Hab.
  assert (RK : exists rows b, RKSpec.explicit rows b /\ order_of ts rows b /\
    forall (I : Type) dt (f : RKModel.state I -> RKModel.state I) m,
      fst (match ts with LS _ _ => RKModel.ls_step I dt f ab m | SBLI _ => RKModel.sbli_step I dt f ab m end) = RKSpec.runge_kutta rows b dt f (fst m)).
  { destruct ts as [order form | order].
    - cbn in Hab. destruct (RKProps.C23_rejected_orders order form ab Hab) as [-> | [-> ->]].
      + destruct (RKProps.C23_low_storage_third_order form ab Hab) as (rows & b & _ & A & B & C). exists rows, b. split; auto. split; auto.
        intros I dt f [u t]. apply C.
      + destruct (RKProps.C23_low_storage_fourth_order ab Hab) as (rows & b & _ & A & B & C). exists rows, b. split; auto. split; auto.
        intros I dt f [u t]. apply C.
    - cbn in Hab. assert (order = 3%nat) by (destruct order as [|[|[|[|o]]]]; cbn in Hab; congruence). subst order.
      destruct (RKProps.C24_sbli_third_order ab Hab) as (rows & b & _ & A & B & C). exists rows, b. split; auto. split; auto.
      intros I dt f [u t]. apply C. }
  destruct RK as (rows & b & Ex & Or & RK). exists rows, b. split; auto. split; auto.
  intros J k sh central dirof h g av fluxes sizes sys crs prg dt niter f M
    (HJ & Hs0 & Hsup & Hsz0 & inv & dord & sord & worder & num & kord & coordinate & known & vcds & datasets & ios & rqs & mon & blk &
     Hinv & Hdord & Hperm & Hinner & Hw & Hnum & Hkord & PP & HV & Hcen & Hio & Hblk & Hprg) Hf M'.
  rewrite order_recon in Hf. rewrite width_reach in *.
  assert (Hdim : List.length sizes <> 0%nat) by (destruct sizes; cbn; congruence).
  assert (Hsz : forall d, (d < List.length sizes)%nat -> (layers k sh central <= nth d sizes 0)%Z).
  { intros d Hd. destruct (Hsz0 d Hd) as (S1 & S2). unfold layers. destruct central; [specialize (S2 eq_refl)|]; lia. }
  unfold capturing_block in Hblk. rewrite Hab in Hblk. cbn [bind] in Hblk.
  destruct (capturing_kernels k sh central sizes dirof inv dord sord worder num kord (map fst sys) crs known vcds (disc_eqs sys)) as [(cs, ks)|] eqn:Esp; [|discriminate].
  cbn [bind fst snd] in Hblk. injection Hblk as Hblk.
  pose proof (coefficients_len ts ab Hab) as Hlen.
  assert (TR : AlgModel.execute niter prg =
    AlgSpec.program_trace (CapProofs.phase k sh central sizes sys cs ks (match ts with LS _ _ => [] | SBLI _ => [Step (SaveOld (adv_eqs sys))] end)
        (match ts with LS _ _ => [Step (LowStorage (adv_eqs sys))] | SBLI _ => [Step (SbliUpdate (adv_eqs sys))] end))
      (Z.of_nat (List.length (fst ab))) niter mon rqs).
  { pose proof (AlgProps.C17_time_loop ckernel blk) as X. rewrite <- Hblk in X, Hprg. cbn [AlgModel.bk_schemes AlgModel.bk_io] in X.
    destruct (X _ _ mon rqs prg (Z.of_nat (List.length (fst ab))) niter eq_refl eq_refl eq_refl eq_refl Hio Hprg) as (ns & Hns & E).
    destruct Hns as (Pn & _). cbn in Pn. apply Permutation_nil in Pn. subst ns. exact E. }
  unfold M'. rewrite TR. clear TR.
  destruct ts as [order form | order]; cbn [register_of] in *.
  - destruct (CapProofs.program_ok J k sh central dirof inv dord sord worder num kord g av sizes coordinate fluxes sys crs known vcds AdvModel.temp_name Hdim Hsup PP Hcen M cs ks dt ab Esp Hsz
      [] [Step (LowStorage (adv_eqs sys))] (RKModel.ls_stage _ dt f) (fun m => m) Hlen) with (mon := mon) (rqs := rqs) (niter := niter) (rk := RKSpec.runge_kutta rows b dt f) (M := M) as [A B]; auto.
    + intros it st M0 m Hm.
      apply (CapProofs.ls_stage_ok J k sh central dirof inv dord sord worder num kord h g av sizes coordinate fluxes sys crs known vcds AdvModel.temp_name) with (S := M); auto.
    + intros m. apply RK.
    + split; [exact A|]. intros a y (N1 & N2 & N3 & N4). apply B. unfold CapProofs.other. auto.
  - destruct (CapProofs.program_ok J k sh central dirof inv dord sord worder num kord g av sizes coordinate fluxes sys crs known vcds AdvModel.old_name Hdim Hsup PP Hcen M cs ks dt ab Esp Hsz
      [Step (SaveOld (adv_eqs sys))] [Step (SbliUpdate (adv_eqs sys))] (RKModel.sbli_stage _ dt f) (fun m => (fst m, fst m)) Hlen) with (mon := mon) (rqs := rqs) (niter := niter) (rk := RKSpec.runge_kutta rows b dt f) (M := M) as [A B]; auto.
    + intros it M0 m Hm. cbn [AlgSpec.at_ map fold_left run_cevent run_ckernel run_pkernel].
      apply (CapProofs.save_ok k sh central dirof worder num sizes coordinate fluxes sys crs known vcds AdvModel.old_name) with (S := M); auto. apply Hm.
    + intros it st M0 m Hm.
      apply (CapProofs.sbli_stage_ok J k sh central dirof inv dord sord worder num kord h g av sizes coordinate fluxes sys crs known vcds AdvModel.old_name) with (S := M); auto.
    + intros [u t]. exact (RK _ dt f (u, t)).
    + split; [exact A|]. intros a y (N1 & N2 & N3 & N4). apply B. unfold CapProofs.other. auto.
Qed.
Print Assumptions C81_program_partial.

Lemma shock_runs : forall ts ab, coefficients ts = Ok ab -> exists rows b,
  forall J k sh central dirof h g av fluxes sizes sys crs prg, shock_generated ts J k sh central dirof h fluxes sizes sys crs prg ->
  exists coordinate known, shock_problem (List.length sizes) (reach sh) k dirof (register_of ts) coordinate fluxes sys crs known /\ real_arithmetic J /\ usable_scheme sh /\
  forall rank, (forall b e c ix, In (b, e) crs -> In (c, ix) (dsets e) -> In c (map fst crs) -> (rank c < rank b)%nat) ->
  forall dt niter M, let M' := run_capturing J k sizes (recon sh) g av (map fst sys) dt ab (AlgModel.execute niter prg) M in
    (forall v x, In v (map fst sys) -> grid_point sizes x ->
       M' v x = RKSpec.iterate (Z.to_nat niter) (RKSpec.runge_kutta rows b dt (shock_slope J k sh dirof h g av sizes fluxes sys crs rank M)) (fun i => M (fst i) (snd i)) (v, x)) /\
    (forall a y, given ts sys crs a -> M' a y = M a y).
Proof.
  intros ts ab Hab. destruct (C81_program_partial ts ab Hab) as (rows & b & _ & _ & X). exists rows, b.
  intros J k sh central dirof h g av fluxes sizes sys crs prg G. pose proof G as
    (HJ & Hs0 & Hsup & Hsz0 & inv & dord & sord & worder & num & kord & coordinate & known & vcds & datasets & ios & rqs & mon & blk &
     Hinv & Hdord & Hperm & Hinner & Hw & Hnum & Hkord & PP & _).
  rewrite width_reach in PP.
  exists coordinate, known. split; auto. split; auto. split; auto. intros rank Hr dt niter M M'.
  apply (X J k sh central dirof h g av fluxes sizes sys crs prg dt niter _ M G).
  rewrite order_recon. apply (shock_slope_semi_discrete ts J k sh dirof h g av sizes coordinate fluxes sys crs known Hsup PP rank Hr).
Qed.

(* C81: if the right-hand side of an equation is a sum of derivatives, the sum of its array
   over the grid never changes: mass, momentum and energy are conserved over any number of
   steps. *)
Theorem C81_conservation : forall ts ab J k sh central dirof h g av fluxes ns sys crs prg,
  coefficients ts = Ok ab -> shock_generated ts J k sh central dirof h fluxes (map Z.of_nat ns) sys crs prg -> not_circular crs ->
  forall M, (forall b, given ts sys crs b -> block_periodic ns (M b)) ->
  forall v rhs, In (v, rhs) sys -> divergence_form rhs ->
  forall dt niter, block_total ns (run_capturing J k (map Z.of_nat ns) (recon sh) g av (map fst sys) dt ab (AlgModel.execute niter prg) M v) = block_total ns (M v).
Proof.
  intros ts ab J k sh central dirof h g av fluxes ns sys crs prg Hab Hg (rank & Hr) M PM v rhs Hin HC dt niter.
  destruct (shock_runs ts ab Hab) as (rows & b & X). destruct (X _ _ _ _ _ _ g av _ _ _ _ _ Hg) as (coordinate & known & PP & HJ & Hsup & Y). destruct (Y rank Hr dt niter M) as (A & _).
  assert (Iv : In v (map fst sys)) by (eapply ProgProofs.named; eauto).
  rewrite (bt_ext_in ns _ _ (fun x Hx => A v x Iv Hx)).
  assert (Z0 : forall u, block_total ns (fun x => shock_slope J k sh dirof h g av (map Z.of_nat ns) fluxes sys crs rank M u (v, x)) = 0%R)
    by (intros u; eapply shock_conserved; eauto).
  change (block_total ns (M v)) with (block_total ns (fun x => (fun i : string * list Z => M (fst i) (snd i)) (v, x))).
  generalize (fun i : string * list Z => M (fst i) (snd i)). generalize (Z.to_nat niter). clear - Z0.
  induction n as [|n IH]; intros u; cbn [RKSpec.iterate]; auto. rewrite IH. apply rk_total. auto.
Qed.
Print Assumptions C81_conservation.

(* C81: if all right-hand sides are made of derivatives, a uniform state stays as it is. *)
Theorem C81_uniform : forall ts ab J k sh central dirof h g av fluxes sizes sys crs prg,
  coefficients ts = Ok ab -> shock_generated ts J k sh central dirof h fluxes sizes sys crs prg -> not_circular crs ->
  (forall v rhs, In (v, rhs) sys -> made_of any_derivative rhs) ->
  forall M, (forall v x y, In v (map fst sys) -> grid_point sizes x -> grid_point sizes y -> M v x = M v y) ->
    (forall b x y, given ts sys crs b -> M b x = M b y) ->
  forall dt niter v x, In v (map fst sys) -> grid_point sizes x ->
    run_capturing J k sizes (recon sh) g av (map fst sys) dt ab (AlgModel.execute niter prg) M v x = M v x.
Proof.
  intros ts ab J k sh central dirof h g av fluxes sizes sys crs prg Hab Hg (rank & Hr) Md M Hu HM dt niter v x Iv Hx.
  destruct (shock_runs ts ab Hab) as (rows & b & X). destruct (X _ _ _ _ _ _ g av _ _ _ _ _ Hg) as (coordinate & known & PP & HJ & Hsup & Y). destruct (Y rank Hr dt niter M) as (A & _).
  rewrite A by auto. clear A Y X.
  set (D := fun i : string * list Z => In (fst i) (map fst sys) /\ grid_point sizes (snd i)).
  assert (G : forall n u, (forall i, D i -> u i = M (fst i) x) -> forall i, D i ->
    RKSpec.iterate n (RKSpec.runge_kutta rows b dt (shock_slope J k sh dirof h g av sizes fluxes sys crs rank M)) u i = M (fst i) x).
  { induction n as [|n IH]; intros u Uu i Hi; cbn [RKSpec.iterate]; auto. apply IH; auto. intros j Hj. rewrite (rk_steady _ D); auto.
    intros w Hw (q, y) (Hq & Hy). cbn [fst snd] in *. apply ProgProofs.in_named in Hq. destruct Hq as (rhs & Hq).
    apply (shock_steady ts J k sh dirof h g av sizes coordinate fluxes sys crs known HJ Hsup PP rank Hr M w (fun q => M q x)) with (rhs := rhs); auto.
    - apply (grid_pos sizes x Hx).
    - intros q' x' Hq' Hx'. rewrite Hw by (split; auto). apply (Uu (q', x')). split; auto.
    - eapply Md; eauto.
    - apply grid_len. auto. }
  apply (G _ (fun i => M (fst i) (snd i))); [|split; auto]. intros (q, y) (Hq & Hy). apply Hu; auto.
Qed.
Print Assumptions C81_uniform.

Lemma shock_moved : forall ts ab, coefficients ts = Ok ab ->
  forall J k sh c1 c2 dirof h g av fluxes sizes sys crs prg1 prg2,
  shock_generated ts J k sh c1 dirof h fluxes sizes sys crs prg1 -> shock_generated ts J k sh c2 dirof h fluxes sizes sys crs prg2 -> not_circular crs ->
  forall s M1 M2, List.length s = List.length sizes -> moved_problem ts sizes sys crs s M1 M2 ->
  ((forall x, grid_point sizes x -> vadd x s = x) \/ exists ns, sizes = map Z.of_nat ns /\ forall b, given ts sys crs b -> block_periodic ns (M1 b)) ->
  forall dt niter, moved_problem ts sizes sys crs s
    (run_capturing J k sizes (recon sh) g av (map fst sys) dt ab (AlgModel.execute niter prg1) M1)
    (run_capturing J k sizes (recon sh) g av (map fst sys) dt ab (AlgModel.execute niter prg2) M2).
Proof.
  intros ts ab Hab J k sh c1 c2 dirof h g av fluxes sizes sys crs prg1 prg2 G1 G2 (rank & Hr) s M1 M2 Ls (Hv & Hb) HP dt niter.
  destruct (shock_runs ts ab Hab) as (rows & b & X). destruct (X _ _ _ _ _ _ g av _ _ _ _ _ G1) as (coordinate & known & PP & HJ & Hsup & Y1).
  destruct (X _ _ _ _ _ _ g av _ _ _ _ _ G2) as (_ & _ & _ & _ & _ & Y2).
  destruct (Y1 rank Hr dt niter M1) as (A1 & B1). destruct (Y2 rank Hr dt niter M2) as (A2 & B2). clear X Y1 Y2. split.
  2: { intros c x Hc Lx. rewrite B1, B2 by auto. auto. }
  intros v x Iv Hx. pose proof (grid_pos sizes x Hx) as Hpos.
  assert (Wg : forall y, List.length y = List.length sizes -> grid_point sizes (wrap sizes (vadd y s))) by (intros y Ly; apply wrap_in; auto; rewrite vadd_len; lia).
  rewrite A1, A2 by (auto; apply Wg, grid_len; auto).
  apply (iterate_map _ (fun i => In (fst i) (map fst sys) /\ grid_point sizes (snd i)) (fun i => (fst i, wrap sizes (vadd (snd i) s)))
    (RKSpec.runge_kutta rows b dt (shock_slope J k sh dirof h g av sizes fluxes sys crs rank M1))); [| |split; auto].
  2: { intros (q, y) (Hq & Hy). cbn [fst snd] in *. auto. }
  intros u u' Hu i Hi.
  apply (rk_map _ (fun i => In (fst i) (map fst sys) /\ grid_point sizes (snd i)) (fun i => (fst i, wrap sizes (vadd (snd i) s)))); auto.
  clear u u' Hu i Hi. intros u u' Hu (q, y) (Hq & Hy). cbn [fst snd] in *. pose proof (grid_len _ _ Hy) as Ly.
  rewrite (shock_slope_moved ts J k sh dirof h g av sizes coordinate fluxes sys crs known Hsup PP rank Hr s M1 M2 u u'); auto.
  2: { intros v' x' Hv' Hx'. apply (Hu (v', x')). split; auto. }
  destruct HP as [HP | (ns & Hns & HP)].
  - rewrite HP by auto. rewrite wrap_grid; auto.
  - symmetry. eapply shock_slope_periodic; eauto. rewrite vadd_len; lia.
Qed.

(* C81: the result depends only on the problem: the values of the advanced arrays at grid
   points and the given arrays.  It depends neither on what the memory contains elsewhere
   nor on the order in which sets were iterated when the program was generated, nor, if
   there is nothing to be differentiated by it, on whether there is a central scheme. *)
Theorem C81_problem : forall ts ab J k sh c1 c2 dirof h g av fluxes sizes sys crs prg1 prg2,
  coefficients ts = Ok ab -> shock_generated ts J k sh c1 dirof h fluxes sizes sys crs prg1 -> shock_generated ts J k sh c2 dirof h fluxes sizes sys crs prg2 -> not_circular crs ->
  forall M1 M2, same_problem ts sizes sys crs M1 M2 ->
  forall dt niter, same_problem ts sizes sys crs
    (run_capturing J k sizes (recon sh) g av (map fst sys) dt ab (AlgModel.execute niter prg1) M1)
    (run_capturing J k sizes (recon sh) g av (map fst sys) dt ab (AlgModel.execute niter prg2) M2).
Proof.
  intros ts ab J k sh c1 c2 dirof h g av fluxes sizes sys crs prg1 prg2 Hab G1 G2 Hc M1 M2 (Sv & Sb) dt niter.
  assert (Z0 : forall x, List.length x = List.length sizes -> vadd x (repeat 0%Z (List.length sizes)) = x) by (intros; apply vadd_0_r; auto).
  destruct (shock_moved ts ab Hab J k sh c1 c2 dirof h g av fluxes sizes sys crs prg1 prg2 G1 G2 Hc (repeat 0%Z (List.length sizes)) M1 M2) with (dt := dt) (niter := niter) as (A & B).
  - apply repeat_length.
  - split.
    + intros v x Hv Hx. rewrite Z0 by (apply grid_len; auto). rewrite wrap_grid by auto. symmetry. auto.
    + intros c x Hg Lx. rewrite Z0 by auto. symmetry. auto.
  - left. intros x Hx. apply Z0, grid_len. auto.
  - split.
    + intros v x Hv Hx. rewrite A by auto. rewrite Z0 by (apply grid_len; auto). rewrite wrap_grid by auto. auto.
    + intros c x Hg. destruct (shock_runs ts ab Hab) as (rows & b & X). destruct Hc as (rank & Hr).
      destruct (X _ _ _ _ _ _ g av _ _ _ _ _ G1) as (_ & _ & _ & _ & _ & Y1). destruct (X _ _ _ _ _ _ g av _ _ _ _ _ G2) as (_ & _ & _ & _ & _ & Y2).
      rewrite (proj2 (Y1 rank Hr dt niter M1)), (proj2 (Y2 rank Hr dt niter M2)) by auto. auto.
Qed.
Print Assumptions C81_problem.

(* C81: moving the initial data of a problem whose given arrays are periodic moves the result. *)
Theorem C81_translation : forall ts ab J k sh central dirof h g av fluxes ns sys crs prg,
  coefficients ts = Ok ab -> shock_generated ts J k sh central dirof h fluxes (map Z.of_nat ns) sys crs prg -> not_circular crs ->
  forall s M1 M2, List.length s = List.length ns -> (forall b, given ts sys crs b -> block_periodic ns (M1 b)) ->
  moved_problem ts (map Z.of_nat ns) sys crs s M1 M2 ->
  forall dt niter, moved_problem ts (map Z.of_nat ns) sys crs s
    (run_capturing J k (map Z.of_nat ns) (recon sh) g av (map fst sys) dt ab (AlgModel.execute niter prg) M1)
    (run_capturing J k (map Z.of_nat ns) (recon sh) g av (map fst sys) dt ab (AlgModel.execute niter prg) M2).
Proof.
  intros ts ab J k sh central dirof h g av fluxes ns sys crs prg Hab Hg Hc s M1 M2 Ls HP HM dt niter.
  apply (shock_moved ts ab Hab J k sh central central dirof h g av fluxes); auto; [rewrite map_length; auto|]. right. eauto.
Qed.
Print Assumptions C81_translation.

(* ---- a problem that meets the hypotheses ---- *)
(* the one-dimensional viscous gas of C65: velocity, pressure, speed of sound and
   temperature are relations *)
Definition inverse (e : expr) := EApp HPow [e; ENum (-1)].
Definition cap_sys : system :=
  [("rho"%string, EApp HMul [ENum (-1); WD hy_f0 "x0"]);
   ("rhou0"%string, EApp HAdd [EApp HMul [ENum (-1); WD hy_f1 "x0"]; EApp HMul [inv_re; hy_v1]]);
   ("rhoE"%string, EApp HAdd [EApp HMul [ENum (-1); WD hy_f2 "x0"]; EApp HMul [inv_re; hy_v2]])].
Definition cap_crs : list (string * expr) :=
  [("T"%string, EApp HMul [ENum (7 # 5); at1 "p"; inverse (at1 "rho")]);
   ("a"%string, EApp HPow [EApp HMul [ENum (7 # 5); at1 "p"; inverse (at1 "rho")]; ENum (1 # 2)]);
   ("p"%string, EApp HMul [ENum (2 # 5); EApp HAdd [at1 "rhoE"; EApp HMul [ENum (-1 # 2); at1 "rhou0"; at1 "u0"]]]);
   ("u0"%string, EApp HMul [at1 "rhou0"; inverse (at1 "rho")])].
Lemma cap_eqs : disc_eqs cap_sys = hy_sys.
Proof. reflexivity. Qed.
Definition weno5 : shock := Weno WenoModel.JS 5 (1 / 1000000).
Lemma cap_private : forall b, ~ In b ["tempRK_rho"; "tempRK_rhou0"; "tempRK_rhoE"]%string ->
  match String.get 0 b with Some c => Ascii.eqb c "w" | None => false end = false -> ~ private AdvModel.temp_name cap_sys b.
Proof.
  intros b N H [H1 | (v & Hv & ->)]; [revert H1; apply not_wk; auto|].
  destruct Hv as [<- | [<- | [<- | []]]]; apply N; cbn; auto.
Qed.
Lemma cap_ok : shock_problem 1 (reach weno5) 2 dir3 AdvModel.temp_name (fun _ => "x0"%string) hy_fluxes cap_sys cap_crs [].
Proof.
  destruct hy_ok as (HY & _).
  assert (P1 : forall b, In b ["Residual0"; "Residual1"; "Residual2"; "rho"; "rhou0"; "rhoE"; "u0"; "p"; "a"; "T"]%string -> ~ private AdvModel.temp_name cap_sys b).
  { intros b Hb. apply cap_private; cbn in Hb; repeat (destruct Hb as [<- | Hb]; [try reflexivity; cbn; intuition discriminate|]); destruct Hb. }
  assert (Dif : forall b d, differentiated dir3 cap_sys b d -> d = 0%nat /\ In b ["u0"; "T"]%string).
  { intros b d (v & rhs & a & n & cs & ix & Hin & Hi & Hb & <-).
    assert (D : derivative (EApp HCD (a :: ESym KCoord n :: cs))) by (eexists _, _; reflexivity).
    destruct Hin as [E | [E | [E | []]]]; injection E as <- <-; apply (inside_cds _ _ D) in Hi; vm_compute in Hi;
      repeat (destruct Hi as [E | Hi]; [injection E as <- <- <-; destruct Hb as [Hb | []]; injection Hb as <- <-; split; [reflexivity | cbn; auto]|]); destruct Hi. }
  constructor.
  - rewrite cap_eqs. destruct HY as [[A1 A2 A3 A4 A5 A6 A7] B C D]. constructor; auto. constructor; auto.
    + intros r rhs Hin. apply P1. destruct Hin as [E | [E | [E | []]]]; injection E as <- <-; cbn; tauto.
    + intros r rhs b ix Hin Hb. destruct (A5 r rhs b ix Hin Hb) as (X1 & _ & X3). split; auto. split; auto. apply P1. clear - Hin Hb.
      destruct Hin as [E | [E | [E | []]]]; injection E as <- <-; vm_compute in Hb; repeat (destruct Hb as [Hb | Hb]; [injection Hb as <- <-; cbn; tauto|]); destruct Hb.
  - assert (C : forall v rhs n, In (v, rhs) cap_sys -> In n (syms KCoord rhs) -> n = "x0"%string).
    { intros v rhs n [E | [E | [E | []]]] Hn; injection E as <- <-; vm_compute in Hn; intuition congruence. }
    intros v rhs v' rhs' n n' H H' Hn Hn' _. rewrite (C v rhs n H Hn), (C v' rhs' n' H' Hn'). reflexivity.
  - unfold AdvSpec.distinct_arrays. vm_compute. repeat constructor; cbn; intuition discriminate.
  - intros v [<- | [<- | [<- | []]]]; split; intros i; discriminate.
  - repeat constructor; cbn; intuition discriminate.
  - intros b [<- | [<- | [<- | [<- | []]]]]; (split; [apply P1; cbn; tauto|]; cbn; intuition discriminate).
  - intros b [<- | [<- | [<- | [<- | []]]]]; (split; [apply P1; cbn; tauto|]; cbn; intuition discriminate).
  - intros _ d Hd. right. exists hy_f1, [0%Z]. split; cbn; tauto.
  - intros b e c ix [E | [E | [E | [E | []]]]] Hc; injection E as <- <-; vm_compute in Hc;
      repeat (destruct Hc as [Hc | Hc]; [injection Hc as <- <-; split; [reflexivity|]; split; [apply P1; cbn; tauto|]; cbn; intuition discriminate|]); destruct Hc.
  - intros b e v [E | [E | [E | [E | []]]]] Hi Hd; injection E as <- <-; apply (inside_cds v _ Hd) in Hi; vm_compute in Hi; destruct Hi.
  - intros b e c ix d w Hin Hc Hcr HN. exists 3%nat. change (reach weno5) with 3%nat in *.
    assert (Dw : (d < 1)%nat /\ (w <= 3)%nat).
    { destruct HN as [(Hd & _ & ->) | (Hdf & ->)]; [lia|]. destruct (Dif b d Hdf) as (-> & _). lia. }
    split; [|lia]. left. split; [lia|]. split; [|reflexivity].
    assert (Pc : c = "p"%string \/ c = "u0"%string).
    { destruct Hin as [E | [E | [E | [E | []]]]]; injection E as <- <-; vm_compute in Hc;
      repeat (destruct Hc as [Hc | Hc]; [injection Hc as <- <-; cbn in Hcr; intuition discriminate|]); destruct Hc. }
    destruct Pc as [-> | ->]; [right; exists hy_f1, [0%Z]; split; cbn; tauto | left; cbn; tauto].
Qed.
Lemma cap_divergence : forall v rhs, In (v, rhs) cap_sys -> divergence_form rhs /\ made_of any_derivative rhs.
Proof.
  intros v rhs Hin. assert (H : exists r, In (r, rhs) hy_sys) by (destruct Hin as [E | [E | [E | []]]]; injection E as <- <-; eexists; cbn; eauto).
  destruct H as (r & H). apply (hy_divergence r rhs H).
Qed.
Lemma cap_acyclic : not_circular cap_crs.
Proof.
  exists (fun b => if String.eqb b "u0" then 0%nat else if String.eqb b "p" then 1%nat else 2%nat). intros b e c ix [E | [E | [E | [E | []]]]] Hc Hin; injection E as <- <-; vm_compute in Hc;
  repeat (destruct Hc as [Hc | Hc]; [injection Hc as <- <-; first [cbn; lia | cbn in Hin; repeat (destruct Hin as [Hin | Hin]; [discriminate|]); destruct Hin]|]); destruct Hc.
Qed.
(* a numbering of the arrays *)
Definition cap_num (b : string) : nat :=
  if string_dec b "rho" then 0 else if string_dec b "rhou0" then 1 else if string_dec b "rhoE" then 2 else if string_dec b "u0" then 3 else
  if string_dec b "p" then 4 else if string_dec b "a" then 5 else if string_dec b "T" then 6 else 7 + code b.
Lemma cap_num_inj : forall a b, cap_num a = cap_num b -> a = b.
Proof.
  intros a b. unfold cap_num. intros H. repeat match type of H with context[string_dec ?x ?y] => destruct (string_dec x y); try subst x end;
  auto; try lia. apply code_inj. lia.
Qed.
Definition cap_block :=
  capturing_block 2 weno5 true dir3 inv1 set_order inner_order (fun l => l) cap_num (fun l => l) [20]%Z (LS 3 RKModel.Standard) cap_sys cap_crs [] [hy_v2; hy_v1] ["rho"; "rhou0"; "rhoE"]%string [].
(* the order in which the relations are evaluated and where *)
Definition relations_of (l : list ckernel) : list (string * list (Z * Z)) :=
  flat_map (fun x => match x with Relation (b, _, r) => [(b, r)] | _ => [] end) l.
Example C81_nonvacuous : exists prg,
  coefficients (LS 3 RKModel.Standard) = Ok ([0; -5/9; -153/128], [1/3; 15/16; 8/15])%R /\
  shock_generated (LS 3 RKModel.Standard) J1 2 weno5 true dir3 (fun _ => 1%R) hy_fluxes (map Z.of_nat [20%nat]) cap_sys cap_crs prg /\ not_circular cap_crs /\
  (exists blk sc s, cap_block = Ok blk /\ AlgModel.generate_solution blk (Some 10%Z) = Ok prg /\ AlgModel.bk_schemes blk = [sc] /\ AlgSpec.sims (AlgModel.sc_solution sc) = [s] /\
  List.length (AlgModel.sq_spatial s) = 9%nat /\
  relations_of (AlgModel.sq_spatial s) = [("u0", [(-3, 24)]); ("p", [(-3, 24)]); ("a", [(-3, 24)]); ("T", [(-2, 22)])]%string%Z) /\
  (* the totals of a sawtooth are kept *)
  (forall dt niter v, In v ["rho"; "rhou0"; "rhoE"]%string ->
    block_total [20%nat] (run_capturing J1 2 [20%Z] (recon weno5) (7/5) Roe ["rho"; "rhou0"; "rhoE"]%string dt ([0; -5/9; -153/128], [1/3; 15/16; 8/15])%R (AlgModel.execute niter prg) saw v) = 190%R) /\
  (* and so is the uniform state *)
  (forall dt niter v x, In v ["rho"; "rhou0"; "rhoE"]%string -> grid_point [20%Z] x ->
    run_capturing J1 2 [20%Z] (recon weno5) (7/5) Roe ["rho"; "rhou0"; "rhoE"]%string dt ([0; -5/9; -153/128], [1/3; 15/16; 8/15])%R (AlgModel.execute niter prg) (fun _ _ => 3%R) v x = 3%R).
Proof.
  destruct hy_ok as (_ & _ & HV).
  assert (Q : match cap_block with Ok blk =>
      match AlgModel.generate_solution blk (Some 10%Z), AlgModel.bk_schemes blk with Ok _, [sc] =>
        match AlgSpec.sims (AlgModel.sc_solution sc) with [s] => List.length (AlgModel.sq_spatial s) = 9%nat /\
  relations_of (AlgModel.sq_spatial s) = [("u0", [(-3, 24)]); ("p", [(-3, 24)]); ("a", [(-3, 24)]); ("T", [(-2, 22)])]%string%Z
        | _ => False end | _, _ => False end | _ => False end) by (vm_compute; split; reflexivity).
  destruct cap_block as [blk|] eqn:Eb; [|destruct Q].
  destruct (AlgModel.generate_solution blk (Some 10%Z)) as [prg|] eqn:Ep; [|destruct Q].
  assert (G : shock_generated (LS 3 RKModel.Standard) J1 2 weno5 true dir3 (fun _ => 1%R) hy_fluxes (map Z.of_nat [20%nat]) cap_sys cap_crs prg).
  { split; [apply J1_real|]. split; [discriminate|]. split; [unfold usable_scheme, weno5; split; [lia|]; split; [discriminate | lra]|]. split; [intros [|d] Hd; cbn in *; lia|].
    exists inv1, set_order, inner_order, (fun l => l), cap_num, (fun l => l), (fun _ => "x0"%string), [], [hy_v2; hy_v1], ["rho"; "rhou0"; "rhoE"]%string, [], [], (Some 10%Z), blk.
    split; [apply inv1_ok|]. split; [apply set_order_ok|]. split; [apply inner_order_perm|]. split; [apply inner_order_inner|]. split; [auto|]. split; [apply cap_num_inj|].
    split; [auto|]. split; [exact cap_ok|]. split; [exact HV|]. split; [discriminate|]. split; [split; constructor|]. split; [exact Eb | exact Ep]. }
  pose proof cap_acyclic as NC.
  exists prg. split; [reflexivity|]. split; [exact G|]. split; [exact NC|]. split.
  { destruct (AlgModel.bk_schemes blk) as [|sc [|]] eqn:Es; try destruct Q. destruct (AlgSpec.sims (AlgModel.sc_solution sc)) as [|s [|]] eqn:Esm; try destruct Q.
    exists blk, sc, s. auto 10. }
  clear Q Eb Ep. split.
  - intros dt niter v Hv.
    assert (Hr : exists rhs, In (v, rhs) cap_sys) by (destruct Hv as [<- | [<- | [<- | []]]]; eexists; cbn; eauto). destruct Hr as (rhs & Hr).
    assert (PG : forall b, given (LS 3 RKModel.Standard) cap_sys cap_crs b -> block_periodic [20%nat] (saw b)).
    { intros b _ d x Hd L. cbn in Hd. assert (d = 0%nat) by lia. subst d. destruct x as [|i [|]]; try discriminate. unfold saw. cbn [move nth].
      f_equal. replace (i + Z.of_nat 20)%Z with (i + 1 * 20)%Z by lia. apply Z.mod_add. lia. }
    pose proof (C81_conservation (LS 3 RKModel.Standard) _ J1 2 weno5 true dir3 _ (7/5) Roe hy_fluxes [20%nat] cap_sys cap_crs prg eq_refl G NC saw PG v rhs Hr (proj1 (cap_divergence v rhs Hr)) dt niter) as E.
    cbn [map] in E. etransitivity; [exact E|]. unfold block_total, FDSpec.total, saw. cbn [seq map fold_right nth].
    repeat match goal with |- context[IZR (?a mod 20)%Z] => let w := eval vm_compute in (a mod 20)%Z in change (a mod 20)%Z with w end. lra.
  - intros dt niter v x Hv Hx. change 3%R with ((fun (_ : string) (_ : list Z) => 3%R) v x) at 2.
    apply (C81_uniform (LS 3 RKModel.Standard) _ J1 2 weno5 true dir3 _ (7/5) Roe hy_fluxes (map Z.of_nat [20%nat]) cap_sys cap_crs prg eq_refl G NC); auto. intros v' rhs' H'. apply (cap_divergence v' rhs' H').
Qed.
