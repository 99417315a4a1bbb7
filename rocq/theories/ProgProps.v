(* C60: the whole program advances the semi-discrete periodic system with a Runge-Kutta
   method.  C61: ranges of constituent relations. *)
From Verif Require Import Base Expr ExprProofs FDModel FDProofs WorkModel WorkProofs ShiftSpec DiscModel DiscSpec DiscProofs DiscRun DiscMain DiscProps ProgModel ProgSpec ProgProofs.
From Verif Require AdvModel AdvSpec AlgModel AlgSpec AlgProps OrdModel BCModel RKModel RKSpec RKProps.
From Coq Require Import QArith ZArith Reals Lia Lra Permutation.
Local Close Scope Q_scope.

(* the register of a time scheme *)
Definition register_of (ts : timescheme) : string -> string :=
  match ts with LS _ _ => AdvModel.temp_name | SBLI _ => AdvModel.old_name end.
(* third order; the five-stage scheme: fourth order up to the rounding of its coefficients *)
Definition order_of (ts : timescheme) (rows : list (list R)) (b : list R) : Prop :=
  match ts with LS 4 _ => RKSpec.order4_within (1 / 1000000000000) rows b | _ => RKSpec.order3 rows b end.

(* C60, for one block with periodic boundaries, central differences of order 2k and
   constituent relations that are local formulas.  For each time scheme there is an
   explicit Runge-Kutta method of its order, such that for every such problem, every
   initial content of the arrays, and every number of steps, the generated program leaves
   in the advanced arrays at every grid point that many steps of the method applied to the
   semi-discrete system, and leaves the arrays it does not own unchanged. *)
Theorem C60_program_partial :
  forall ts ab, coefficients ts = Ok ab ->
  exists rows b, RKSpec.explicit rows b /\ order_of ts rows b /\
  forall J k dirof inv dord sord num kord h sizes sys crs known ccds vcds datasets ios rqs mon blk prg dt niter f M,
    real_arithmetic J -> (forall M x d m, value J M x (inv d m) = (/ h d ^ m)%R) ->
    (forall e, enumerates (dord e) e) -> (forall l, Permutation l (sord l)) ->
    (forall l l', Permutation l l' -> inner_first l' -> inner_first (sord l)) ->
    (forall a b, num a = num b -> a = b) -> (forall l, Permutation l (kord l)) ->
    periodic_problem (List.length sizes) dirof (register_of ts) sys crs known ->
    (forall d, (d < List.length sizes)%nat -> (Z.of_nat k <= nth d sizes 0)%Z) ->
    lists_derivatives (disc_eqs sys) (fun t => ~ viscous_term t) ccds ->
    lists_derivatives (disc_eqs sys) viscous_term vcds ->
    ccds <> [] -> (vcds = [] -> forall r rhs t, In (r, rhs) (disc_eqs sys) -> In t (terms rhs) -> ~ viscous_term t) ->
    AlgProps.made_from rqs ios ->
    discretised_block k dirof inv dord sord num kord sizes ts sys crs known ccds vcds datasets ios = Ok blk ->
    AlgModel.generate_solution blk mon = Ok prg ->
    semi_discrete J k dirof h sizes sys crs M f ->
    let M' := run_program J k sizes dt ab (AlgModel.execute niter prg) M in
    (forall v x, In v (map fst sys) -> grid_point sizes x ->
       M' v x = RKSpec.iterate (Z.to_nat niter) (RKSpec.runge_kutta rows b dt f) (fun i => M (fst i) (snd i)) (v, x)) /\
    (forall a y, ~ In a (map fst sys) -> ~ In a (map fst crs) -> ~ In a (map fst (disc_eqs sys)) ->
       ~ private (register_of ts) sys a -> M' a y = M a y).
Proof.
  intros ts ab Hab.
  assert (RK : exists rows b, RKSpec.explicit rows b /\ order_of ts rows b /\
    forall (I : Type) dt (f : RKModel.state I -> RKModel.state I) m,
      fst (match ts with LS _ _ => RKModel.ls_step I dt f ab m | SBLI _ => RKModel.sbli_step I dt f ab m end) = RKSpec.runge_kutta rows b dt f (fst m)).
  { destruct ts as [order form | order].
    - cbn in Hab. destruct (RKProps.C23_rejected_orders order form ab Hab) as [-> | [-> ->]].
      + destruct (RKProps.C23_low_storage_third_order form ab Hab) as (rows & b & _ & A & B & C). exists rows, b. split; auto. split; auto.
        intros I dt f [u t]. apply C.
      + destruct (RKProps.C23_low_storage_fourth_order ab Hab) as (rows & b & _ & A & B & C). exists rows, b. split; auto. split; auto.
        intros I dt f [u t]. apply C.
    - cbn in Hab. assert (order = 3%nat) by (destruct order as [|[|[|[|o]]]]; cbn in Hab; congruence). subst order.
      destruct (RKProps.C24_sbli_third_order ab Hab) as (rows & b & _ & A & B & C). exists rows, b. split; auto. split; auto.
      intros I dt f [u t]. apply C. }
  destruct RK as (rows & b & Ex & Or & RK). exists rows, b. split; auto. split; auto.
  intros J k dirof inv dord sord num kord h sizes sys crs known ccds vcds datasets ios rqs mon blk prg dt niter f M
    HJ Hinv Hdord Hperm Hinner Hnum Hkord PP Hsz HC HV Nc Nv Hio Hblk Hprg Hf M'.
  unfold discretised_block in Hblk. rewrite Hab in Hblk. cbn [bind] in Hblk.
  destruct (all_spatial_kernels k (List.length sizes) dirof inv dord sord num kord crs (map fst sys ++ known) ccds vcds (disc_eqs sys)) as [sp|] eqn:Esp; [|discriminate].
  cbn [bind] in Hblk. injection Hblk as Hblk.
  pose proof (coefficients_len ts ab Hab) as Hlen.
  assert (TR : AlgModel.execute niter prg =
    AlgSpec.program_trace (phase k sizes sys sp (match ts with LS _ _ => [] | SBLI _ => [SaveOld (adv_eqs sys)] end)
        (match ts with LS _ _ => [LowStorage (adv_eqs sys)] | SBLI _ => [SbliUpdate (adv_eqs sys)] end))
      (Z.of_nat (List.length (fst ab))) niter mon rqs).
  { pose proof (AlgProps.C17_time_loop pkernel blk) as X. rewrite <- Hblk in X, Hprg. cbn [AlgModel.bk_schemes AlgModel.bk_io] in X.
    destruct (X _ _ mon rqs prg (Z.of_nat (List.length (fst ab))) niter eq_refl eq_refl eq_refl eq_refl Hio Hprg) as (ns & Hns & E).
    destruct Hns as (Pn & _). cbn in Pn. apply Permutation_nil in Pn. subst ns. exact E. }
  unfold M'. rewrite TR. clear TR.
  assert (OT : forall a y, other sys crs (register_of ts) a -> M a y = M a y) by reflexivity.
  destruct ts as [order form | order]; cbn [register_of] in *.
  - destruct (program_ok J k dirof inv dord sord num kord sizes sys crs known ccds vcds AdvModel.temp_name PP HC Nc M sp dt ab Esp Hsz
      [] [LowStorage (adv_eqs sys)] (RKModel.ls_stage _ dt f) (fun m => m) Hlen) with (mon := mon) (rqs := rqs) (niter := niter) (rk := RKSpec.runge_kutta rows b dt f) (M := M) as [A B]; auto.
    + intros it st M0 m Hm.
      apply (ls_stage_ok J k dirof inv dord sord num kord h sizes sys crs known ccds vcds AdvModel.temp_name) with (S := M); auto.
    + intros m. apply RK.
    + split; [exact A|]. intros a y N1 N2 N3 N4. apply B. unfold other. auto.
  - destruct (program_ok J k dirof inv dord sord num kord sizes sys crs known ccds vcds AdvModel.old_name PP HC Nc M sp dt ab Esp Hsz
      [SaveOld (adv_eqs sys)] [SbliUpdate (adv_eqs sys)] (RKModel.sbli_stage _ dt f) (fun m => (fst m, fst m)) Hlen) with (mon := mon) (rqs := rqs) (niter := niter) (rk := RKSpec.runge_kutta rows b dt f) (M := M) as [A B]; auto.
    + intros it M0 m Hm. cbn [AlgSpec.at_ map fold_left run_event run_pkernel].
      apply (save_ok k dirof num sizes sys crs known AdvModel.old_name) with (S := M); auto. apply Hm.
    + intros it st M0 m Hm.
      apply (sbli_stage_ok J k dirof inv dord sord num kord h sizes sys crs known ccds vcds AdvModel.old_name) with (S := M); auto.
    + intros [u t]. exact (RK _ dt f (u, t)).
    + split; [exact A|]. intros a y N1 N2 N3 N4. apply B. unfold other. auto.
Qed.
Print Assumptions C60_program_partial.

(* ---- a problem that meets the hypotheses ---- *)
(* one dimension, two equations, a convective and a viscous part, and two relations, the
   first of which needs the second *)
Fixpoint code (s : string) : nat :=
  match s with EmptyString => 0 | String c s => S (Ascii.nat_of_ascii c + 256 * code s) end.
Lemma code_inj : forall a b, code a = code b -> a = b.
Proof.
  induction a as [|c a IH]; intros [|d b] H; cbn [code] in H; try lia; auto.
  pose proof (Ascii.nat_ascii_bounded c). pose proof (Ascii.nat_ascii_bounded d).
  assert (A : code a = code b) by lia. assert (B : Ascii.nat_of_ascii c = Ascii.nat_of_ascii d) by lia.
  apply IH in A. apply (f_equal Ascii.ascii_of_nat) in B. rewrite !Ascii.ascii_nat_embedding in B. congruence.
Qed.
Definition at1 (b : string) := EDat b [0]%Z.
Definition d1 := EApp HCD [at1 "m"; x0].
Definition d2 := EApp HCD [EApp HMul [at1 "m"; at1 "u"]; x0].
Definition d3 := EApp HCD [at1 "p"; x0].
Definition d4 := EApp HCD [at1 "u"; x0; x0].
Definition flow : system :=
  [("r"%string, EApp HMul [ENum (-1); d1]);
   ("m"%string, EApp HAdd [EApp HMul [ENum (-1); d2]; EApp HMul [ENum (-1); d3]; EApp HMul [inv_re; d4]])].
Definition flow_crs : list (string * expr) :=
  [("p"%string, EApp HMul [at1 "u"; at1 "m"; at1 "c"]);
   ("u"%string, EApp HMul [at1 "m"; EApp HPow [at1 "r"; ENum (-1)]])].
Lemma flow_cds : forall v rhs u, In (v, rhs) flow -> inside u rhs -> derivative u -> In u [d1; d2; d3; d4].
Proof.
  intros v rhs u [E | [E | []]] Hi Hd; injection E as <- <-; apply (inside_cds u _ Hd) in Hi; vm_compute in Hi; vm_compute; tauto.
Qed.
Lemma flow_private : forall b, ~ In b ["wk0"; "tempRK_r"; "tempRK_m"]%string ->
  match String.get 0 b with Some c => Ascii.eqb c "w" | None => false end = false -> ~ private AdvModel.temp_name flow b.
Proof.
  intros b N H [H1 | (v & Hv & ->)]; [revert H1; apply not_wk; auto|].
  destruct Hv as [<- | [<- | []]]; apply N; cbn; auto.
Qed.
Lemma flow_terms : forall r rhs, In (r, rhs) (disc_eqs flow) -> forall t, In t (terms rhs) ->
  (has_re t = false /\ exists d, In d [d1; d2; d3] /\ cds_post t = [d]) \/ (has_re t = true /\ cds_post t = [d4]).
Proof.
  intros r rhs [E | [E | []]] t Ht; injection E as <- <-; cbn [terms] in Ht.
  - destruct Ht as [<- | []]. left. split; auto. exists d1. split; [left|]; reflexivity.
  - destruct Ht as [<- | [<- | [<- | []]]].
    + left. split; auto. exists d2. split; [right; left|]; reflexivity.
    + left. split; auto. exists d3. split; [right; right; left|]; reflexivity.
    + right. split; reflexivity.
Qed.
Lemma flow_ok : periodic_problem 1 dir3 AdvModel.temp_name flow flow_crs ["c"]%string /\
  lists_derivatives (disc_eqs flow) (fun t => ~ viscous_term t) [d1; d2; d3] /\
  lists_derivatives (disc_eqs flow) viscous_term [d4].
Proof.
  assert (Dd : forall d, In d [d1; d2; d3; d4] -> derivative d).
  { intros d Hd. apply is_cd_derivative. repeat (destruct Hd as [<- | Hd]; [reflexivity|]). destruct Hd. }
  assert (Diff : forall b d, differentiated dir3 flow b d -> d = 0%nat /\ In b ["m"; "u"; "p"]%string).
  { intros b d (v & rhs & a & n & cs & ix & Hin & Hi & Hb & <-). apply (flow_cds v rhs _ Hin) in Hi; [|eexists _, _; reflexivity].
    cbn [In] in Hi. repeat (destruct Hi as [E | Hi]; [unfold d1, d2, d3, d4, x0 in E; injection E as <- <- <-; cbn in Hb; split; [reflexivity|];
      repeat (destruct Hb as [Hb | Hb]; [injection Hb as <- <-; cbn; tauto|]); destruct Hb|]). destruct Hi. }
  split; [|split].
  - constructor.
    + constructor.
      * repeat constructor; cbn; intuition discriminate.
      * intros r rhs [E | [E | []]]; injection E as <- <-; apply flow_private; try reflexivity; cbn; intuition discriminate.
      * intros r rhs b ix [E | [E | []]] Hb; injection E as <- <-; vm_compute in Hb;
        repeat (destruct Hb as [Hb | Hb]; [injection Hb as <- <-; split; [reflexivity|]; split; [apply flow_private; try reflexivity; cbn; intuition discriminate|]; cbn; intuition discriminate|]); destruct Hb.
      * intros r rhs [E | [E | []]]; injection E as <- <-; eauto.
      * intros r rhs [E | [E | []]]; injection E as <- <-; apply plain_ok; reflexivity.
      * intros r rhs v Hin Hi Hd. destruct (disc_in _ _ _ Hin) as (w & Hw). apply (flow_cds w rhs v Hw Hi) in Hd.
        destruct Hd as [<- | [<- | [<- | [<- | []]]]].
        -- exists (at1 "m"), "x0"%string, 0%nat. repeat split; cbn; try lia; discriminate.
        -- exists (EApp HMul [at1 "m"; at1 "u"]), "x0"%string, 0%nat. repeat split; cbn; try lia; discriminate.
        -- exists (at1 "p"), "x0"%string, 0%nat. repeat split; cbn; try lia; discriminate.
        -- exists (at1 "u"), "x0"%string, 1%nat. repeat split; cbn; try lia; discriminate.
      * intros r rhs t v Hin Ht Nv Hi Hd. apply (inside_cds v t Hd) in Hi. destruct (flow_terms r rhs Hin t Ht) as [(_ & d & Hd' & E) | (E & _)].
        -- rewrite E in Hi. destruct Hi as [<- | []]. repeat (destruct Hd' as [<- | Hd']; [vm_compute; lia|]). destruct Hd'.
        -- exfalso. apply Nv. apply has_re_spec. auto.
      * intros r rhs t v Hin Ht Vt Hi Hd. apply (inside_cds v t Hd) in Hi. apply has_re_spec in Vt.
        destruct (flow_terms r rhs Hin t Ht) as [(E & _) | (_ & E)]; [congruence|]. rewrite E in Hi. destruct Hi as [<- | []].
        split; [vm_compute; lia|]. intros a n cs u Ev Hu Hdu. apply (inside_cds u a Hdu) in Hu.
        unfold d4, x0 in Ev. injection Ev as <- <- <-. destruct Hu.
    + assert (C : forall v rhs n, In (v, rhs) flow -> In n (syms KCoord rhs) -> n = "x0"%string).
      { intros v rhs n [E | [E | []]] Hn; injection E as <- <-; vm_compute in Hn; intuition congruence. }
      intros v rhs v' rhs' n n' H H' Hn Hn' _. rewrite (C v rhs n H Hn), (C v' rhs' n' H' Hn'). reflexivity.
    + unfold AdvSpec.distinct_arrays. vm_compute. repeat constructor; cbn; intuition discriminate.
    + intros v [<- | [<- | []]]; split; intros i; discriminate.
    + repeat constructor; cbn; intuition discriminate.
    + intros b [<- | [<- | []]]; (split; [apply flow_private; try reflexivity|]; cbn; intuition discriminate).
    + intros b e c ix [E | [E | []]] Hc; injection E as <- <-; vm_compute in Hc;
        repeat (destruct Hc as [Hc | Hc]; [injection Hc as <- <-; split; [reflexivity|]; split; [apply flow_private; try reflexivity; cbn; intuition discriminate|]; cbn; intuition discriminate|]); destruct Hc.
    + intros b e v [E | [E | []]] Hi Hd; injection E as <- <-; apply (inside_cds v _ Hd) in Hi; vm_compute in Hi; destruct Hi.
    + intros b e c ix d [E | [E | []]] Hc Hcr Hdf; injection E as <- <-; destruct (Diff _ _ Hdf) as [-> _].
      * exists "m"%string, (snd (nth 1 flow ("",ENum 0)%string)), (at1 "u"), "x0"%string, [x0], [0%Z].
        split; [right; left; reflexivity|]. split; [apply cds_inside; vm_compute; tauto|]. split; [|reflexivity].
        vm_compute in Hc. vm_compute in Hcr. 
        destruct Hcr as [<- | [<- | []]]; [exfalso; intuition discriminate | left; reflexivity].
      * exfalso. vm_compute in Hc, Hcr. intuition (try congruence); subst; discriminate.
  - split; [repeat constructor; cbn; intuition discriminate|]. intros v. split.
    + intros Hv. split; [apply Dd; cbn in *; tauto|]. destruct Hv as [<- | [<- | [<- | []]]].
      * eexists _, _, _. split; [left; reflexivity|]. split; [left; reflexivity|]. split; [rewrite <- has_re_spec; vm_compute; discriminate|]. apply cds_inside. vm_compute. tauto.
      * eexists _, _, _. split; [right; left; reflexivity|]. split; [left; reflexivity|]. split; [rewrite <- has_re_spec; vm_compute; discriminate|]. apply cds_inside. vm_compute. tauto.
      * eexists _, _, _. split; [right; left; reflexivity|]. split; [right; left; reflexivity|]. split; [rewrite <- has_re_spec; vm_compute; discriminate|]. apply cds_inside. vm_compute. tauto.
    + intros (Hd & r & rhs & t & Hin & Ht & Nv & Hi). apply (inside_cds v t Hd) in Hi.
      destruct (flow_terms r rhs Hin t Ht) as [(_ & d & Hd' & E) | (E & _)].
      * rewrite E in Hi. destruct Hi as [<- | []]. auto.
      * exfalso. apply Nv. apply has_re_spec. auto.
  - split; [repeat constructor; cbn; intuition discriminate|]. intros v. split.
    + intros [<- | []]. split; [apply Dd; cbn; tauto|]. eexists _, _, _. split; [right; left; reflexivity|]. split; [right; right; left; reflexivity|].
      split; [rewrite <- has_re_spec; vm_compute; reflexivity|]. apply cds_inside. vm_compute. tauto.
    + intros (Hd & r & rhs & t & Hin & Ht & Nv & Hi). apply (inside_cds v t Hd) in Hi. apply has_re_spec in Nv.
      destruct (flow_terms r rhs Hin t Ht) as [(E & _) | (_ & E)]; [congruence|]. rewrite E in Hi. exact Hi.
Qed.
(* its semi-discrete system exists *)
Definition flow_fields (J : interp R) (sizes : list Z) (S : memory) (u : solution) : memory :=
  let F0 := fun b x => if in_dec string_dec b (map fst flow) then u (b, wrap sizes x) else S b x in
  let F1 := fun b x => if String.eqb b "u" then value J F0 x (EApp HMul [at1 "m"; EApp HPow [at1 "r"; ENum (-1)]]) else F0 b x in
  fun b x => if String.eqb b "p" then value J F1 x (EApp HMul [at1 "u"; at1 "m"; at1 "c"]) else F1 b x.
Lemma flow_fields_ok : forall J sizes S u, fields J sizes flow flow_crs S u (flow_fields J sizes S u).
Proof.
  intros J sizes S u. constructor.
  - intros b x [<- | [<- | []]] _; reflexivity.
  - intros b e x [E | [E | []]] _; injection E as <- <-; reflexivity.
  - intros b x N1 N2. unfold flow_fields. cbn in N2. destruct (String.eqb_spec b "p") as [-> | _]; [tauto|].
    destruct (String.eqb_spec b "u") as [-> | _]; [tauto|]. destruct (in_dec string_dec b (map fst flow)); tauto.
Qed.
Definition flow_rhs (J : interp R) k (h : nat -> R) (sizes : list Z) (S : memory) (u : solution) : solution :=
  fun i => match find (fun s => String.eqb (fst i) (fst s)) flow with
           | Some s => sem J k dir3 h (flow_fields J sizes S u) (snd s) (snd i) | None => 0%R end.
Lemma flow_semi_discrete : forall J k h sizes S, semi_discrete J k dir3 h sizes flow flow_crs S (flow_rhs J k h sizes S).
Proof.
  intros J k h sizes S u. exists (flow_fields J sizes S u). split; [apply flow_fields_ok|].
  intros v rhs x [E | [E | []]] _; injection E as <- <-; reflexivity.
Qed.
Definition flow_block :=
  discretised_block 2 dir3 inv1 set_order inner_order code (fun l => l) [20]%Z (LS 3 RKModel.Standard) flow flow_crs ["c"%string] [d1; d2; d3] [d4] ["r"; "m"]%string [].
Example C60_nonvacuous :
  exists rows b blk prg, RKSpec.order3 rows b /\ flow_block = Ok blk /\ AlgModel.generate_solution blk (Some 10%Z) = Ok prg /\
  (exists sc s, AlgModel.bk_schemes blk = [sc] /\ AlgSpec.sims (AlgModel.sc_solution sc) = [s] /\ List.length (AlgModel.sq_spatial s) = 9%nat /\
     map (fun pk => match pk with Spatial kn => map fst (k_eqs kn) | _ => [] end) (firstn 2 (AlgModel.sq_spatial s)) = [["u"]; ["p"]]%string) /\
  forall dt niter M v x, In v ["r"; "m"]%string -> grid_point [20]%Z x ->
    run_program J1 2 [20]%Z dt ([0; -5/9; -153/128], [1/3; 15/16; 8/15])%R (AlgModel.execute niter prg) M v x =
    RKSpec.iterate (Z.to_nat niter) (RKSpec.runge_kutta rows b dt (flow_rhs J1 2 (fun _ => 1%R) [20]%Z M)) (fun i => M (fst i) (snd i)) (v, x).
Proof.
  destruct flow_ok as (PP & HC & HV).
  destruct (C60_program_partial (LS 3 RKModel.Standard) _ eq_refl) as (rows & b & Ex & Or & X).
  assert (Q : match flow_block with Ok blk =>
      match AlgModel.generate_solution blk (Some 10%Z), AlgModel.bk_schemes blk with Ok _, [sc] =>
        match AlgSpec.sims (AlgModel.sc_solution sc) with [s] => List.length (AlgModel.sq_spatial s) = 9%nat /\
          map (fun pk => match pk with Spatial kn => map fst (k_eqs kn) | _ => [] end) (firstn 2 (AlgModel.sq_spatial s)) = [["u"]; ["p"]]%string
        | _ => False end | _, _ => False end | _ => False end) by (vm_compute; split; reflexivity).
  destruct flow_block as [blk|] eqn:Eb; [|destruct Q].
  destruct (AlgModel.generate_solution blk (Some 10%Z)) as [prg|] eqn:Ep; [|destruct Q].
  exists rows, b, blk, prg. split; [exact Or|]. split; auto. split; auto. split.
  - destruct (AlgModel.bk_schemes blk) as [|sc [|]]; try destruct Q. exists sc. destruct (AlgSpec.sims (AlgModel.sc_solution sc)) as [|s [|]]; try destruct Q.
    exists s. auto.
  - intros dt niter M v x Hv Hx.
    apply (X J1 2%nat dir3 inv1 set_order inner_order code (fun l => l) (fun _ => 1%R) [20]%Z flow flow_crs ["c"%string] [d1; d2; d3] [d4]
             ["r"; "m"]%string [] [] (Some 10%Z) blk prg dt niter); auto.
    + apply J1_real.
    + apply inv1_ok.
    + apply set_order_ok.
    + apply inner_order_perm.
    + apply inner_order_inner.
    + apply code_inj.
    + intros [|d] Hd; cbn in *; lia.
    + discriminate.
    + discriminate.
    + split; constructor.
    + apply flow_semi_discrete.
Qed.

(* C61.  Ranges are not passed on from a relation to the relations it needs: in the
   two-dimensional Euler equations the pressure is differentiated in both directions, the
   velocity components in one each, so the pressure in the halos is computed from velocities
   that no kernel of the stage computes.  What they hold from before changes a residual. *)
Definition neg_cd (a : expr) (x : expr) : expr := EApp HMul [ENum (-1); EApp HCD [a; x]].
Definition prod2 (a b : string) : expr := EApp HMul [at2 a; at2 b].
Definition ept (u : string) : expr := EApp HMul [at2 u; EApp HAdd [at2 "p"; at2 "e"]].
Definition euler2 : system :=
  [("r"%string, EApp HAdd [neg_cd (at2 "m0") x0; neg_cd (at2 "m1") x1]);
   ("m0"%string, EApp HAdd [neg_cd (prod2 "m0" "u0") x0; neg_cd (prod2 "m0" "u1") x1; neg_cd (at2 "p") x0]);
   ("m1"%string, EApp HAdd [neg_cd (prod2 "m1" "u0") x0; neg_cd (prod2 "m1" "u1") x1; neg_cd (at2 "p") x1]);
   ("e"%string, EApp HAdd [neg_cd (ept "u0") x0; neg_cd (ept "u1") x1])].
Definition euler2_crs : list (string * expr) :=
  let over u m := (u, EApp HMul [at2 m; EApp HPow [at2 "r"; ENum (-1)]]) in
  [over "u0" "m0"; over "u1" "m1"; ("p", EApp HMul [ESym KConst "gama"; EApp HAdd [at2 "e"; EApp HMul [ENum (-1 # 2); EApp HAdd [prod2 "m0" "u0"; prod2 "m1" "u1"]]]])]%string.
Definition euler2_cds : list expr :=
  [EApp HCD [at2 "m0"; x0]; EApp HCD [at2 "m1"; x1]; EApp HCD [prod2 "m0" "u0"; x0]; EApp HCD [prod2 "m0" "u1"; x1]; EApp HCD [at2 "p"; x0];
   EApp HCD [prod2 "m1" "u0"; x0]; EApp HCD [prod2 "m1" "u1"; x1]; EApp HCD [at2 "p"; x1]; EApp HCD [ept "u0"; x0]; EApp HCD [ept "u1"; x1]].
Definition Jinv : interp R := {| inum := Q2R; isym := fun _ _ => 1%R;
  iapp := fun hd l => match hd with HAdd => fold_right Rplus 0%R l | HMul => fold_right Rmult 1%R l | HPow => Rinv (nth 0 l 0%R) | _ => 0%R end |}.
Theorem C61_constituent_range_refuted :
  exists ks, all_spatial_kernels 1 2 dir3 inv1 set_order inner_order code (fun l => l) euler2_crs (map fst euler2) euler2_cds [] (disc_eqs euler2) = Ok ks /\
    reads_uncomputed_point (map (with_range 1 [4; 4]%Z) ks) /\
    exists M M' r x, (forall b y, ~ In b (map fst euler2_crs) -> M b y = M' b y) /\ In r (map fst (disc_eqs euler2)) /\ grid_point [4; 4]%Z x /\
      exec Jinv 1 [4; 4]%Z ks M r x <> exec Jinv 1 [4; 4]%Z ks M' r x.
Proof.
  destruct (all_spatial_kernels 1 2 dir3 inv1 set_order inner_order code (fun l => l) euler2_crs (map fst euler2) euler2_cds [] (disc_eqs euler2)) as [ks|er] eqn:E.
  2: { exfalso. vm_compute in E. discriminate. }
  vm_compute in E. injection E as <-. eexists. split; [reflexivity|]. split.
  - unfold reads_uncomputed_point. cbn [map].
    eexists _, "p"%string, _, "u0"%string, [0; 0]%Z, [0; -1]%Z.
    split; [do 2 right; left; reflexivity|]. split; [left; reflexivity|].
    split; [vm_compute; tauto|]. split; [vm_compute; reflexivity|].
    split. { eexists. split; [left; reflexivity|]. left. reflexivity. }
    intros kw Hk Hb. cbn [In] in Hk.
    repeat (destruct Hk as [<- | Hk]; [first [vm_compute; reflexivity | exfalso; vm_compute in Hb; intuition discriminate]|]). destruct Hk.
  - set (F := fun (c : R) (b : string) (y : list Z) =>
      if String.eqb b "r" || String.eqb b "m0" then 1%R else if String.eqb b "u0" then c else 0%R).
    exists (F 0%R), (F 1%R), "Residual2"%string, [0; 0]%Z. split; [|split; [vm_compute; tauto|split; [repeat constructor; lia|]]].
    + intros b y N. unfold F. destruct (String.eqb b "r" || String.eqb b "m0"); auto. destruct (String.eqb_spec b "u0") as [-> | _]; auto.
      exfalso. apply N. left. reflexivity.
    + unfold F. clear F. cbv -[Rplus Rmult Rinv IZR]. intros H. field_simplify in H. lra.
Qed.
Print Assumptions C61_constituent_range_refuted.
