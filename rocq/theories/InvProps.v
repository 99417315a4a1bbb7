(* C75: what a program generated for a periodic problem preserves, over any number of
   steps: totals, uniform states, the problem itself (restarts, halos, set orders) and
   translations. *)
From Verif Require Import Base BaseProofs Expr ExprProofs FDModel WorkModel ShiftSpec ShiftProofs DiscModel DiscSpec DiscProofs DiscRun DiscMain DiscProps
  WFSpec ProgModel ProgSpec ProgProofs ProgProps HybSpec HybMore InvSpec InvProofs.
From Verif Require AdvModel AlgModel AlgSpec AlgProps RKModel RKSpec.
From Coq Require Import QArith ZArith Reals Lia Lra List Permutation.
Import ListNotations ProgProps.
Local Close Scope Q_scope.
Local Open Scope list_scope.

Lemma runs : forall ts ab, coefficients ts = Ok ab -> exists rows b,
  forall J k dirof h sizes sys crs prg, generated ts J k dirof h sizes sys crs prg ->
  (exists known, periodic_problem (List.length sizes) dirof (register_of ts) sys crs known) /\ real_arithmetic J /\
  forall rank, (forall b e c ix, In (b, e) crs -> In (c, ix) (dsets e) -> In c (map fst crs) -> (rank c < rank b)%nat) ->
  forall dt niter M, let M' := run_program J k sizes dt ab (AlgModel.execute niter prg) M in
    (forall v x, In v (map fst sys) -> grid_point sizes x ->
       M' v x = RKSpec.iterate (Z.to_nat niter) (RKSpec.runge_kutta rows b dt (slope J k dirof h sizes sys crs rank M)) (fun i => M (fst i) (snd i)) (v, x)) /\
    (forall a y, given ts sys crs a -> M' a y = M a y).
Proof.
  intros ts ab Hab. destruct (C60_program_partial ts ab Hab) as (rows & b & _ & _ & X). exists rows, b.
  intros J k dirof h sizes sys crs prg (HJ & Hsz & inv & dord & sord & num & kord & known & ccds & vcds & datasets & ios & rqs & mon & blk & Hinv & H1 & H2 & H3 & H4 & H5 & PP & HC & HV & N1 & N2 & Hio & Hb & Hp).
  split; [eauto|]. split; auto. intros rank Hr dt niter M M'.
  destruct (X J k dirof inv dord sord num kord h sizes sys crs known ccds vcds datasets ios rqs mon blk prg dt niter (slope J k dirof h sizes sys crs rank M) M) as (A & B); auto.
  - apply (slope_semi_discrete ts J k dirof h sizes sys crs known PP rank Hr).
  - split; auto. intros a y (G1 & G2 & G3 & G4). apply B; auto.
Qed.
Lemma grid_pos : forall sizes x, grid_point sizes x -> forall d, (d < List.length sizes)%nat -> (0 < nth d sizes 0)%Z.
Proof.
  intros sizes x H. induction H as [|n i sizes x Hi H IH]; intros d Hd; cbn in Hd; [lia|]. destruct d; cbn [nth]; [lia | apply IH; lia].
Qed.

(* C75: if the right-hand side of an equation is a sum of derivatives, the sum of its
   array over the grid never changes. *)
Theorem C75_conservation : forall ts ab J k dirof h ns sys crs prg,
  coefficients ts = Ok ab -> generated ts J k dirof h (map Z.of_nat ns) sys crs prg -> not_circular crs ->
  forall M, (forall b, given ts sys crs b -> block_periodic ns (M b)) ->
  forall v rhs, In (v, rhs) sys -> conservation_law rhs ->
  forall dt niter, block_total ns (run_program J k (map Z.of_nat ns) dt ab (AlgModel.execute niter prg) M v) = block_total ns (M v).
Proof.
  intros ts ab J k dirof h ns sys crs prg Hab Hg (rank & Hr) M PM v rhs Hin HC dt niter.
  destruct (runs ts ab Hab) as (rows & b & X). destruct (X _ _ _ _ _ _ _ _ Hg) as ((known & PP) & HJ & Y). destruct (Y rank Hr dt niter M) as (A & _).
  assert (Iv : In v (map fst sys)) by (eapply ProgProofs.named; eauto).
  rewrite (bt_ext_in ns _ _ (fun x Hx => A v x Iv Hx)).
  assert (Z0 : forall u, block_total ns (fun x => slope J k dirof h (map Z.of_nat ns) sys crs rank M u (v, x)) = 0%R)
    by (intros u; eapply conserved; eauto).
  change (block_total ns (M v)) with (block_total ns (fun x => (fun i : string * list Z => M (fst i) (snd i)) (v, x))).
  generalize (fun i : string * list Z => M (fst i) (snd i)). generalize (Z.to_nat niter). clear - Z0.
  induction n as [|n IH]; intros u; cbn [RKSpec.iterate]; auto. rewrite IH. apply rk_total. auto.
Qed.
Print Assumptions C75_conservation.

(* C75: if all right-hand sides are made of derivatives, a uniform state stays as it is. *)
Theorem C75_uniform : forall ts ab J k dirof h sizes sys crs prg,
  coefficients ts = Ok ab -> generated ts J k dirof h sizes sys crs prg -> not_circular crs ->
  (forall v rhs, In (v, rhs) sys -> made_of derivative rhs) ->
  forall M, (forall v x y, In v (map fst sys) -> grid_point sizes x -> grid_point sizes y -> M v x = M v y) ->
    (forall b x y, given ts sys crs b -> M b x = M b y) ->
  forall dt niter v x, In v (map fst sys) -> grid_point sizes x ->
    run_program J k sizes dt ab (AlgModel.execute niter prg) M v x = M v x.
Proof.
  intros ts ab J k dirof h sizes sys crs prg Hab Hg (rank & Hr) Md M Hu HM dt niter v x Iv Hx.
  destruct (runs ts ab Hab) as (rows & b & X). destruct (X _ _ _ _ _ _ _ _ Hg) as ((known & PP) & HJ & Y). destruct (Y rank Hr dt niter M) as (A & _).
  rewrite A by auto. clear A Y X.
  set (D := fun i : string * list Z => In (fst i) (map fst sys) /\ grid_point sizes (snd i)).
  assert (G : forall n u, (forall i, D i -> u i = M (fst i) x) -> forall i, D i -> RKSpec.iterate n (RKSpec.runge_kutta rows b dt (slope J k dirof h sizes sys crs rank M)) u i = M (fst i) x).
  { induction n as [|n IH]; intros u Uu i Hi; cbn [RKSpec.iterate]; auto. apply IH; auto. intros j Hj. rewrite (rk_steady _ D); auto.
    intros w Hw (q, y) (Hq & Hy). cbn [fst snd] in *. apply ProgProofs.in_named in Hq. destruct Hq as (rhs & Hq).
    apply (steady ts J k dirof h sizes sys crs known HJ PP rank Hr M w (fun q => M q x)) with (rhs := rhs); auto.
    - apply (grid_pos sizes x Hx).
    - intros q' x' Hq' Hx'. rewrite Hw by (split; auto). apply (Uu (q', x')). split; auto.
    - eapply Md; eauto.
    - apply grid_len. auto. }
  apply (G _ (fun i => M (fst i) (snd i))); [|split; auto]. intros (q, y) (Hq & Hy). apply Hu; auto.
Qed.
Print Assumptions C75_uniform.

Lemma moved : forall ts ab, coefficients ts = Ok ab ->
  forall J k dirof h sizes sys crs prg1 prg2, generated ts J k dirof h sizes sys crs prg1 -> generated ts J k dirof h sizes sys crs prg2 -> not_circular crs ->
  forall s M1 M2, List.length s = List.length sizes -> moved_problem ts sizes sys crs s M1 M2 ->
  ((forall x, grid_point sizes x -> vadd x s = x) \/ exists ns, sizes = map Z.of_nat ns /\ forall b, given ts sys crs b -> block_periodic ns (M1 b)) ->
  forall dt niter, moved_problem ts sizes sys crs s
    (run_program J k sizes dt ab (AlgModel.execute niter prg1) M1) (run_program J k sizes dt ab (AlgModel.execute niter prg2) M2).
Proof.
  intros ts ab Hab J k dirof h sizes sys crs prg1 prg2 G1 G2 (rank & Hr) s M1 M2 Ls (Hv & Hb) HP dt niter.
  destruct (runs ts ab Hab) as (rows & b & X). destruct (X _ _ _ _ _ _ _ _ G1) as ((known & PP) & HJ & Y1). destruct (X _ _ _ _ _ _ _ _ G2) as (_ & _ & Y2).
  destruct (Y1 rank Hr dt niter M1) as (A1 & B1). destruct (Y2 rank Hr dt niter M2) as (A2 & B2). clear X Y1 Y2. split.
  2: { intros c x Hc Lx. rewrite B1, B2 by auto. auto. }
  intros v x Iv Hx. pose proof (grid_pos sizes x Hx) as Hpos.
  assert (Wg : forall y, List.length y = List.length sizes -> grid_point sizes (wrap sizes (vadd y s))) by (intros y Ly; apply wrap_in; auto; rewrite vadd_len; lia).
  rewrite A1, A2 by (auto; apply Wg, grid_len; auto).
  apply (iterate_map _ (fun i => In (fst i) (map fst sys) /\ grid_point sizes (snd i)) (fun i => (fst i, wrap sizes (vadd (snd i) s)))
    (RKSpec.runge_kutta rows b dt (slope J k dirof h sizes sys crs rank M1))); [| |split; auto].
  2: { intros (q, y) (Hq & Hy). cbn [fst snd] in *. auto. }
  intros u u' Hu i Hi.
  apply (rk_map _ (fun i => In (fst i) (map fst sys) /\ grid_point sizes (snd i)) (fun i => (fst i, wrap sizes (vadd (snd i) s)))); auto.
  clear u u' Hu i Hi. intros u u' Hu (q, y) (Hq & Hy). cbn [fst snd] in *. apply ProgProofs.in_named in Hq. destruct Hq as (rhs & Hq). pose proof (grid_len _ _ Hy) as Ly.
  rewrite (slope_moved ts J k dirof h sizes sys crs known PP rank Hr s M1 M2 u u') with (rhs := rhs); auto.
  2: { intros v' x' Hv' Hx'. apply (Hu (v', x')). split; auto. }
  destruct HP as [HP | (ns & Hns & HP)].
  - rewrite HP by auto. rewrite wrap_grid; auto.
  - symmetry. eapply slope_periodic; eauto. rewrite vadd_len; lia.
Qed.

(* C75: the result depends only on the problem: the values of the advanced arrays at grid
   points and the given arrays.  It depends neither on what the memory contains elsewhere
   nor on the order in which sets were iterated when the program was generated. *)
Theorem C75_problem : forall ts ab J k dirof h sizes sys crs prg1 prg2,
  coefficients ts = Ok ab -> generated ts J k dirof h sizes sys crs prg1 -> generated ts J k dirof h sizes sys crs prg2 -> not_circular crs ->
  forall M1 M2, same_problem ts sizes sys crs M1 M2 ->
  forall dt niter, same_problem ts sizes sys crs
    (run_program J k sizes dt ab (AlgModel.execute niter prg1) M1) (run_program J k sizes dt ab (AlgModel.execute niter prg2) M2).
Proof.
  intros ts ab J k dirof h sizes sys crs prg1 prg2 Hab G1 G2 Hc M1 M2 (Sv & Sb) dt niter.
  assert (Z0 : forall x, List.length x = List.length sizes -> vadd x (repeat 0%Z (List.length sizes)) = x) by (intros; apply vadd_0_r; auto).
  destruct (moved ts ab Hab J k dirof h sizes sys crs prg1 prg2 G1 G2 Hc (repeat 0%Z (List.length sizes)) M1 M2) with (dt := dt) (niter := niter) as (A & B).
  - apply repeat_length.
  - split.
    + intros v x Hv Hx. rewrite Z0 by (apply grid_len; auto). rewrite wrap_grid by auto. symmetry. auto.
    + intros c x Hg Lx. rewrite Z0 by auto. symmetry. auto.
  - left. intros x Hx. apply Z0, grid_len. auto.
  - split.
    + intros v x Hv Hx. rewrite A by auto. rewrite Z0 by (apply grid_len; auto). rewrite wrap_grid by auto. auto.
    + intros c x Hg. destruct (runs ts ab Hab) as (rows & b & X). destruct Hc as (rank & Hr).
      destruct (X _ _ _ _ _ _ _ _ G1) as (_ & _ & Y1). destruct (X _ _ _ _ _ _ _ _ G2) as (_ & _ & Y2).
      rewrite (proj2 (Y1 rank Hr dt niter M1)), (proj2 (Y2 rank Hr dt niter M2)) by auto. auto.
Qed.
Print Assumptions C75_problem.

(* C75: restarts.  Running n1 steps, keeping only the advanced arrays at grid points and the
   given arrays, and running n2 steps from a memory that holds these is running n1 + n2 steps. *)
Theorem C75_restart : forall ts ab J k dirof h sizes sys crs prg,
  coefficients ts = Ok ab -> generated ts J k dirof h sizes sys crs prg -> not_circular crs ->
  forall dt n1 n2 M M1, (0 <= n1)%Z -> (0 <= n2)%Z ->
    same_problem ts sizes sys crs (run_program J k sizes dt ab (AlgModel.execute n1 prg) M) M1 ->
    same_problem ts sizes sys crs (run_program J k sizes dt ab (AlgModel.execute (n1 + n2) prg) M)
                                  (run_program J k sizes dt ab (AlgModel.execute n2 prg) M1).
Proof.
  intros ts ab J k dirof h sizes sys crs prg Hab Hg Hc dt n1 n2 M M1 H1 H2 HS.
  destruct (runs ts ab Hab) as (rows & b & X). pose proof Hc as (rank & Hr). destruct (X _ _ _ _ _ _ _ _ Hg) as ((known & PP) & HJ & Y).
  pose proof (C75_problem ts ab J k dirof h sizes sys crs prg prg Hab Hg Hg Hc _ _ HS dt n2) as (A & B).
  destruct (Y rank Hr dt n1 M) as (A1 & B1). destruct (Y rank Hr dt (n1 + n2)%Z M) as (A3 & B3).
  set (MM := run_program J k sizes dt ab (AlgModel.execute n1 prg) M) in *. destruct (Y rank Hr dt n2 MM) as (A2 & B2).
  split.
  - intros v x Hv Hx. rewrite <- A by auto. rewrite A2, A3 by auto. rewrite Z2Nat.inj_add, iterate_add by auto.
    apply (iterate_map _ (fun i => In (fst i) (map fst sys) /\ grid_point sizes (snd i)) (fun i => i)); [| |split; auto].
    2: { intros (q, y) (Hq & Hy). cbn [fst snd] in *. symmetry. auto. }
    intros u u' Hu i Hi. apply (rk_map _ (fun i => In (fst i) (map fst sys) /\ grid_point sizes (snd i)) (fun i => i)); auto.
    clear u u' Hu i Hi. intros u u' Hu (q, y) (Hq & Hy). cbn [fst snd] in *. apply ProgProofs.in_named in Hq. destruct Hq as (rhs & Hq). pose proof (grid_len _ _ Hy) as Ly.
    assert (Z0 : forall x, List.length x = List.length sizes -> vadd x (repeat 0%Z (List.length sizes)) = x) by (intros; apply vadd_0_r; auto).
    rewrite (slope_moved ts J k dirof h sizes sys crs known PP rank Hr (repeat 0%Z (List.length sizes)) MM M u u') with (rhs := rhs); auto.
    + rewrite Z0; auto.
    + apply repeat_length.
    + apply (grid_pos sizes x Hx).
    + intros v' x' Hv' Hx'. rewrite Z0 by (apply grid_len; auto). rewrite wrap_grid by auto. apply (Hu (v', x')). split; auto.
    + intros c x' Hg' Lx'. rewrite Z0 by auto. symmetry. auto.
  - intros c x Hc'. rewrite <- B by auto. rewrite B2, B3 by auto. symmetry. auto.
Qed.
Print Assumptions C75_restart.

(* C75: moving the initial data of a problem whose given arrays are periodic moves the result. *)
Theorem C75_translation : forall ts ab J k dirof h ns sys crs prg,
  coefficients ts = Ok ab -> generated ts J k dirof h (map Z.of_nat ns) sys crs prg -> not_circular crs ->
  forall s M1 M2, List.length s = List.length ns -> (forall b, given ts sys crs b -> block_periodic ns (M1 b)) ->
  moved_problem ts (map Z.of_nat ns) sys crs s M1 M2 ->
  forall dt niter, moved_problem ts (map Z.of_nat ns) sys crs s
    (run_program J k (map Z.of_nat ns) dt ab (AlgModel.execute niter prg) M1) (run_program J k (map Z.of_nat ns) dt ab (AlgModel.execute niter prg) M2).
Proof.
  intros ts ab J k dirof h ns sys crs prg Hab Hg Hc s M1 M2 Ls HP HM dt niter.
  apply (moved ts ab Hab J k dirof h); auto; [rewrite map_length; auto|]. right. eauto.
Qed.
Print Assumptions C75_translation.

(* ---- a problem that meets the hypotheses ---- *)
Definition saw : memory := fun _ x => IZR (nth 0 x 0 mod 20)%Z.
Example C75_nonvacuous : exists prg,
  coefficients (LS 3 RKModel.Standard) = Ok ([0; -5/9; -153/128], [1/3; 15/16; 8/15])%R /\
  generated (LS 3 RKModel.Standard) J1 2 dir3 (fun _ => 1%R) (map Z.of_nat [20%nat]) flow flow_crs prg /\ not_circular flow_crs /\
  (forall v rhs, In (v, rhs) flow -> conservation_law rhs /\ made_of derivative rhs) /\
  (forall b, given (LS 3 RKModel.Standard) flow flow_crs b -> block_periodic [20%nat] (saw b)) /\
  given (LS 3 RKModel.Standard) flow flow_crs "c" /\
  (* the total of a sawtooth in r and m is kept *)
  (forall dt niter v, In v ["r"; "m"]%string ->
    block_total [20%nat] (run_program J1 2 [20%Z] dt ([0; -5/9; -153/128], [1/3; 15/16; 8/15])%R (AlgModel.execute niter prg) saw v) = 190%R) /\
  (* and so is the uniform state *)
  (forall dt niter v x, In v ["r"; "m"]%string -> grid_point [20%Z] x ->
    run_program J1 2 [20%Z] dt ([0; -5/9; -153/128], [1/3; 15/16; 8/15])%R (AlgModel.execute niter prg) (fun _ _ => 3%R) v x = 3%R).
Proof.
  destruct flow_ok as (PP & HC & HV).
  assert (Q : match flow_block with Ok blk => match AlgModel.generate_solution blk (Some 10%Z) with Ok _ => True | _ => False end | _ => False end) by (vm_compute; exact I).
  destruct flow_block as [blk|] eqn:Eb; [|destruct Q].
  destruct (AlgModel.generate_solution blk (Some 10%Z)) as [prg|] eqn:Ep; [|destruct Q].
  assert (G : generated (LS 3 RKModel.Standard) J1 2 dir3 (fun _ => 1%R) (map Z.of_nat [20%nat]) flow flow_crs prg).
  { split; [apply J1_real|]. split; [intros [|d] Hd; cbn in *; lia|].
    exists inv1, set_order, inner_order, code, (fun l => l), ["c"%string], [d1; d2; d3], [d4], ["r"; "m"]%string, [], [], (Some 10%Z), blk.
    split; [apply inv1_ok|]. split; [apply set_order_ok|]. split; [apply inner_order_perm|]. split; [apply inner_order_inner|]. split; [apply code_inj|].
    split; [auto|]. split; [exact PP|]. split; [exact HC|]. split; [exact HV|]. split; [discriminate|]. split; [discriminate|]. split; [|split; [exact Eb | exact Ep]].
    split; constructor. }
  assert (NC : not_circular flow_crs).
  { exists (fun b => if String.eqb b "p" then 1%nat else 0%nat). intros b e c ix [E | [E | []]] Hc Hin; injection E as <- <-; vm_compute in Hc;
    repeat (destruct Hc as [Hc | Hc]; [injection Hc as <- <-|]); try destruct Hc; cbn in Hin; cbn; intuition (try discriminate; lia). }
  assert (K : forall l d, derivative d -> forall t, t = EApp HMul (l ++ d :: []) -> (forall c, In c l -> dsets c = []) ->
    (derivative t \/ exists l1 v l2, t = EApp HMul (l1 ++ v :: l2) /\ derivative v /\ forall c, In c (l1 ++ l2) -> dsets c = []) /\ made_of derivative t).
  { intros l d Hd t -> Hl. split.
    - right. exists l, d, []. rewrite app_nil_r. auto.
    - apply md_product with d; [apply in_elt | apply md_one; auto]. }
  assert (Dd : forall d, In d [d1; d2; d3; d4] -> derivative d).
  { intros d Hd. apply is_cd_derivative. repeat (destruct Hd as [<- | Hd]; [reflexivity|]). destruct Hd. }
  assert (FT : forall v rhs, In (v, rhs) flow -> conservation_law rhs /\ made_of derivative rhs).
  { intros v rhs [E | [E | []]]; injection E as <- <-.
    - destruct (K [ENum (-1)] d1 (Dd d1 ltac:(cbn; auto)) _ eq_refl) as (A & B); [intros c [<- | []]; reflexivity|]. split; auto.
      intros t [<- | []]. exact A.
    - destruct (K [ENum (-1)] d2 (Dd d2 ltac:(cbn; auto)) _ eq_refl) as (A & B); [intros c [<- | []]; reflexivity|].
      destruct (K [ENum (-1)] d3 (Dd d3 ltac:(cbn; auto)) _ eq_refl) as (A' & B'); [intros c [<- | []]; reflexivity|].
      destruct (K [inv_re] d4 (Dd d4 ltac:(cbn; auto)) _ eq_refl) as (A'' & B''); [intros c [<- | []]; reflexivity|].
      split; [intros t [<- | [<- | [<- | []]]]; auto|]. apply md_sum. intros t [<- | [<- | [<- | []]]]; auto. }
  assert (PG : forall b, given (LS 3 RKModel.Standard) flow flow_crs b -> block_periodic [20%nat] (saw b)).
  { intros b _ d x Hd L. cbn in Hd. assert (d = 0%nat) by lia. subst d. destruct x as [|i [|]]; try discriminate. unfold saw. cbn [move nth].
    f_equal. replace (i + Z.of_nat 20)%Z with (i + 1 * 20)%Z by lia. apply Z.mod_add. lia. }
  exists prg. split; [reflexivity|]. split; [exact G|]. split; [exact NC|]. split; [exact FT|]. split; [exact PG|]. split.
  - repeat split; try (cbn; intuition discriminate). apply flow_private; [cbn; intuition discriminate | reflexivity].
  - split.
    + intros dt niter v Hv.
      assert (Hr : exists rhs, In (v, rhs) flow) by (destruct Hv as [<- | [<- | []]]; eexists; cbn; eauto). destruct Hr as (rhs & Hr).
      pose proof (C75_conservation (LS 3 RKModel.Standard) _ J1 2 dir3 _ [20%nat] flow flow_crs prg eq_refl G NC saw PG v rhs Hr (proj1 (FT v rhs Hr)) dt niter) as E.
      cbn [map] in E. etransitivity; [exact E|]. unfold block_total, FDSpec.total, saw. cbn [seq map fold_right nth].
      repeat match goal with |- context[IZR (?a mod 20)%Z] => let w := eval vm_compute in (a mod 20)%Z in change (a mod 20)%Z with w end. lra.
    + intros dt niter v x Hv Hx. change 3%R with ((fun (_ : string) (_ : list Z) => 3%R) v x) at 2.
      apply (C75_uniform (LS 3 RKModel.Standard) _ J1 2 dir3 _ (map Z.of_nat [20%nat]) flow flow_crs prg eq_refl G NC); auto. intros v' rhs' H'. apply (FT v' rhs' H').
Qed.
