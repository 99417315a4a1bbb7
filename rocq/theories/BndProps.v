(* C78: programs of one block with symmetry planes, inviscid walls, zero-gradient outlets
   and periodic boundaries. *)
From Verif Require Import Base Expr KernelModel ExprProofs WorkModel ShiftSpec DiscModel DiscSpec DiscProofs DiscRun DiscMain DiscProps ProgModel ProgSpec ProgProofs ProgProps.
From Verif Require Import BndModel BndSpec BndKern BndProofs BndExist.
From Verif Require AdvModel AdvSpec AlgModel AlgSpec AlgProps OrdModel BCModel BCSpec BCVec RKModel RKSpec RKProps.
From Coq Require Import QArith ZArith Reals Lia Lra Permutation.
Local Close Scope Q_scope.
Local Open Scope list_scope.

(* C78, the boundary conditions: the kernels of all the faces are generated, and whatever is
   in the memory, run one after the other they leave the values that the conditions give to
   the values at the free points.  Other arrays keep their values. *)
Theorem C78_boundary_conditions : forall J ord k sizes fs types usable M points dt ab stage,
  BCSpec.reals J -> BCSpec.good_order ord -> boundaries k sizes fs types usable ->
  (forall b, usable b -> ~ In b (BCSpec.field_names fs)) -> all_points points -> normals J k sizes types M ->
  exists ks, apply_boundary_conditions ord sizes (block_halos k (List.length sizes)) (BCSpec.arrays_of (List.length sizes) fs) 0 types = Ok ks /\
    let M' := fold_left (fun M x => run_xkernel J k sizes dt ab points M x stage) ks M in
    continues J k sizes fs types M (fun i => M (fst i) (snd i)) M' /\
    (forall v y, ~ In v (BCSpec.field_names fs) -> M' v y = M v y).
Proof.
  intros J ord k sizes fs types usable M points dt ab stage HR Hord Bd Hus Hp Hn.
  destruct (kernels_ok J ord k sizes fs types M usable dt ab points HR Hord Bd Hus Hp Hn) as (ks & E & X). exists ks. split; auto.
  apply (X stage M). intros b y _. reflexivity.
Qed.
Print Assumptions C78_boundary_conditions.

(* C78: the conditions give one value, and only one, to every point of the grid and its
   halos that is not free. *)
Theorem C78_determined : forall J k sizes fs types usable S u,
  BCSpec.reals J -> boundaries k sizes fs types usable -> (forall b, usable b -> ~ In b (BCSpec.field_names fs)) -> normals J k sizes types S ->
  exists E, continues J k sizes fs types S u E /\
    forall E', continues J k sizes fs types S u E' -> forall v y, In v (BCSpec.field_names fs) -> near k sizes y -> E' v y = E v y.
Proof.
  intros J k sizes fs types usable S u HR Bd Hus Hn.
  exists (continuation J k sizes fs types set_order S u). assert (C : continues J k sizes fs types S u (continuation J k sizes fs types set_order S u)).
  { apply (continuation_ok J k sizes fs types usable); auto. intros e. apply set_order_ok. }
  split; auto. intros E' H v y Hv Hy. apply (continues_unique J k sizes fs types S usable Bd u); auto.
Qed.
Print Assumptions C78_determined.

(* C78: the semi-discrete system exists.  Its values at the free points are determined by the
   values of the solution at the free points. *)
Theorem C78_system : forall ts J k dirof h sizes fs types sys crs prg,
  generated ts J k dirof h sizes fs types sys crs prg -> not_circular crs ->
  forall S, normals J k sizes types S ->
  exists f, bounded_system J k dirof h sizes fs types sys crs S f /\
    forall f', bounded_system J k dirof h sizes fs types sys crs S f' ->
      forall u u', (forall v x, In v (map fst sys) -> free sizes types x -> u' (v, x) = u (v, x)) ->
      forall v x, In v (map fst sys) -> free sizes types x -> f' u' (v, x) = f u (v, x).
Proof.
  intros ts J k dirof h sizes fs types sys crs prg (HR & Bd & Hfs & inv & dord & sord & num & kord & known & ccds & vcds & datasets & ios & rqs & mon & ord & blk &
    Hinv & Hdord & Hperm & Hinner & Hnum & Hkord & PP & HC & HV & Nc & Nv & Hio & Hord & Hblk & Hprg) (rank & Hrank) S Hn.
  assert (Hus : forall b, given (register_of ts) sys crs b -> ~ In b (BCSpec.field_names fs)) by (intros b H C; apply (proj1 H); apply Hfs; auto).
  set (E0 := continuation J k sizes fs types ord S). set (F0 := fun u => closed J crs rank (joined sys S (E0 u))).
  assert (C0 : forall u, continues J k sizes fs types S u (E0 u)) by (intros u; eapply continuation_ok; eauto).
  assert (B0 : forall u, bounded_fields J k sizes sys crs S (E0 u) (F0 u)) by (intros u; eapply closed_fields; eauto).
  exists (fun u => slope J k dirof h sys (F0 u)). split.
  { intros u. exists (E0 u), (F0 u). split; [|split]; auto. intros v rhs x Hv _. eapply slope_value; eauto. }
  intros f' Hf' u u' Hu v x Hv Hx. destruct (Hf' u') as (E & F & CE' & BF & V).
  assert (CE : continues J k sizes fs types S u E) by (destruct CE' as [A B]; constructor; auto; intros w y Hw Hy; rewrite A by auto; apply Hu; auto; apply Hfs; auto).
  apply in_map_iff in Hv. destruct Hv as ([v' rhs] & E1 & Hv). cbn in E1. subst v'.
  rewrite (V v rhs x Hv Hx). rewrite (slope_value J k dirof h sizes (register_of ts) sys crs known PP (F0 u) v rhs x Hv).
  assert (EE : forall b y, In b (map fst sys) -> near k sizes y -> F b y = F0 u b y).
  { intros b y Hb Hy. rewrite (bf_solution _ _ _ _ _ _ _ _ BF b y Hb Hy), (bf_solution _ _ _ _ _ _ _ _ (B0 u) b y Hb Hy).
    apply (continues_unique J k sizes fs types S _ Bd u); auto. apply Hfs. auto. }
  assert (GG : forall b y, given (register_of ts) sys crs b -> F b y = F0 u b y).
  { intros b y (N1 & N2 & _). rewrite (bf_other _ _ _ _ _ _ _ _ BF b y N1 N2), (bf_other _ _ _ _ _ _ _ _ (B0 u) b y N1 N2). reflexivity. }
  assert (CR : forall n b y, (rank b < n)%nat -> In b (map fst crs) -> near k sizes y -> F b y = F0 u b y).
  { induction n as [|n IH]; intros b y Hb Hi Hy; [lia|]. destruct (in_named _ _ _ Hi) as (e & He).
    rewrite (bf_relation _ _ _ _ _ _ _ _ BF b e y He Hy), (bf_relation _ _ _ _ _ _ _ _ (B0 u) b e y He Hy). unfold value. apply eval_ext. intros c ix Hc.
    destruct (relation_reads dirof sizes (register_of ts) sys crs known PP b e c ix He Hc) as (-> & [R | [R | R]]); rewrite vadd_0_r by apply Hy; auto.
    apply IH; auto. specialize (Hrank b e c _ He Hc R). lia. }
  destruct (in_disc sys v rhs Hv) as (r & Hr).
  apply (sem_reach J k dirof h sizes (cr_directions dirof (ccds ++ vcds)) F (F0 u) rhs []).
  - intros b ix Hb. destruct (rhs_reads dirof sizes (register_of ts) sys crs known PP v rhs b ix Hv Hb) as (Ei & Rb).
    split; auto. split; [intros d []|]. intros y Hy. pose proof (range_near k sizes _ _ Hy) as Ny.
    destruct Rb as [R | [R | R]]; auto. apply (CR (Datatypes.S (rank b))); auto.
  - intros w Hi Hd. destruct (deriv_shape dirof sizes sys crs known ccds vcds (register_of ts) PP HC HV v rhs w Hv Hi Hd) as (a & n & m & Eu & Hn' & Ha & Hw). exists a, n, m. repeat split; auto.
  - apply grid_point_range. apply Hx.
Qed.
Print Assumptions C78_system.

(* C78: for each time scheme there is an explicit Runge-Kutta method of its order, such
   that for every such problem, every initial content of the arrays, every order in which
   the points are treated and every number of steps, the program leaves at the free points
   that many steps of the method applied to the semi-discrete system.  After at least one
   step the other points of the grid and its halos have the values that the conditions give
   them.  The arrays the program does not own are unchanged. *)
Theorem C78_program_partial :
  forall ts ab, coefficients ts = Ok ab ->
  exists rows b, RKSpec.explicit rows b /\ order_of ts rows b /\
  forall J k dirof h sizes fs types sys crs prg, generated ts J k dirof h sizes fs types sys crs prg ->
  forall points dt niter f M, all_points points -> normals J k sizes types M ->
    bounded_system J k dirof h sizes fs types sys crs M f ->
    let M' := run_xprogram J k sizes dt ab points (AlgModel.execute niter prg) M in
    (forall v x, In v (map fst sys) -> free sizes types x ->
       M' v x = RKSpec.iterate (Z.to_nat niter) (RKSpec.runge_kutta rows b dt f) (fun i => M (fst i) (snd i)) (v, x)) /\
    ((0 < niter)%Z -> continues J k sizes fs types M (fun i => M' (fst i) (snd i)) M') /\
    (forall a y, given (register_of ts) sys crs a -> M' a y = M a y).
Proof.
  intros ts ab Hab.
  assert (RK : exists rows b, RKSpec.explicit rows b /\ order_of ts rows b /\
    forall (I : Type) dt (f : RKModel.state I -> RKModel.state I) m,
      fst (match ts with LS _ _ => RKModel.ls_step I dt f ab m | SBLI _ => RKModel.sbli_step I dt f ab m end) = RKSpec.runge_kutta rows b dt f (fst m)).
  { destruct ts as [order form | order].
    - cbn in Hab. destruct (RKProps.C23_rejected_orders order form ab Hab) as [-> | [-> ->]].
      + destruct (RKProps.C23_low_storage_third_order form ab Hab) as (rows & b & _ & A & B & C). exists rows, b. split; auto. split; auto.
        intros I dt f [u t]. apply C.
      + destruct (RKProps.C23_low_storage_fourth_order ab Hab) as (rows & b & _ & A & B & C). exists rows, b. split; auto. split; auto.
        intros I dt f [u t]. apply C.
    - cbn in Hab. assert (order = 3%nat) by (destruct order as [|[|[|[|o]]]]; cbn in Hab; congruence). subst order.
      destruct (RKProps.C24_sbli_third_order ab Hab) as (rows & b & _ & A & B & C). exists rows, b. split; auto. split; auto.
      intros I dt f [u t]. apply C. }
  destruct RK as (rows & b & Ex & Or & RK). exists rows, b. split; auto. split; auto.
  intros J k dirof h sizes fs types sys crs prg (HR & Bd & Hfs & inv & dord & sord & num & kord & known & ccds & vcds & datasets & ios & rqs & mon & ord & blk &
    Hinv & Hdord & Hperm & Hinner & Hnum & Hkord & PP & HC & HV & Nc & Nv & Hio & Hord & Hblk & Hprg) points dt niter f M Hp Hn Hf M'.
  assert (HJ : real_arithmetic J) by (destruct HR; repeat split; auto).
  unfold bounded_block in Hblk. rewrite Hab in Hblk. cbn [bind] in Hblk.
  destruct (all_spatial_kernels k (List.length sizes) dirof inv dord sord num kord crs (map fst sys ++ known) ccds vcds (disc_eqs sys)) as [sp|] eqn:Esp; [|discriminate].
  cbn [bind] in Hblk.
  destruct (apply_boundary_conditions ord sizes (block_halos k (List.length sizes)) (BCSpec.arrays_of (List.length sizes) fs) 0 types) as [bcs|] eqn:Ebc; [|discriminate].
  cbn [bind] in Hblk. injection Hblk as Hblk.
  pose proof (coefficients_len ts ab Hab) as Hlen.
  assert (TR : AlgModel.execute niter prg =
    AlgSpec.program_trace (phase sp bcs (match ts with LS _ _ => [] | SBLI _ => [Inner (SaveOld (adv_eqs sys))] end)
        (match ts with LS _ _ => [Inner (LowStorage (adv_eqs sys))] | SBLI _ => [Inner (SbliUpdate (adv_eqs sys))] end))
      (Z.of_nat (List.length (fst ab))) niter mon rqs).
  { pose proof (AlgProps.C17_time_loop xkernel blk) as X. rewrite <- Hblk in X, Hprg. cbn [AlgModel.bk_schemes AlgModel.bk_io] in X.
    destruct (X _ _ mon rqs prg (Z.of_nat (List.length (fst ab))) niter eq_refl eq_refl eq_refl eq_refl Hio Hprg) as (ns & Hns & E).
    destruct Hns as (Pn & _). cbn in Pn. apply Permutation_nil in Pn. subst ns. exact E. }
  unfold M'. rewrite TR. clear TR M'.
  destruct ts as [order form | order]; cbn [register_of] in *.
  - eapply (program_ok J k dirof sizes sys crs known AdvModel.temp_name PP ord fs types points M sp bcs dt ab) with (stg := RKModel.ls_stage _ dt f) (prep := fun m => m); eauto.
    + intros it st M0 m Hm.
      eapply (ls_stage_ok J k dirof inv dord sord num kord h sizes sys crs known ccds vcds AdvModel.temp_name); eauto.
  - eapply (program_ok J k dirof sizes sys crs known AdvModel.old_name PP ord fs types points M sp bcs dt ab) with (stg := RKModel.sbli_stage _ dt f) (prep := fun m => (fst m, fst m)); eauto.
    + intros it M0 m Hm. cbn [AlgSpec.at_ map fold_left run_xevent run_xkernel run_pkernel].
      eapply (save_ok J k dirof num sizes sys crs known AdvModel.old_name); eauto. apply Hm.
    + intros it st M0 m Hm.
      eapply (sbli_stage_ok J k dirof inv dord sord num kord h sizes sys crs known ccds vcds AdvModel.old_name); eauto.
    + intros [u t]. exact (RK _ dt f (u, t)).
Qed.
Print Assumptions C78_program_partial.

(* C78: what is in the memory besides the values at the free points and the given arrays, the
   order in which the points are treated and the order in which Python iterates over its
   sets have no influence on the result, halos included. *)
Theorem C78_memory : forall ts ab J k dirof h sizes fs types sys crs prg1 prg2,
  coefficients ts = Ok ab ->
  generated ts J k dirof h sizes fs types sys crs prg1 -> generated ts J k dirof h sizes fs types sys crs prg2 -> not_circular crs ->
  forall points1 points2 M1 M2, all_points points1 -> all_points points2 -> normals J k sizes types M1 ->
  same_problem ts sizes types sys crs M1 M2 ->
  forall dt niter,
    let M1' := run_xprogram J k sizes dt ab points1 (AlgModel.execute niter prg1) M1 in
    let M2' := run_xprogram J k sizes dt ab points2 (AlgModel.execute niter prg2) M2 in
    same_problem ts sizes types sys crs M1' M2' /\
    ((0 < niter)%Z -> forall v y, In v (map fst sys) -> near k sizes y -> M1' v y = M2' v y).
Proof.
  intros ts ab J k dirof h sizes fs types sys crs prg1 prg2 Hab G1 G2 Hc points1 points2 M1 M2 P1 P2 Hn [S1 S2] dt niter M1' M2'.
  destruct (C78_system ts J k dirof h sizes fs types sys crs prg1 G1 Hc M1 Hn) as (f & Hf & Uf).
  pose proof G1 as (HR & Bd & Hfs & inv & dord & sord & num & kord & known & ccds & vcds & datasets & ios & rqs & mon & ord & blk &
    Hinv & Hdord & Hperm & Hinner & Hnum & Hkord & PP & _).
  assert (RW : forall l r row z, In (l, r) types -> In row (rows_of l ++ rows_of r) -> map (value J M2 z) row = map (value J M1 z) row).
  { intros l r row z Ht Hr. apply map_ext_in. intros e He. unfold value. apply eval_ext. intros c ix Hcx. symmetry. apply S2.
    apply (proj2 (proj2 (bd_rows _ _ _ _ _ Bd l r row Ht Hr) e He) c ix Hcx). }
  assert (Hn2 : normals J k sizes types M2) by (intros l r row z Ht Hr Hz; rewrite (RW l r row z Ht Hr); apply (Hn l r row z Ht Hr Hz)).
  assert (Hf2 : bounded_system J k dirof h sizes fs types sys crs M2 f) by (eapply system_same; eauto).
  destruct (C78_program_partial ts ab Hab) as (rows & b & _ & _ & X).
  destruct (X J k dirof h sizes fs types sys crs prg1 G1 points1 dt niter f M1 P1 Hn Hf) as (A1 & B1 & D1).
  destruct (X J k dirof h sizes fs types sys crs prg2 G2 points2 dt niter f M2 P2 Hn2 Hf2) as (A2 & B2 & D2).
  fold M1' in A1, B1, D1. fold M2' in A2, B2, D2.
  assert (FR : forall v x, In v (map fst sys) -> free sizes types x -> M1' v x = M2' v x).
  { intros v x Hv Hx. rewrite A1, A2 by auto. symmetry.
    apply (InvProofs.iterate_map _ (fun i => In (fst i) (map fst sys) /\ free sizes types (snd i)) (fun i => i)); auto.
    - intros u u' Hu i Hi. apply (InvProofs.rk_map _ (fun i => In (fst i) (map fst sys) /\ free sizes types (snd i)) (fun i => i) rows b dt f f); auto.
      intros w w' Hw [v' x'] [Hv' Hx']. cbn [fst snd] in *. apply (Uf f Hf w w'); auto.
    - intros [v' x'] [Hv' Hx']. cbn [fst snd] in *. symmetry. apply S1; auto. }
  split; [split; auto|].
  - intros a y Ha. rewrite D1, D2 by auto. apply S2. auto.
  - intros Hni v y Hv Hy. specialize (B1 Hni). specialize (B2 Hni).
    apply (continues_unique J k sizes fs types M1 _ Bd (fun i => M1' (fst i) (snd i))); auto; [|apply Hfs; auto].
    destruct B2 as [Q1 Q2]. constructor.
    + intros v' x' Hv' Hx'. cbn [fst snd]. symmetry. apply FR; auto. apply Hfs. auto.
    + intros y0 d l r Hy0 Ld Et. specialize (Q2 y0 d l r Hy0 Ld Et). destruct Q2 as [Qs Qv]. split; auto.
      assert (W : In (l, r) types) by (eapply nth_error_In; eauto).
      destruct (if (nth d y0 0 <=? 0)%Z then l else r) as [|row|row|] eqn:Eb; auto; intros vs Hvs;
        (rewrite <- (RW l r row) by (auto; destruct (nth d y0 0 <=? 0)%Z; subst; apply in_app_iff; cbn; auto)); apply Qv; auto.
Qed.
Print Assumptions C78_memory.

(* C78: after at least one step the vectors have no component normal to an inviscid wall on
   the points of the wall that no later direction determines; the normal is the one of the
   first points inside. *)
Theorem C78_no_penetration : forall ts ab J k dirof h sizes fs types sys crs prg,
  coefficients ts = Ok ab -> generated ts J k dirof h sizes fs types sys crs prg -> not_circular crs ->
  forall points M dt niter, all_points points -> normals J k sizes types M -> (0 < niter)%Z ->
  let M' := run_xprogram J k sizes dt ab points (AlgModel.execute niter prg) M in
  forall d l r row (upper : bool) vs y, nth_error types d = Some (l, r) -> (if upper then r else l) = InviscidWall row ->
    In (BCSpec.FVector vs) fs -> near k sizes y -> (forall i, (d < i)%nat -> ~ determined sizes types i y) ->
    nth d y 0%Z = (if upper then nth d sizes 0 - 1 else 0)%Z ->
    BCSpec.vdot (map (fun v => M' v y) vs)
      (map (value J M (at_index d (if upper then nth d sizes 0 - 2 else 1)%Z y)) row) = 0%R.
Proof.
  intros ts ab J k dirof h sizes fs types sys crs prg Hab G Hc points M dt niter Hp Hn Hni M' d l r row upper vs y Et Eb Hvs Hy Hl Hi.
  destruct (C78_system ts J k dirof h sizes fs types sys crs prg G Hc M Hn) as (f & Hf & _).
  destruct (C78_program_partial ts ab Hab) as (rows & b & _ & _ & X).
  destruct (X J k dirof h sizes fs types sys crs prg G points dt niter f M Hp Hn Hf) as (_ & B & _). fold M' in B. specialize (B Hni).
  destruct G as (HR & Bd & Hfs & _). assert (W : In (l, r) types) by (eapply nth_error_In; eauto).
  assert (Wd : (3 <= nth d sizes 0)%Z).
  { destruct (bd_wide _ _ _ _ _ Bd d l r Et) as [_ Q]. assert (l <> Periodic); [|specialize (Q H); lia].
    intros E. pose proof (proj1 (bd_matched _ _ _ _ _ Bd l r W) E). destruct upper; congruence. }
  assert (Ld : last_determined sizes types d y).
  { split; auto. exists l, r. split; auto. unfold determined_by. destruct upper; subst; cbn; auto; rewrite Eb; cbn; auto. }
  pose proof (c_boundary _ _ _ _ _ _ _ _ B y d l r Hy Ld Et) as BV.
  assert (E1 : (if (nth d y 0 <=? 0)%Z then l else r) = InviscidWall row).
  { rewrite Hi. destruct upper; auto. destruct (nth d sizes 0 - 1 <=? 0)%Z eqn:Q; [apply Z.leb_le in Q; lia | auto]. }
  rewrite E1 in BV. destruct BV as [_ BV]. specialize (BV vs Hvs). cbn [image] in BV. rewrite Hi in BV.
  assert (E2 : ((((if upper then nth d sizes 0 - 1 else 0) =? 0) || ((if upper then nth d sizes 0 - 1 else 0) =? nth d sizes 0 - 1))%Z) = true)
    by (destruct upper; lia). rewrite E2 in BV.
  assert (E3 : (let i := (if upper then nth d sizes 0 - 1 else 0) in let n := nth d sizes 0 in
    if i <? 0 then - i else if n - 1 <? i then 2 * (n - 1) - i else if i =? 0 then 1 else n - 2)%Z = (if upper then nth d sizes 0 - 2 else 1)%Z).
  { destruct upper; cbn zeta; [|cbn; destruct (nth d sizes 0 - 1 <? 0)%Z eqn:Q; auto; apply Z.ltb_lt in Q; lia].
    destruct (nth d sizes 0 - 1 <? 0)%Z eqn:Q1; [lia|]. rewrite Z.ltb_irrefl. destruct (nth d sizes 0 - 1 =? 0)%Z eqn:Q2; lia. }
  cbn zeta in E3. rewrite E3 in BV. rewrite BV. set (z := at_index d _ y).
  assert (Hr : In row (rows_of l ++ rows_of r)) by (apply in_app_iff; destruct upper; subst; cbn; auto).
  assert (Nz : near k sizes z).
  { destruct Hy as [Ly Hy]. split; [unfold z; rewrite at_index_length; auto|]. intros i Hd. destruct (Nat.eq_dec i d) as [-> | Ne].
    - unfold z. rewrite at_index_nth by lia. destruct upper; lia.
    - unfold z. rewrite at_index_other by auto. auto. }
  pose proof (Hn l r row z W Hr Nz) as N0. destruct (bd_rows _ _ _ _ _ Bd l r row W Hr) as [Lr _]. pose proof (bd_vectors _ _ _ _ _ Bd vs Hvs) as Lv.
  unfold BCSpec.projected. assert (L2 : List.length (map (fun v => M' v z) vs) = List.length (map (value J M z) row)) by (rewrite !map_length; congruence).
  revert L2 N0. generalize (map (fun v => M' v z) vs) (map (value J M z) row). clear. intros a n L N.
  assert (Q : forall c, BCSpec.vdot (BCSpec.vsub c a n) n = (BCSpec.vdot a n - c * BCSpec.vdot n n)%R).
  { intros c. revert n L N. induction a as [|p a IH]; intros [|q n] L N; try discriminate; cbn; [lra|].
    injection L as L. destruct (Req_dec (BCSpec.vdot n n) 0) as [Z | Z].
    - assert (Y : forall a n, List.length a = List.length n -> BCSpec.vdot (BCSpec.vsub c a n) n = (BCSpec.vdot a n - c * BCSpec.vdot n n)%R).
      { clear. induction a as [|p a IH]; intros [|q n] L; try discriminate; cbn; [lra|]. injection L as L. rewrite (IH n L). lra. }
      rewrite (Y a n L). lra.
    - rewrite (IH n L Z). lra. }
  rewrite Q. unfold BCSpec.norm2 in *. field. auto.
Qed.
Print Assumptions C78_no_penetration.

(* ---- a problem that meets the hypotheses ---- *)
(* sound waves in two dimensions, between a wall and a symmetry plane, from a symmetry plane
   to an outlet; c is a given array *)
Definition waves : system :=
  [("r"%string, EApp HAdd [neg_cd (at2 "m0") x0; neg_cd (at2 "m1") x1]);
   ("m0"%string, neg_cd (at2 "p") x0); ("m1"%string, neg_cd (at2 "p") x1)].
Definition waves_crs : list (string * expr) := [("p"%string, EApp HMul [at2 "c"; at2 "r"])].
Definition waves_cds : list expr := [EApp HCD [at2 "m0"; x0]; EApp HCD [at2 "m1"; x1]; EApp HCD [at2 "p"; x0]; EApp HCD [at2 "p"; x1]].
Definition waves_fields : list BCSpec.field := [BCSpec.FScalar "r"; BCSpec.FVector ["m0"; "m1"]]%string.
Definition waves_types : list (boundary * boundary) :=
  [(Symmetry [ENum 1; ENum 0], ZeroGradient); (InviscidWall [ENum 0; ENum 1], Symmetry [ENum 0; ENum 1])].
Lemma waves_inside : forall v rhs u, In (v, rhs) waves -> inside u rhs -> derivative u -> In u waves_cds.
Proof.
  intros v rhs u [E | [E | [E | []]]] Hi Hd; injection E as <- <-; apply (inside_cds u _ Hd) in Hi; vm_compute in Hi; vm_compute; tauto.
Qed.
Lemma waves_private : forall b, ~ In b ["wk0"; "tempRK_r"; "tempRK_m0"; "tempRK_m1"]%string ->
  match String.get 0 b with Some c => Ascii.eqb c "w" | None => false end = false -> ~ private AdvModel.temp_name waves b.
Proof.
  intros b N H [H1 | (v & Hv & ->)]; [revert H1; apply not_wk; auto|].
  destruct Hv as [<- | [<- | [<- | []]]]; apply N; cbn; auto.
Qed.
Lemma waves_terms : forall r rhs, In (r, rhs) (disc_eqs waves) -> forall t, In t (terms rhs) ->
  has_re t = false /\ exists d, In d waves_cds /\ cds_post t = [d].
Proof.
  intros r rhs [E | [E | [E | []]]] t Ht; injection E as <- <-; cbn [terms] in Ht.
  - destruct Ht as [<- | [<- | []]]; (split; [reflexivity|]); eexists; (split; [|reflexivity]); vm_compute; tauto.
  - destruct Ht as [<- | []]; (split; [reflexivity|]); eexists; (split; [|reflexivity]); vm_compute; tauto.
  - destruct Ht as [<- | []]; (split; [reflexivity|]); eexists; (split; [|reflexivity]); vm_compute; tauto.
Qed.
Lemma waves_ok : periodic_problem 2 dir3 AdvModel.temp_name waves waves_crs ["c"]%string /\
  lists_derivatives (disc_eqs waves) (fun t => ~ viscous_term t) waves_cds /\
  lists_derivatives (disc_eqs waves) viscous_term [].
Proof.
  assert (Dd : forall d, In d waves_cds -> derivative d).
  { intros d Hd. apply is_cd_derivative. repeat (destruct Hd as [<- | Hd]; [reflexivity|]). destruct Hd. }
  assert (NV : forall r rhs t, In (r, rhs) (disc_eqs waves) -> In t (terms rhs) -> ~ viscous_term t).
  { intros r rhs t Hr Ht Hv. apply has_re_spec in Hv. destruct (waves_terms r rhs Hr t Ht). congruence. }
  split; [|split].
  - constructor.
    + constructor.
      * repeat constructor; cbn; intuition discriminate.
      * intros r rhs [E | [E | [E | []]]]; injection E as <- <-; apply waves_private; try reflexivity; cbn; intuition discriminate.
      * intros r rhs b ix [E | [E | [E | []]]] Hb; injection E as <- <-; vm_compute in Hb;
        repeat (destruct Hb as [Hb | Hb]; [injection Hb as <- <-; split; [reflexivity|]; split; [apply waves_private; try reflexivity; cbn; intuition discriminate|]; cbn; intuition discriminate|]); destruct Hb.
      * intros r rhs [E | [E | [E | []]]]; injection E as <- <-; eexists; first [left; reflexivity | right; reflexivity].
      * intros r rhs [E | [E | [E | []]]]; injection E as <- <-; apply plain_ok; reflexivity.
      * intros r rhs v Hin Hi Hd. destruct (disc_in _ _ _ Hin) as (w & Hw). apply (waves_inside w rhs v Hw Hi) in Hd.
        destruct Hd as [<- | [<- | [<- | [<- | []]]]];
        [exists (at2 "m0"), "x0"%string, 0%nat | exists (at2 "m1"), "x1"%string, 0%nat | exists (at2 "p"), "x0"%string, 0%nat | exists (at2 "p"), "x1"%string, 0%nat];
        repeat split; cbn; try lia; discriminate.
      * intros r rhs t v Hin Ht _ Hi Hd. apply (inside_cds v t Hd) in Hi. destruct (waves_terms r rhs Hin t Ht) as (_ & d & Hd' & E).
        rewrite E in Hi. destruct Hi as [<- | []]. repeat (destruct Hd' as [<- | Hd']; [vm_compute; lia|]). destruct Hd'.
      * intros r rhs t v Hin Ht Vt. exfalso. eapply NV; eauto.
    + assert (C : forall v rhs n, In (v, rhs) waves -> In n (syms KCoord rhs) -> n = "x0"%string \/ n = "x1"%string).
      { intros v rhs n [E | [E | [E | []]]] Hn; injection E as <- <-; vm_compute in Hn; intuition congruence. }
      intros v rhs v' rhs' n n' H H' Hn Hn' E. destruct (C v rhs n H Hn) as [-> | ->], (C v' rhs' n' H' Hn') as [-> | ->]; auto; vm_compute in E; discriminate.
    + unfold AdvSpec.distinct_arrays. vm_compute. repeat constructor; cbn; intuition discriminate.
    + intros v [<- | [<- | [<- | []]]]; split; intros i; discriminate.
    + repeat constructor; cbn; intuition discriminate.
    + intros b [<- | []]; (split; [apply waves_private; try reflexivity|]; cbn; intuition discriminate).
    + intros b e c ix [E | []] Hc; injection E as <- <-; vm_compute in Hc;
        repeat (destruct Hc as [Hc | Hc]; [injection Hc as <- <-; split; [reflexivity|]; split; [apply waves_private; try reflexivity; cbn; intuition discriminate|]; cbn; intuition discriminate|]); destruct Hc.
    + intros b e v [E | []] Hi Hd; injection E as <- <-; apply (inside_cds v _ Hd) in Hi; vm_compute in Hi; destruct Hi.
    + intros b e c ix d [E | []] Hc Hcr; injection E as <- <-. exfalso. vm_compute in Hc, Hcr. intuition (try congruence); subst; discriminate.
  - split; [repeat constructor; cbn; intuition discriminate|]. intros v. split.
    + intros Hv. split; [apply Dd; auto|].
      assert (Q : forall t, ~ viscous_term t <-> has_re t = false) by (intros t; rewrite <- has_re_spec; destruct (has_re t); split; congruence).
      destruct Hv as [<- | [<- | [<- | [<- | []]]]].
      * eexists _, _, _. split; [left; reflexivity|]. split; [left; reflexivity|]. split; [apply Q; reflexivity|]. apply cds_inside. vm_compute. tauto.
      * eexists _, _, _. split; [left; reflexivity|]. split; [right; left; reflexivity|]. split; [apply Q; reflexivity|]. apply cds_inside. vm_compute. tauto.
      * eexists _, _, _. split; [right; left; reflexivity|]. split; [left; reflexivity|]. split; [apply Q; reflexivity|]. apply cds_inside. vm_compute. tauto.
      * eexists _, _, _. split; [right; right; left; reflexivity|]. split; [left; reflexivity|]. split; [apply Q; reflexivity|]. apply cds_inside. vm_compute. tauto.
    + intros (Hd & r & rhs & t & Hin & Ht & Nv & Hi). apply (inside_cds v t Hd) in Hi.
      destruct (waves_terms r rhs Hin t Ht) as (_ & d & Hd' & E). rewrite E in Hi. destruct Hi as [<- | []]. auto.
  - split; [constructor|]. intros v. split; [intros [] | intros (_ & r & rhs & t & Hin & Ht & Nv & _); exfalso; eapply NV; eauto].
Qed.
Definition waves_block :=
  bounded_block 2 dir3 inv1 set_order inner_order code (fun l => l) [10; 8]%Z (LS 3 RKModel.Standard) waves waves_crs ["c"%string] waves_cds [] ["r"]%string []
    set_order (BCSpec.arrays_of 2 waves_fields) waves_types.
Lemma waves_boundaries : forall usable, boundaries 2 [10; 8]%Z waves_fields waves_types usable.
Proof.
  intros usable. constructor.
  - reflexivity.
  - intros l r [E | [E | []]]; injection E as <- <-; split; discriminate.
  - intros [|[|d]] l r E; cbn in E; [injection E as <- <-; cbn; lia | injection E as <- <-; cbn; lia | destruct d; discriminate].
  - split; [repeat constructor; cbn; intuition discriminate | discriminate].
  - intros vs [E | [E | []]]; [discriminate | injection E as <-; reflexivity].
  - intros l r row [E | [E | []]] Hr; injection E as <- <-; cbn in Hr;
      repeat (destruct Hr as [<- | Hr]; [split; [reflexivity|]; intros e [<- | [<- | []]]; (split; [split; [intros b ix []|split; reflexivity] | intros b ix []])|]); destruct Hr.
Qed.
Lemma waves_normals : forall S, normals BCVec.stdJ 2 [10; 8]%Z waves_types S.
Proof.
  intros S l r row z [E | [E | []]] Hr _; injection E as <- <-; cbn in Hr;
    repeat (destruct Hr as [<- | Hr]; [unfold BCSpec.norm2, value; cbn; unfold Q2R; cbn; lra|]); destruct Hr.
Qed.
Lemma waves_generated : exists blk prg, waves_block = Ok blk /\ AlgModel.generate_solution blk None = Ok prg /\
  generated (LS 3 RKModel.Standard) BCVec.stdJ 2 dir3 (fun _ => 1%R) [10; 8]%Z waves_fields waves_types waves waves_crs prg.
Proof.
  assert (Q : match waves_block with Ok blk => match AlgModel.generate_solution blk None with Ok _ => True | _ => False end | _ => False end) by (vm_compute; exact I).
  destruct waves_block as [blk|] eqn:Eb; [|destruct Q]. destruct (AlgModel.generate_solution blk None) as [prg|] eqn:Ep; [|destruct Q].
  exists blk, prg. split; auto. split; auto. destruct waves_ok as (PP & HC & HV).
  split; [apply BCVec.stdJ_reals|]. split; [apply waves_boundaries|]. split; [intros v; cbn; tauto|].
  exists inv1, set_order, inner_order, code, (fun l => l), ["c"%string], waves_cds, [], ["r"%string], [], [], None, set_order, blk.
  split. { intros M x d m. unfold value, inv1. cbn [eval]. rewrite (BCSpec.r_num _ BCVec.stdJ_reals), RMicromega.Q2R_1, pow1. lra. }
  split; [apply set_order_ok|]. split; [apply inner_order_perm|]. split; [apply inner_order_inner|]. split; [apply code_inj|]. split; [auto|].
  split; [exact PP|]. split; [exact HC|]. split; [exact HV|]. split; [discriminate|].
  split. { intros _ r rhs t Hr Ht Hv. apply has_re_spec in Hv. destruct (waves_terms r rhs Hr t Ht). congruence. }
  split; [split; constructor|]. split; [exact set_order_ok|]. auto.
Qed.
Lemma waves_nc : not_circular waves_crs.
Proof. exists (fun _ => 0%nat). intros b e c ix [E | []] Hc Hin; injection E as <- <-. vm_compute in Hc, Hin. intuition (try congruence); subst; discriminate. Qed.
Example C78_nonvacuous : exists blk prg,
  waves_block = Ok blk /\ AlgModel.generate_solution blk None = Ok prg /\
  (exists sc s, AlgModel.bk_schemes blk = [sc] /\ AlgSpec.sims (AlgModel.sc_solution sc) = [s] /\ List.length (AlgModel.sq_bc s) = 4%nat) /\
  generated (LS 3 RKModel.Standard) BCVec.stdJ 2 dir3 (fun _ => 1%R) [10; 8]%Z waves_fields waves_types waves waves_crs prg /\
  not_circular waves_crs /\ all_points sweep /\ all_points (fun bk => rev (sweep bk)) /\
  (forall M, normals BCVec.stdJ 2 [10; 8]%Z waves_types M) /\
  (forall i j, free [10; 8]%Z waves_types [i; j] <-> (0 <= i <= 8 /\ 1 <= j <= 7)%Z) /\
  forall dt niter M j, (0 < niter)%Z -> (-2 <= j < 12)%Z ->
    run_xprogram BCVec.stdJ 2 [10; 8]%Z dt ([0; -5/9; -153/128], [1/3; 15/16; 8/15])%R sweep (AlgModel.execute niter prg) M "m1"%string [j; 0]%Z = 0%R.
Proof.
  destruct waves_generated as (blk & prg & Eb & Ep & G). exists blk, prg. split; auto. split; auto. split.
  { assert (Q : match waves_block with Ok blk => match AlgModel.bk_schemes blk with [sc] => match AlgSpec.sims (AlgModel.sc_solution sc) with
      [s] => List.length (AlgModel.sq_bc s) = 4%nat | _ => False end | _ => False end | _ => False end) by (vm_compute; reflexivity).
    rewrite Eb in Q. destruct (AlgModel.bk_schemes blk) as [|sc [|]]; try destruct Q. exists sc.
    destruct (AlgSpec.sims (AlgModel.sc_solution sc)) as [|s [|]]; try destruct Q. exists s. auto. }
  split; auto. split; [apply waves_nc|]. split; [apply sweep_ok|]. split.
  { intros bk. destruct (sweep_ok bk) as [A B]. split; [apply NoDup_rev; auto|]. intros x. rewrite <- in_rev. apply B. }
  split; [apply waves_normals|]. split.
  { intros i j. split.
    - intros [Gp H]. inversion Gp as [|? ? ? ? A Gp']; subst. inversion Gp' as [|? ? ? ? B _]; subst.
      split; (split; [|]); try lia.
      + apply Z.nlt_ge. intros C. apply (H 0%nat). exists (Symmetry [ENum 1; ENum 0]), ZeroGradient. split; auto. right. right. right. split; [cbn; lia | exact I].
      + apply Z.nlt_ge. intros C. apply (H 1%nat). eexists _, _. split; [reflexivity|]. right. right. left. split; [cbn; lia | exact I].
    - intros [Hi Hj]. split; [repeat constructor; lia|]. intros [|[|d]] (l & r & E & D); cbn in E; try (destruct d; discriminate); injection E as <- <-;
        unfold determined_by in D; cbn in D; intuition lia. }
  intros dt niter M j Hni Hj.
  pose proof (C78_no_penetration (LS 3 RKModel.Standard) _ BCVec.stdJ 2 dir3 (fun _ => 1%R) [10; 8]%Z waves_fields waves_types waves waves_crs prg eq_refl G waves_nc
    sweep M dt niter sweep_ok (waves_normals M) Hni 1%nat _ _ _ false ["m0"; "m1"]%string [j; 0]%Z eq_refl eq_refl) as X.
  cbv zeta in X. match type of X with ?P1 -> ?P2 -> ?P3 -> ?P4 -> _ =>
    assert (Y1 : P1); [|assert (Y2 : P2); [|assert (Y3 : P3); [|assert (Y4 : P4); [|specialize (X Y1 Y2 Y3 Y4)]]]] end.
  - right. left. reflexivity.
  - split; auto. intros [|[|d]] Hd; cbn in *; lia.
  - intros i Hi (l & r & E & _). destruct i as [|[|i]]; try lia. cbn in E. destruct i; discriminate.
  - reflexivity.
  - unfold value in X. cbn [map BCSpec.vdot eval] in X. rewrite !(BCSpec.r_num _ BCVec.stdJ_reals) in X.
    change (inum BCVec.stdJ 1) with (Q2R 1) in X. rewrite RMicromega.Q2R_0, RMicromega.Q2R_1, Rmult_0_r, Rmult_1_r, Rplus_0_l, Rplus_0_r in X. exact X.
Qed.
