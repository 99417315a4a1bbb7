(* C77: what the initialisation sets, and what a program with an initialisation computes. *)
From Verif Require Import Base BaseProofs Expr ExprProofs FDModel KernelModel WorkModel WorkProofs ShiftSpec ShiftProofs StoreModel StoreProofs DiscModel DiscSpec DiscProofs DiscRun DiscMain DiscProps
  ProgModel ProgSpec ProgProofs ProgProps InvSpec InvProofs InvProps InitModel InitSpec InitProofs InitProg.
From Verif Require BCModel BCSpec BCProofs AdvModel AdvSpec AlgModel AlgSpec AlgProps RKModel RKSpec OrdModel.
From Coq Require Import QArith ZArith Reals Lia Lra Permutation Sorted.
Import ProgProps.
Local Close Scope Q_scope.
Local Open Scope list_scope.

Lemma around_len : forall w sizes x, around w sizes x -> List.length x = List.length sizes.
Proof. intros w sizes x [H _]. exact H. Qed.
Lemma grid_around : forall w sizes x, (0 <= w)%Z -> grid_point sizes x -> around w sizes x.
Proof.
  intros w sizes x Hw H. split; [apply grid_len; auto|]. induction H as [|s i sizes x Hi H IH]; intros d Hd; cbn in Hd; [lia|].
  destruct d; cbn [nth]; [lia | apply IH; lia].
Qed.
Lemma around_dec : forall w sizes x, {around w sizes x} + {~ around w sizes x}.
Proof.
  intros w sizes x. unfold around. destruct (Nat.eq_dec (List.length x) (List.length sizes)) as [L | L]; [|right; tauto].
  destruct (forallb (fun d => (- w <=? nth d x 0)%Z && (nth d x 0 <? nth d sizes 0 + w)%Z) (seq 0 (List.length sizes))) eqn:F.
  - left. split; auto. intros d Hd. rewrite forallb_forall in F. specialize (F d ltac:(apply in_seq; lia)). lia.
  - right. intros [_ H]. apply Bool.not_true_iff_false in F. apply F. apply forallb_forall. intros d Hd. apply in_seq in Hd. specialize (H d ltac:(lia)). lia.
Qed.

(* C77: after the initialisation, at every point of the grid and of five halos on every
   side, all its equations hold for the arrays and some values of the local variables;
   arrays that no equation sets there, and all arrays elsewhere, are unchanged.  This is
   independent of the order in which the points are treated. *)
Theorem C77_equations : forall J truth sizes g pts M,
  definitions (List.length sizes) (gi_eqs g) -> local_uses (List.length sizes) (gi_eqs g) ->
  BCSpec.sweeps pts (fun x => in_ranges (ik_range (init_kernel sizes g)) x = true) ->
  let M' := run_ikernel J truth (gi_eqs g) pts M in
  (forall x, around 5 sizes x -> exists L,
     (forall q, In q (gi_eqs g) -> equation_holds J truth M' L x q) /\
     (forall b, (forall q, In q (gi_eqs g) -> ~ sets_here J truth (List.length sizes) M' L x q b) -> M' b x = M b x)) /\
  (forall b x, ~ around 5 sizes x -> M' b x = M b x).
Proof.
  intros J truth sizes g pts M D LU [ND SW] M'. set (n := List.length sizes) in *. set (qs := gi_eqs g) in *.
  assert (PT : forall x, In x pts <-> around 5 sizes x) by (intros x; rewrite SW; apply init_points).
  assert (HL : forall p, In p pts -> List.length p = n) by (intros p Hp; apply PT in Hp; eapply around_len; eauto).
  pose proof (loop_points J truth n qs LU pts M ND HL) as LP. fold M' in LP. split.
  - intros x Hx. pose proof (around_len _ _ _ Hx) as Lx. fold n in Lx. apply PT in Hx.
    set (sF := run_list J truth x qs (M, fun _ => 0%R)). exists (snd sF).
    assert (A : forall b, M' b x = fst sF b x) by (intros b; apply (LP b x); auto).
    assert (B : forall b y, ~ set_by n qs b -> M' b y = fst sF b y).
    { intros b y Hb. transitivity (M b y).
      - destruct (in_dec (list_eq_dec Z.eq_dec) y pts) as [Hy | Hy]; [|apply (LP b y); auto]. rewrite (proj1 (LP b y) Hy). apply (point_frame J truth n qs LU); auto.
      - symmetry. apply (point_frame J truth n qs LU x M); auto. }
    assert (V : forall q e, In q qs -> evaluates q e -> value_at J M' (snd sF) x e = value_at J (fst sF) (snd sF) x e).
    { intros q e Hq He. unfold value_at. apply BCProofs.at_point_ext; auto. intros b ix Hb.
      destruct (set_dec n qs b) as [(q' & Hq' & Hs) | S]; [|apply B; auto].
      rewrite (proj2 LU q q' e b ix Hq He Hb Hq' Hs), vadd_0_r by auto. apply A. }
    assert (BR : forall bs, In (KGroup bs) qs -> branch J truth M' (snd sF) x bs = branch J truth (fst sF) (snd sF) x bs).
    { intros bs Hq. apply (branch_same J truth x sF (M', snd sF) bs). intros es c Hb. apply (V (KGroup bs)); auto. exists es, (Some c). auto. }
    assert (AS : forall q l r, In q qs -> evaluates q r -> assignment_holds J (fst sF) (snd sF) x (l, r) -> assignment_holds J M' (snd sF) x (l, r)).
    { intros q l r Hq He H. unfold assignment_holds in *. cbn [fst snd] in *. rewrite (V q r Hq He). destruct l; auto. rewrite A. auto. }
    split.
    + intros q Hq. pose proof (all_hold J truth n x Lx qs (M, fun _ => 0%R) D q Hq) as H. fold sF in H. destruct q as [l r|bs]; cbn [equation_holds] in *.
      * apply (AS (KEq l r)); auto. reflexivity.
      * rewrite (BR bs Hq). intros [l r] Hi. apply (AS (KGroup bs)); auto. apply branch_in in Hi. destruct Hi as (es & c & Hb & _ & Hi). exists es, c. split; eauto.
    + intros b Hb. rewrite A. apply (all_frame J truth n x Lx qs (M, fun _ => 0%R) D). fold sF. intros q Hq C. apply (Hb q Hq).
      destruct q as [l r|bs]; cbn [sets_here] in *; auto. rewrite (BR bs Hq). auto.
  - intros b x Hx. apply (LP b x). intros C. apply Hx. apply PT. auto.
Qed.
Print Assumptions C77_equations.

Lemma append_last : forall (s t : string) c, (s ++ String c "")%string = (t ++ String c "")%string -> s = t.
Proof.
  induction s as [|a s IH]; intros [|b t] c E; cbn [String.append] in E; auto.
  - exfalso. inversion E. destruct t; discriminate.
  - exfalso. inversion E. destruct s; discriminate.
  - inversion E as [[E1 E2]]. f_equal. eapply IH; eauto.
Qed.
Lemma idx_inj : forall d a, idx_name d = idx_name a -> dec d = dec a.
Proof. intros d a E. unfold idx_name in E. cbn [String.append] in E. inversion E as [E1]. apply append_last in E1. exact E1. Qed.
(* C77: the index of a grid point in direction d is its position *)
Theorem C77_index : forall J x d, (d < List.length x)%nat -> isym (with_index J x) KGridIdx ("idx[" ++ dec d ++ "]")%string = IZR (nth d x 0%Z).
Proof.
  intros J x d Hd. fold (idx_name d). cbn [with_index isym].
  assert (F : find (fun d' => String.eqb (idx_name d) (idx_name d')) (seq 0 (List.length x)) = Some d).
  { assert (G : forall m a, (a <= d < a + m)%nat -> find (fun d' => String.eqb (idx_name d) (idx_name d')) (seq a m) = Some d).
    { induction m as [|m IH]; intros a Ha; [lia|]. cbn [seq find]. destruct (String.eqb_spec (idx_name d) (idx_name a)) as [E | E].
      - f_equal. symmetry. apply dec_inj. apply idx_inj. exact E.
      - apply IH. destruct (Nat.eq_dec a d); [subst; congruence | lia]. }
    apply G. lia. }
  rewrite F. reflexivity.
Qed.
Print Assumptions C77_index.

(* C77: the points at which the equations are evaluated are the stored elements of the
   arrays, except those that are declared without halos *)
Theorem C77_storage : forall sizes g b, no_halo b = false -> forall x,
  in_ranges (ik_range (init_kernel sizes g)) x = true <-> stored sizes b x = true.
Proof.
  intros sizes g b Hb x. rewrite init_points, stored_iff, Hb. unfold around. reflexivity.
Qed.
Print Assumptions C77_storage.

Lemma number_ok : forall g, order_of_init g = number_of g.
Proof. intros g. unfold order_of_init, number_of. destruct (gi_order g) as [o|]; auto. destruct (o =? 0)%Z eqn:E; auto. lia. Qed.
Lemma sorted_ext : forall (A : Type) (R1 R2 : A -> A -> Prop) l, (forall a b, R1 a b -> R2 a b) -> StronglySorted R1 l -> StronglySorted R2 l.
Proof. intros A R1 R2 l H S. induction S as [|a l S IH F]; constructor; auto. eapply Forall_impl; [|exact F]. auto. Qed.
(* C77: a program with initialisations runs each of them once, in the order of their
   numbers, and then advances what they leave with a Runge-Kutta method. *)
Theorem C77_program : forall ts ab, coefficients ts = Ok ab ->
  exists rows b, RKSpec.explicit rows b /\ order_of ts rows b /\
  forall J k dirof h sizes sys crs inits prg, generated_with ts J k dirof h sizes sys crs inits prg ->
  forall niter, exists gs, Permutation inits gs /\ StronglySorted (fun g g' => (number_of g <= number_of g')%Z) gs /\
  forall truth dt points M f,
    let M0 := fold_left (fun M g => run_ikernel J truth (gi_eqs g) (points (ik_range (init_kernel sizes g))) M) gs M in
    let M' := run_sprogram J truth k sizes dt ab points (AlgModel.execute niter prg) M in
    semi_discrete J k dirof h sizes sys crs M0 f ->
    (forall v x, In v (map fst sys) -> grid_point sizes x ->
       M' v x = RKSpec.iterate (Z.to_nat niter) (RKSpec.runge_kutta rows b dt f) (fun i => M0 (fst i) (snd i)) (v, x)) /\
    (forall a y, given ts sys crs a -> M' a y = M0 a y).
Proof.
  intros ts ab Hab. destruct (C60_program_partial ts ab Hab) as (rows & b & Ex & Or & X). exists rows, b. split; auto. split; auto.
  intros J k dirof h sizes sys crs inits prg Hg niter. destruct (program_split ts J k dirof h sizes sys crs inits prg Hg) as (prg0 & G0 & Y).
  destruct (Y niter) as (gs & P & S & E). exists gs. split; auto. split; [eapply sorted_ext; [|exact S]; intros g g'; cbv beta; rewrite <- !number_ok; auto|]. intros truth dt points M f M0 M' Hf. unfold M'. rewrite E. fold M0.
  destruct G0 as (HJ & Hsz & inv & dord & sord & num & kord & known & ccds & vcds & datasets & ios & rqs & mon & blk & Hinv & H1 & H2 & H3 & H4 & H5 & PP & HC & HV & N1 & N2 & Hio & Hb & Hp).
  destruct (X J k dirof inv dord sord num kord h sizes sys crs known ccds vcds datasets ios rqs mon blk prg0 dt niter f M0) as (A & B); auto.
  split; auto. intros a y (G1 & G2 & G3 & G4). apply B; auto.
Qed.
Print Assumptions C77_program.

Lemma surely : forall n q b, surely_sets n q b -> sets n q (Array b).
Proof.
  intros n [l r|bs] b H; auto. destruct H as [(es & Hes) H]. destruct (H es None Hes) as (l & r & Hi & Ht). exists es, None, l, r. auto.
Qed.
(* C77: if the initialisation sets all advanced arrays, whatever its conditions, and otherwise
   reads arrays that are given, the result depends on nothing else in the memory, and not
   on the order in which the points are treated. *)
Theorem C77_memory : forall ts ab J k dirof h sizes sys crs g prg,
  coefficients ts = Ok ab -> generated_with ts J k dirof h sizes sys crs [g] prg -> not_circular crs ->
  local_uses (List.length sizes) (gi_eqs g) -> no_early_use (List.length sizes) (gi_eqs g) ->
  let initialised b := exists q, In q (gi_eqs g) /\ surely_sets (List.length sizes) q b in
  (forall v, In v (map fst sys) -> initialised v) ->
  (forall q b, In q (gi_eqs g) -> sets (List.length sizes) q (Array b) -> initialised b) ->
  (forall q e b, In q (gi_eqs g) -> evaluates q e -> uses e (Array b) -> initialised b \/ given ts sys crs b) ->
  forall truth points1 points2,
    (let r := ik_range (init_kernel sizes g) in
     BCSpec.sweeps (points1 r) (fun x => in_ranges r x = true) /\ BCSpec.sweeps (points2 r) (fun x => in_ranges r x = true)) ->
  forall M1 M2, (forall b x, given ts sys crs b -> ~ (initialised b /\ around 5 sizes x) -> M1 b x = M2 b x) ->
  forall dt niter, same_problem ts sizes sys crs
    (run_sprogram J truth k sizes dt ab points1 (AlgModel.execute niter prg) M1)
    (run_sprogram J truth k sizes dt ab points2 (AlgModel.execute niter prg) M2).
Proof.
  intros ts ab J k dirof h sizes sys crs g prg Hab Hg Hc LU NE initialised Hsys Hset Huse truth points1 points2 [S1 S2] M1 M2 HM dt niter.
  destruct (program_split ts J k dirof h sizes sys crs [g] prg Hg) as (prg0 & G0 & Y). destruct (Y niter) as (gs & P & _ & E). rewrite !E. clear E Y.
  apply Permutation_length_1_inv in P. subst gs. cbn [fold_left].
  apply (C75_problem ts ab J k dirof h sizes sys crs prg0 prg0 Hab G0 G0 Hc).
  set (n := List.length sizes) in *. set (qs := gi_eqs g) in *. set (rg := ik_range (init_kernel sizes g)) in *.
  assert (PT : forall points : list (Z * Z) -> list (list Z), BCSpec.sweeps (points rg) (fun x => in_ranges rg x = true) -> forall x, In x (points rg) <-> around 5 sizes x).
  { intros points S x. rewrite (proj2 S). apply init_points. }
  assert (LP : forall (points : list (Z * Z) -> list (list Z)) M, BCSpec.sweeps (points rg) (fun x => in_ranges rg x = true) -> forall b y,
    (around 5 sizes y -> run_ikernel J truth qs (points rg) M b y = exec_point J truth qs M y b y) /\ (~ around 5 sizes y -> run_ikernel J truth qs (points rg) M b y = M b y)).
  { intros points M S b y. destruct (loop_points J truth n qs LU (points rg) M (proj1 S)) with (b := b) (y := y) as [A B].
    - intros p Hp. apply (PT points S) in Hp. eapply around_len; eauto.
    - split; intros H; [apply A | apply B]; rewrite (PT points S); auto. }
  assert (IN : forall b x, initialised b -> around 5 sizes x -> run_ikernel J truth qs (points1 rg) M1 b x = run_ikernel J truth qs (points2 rg) M2 b x).
  { intros b x Hb Hx. rewrite (proj1 (LP points1 M1 S1 b x) Hx), (proj1 (LP points2 M2 S2 b x) Hx).
    apply (equal_point J truth n qs LU NE); auto; [eapply around_len; eauto|].
    intros q e b' ix Hq He Hd Nb. assert (Ni : ~ initialised b') by (intros (q' & Hq' & Hs); apply Nb; exists q'; split; auto; apply surely; auto).
    apply HM; [|tauto]. destruct (Huse q e b' Hq He) as [C | C]; auto; [|contradiction]. cbn. change b' with (fst (b', ix)). apply in_map. auto. }
  split.
  - intros v x Hv Hx. apply IN; auto. apply grid_around; auto. lia.
  - intros b x Hb. destruct (around_dec 5 sizes x) as [Hx | Hx].
    2: { rewrite (proj2 (LP points1 M1 S1 b x) Hx), (proj2 (LP points2 M2 S2 b x) Hx). apply HM; auto. tauto. }
    destruct (set_dec n qs b) as [(q & Hq & Hs) | S]; [apply IN; auto; eapply Hset; eauto|].
    rewrite (proj1 (LP points1 M1 S1 b x) Hx), (proj1 (LP points2 M2 S2 b x) Hx), !(point_frame J truth n qs LU) by (auto; eapply around_len; eauto).
    apply HM; auto. intros [(q & Hq & Hs) _]. apply S. exists q. split; auto. apply surely. auto.
Qed.
Print Assumptions C77_memory.

(* ---- an initialisation that meets the hypotheses ---- *)
(* a local coordinate, a ramp, a piecewise array and a product *)
Definition gx := ESym KGridVar "x".
Definition ramp : gridinit := {| gi_order := Some 2%Z; gi_eqs :=
  [KEq gx (EApp HMul [ESym KGridIdx (idx_name 0); ESym KConst "Delta0block0"]);
   KEq (at1 "r") (EApp HAdd [ENum 2; gx]);
   KGroup [([(at1 "m", at1 "r")], Some (EApp (HFun "Lt") [gx; ENum 1])); ([(at1 "m", ENum 1)], None)];
   KEq (at1 "c") (EApp HMul [at1 "r"; at1 "m"])] |}.
Ltac split_list E := match type of E with
  | [] = ?q1 ++ _ => destruct q1; discriminate
  | _ :: _ = ?q1 ++ _ => destruct q1 as [|? q1]; cbn [app] in E; [injection E as <- <- | injection E as <- E; split_list E] end.
Lemma one_target : forall n l s, is_target n l s -> forall s', is_target n l s' -> s = s'.
Proof.
  intros n l [b|g] H [b1|g1] H1; cbn [is_target] in H, H1; rewrite H in H1; try discriminate; injection H1 as ->; reflexivity.
Qed.
Lemma straight1 : forall n l r s, is_target n l s -> ~ uses r s -> straight n [(l, r)].
Proof.
  intros n l r s T U e1 l' r' e2 E. destruct e1 as [|? e1]; cbn [app] in E; [|destruct e1; discriminate]. injection E as <- <- <-.
  split; [eauto|]. split; [|intros ? ? ? []]. intros s' Hu Ht. rewrite <- (one_target n l s T s' Ht) in Hu. auto.
Qed.
Lemma ramp_definitions : definitions 1 (gi_eqs ramp).
Proof.
  split.
  - intros q Hq. cbn [gi_eqs ramp In] in Hq. destruct Hq as [<- | [<- | [<- | [<- | []]]]].
    + apply straight1 with (Local "x"); [reflexivity | vm_compute; tauto].
    + apply straight1 with (Array "r"); [reflexivity | vm_compute; tauto].
    + intros es c [E | [E | []]]; injection E as <- <-; (split; [apply straight1 with (Array "m"); [reflexivity | vm_compute; intuition discriminate]|]).
      * intros e s E Hu (es & c & l & r & Hb & Hi & Ht). injection E as <-. destruct s as [b|g]; [destruct Hu|].
        destruct Hb as [E | [E | []]]; injection E as <- <-; destruct Hi as [E | []]; injection E as <- <-; discriminate.
      * discriminate.
    + apply straight1 with (Array "c"); [reflexivity | vm_compute; intuition discriminate].
  - intros q1 q q2 q' s E Hq' Hs. cbn [gi_eqs ramp] in E.
    split_list E; cbn [In] in Hq'; repeat (destruct Hq' as [<- | Hq']; [|]); try destruct Hq'; cbn [sets evaluates] in *;
      try (destruct Hs as (es & c & l & r & [E | [E | []]] & Hi & Hs); injection E as <- <-; destruct Hi as [E | []]; injection E as <- <-);
      destruct s as [b|g]; cbn [is_target repeat at1] in Hs; try discriminate; try (injection Hs as <-);
      (split; [first [discriminate | intros (es & c & l & r & [E | [E | []]] & Hi & Ht); injection E as <- <-; destruct Hi as [E | []]; injection E as <- <-; discriminate]|]);
      first [intros e -> | intros e (es & c & [E | [E | []]] & He); injection E as <- <-;
             (destruct He as [He | (l & [He | []])]; [try discriminate; injection He as <- | injection He as <- <-])]; vm_compute; intuition discriminate.
Qed.
Lemma ramp_local : local_uses 1 (gi_eqs ramp).
Proof.
  split.
  - intros q Hq. cbn [gi_eqs ramp In] in Hq. destruct Hq as [<- | [<- | [<- | [<- | []]]]]; try (exists (Local "x"); reflexivity); try (exists (Array "r"); reflexivity); try (exists (Array "c"); reflexivity).
    intros es c l r [E | [E | []]] Hi; injection E as <- <-; destruct Hi as [E | []]; injection E as <- <-; exists (Array "m"); reflexivity.
  - intros q q' e b ix Hq He Hb _ _. cbn [gi_eqs ramp In] in Hq. destruct Hq as [<- | [<- | [<- | [<- | []]]]]; cbn [evaluates] in He; try (subst e; vm_compute in Hb; try tauto).
    + destruct He as (es & c & [E | [E | []]] & He); injection E as <- <-;
      (destruct He as [He | (l & [He | []])]; [try discriminate; injection He as <- | injection He as <- <-]); vm_compute in Hb |- *; intuition congruence.
    + vm_compute. intuition congruence.
Qed.
Lemma ramp_early : no_early_use 1 (gi_eqs ramp).
Proof.
  assert (SR : surely_sets 1 (KEq (at1 "r") (EApp HAdd [ENum 2; gx])) "r") by reflexivity.
  assert (SM : surely_sets 1 (nth 2 (gi_eqs ramp) (KGroup [])) "m").
  { split; [eexists; right; left; reflexivity|]. intros es c [E | [E | []]]; injection E as <- <-; eexists _, _; (split; [left|]; reflexivity). }
  intros q1 q q2 q' e b E He Hu _ _. cbn [gi_eqs ramp] in E. split_list E; cbn [evaluates] in He.
  - subst e. destruct Hu.
  - subst e. destruct Hu.
  - destruct He as (es & c & [E | [E | []]] & He); injection E as <- <-; (destruct He as [He | (l & [He | []])]; [try discriminate; injection He as <- | injection He as <- <-]);
      vm_compute in Hu; try tauto. destruct Hu as [<- | []]. eexists. split; [right; left; reflexivity | exact SR].
  - subst e. vm_compute in Hu. destruct Hu as [<- | [<- | []]]; eexists; (split; [|eassumption]); cbn; tauto.
Qed.
Lemma flow_nc : not_circular flow_crs.
Proof.
  exists (fun b => if String.eqb b "p" then 1%nat else 0%nat). intros b e c ix [E | [E | []]] Hc Hin; injection E as <- <-; vm_compute in Hc;
    repeat (destruct Hc as [Hc | Hc]; [injection Hc as <- <-|]); try destruct Hc; cbn in Hin; cbn; intuition (try discriminate; lia).
Qed.
Lemma ramp_reads : forall q e b, In q (gi_eqs ramp) -> evaluates q e -> uses e (Array b) -> In b ["r"; "m"; "c"]%string.
Proof.
  intros q e b Hq He Hu. cbn [gi_eqs ramp In] in Hq. destruct Hq as [<- | [<- | [<- | [<- | []]]]]; cbn [evaluates] in He; try (subst e; vm_compute in Hu; try tauto).
  - destruct He as (es & c & [E | [E | []]] & He); injection E as <- <-; (destruct He as [He | (l & [He | []])]; [try discriminate; injection He as <- | injection He as <- <-]);
      vm_compute in Hu; try tauto; cbn; tauto.
  - cbn; tauto.
Qed.
Definition ramp_block :=
  initialised_block (@rev _) 2 dir3 inv1 set_order inner_order code (fun l => l) [20]%Z (LS 3 RKModel.Standard) flow flow_crs [] [d1; d2; d3] [d4] ["r"; "m"]%string [] [ramp].
Definition row (r : list (Z * Z)) : list (list Z) := map (fun i => [Z.of_nat i - 5]%Z) (seq 0 30).
Lemma row_sweeps : BCSpec.sweeps (row (ik_range (init_kernel [20]%Z ramp))) (fun x => in_ranges (ik_range (init_kernel [20]%Z ramp)) x = true).
Proof.
  split.
  - unfold row. apply FinFun.Injective_map_NoDup; [|apply seq_NoDup]. intros a b E. injection E as E. lia.
  - intros x. rewrite init_points. unfold row. rewrite in_map_iff. split.
    + intros (i & <- & Hi). apply in_seq in Hi. split; auto. intros [|d] Hd; cbn in *; lia.
    + intros [L H]. destruct x as [|x []]; try discriminate. specialize (H 0%nat ltac:(cbn; lia)). cbn in H. exists (Z.to_nat (x + 5)). split; [f_equal; lia | apply in_seq; lia].
Qed.
Example C77_nonvacuous : exists blk prg,
  ramp_block = Ok blk /\ AlgModel.generate_solution blk None = Ok prg /\
  definitions 1 (gi_eqs ramp) /\ local_uses 1 (gi_eqs ramp) /\ no_early_use 1 (gi_eqs ramp) /\
  generated_with (LS 3 RKModel.Standard) J1 2 dir3 (fun _ => 1%R) [20]%Z flow flow_crs [ramp] prg /\ not_circular flow_crs /\
  (* the result does not depend on the memory at all *)
  forall truth dt niter M1 M2 v x, (forall b y, ~ In b ["r"; "m"; "c"]%string -> given (LS 3 RKModel.Standard) flow flow_crs b -> M1 b y = M2 b y) ->
    (forall y, ~ around 5 [20]%Z y -> M1 "c"%string y = M2 "c"%string y) ->
    In v ["r"; "m"]%string -> grid_point [20]%Z x ->
    run_sprogram J1 truth 2 [20]%Z dt ([0; -5/9; -153/128], [1/3; 15/16; 8/15])%R row (AlgModel.execute niter prg) M1 v x =
    run_sprogram J1 truth 2 [20]%Z dt ([0; -5/9; -153/128], [1/3; 15/16; 8/15])%R (fun r => rev (row r)) (AlgModel.execute niter prg) M2 v x.
Proof.
  assert (Q : match ramp_block with Ok blk => match AlgModel.generate_solution blk None with Ok _ => True | _ => False end | _ => False end) by (vm_compute; exact I).
  destruct ramp_block as [blk|] eqn:Eb; [|destruct Q]. destruct (AlgModel.generate_solution blk None) as [prg|] eqn:Ep; [|destruct Q].
  destruct flow_ok as (PP & HC & HV).
  assert (PP' : periodic_problem 1 dir3 AdvModel.temp_name flow flow_crs ([] ++ flat_map evaluated_datasets [ramp])).
  { destruct PP. constructor; auto. intros b Hb. destruct (pp_names b Hb) as (A & B & C & _). split; [|split; [|split]]; auto.
    destruct Hb as [<- | [<- | []]]; vm_compute; intuition discriminate. }
  assert (G : generated_with (LS 3 RKModel.Standard) J1 2 dir3 (fun _ => 1%R) [20]%Z flow flow_crs [ramp] prg).
  { split; [apply J1_real|]. split; [intros [|d] Hd; cbn in *; lia|].
    exists (@rev _), inv1, set_order, inner_order, code, (fun l => l), [], [d1; d2; d3], [d4], ["r"; "m"]%string, [], [], None, blk.
    split; [apply Permutation_rev|]. split; [apply inv1_ok|]. split; [apply set_order_ok|]. split; [apply inner_order_perm|]. split; [apply inner_order_inner|]. split; [apply code_inj|].
    split; [auto|]. split; [exact PP'|]. split; [exact HC|]. split; [exact HV|]. split; [discriminate|]. split; [discriminate|]. split; [|split; [exact Eb | exact Ep]].
    split; constructor. }
  pose proof flow_nc as NC.
  exists blk, prg. split; auto. split; auto. split; [apply ramp_definitions|]. split; [apply ramp_local|]. split; [apply ramp_early|]. split; [exact G|]. split; [exact NC|].
  intros truth dt niter M1 M2 v x HM Hc Hv Hx.
  assert (SS : forall b, In b ["r"; "m"; "c"]%string -> exists q, In q (gi_eqs ramp) /\ surely_sets 1 q b).
  { intros b [<- | [<- | [<- | []]]].
    - eexists. split; [right; left; reflexivity | reflexivity].
    - eexists. split; [right; right; left; reflexivity|]. split; [eexists; right; left; reflexivity|]. intros es c [E | [E | []]]; injection E as <- <-; eexists _, _; (split; [left|]; reflexivity).
    - eexists. split; [right; right; right; left; reflexivity | reflexivity]. }
  destruct (C77_memory (LS 3 RKModel.Standard) ([0; -5/9; -153/128], [1/3; 15/16; 8/15])%R J1 2 dir3 (fun _ => 1%R) [20]%Z flow flow_crs ramp prg eq_refl G NC ramp_local ramp_early)
    with (truth := truth) (points1 := row) (points2 := fun r => rev (row r)) (M1 := M1) (M2 := M2) (dt := dt) (niter := niter) as [A _]; [| | | | |exact (A v x Hv Hx)].
  - intros w [<- | [<- | []]]; apply SS; cbn; tauto.
  - intros q b Hq Hs. apply SS. cbn [gi_eqs ramp In] in Hq. destruct Hq as [<- | [<- | [<- | [<- | []]]]]; cbn [sets] in Hs.
    + discriminate.
    + injection Hs as <-. cbn; tauto.
    + destruct Hs as (es & c & l & r & [E | [E | []]] & Hi & Hs); injection E as <- <-; destruct Hi as [E | []]; injection E as <- <-; injection Hs as <-; cbn; tauto.
    + injection Hs as <-. cbn; tauto.
  - intros q e b Hq He Hu. left. apply SS. eapply ramp_reads; eauto.
  - split; [apply row_sweeps|]. destruct row_sweeps as [A B]. split; [apply NoDup_rev; auto|]. intros y. rewrite <- in_rev. apply B.
  - intros b y Hb Hn. destruct (in_dec string_dec b ["r"; "m"; "c"]%string) as [I | I]; [|auto].
    destruct (around_dec 5 [20]%Z y) as [Ay | Ay]; [exfalso; apply Hn; split; auto; apply SS; auto|].
    destruct I as [<- | [<- | [<- | []]]]; [exfalso; destruct Hb as (Hb & _); apply Hb; cbn; tauto | exfalso; destruct Hb as (Hb & _); apply Hb; cbn; tauto | auto].
Qed.

(* C77: an array that has a constituent relation and is also set by the initialisation is a
   known dataset, so the kernel of its relation is left out: the program treats the array as
   given and never computes it again.  Here du/dt = -dp/dx with p = 2u. *)
Definition frz : system := [("u"%string, EApp HMul [ENum (-1); EApp HCD [at1 "p"; x0]])].
Definition frz_crs : list (string * expr) := [("p"%string, EApp HMul [ENum 2; at1 "u"])].
Definition frz_init (qs : kernel_eqs) : gridinit := {| gi_order := None; gi_eqs := KEq (at1 "u") (ESym KGridIdx (idx_name 0)) :: qs |}.
Definition set_p := KEq (at1 "p") (EApp HMul [ENum 2; at1 "u"]).
Definition frz_block crs g :=
  initialised_block (fun l => l) 1 dir3 inv1 set_order inner_order code (fun l => l) [20]%Z (LS 3 RKModel.Standard) frz crs [] [EApp HCD [at1 "p"; x0]] [] ["u"]%string [] [g].
Definition relation_kernels (b : string) (blk : AlgModel.block skernel) : nat :=
  List.length (flat_map (fun sc => flat_map (fun s => filter (fun pk => match pk with Prog (Spatial kn) => existsb (fun e => String.eqb b (fst e)) (k_eqs kn) | _ => false end) (AlgModel.sq_spatial s))
    (AlgSpec.sims (AlgModel.sc_solution sc))) (AlgModel.bk_schemes blk)).
Lemma frz_ok : periodic_problem 1 dir3 AdvModel.temp_name frz [] ["u"; "p"]%string /\
  lists_derivatives (disc_eqs frz) (fun t => ~ viscous_term t) [EApp HCD [at1 "p"; x0]] /\
  lists_derivatives (disc_eqs frz) viscous_term [].
Proof.
  assert (CD : forall u, inside u (EApp HMul [ENum (-1); EApp HCD [at1 "p"; x0]]) -> derivative u -> u = EApp HCD [at1 "p"; x0]).
  { intros u Hi Hd. apply (inside_cds u _ Hd) in Hi. vm_compute in Hi. destruct Hi as [<- | []]. reflexivity. }
  assert (Pv : forall b, b <> "tempRK_u"%string -> match String.get 0 b with Some c => Ascii.eqb c "w" | None => false end = false -> ~ private AdvModel.temp_name frz b).
  { intros b N H [H1 | (v & [<- | []] & ->)]; [revert H1; apply not_wk; auto | apply N; reflexivity]. }
  split; [|split].
  - constructor; try (intros ? []; fail); try (intros ? ? ? ? []; fail); try (intros ? ? ? []; fail); try (intros ? ? ? ? ? []; fail).
    + constructor.
      * repeat constructor; cbn; intuition discriminate.
      * intros r rhs [E | []]; injection E as <- <-. apply Pv; [discriminate | reflexivity].
      * intros r rhs b ix [E | []] Hb; injection E as <- <-. vm_compute in Hb. destruct Hb as [Hb | []]. injection Hb as <- <-. split; [reflexivity|].
        split; [apply Pv; [discriminate | reflexivity] | cbn; intuition discriminate].
      * intros r rhs [E | []]; injection E as <- <-. eauto.
      * intros r rhs [E | []]; injection E as <- <-. apply plain_ok; reflexivity.
      * intros r rhs v [E | []] Hi Hd; injection E as <- <-. rewrite (CD v Hi Hd). exists (at1 "p"), "x0"%string, 0%nat. repeat split; cbn; try lia; discriminate.
      * intros r rhs t v [E | []] Ht _ Hi Hd; injection E as <- <-. destruct Ht as [<- | []]. rewrite (CD v Hi Hd). vm_compute. lia.
      * intros r rhs t v [E | []] Ht Vt Hi Hd; injection E as <- <-. destruct Ht as [<- | []]. apply has_re_spec in Vt. discriminate.
    + intros v rhs v' rhs' n n' [E | []] [E' | []] Hn Hn' _; injection E as <- <-; injection E' as <- <-. vm_compute in Hn, Hn'. intuition congruence.
    + unfold AdvSpec.distinct_arrays. vm_compute. repeat constructor; cbn; intuition discriminate.
    + intros v [<- | []]; split; intros i; discriminate.
    + constructor.
  - split; [repeat constructor; cbn; tauto|]. intros v. split.
    + intros [<- | []]. split; [eexists _, _; reflexivity|]. eexists _, _, _. split; [left; reflexivity|]. split; [left; reflexivity|].
      split; [rewrite <- has_re_spec; vm_compute; discriminate|]. apply cds_inside. vm_compute. tauto.
    + intros (Hd & r & rhs & t & [E | []] & Ht & Nv & Hi). injection E as <- <-. destruct Ht as [<- | []]. left. symmetry. apply CD; auto.
  - split; [constructor|]. intros v. split; [intros []|]. intros (Hd & r & rhs & t & [E | []] & Ht & Nv & Hi). injection E as <- <-. destruct Ht as [<- | []].
    apply has_re_spec in Nv. discriminate.
Qed.
Lemma rk_constant : forall (I : Type) rows b dt (c : I -> R) n u i, RKSpec.explicit rows b -> RKSpec.sum b = 1%R ->
  RKSpec.iterate n (RKSpec.runge_kutta rows b dt (fun _ => c)) u i = (u i + INR n * dt * c i)%R.
Proof.
  intros I rows b dt c n u i [_ L] S.
  assert (ST : forall u rows ks, RKSpec.stages rows dt (fun _ => c) u ks = ks ++ repeat c (List.length rows)).
  { intros v. induction rows0 as [|row rows0 IH]; intros ks; cbn [RKSpec.stages List.length repeat]; [rewrite app_nil_r; auto|]. rewrite IH, <- app_assoc. reflexivity. }
  assert (CB : forall b, RKSpec.comb b (repeat c (List.length b)) i = (RKSpec.sum b * c i)%R).
  { induction b0 as [|a b0 IH]; cbn; [lra|]. unfold RKSpec.sum in *. rewrite IH. lra. }
  revert u. induction n as [|n IH]; intros u; [cbn; lra|]. cbn [RKSpec.iterate]. rewrite IH. unfold RKSpec.runge_kutta.
  rewrite ST. cbn [app]. rewrite <- L, CB, S, S_INR. lra.
Qed.
Theorem C77_relation_refuted : exists blk prg,
  frz_block frz_crs (frz_init [set_p]) = Ok blk /\ AlgModel.generate_solution blk None = Ok prg /\
  (forall truth dt points niter M, BCSpec.sweeps (points (ik_range (init_kernel [20]%Z (frz_init [set_p])))) (around 5 [20]%Z) -> (0 <= niter)%Z ->
     let M' := run_sprogram J1 truth 1 [20]%Z dt ([0; -5/9; -153/128], [1/3; 15/16; 8/15])%R points (AlgModel.execute niter prg) M in
     forall i, (0 <= i < 20)%Z -> M' "p"%string [i] = (2 * IZR i)%R /\ M' "u"%string [i] = (IZR i - 2 * (IZR niter * dt))%R) /\
  relation_kernels "p" blk = 0%nat /\
  (exists blk', frz_block frz_crs (frz_init []) = Ok blk' /\ relation_kernels "p" blk' = 1%nat).
Proof.
  assert (Q : match frz_block frz_crs (frz_init [set_p]), frz_block [] (frz_init [set_p]), frz_block frz_crs (frz_init []) with
    | Ok blk, Ok blk0, Ok blk' => blk = blk0 /\ match AlgModel.generate_solution blk None with Ok _ => True | _ => False end /\ relation_kernels "p" blk = 0%nat /\ relation_kernels "p" blk' = 1%nat
    | _, _, _ => False end) by (vm_compute; repeat split; reflexivity).
  destruct (frz_block frz_crs (frz_init [set_p])) as [blk|] eqn:Eb; [|destruct Q]. destruct (frz_block [] (frz_init [set_p])) as [blk0|] eqn:Eb0; [|destruct Q].
  destruct (frz_block frz_crs (frz_init [])) as [blk'|] eqn:Eb'; [|destruct Q]. destruct Q as (<- & Q & Q1 & Q2).
  destruct (AlgModel.generate_solution blk None) as [prg|] eqn:Ep; [|destruct Q]. clear Q.
  exists blk, prg. split; auto. split; auto. split; [|eauto].
  intros truth dt points niter M SW Hn M'.
  destruct frz_ok as (PP & HC & HV).
  assert (G : generated_with (LS 3 RKModel.Standard) J1 1 dir3 (fun _ => 1%R) [20]%Z frz [] [frz_init [set_p]] prg).
  { split; [apply J1_real|]. split; [intros [|d] Hd; cbn in *; lia|].
    exists (fun l => l), inv1, set_order, inner_order, code, (fun l => l), [], [EApp HCD [at1 "p"; x0]], [], ["u"]%string, [], [], None, blk.
    split; [auto|]. split; [apply inv1_ok|]. split; [apply set_order_ok|]. split; [apply inner_order_perm|]. split; [apply inner_order_inner|]. split; [apply code_inj|].
    split; [auto|]. split; [exact PP|]. split; [exact HC|]. split; [exact HV|]. split; [discriminate|].
    split; [intros _ r rhs t [E | []] Ht Vt; injection E as <- <-; destruct Ht as [<- | []]; apply has_re_spec in Vt; discriminate|]. split; [|split; [exact Eb0 | exact Ep]].
    split; constructor. }
  destruct (C77_program (LS 3 RKModel.Standard) ([0; -5/9; -153/128], [1/3; 15/16; 8/15])%R eq_refl) as (rows & b & Ex & Or & X).
  destruct (X _ _ _ _ _ _ _ _ _ G niter) as (gs & P & _ & Y). clear X. apply Permutation_length_1_inv in P. subst gs. specialize (Y truth dt points M).
  cbn [fold_left] in Y. set (M0 := run_ikernel J1 truth (gi_eqs (frz_init [set_p])) (points (ik_range (init_kernel [20]%Z (frz_init [set_p])))) M) in Y.
  assert (D : definitions 1 (gi_eqs (frz_init [set_p]))).
  { split.
    - intros q [<- | [<- | []]]; [apply straight1 with (Array "u") | apply straight1 with (Array "p")]; try reflexivity; vm_compute; intuition discriminate.
    - intros q1 q q2 q' s E Hq' Hs. cbn [gi_eqs frz_init] in E. split_list E; [|destruct Hq']. destruct Hq' as [<- | []]. destruct s as [c|c]; cbn in Hs; [|discriminate].
      injection Hs as <-. split; [discriminate|]. intros e ->. vm_compute. tauto. }
  assert (LU : local_uses 1 (gi_eqs (frz_init [set_p]))).
  { split.
    - intros q [<- | [<- | []]]; [exists (Array "u") | exists (Array "p")]; reflexivity.
    - intros q q' e c ix [<- | [<- | []]] He Hc _ _; cbn [evaluates set_p] in He; subst e; vm_compute in Hc |- *; intuition congruence. }
  destruct (C77_equations J1 truth [20]%Z (frz_init [set_p]) (points (ik_range (init_kernel [20]%Z (frz_init [set_p])))) M D LU) as [EQ _].
  { destruct SW as [A B]. split; auto. intros x. rewrite B. symmetry. apply init_points. }
  fold M0 in EQ.
  assert (V : forall i, (-5 <= i < 25)%Z -> M0 "u"%string [i] = IZR i /\ M0 "p"%string [i] = (2 * IZR i)%R).
  { intros i Hi. destruct (EQ [i]) as (L & H & _); [split; auto; intros [|d] Hd; cbn in *; lia|].
    pose proof (H _ (or_introl eq_refl)) as H1. pose proof (H _ (or_intror (or_introl eq_refl))) as H2. cbn [equation_holds assignment_holds at1 fst snd] in H1, H2.
    unfold value_at in H1, H2.
    assert (H1' : M0 "u"%string [i] = IZR i) by (rewrite H1; exact (C77_index J1 [i] 0 ltac:(cbn; lia))).
    split; auto. rewrite H2. cbn [BCModel.at_point at1 map with_index iapp inum J1 fold_right vadd combine fst snd]. 
    cbn. rewrite ?Z.add_0_r, H1'. unfold Q2R. cbn. field. }
  destruct (Y (fun _ i => (-2)%R)) as [A B].
  { intros u. exists (fun b x => if String.eqb b "u" then u (b, wrap [20]%Z x) else M0 b x). split.
    - constructor.
      + intros c x [<- | []] _. reflexivity.
      + intros c e x [].
      + intros c x N _. destruct (String.eqb_spec c "u") as [-> | _]; auto. exfalso. apply N. left. auto.
    - intros v rhs x [E | []] Hx. injection E as <- <-. inversion Hx as [|? i ? x' Hi Hx']; subst. inversion Hx'; subst.
      cbn [sem map iapp J1 fold_right inum]. unfold grid_formula.
      change (combine (central_points (2 * Z.of_nat 1)) (generate_weights (2 * Z.of_nat 1) (List.length [x0]))) with [((-1)%Z, Qmake (-1) 2); (0%Z, Qmake 0 1); (1%Z, Qmake 1 2)].
      cbn. rewrite (proj2 (V (i + -1 + 0)%Z ltac:(lia))), (proj2 (V (i + 1 + 0)%Z ltac:(lia))), !plus_IZR. unfold Q2R. cbn. field. }
  intros i Hi. split.
  - unfold M'. rewrite B; [apply (V i); lia|]. split; [cbn; intuition discriminate|]. split; [cbn; tauto|]. split; [cbn; intuition discriminate|].
    intros [H1 | (w & [<- | []] & E)]; [revert H1; apply not_wk; reflexivity | discriminate].
  - unfold M'. rewrite A; [|left; auto | repeat constructor; lia]. rewrite rk_constant; auto; [|apply Or]. cbn [fst snd]. rewrite (proj1 (V i ltac:(lia))).
    rewrite INR_IZR_INZ, Z2Nat.id by auto. lra.
Qed.
Print Assumptions C77_relation_refuted.
