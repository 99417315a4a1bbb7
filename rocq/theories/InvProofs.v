(* Proofs about what the generated programs preserve. *)
From Verif Require Import Base BaseProofs Expr ExprProofs FDModel FDSpec FDProofs WorkModel WorkProofs ShiftSpec ShiftProofs DiscModel DiscSpec DiscProofs DiscRun DiscMain DiscProps
  WFSpec WFProofs ProgModel ProgSpec ProgProofs ProgProps HybSpec HybProofs HybMore InvSpec.
From Verif Require AdvModel AdvSpec AdvProofs AlgModel AlgProps RKModel RKSpec RKProofs.
From Coq Require Import QArith ZArith Reals Lia Lra List Permutation.
Import ListNotations.
Local Close Scope Q_scope.
Local Open Scope list_scope.

(* ---- Runge-Kutta methods ---- *)
Section rk.
Variable I : Type.
Notation state := (RKModel.state I).
(* a property of slopes that is inherited by the states reached *)
Lemma stages_all : forall (P : state -> Prop) rows dt f u, forall ks, (forall r ks, Forall P ks -> P (f (fun i => u i + dt * RKSpec.comb r ks i)%R)) -> Forall P ks -> Forall P (RKSpec.stages rows dt f u ks).
Proof.
  intros P rows dt f u. induction rows as [|row rows IH]; intros ks H K; cbn [RKSpec.stages]; auto.
  apply IH; auto. apply Forall_app. split; auto.
Qed.
Lemma comb_zero : forall (D : I -> Prop) r (ks : list state), Forall (fun q => forall i, D i -> q i = 0%R) ks -> forall i, D i -> RKSpec.comb r ks i = 0%R.
Proof.
  intros D. induction r as [|a r IH]; intros [|q ks] H i Hi; cbn [RKSpec.comb]; auto. inversion H; subst. rewrite IH by auto. rewrite H2 by auto. ring.
Qed.
Lemma rk_steady : forall (D : I -> Prop) rows b dt f u,
  (forall w, (forall i, D i -> w i = u i) -> forall i, D i -> f w i = 0%R) ->
  forall i, D i -> RKSpec.runge_kutta rows b dt f u i = u i.
Proof.
  intros D rows b dt f u H i Hi. unfold RKSpec.runge_kutta. rewrite (comb_zero D); [ring| |auto].
  apply stages_all; [|constructor]. intros r ks HK j Hj. apply H; auto. intros l Hl. rewrite (comb_zero D) by auto. ring.
Qed.
(* a map of the index set that carries one system to the other *)
Lemma comb_map : forall (D : I -> Prop) (phi : I -> I) r (ks ks' : list state), Forall2 (fun q q' : state => forall i, D i -> q' i = q (phi i)) ks ks' ->
  forall i, D i -> RKSpec.comb r ks' i = RKSpec.comb r ks (phi i).
Proof.
  intros D phi. induction r as [|a r IH]; intros ks ks' H i Hi; cbn [RKSpec.comb]; auto. destruct H as [|q q' ks ks' Hq H]; auto. rewrite Hq, (IH ks ks') by auto. auto.
Qed.
Lemma rk_map : forall (D : I -> Prop) (phi : I -> I) rows b dt f f',
  (forall u u', (forall i, D i -> u' i = u (phi i)) -> forall i, D i -> f' u' i = f u (phi i)) ->
  forall u u', (forall i, D i -> u' i = u (phi i)) -> forall i, D i -> RKSpec.runge_kutta rows b dt f' u' i = RKSpec.runge_kutta rows b dt f u (phi i).
Proof.
  intros D phi rows b dt f f' Hf u u' Hu i Hi. unfold RKSpec.runge_kutta. rewrite Hu by auto. f_equal. f_equal.
  apply (comb_map D phi); auto.
  assert (G : forall ks ks', Forall2 (fun q q' : state => forall i, D i -> q' i = q (phi i)) ks ks' ->
    Forall2 (fun q q' : state => forall i, D i -> q' i = q (phi i)) (RKSpec.stages rows dt f u ks) (RKSpec.stages rows dt f' u' ks')); [|apply G; constructor].
  induction rows as [|row rows IH]; intros ks ks' H; cbn [RKSpec.stages]; auto. apply IH. apply Forall2_app; auto. constructor; [|constructor].
  intros j Hj. apply Hf; auto. intros l Hl. rewrite (comb_map D phi row ks ks') by auto. rewrite Hu by auto. auto.
Qed.
Lemma iterate_map : forall (D : I -> Prop) (phi : I -> I) (g g' : state -> state),
  (forall u u', (forall i, D i -> u' i = u (phi i)) -> forall i, D i -> g' u' i = g u (phi i)) ->
  forall n u u', (forall i, D i -> u' i = u (phi i)) -> forall i, D i -> RKSpec.iterate n g' u' i = RKSpec.iterate n g u (phi i).
Proof. intros D phi g g' H. induction n as [|n IH]; intros u u' Hu i Hi; cbn [RKSpec.iterate]; auto. Qed.
Lemma iterate_add : forall (g : state -> state) n m u, RKSpec.iterate (n + m) g u = RKSpec.iterate m g (RKSpec.iterate n g u).
Proof. intros g. induction n as [|n IH]; intros m u; cbn; auto. Qed.
End rk.
Lemma comb_total : forall ns (v : string) r (ks : list (RKModel.state (string * list Z))), Forall (fun q => block_total ns (fun x => q (v, x)) = 0%R) ks ->
  block_total ns (fun x => RKSpec.comb r ks (v, x)) = 0%R.
Proof.
  intros ns v. induction r as [|a r IH]; intros [|q ks] H; cbn [RKSpec.comb]; try apply bt_zero. inversion H; subst. rewrite bt_plus, bt_scale, IH, H2 by auto. ring.
Qed.
Lemma rk_total : forall ns (v : string) rows b dt f, (forall u, block_total ns (fun x => f u (v, x)) = 0%R) ->
  forall u, block_total ns (fun x => RKSpec.runge_kutta rows b dt f u (v, x)) = block_total ns (fun x => u (v, x)).
Proof.
  intros ns v rows b dt f H u. unfold RKSpec.runge_kutta. rewrite bt_plus, bt_scale, comb_total; [ring|]. apply stages_all; [|constructor]. intros. apply H.
Qed.

(* ---- points ---- *)
Lemma wrap_periodic : forall A ns (f : list Z -> A), block_periodic ns f -> forall x, List.length x = List.length ns -> f (wrap (map Z.of_nat ns) x) = f x.
Proof.
  induction ns as [|n ns IH]; intros f P [|i x] L; try discriminate; auto. cbn [map wrap]. injection L as L.
  rewrite (IH (fun y => f ((i mod Z.of_nat n)%Z :: y))); [|intros d y Hd Ly; apply (P (Datatypes.S d) (_ :: y)); cbn; lia | auto].
  assert (Q : forall (m : nat) j, f ((j + Z.of_nat m * Z.of_nat n)%Z :: x) = f (j :: x)).
  { induction m as [|m IHm]; intros j; [f_equal; f_equal; lia|]. rewrite <- (IHm j).
    pose proof (P 0%nat ((j + Z.of_nat m * Z.of_nat n)%Z :: x)) as X. cbn [nth move List.length] in X. rewrite <- X by lia. f_equal. f_equal. lia. }
  destruct (Nat.eq_dec n 0) as [-> | N]; [cbn [Z.of_nat]; rewrite Zmod_0_r; auto|].
  pose proof (Z.div_mod i (Z.of_nat n)) as E. destruct (Z_le_gt_dec 0 (i / Z.of_nat n)) as [G | G].
  - rewrite <- (Q (Z.to_nat (i / Z.of_nat n)) (i mod Z.of_nat n)%Z). f_equal. f_equal. lia.
  - rewrite <- (Q (Z.to_nat (- (i / Z.of_nat n))) i). f_equal. f_equal. lia.
Qed.
Lemma wrap_move : forall sizes d x, List.length x = List.length sizes -> wrap sizes (move d (nth d sizes 0%Z) x) = wrap sizes x.
Proof.
  induction sizes as [|n sizes IH]; intros d [|i x] L; try discriminate; [destruct d; auto|]. injection L as L.
  destruct d as [|d]; cbn [move nth wrap]; f_equal; auto.
  replace (i + n)%Z with (i + 1 * n)%Z by lia. destruct (Z.eq_dec n 0) as [-> | N]; [rewrite !Zmod_0_r; lia | apply Z.mod_add; auto].
Qed.
Lemma wrap_vadd : forall sizes s x, List.length x = List.length sizes -> List.length s = List.length sizes -> wrap sizes (vadd (wrap sizes x) s) = wrap sizes (vadd x s).
Proof.
  induction sizes as [|n sizes IH]; intros [|j s] [|i x] L L'; try discriminate; auto. injection L as L. injection L' as L'.
  cbn [wrap]. unfold vadd in *. cbn [combine map wrap]. f_equal; auto. cbn [fst snd]. 
  destruct (Z.eq_dec n 0) as [-> | N]; [rewrite !Zmod_0_r; lia | apply Zplus_mod_idemp_l; auto].
Qed.
Lemma move_vadd : forall d v x s, move d v (vadd x s) = vadd (move d v x) s.
Proof. induction d as [|d IH]; intros v [|i x] [|j s]; cbn [move vadd]; auto; f_equal; [lia | auto]. Qed.
Lemma vadd_len : forall x s, List.length x = List.length s -> List.length (vadd x s) = List.length x.
Proof. induction x as [|i x IH]; intros [|j s] L; try discriminate; cbn; auto. Qed.
Lemma wrap_len : forall sizes x, List.length x = List.length sizes -> List.length (wrap sizes x) = List.length x.
Proof. induction sizes as [|n sizes IH]; intros [|i x] L; try discriminate; cbn; auto. Qed.
Lemma grid_len : forall sizes x, grid_point sizes x -> List.length x = List.length sizes.
Proof. intros sizes x H. induction H; cbn; auto. Qed.

(* ---- values ---- *)
Lemma sem_ext : forall J k dirof h (M M' : memory) ndim e,
  (forall b ix, In (b, ix) (dsets e) -> ix = repeat 0%Z ndim /\ forall x, List.length x = ndim -> M b x = M' b x) ->
  forall x, List.length x = ndim -> sem J k dirof h M e x = sem J k dirof h M' e x.
Proof.
  intros J k dirof h M M' ndim. induction e as [q|kd m|b ix|hd args IH] using expr_ind'; intros H x L; auto.
  - cbn [sem]. destruct (H b ix (or_introl eq_refl)) as (-> & E). rewrite !vadd_0_r by auto. auto.
  - rewrite Forall_forall in IH.
    assert (A : forall a y, In a args -> List.length y = ndim -> sem J k dirof h M a y = sem J k dirof h M' a y).
    { intros a y Ha Ly. apply IH; auto. intros b ix Hb. apply (H b ix). rewrite dsets_app. apply in_flat_map. eauto. }
    assert (B : map (fun a => sem J k dirof h M a x) args = map (fun a => sem J k dirof h M' a x) args) by (apply map_ext_in; auto).
    destruct hd; cbn [sem]; rewrite ?B; auto. destruct args as [|a cs]; auto. apply grid_ext. intros i. apply A; [left; auto|]. rewrite move_length. auto.
Qed.
(* moving the arrays moves the values *)
Lemma sem_moved : forall J k dirof h (M : memory) ndim s e, List.length s = ndim ->
  (forall b ix, In (b, ix) (dsets e) -> ix = repeat 0%Z ndim) ->
  forall x, List.length x = ndim -> sem J k dirof h (fun b y => M b (vadd y s)) e x = sem J k dirof h M e (vadd x s).
Proof.
  intros J k dirof h M ndim s e Ls. induction e as [q|kd m|b ix|hd args IH] using expr_ind'; intros H x L; auto.
  - cbn [sem]. rewrite (H b ix (or_introl eq_refl)). rewrite !vadd_0_r by (rewrite ?vadd_len; lia). auto.
  - rewrite Forall_forall in IH.
    assert (A : forall a y, In a args -> List.length y = ndim -> sem J k dirof h (fun b y => M b (vadd y s)) a y = sem J k dirof h M a (vadd y s)).
    { intros a y Ha Ly. apply IH; auto. intros b ix Hb. apply (H b ix). rewrite dsets_app. apply in_flat_map. eauto. }
    assert (B : map (fun a => sem J k dirof h (fun b y => M b (vadd y s)) a x) args = map (fun a => sem J k dirof h M a (vadd x s)) args) by (apply map_ext_in; auto).
    destruct hd; cbn [sem]; rewrite ?B; auto. destruct args as [|a cs]; auto. apply grid_ext. intros i. rewrite move_vadd. apply A; [left; auto|]. rewrite move_length. auto.
Qed.
Lemma sem_const : forall J k dirof h (M : memory) ndim e,
  (forall b ix, In (b, ix) (dsets e) -> ix = repeat 0%Z ndim /\ forall y z, List.length y = ndim -> List.length z = ndim -> M b y = M b z) ->
  forall x y, List.length x = ndim -> List.length y = ndim -> sem J k dirof h M e x = sem J k dirof h M e y.
Proof.
  intros J k dirof h M ndim. induction e as [q|kd m|b ix|hd args IH] using expr_ind'; intros H x y Lx Ly; auto.
  - cbn [sem]. destruct (H b ix (or_introl eq_refl)) as (-> & E). rewrite !vadd_0_r by auto. auto.
  - rewrite Forall_forall in IH.
    assert (A : forall a y z, In a args -> List.length y = ndim -> List.length z = ndim -> sem J k dirof h M a y = sem J k dirof h M a z).
    { intros a y' z' Ha L1 L2. apply IH; auto. intros b ix Hb. apply (H b ix). rewrite dsets_app. apply in_flat_map. eauto. }
    assert (B : map (fun a => sem J k dirof h M a x) args = map (fun a => sem J k dirof h M a y) args) by (apply map_ext_in; auto).
    destruct hd; cbn [sem]; rewrite ?B; auto. destruct args as [|a cs]; auto. apply grid_ext. intros i. apply A; rewrite ?move_length; auto. left. auto.
Qed.
Lemma sem_free : forall J k dirof h (M : memory) e, dsets e = [] -> forall x y, sem J k dirof h M e x = sem J k dirof h M e y.
Proof.
  intros J k dirof h M. induction e as [q|kd m|b ix|hd args IH] using expr_ind'; intros H x y; auto; [discriminate|].
  rewrite Forall_forall in IH. rewrite dsets_app in H.
  assert (A : forall a x y, In a args -> sem J k dirof h M a x = sem J k dirof h M a y).
  { intros a x' y' Ha. apply IH; auto. destruct (dsets a) as [|p l] eqn:E; auto. exfalso. assert (X : In p (flat_map dsets args)) by (apply in_flat_map; exists a; rewrite E; split; auto; left; auto). rewrite H in X. destruct X. }
  assert (B : map (fun a => sem J k dirof h M a x) args = map (fun a => sem J k dirof h M a y) args) by (apply map_ext_in; auto).
  destruct hd; cbn [sem]; rewrite ?B; auto. destruct args as [|a cs]; auto. apply grid_ext. intros i. apply A. left. auto.
Qed.

Section problem.
Variables (ts : timescheme) (J : interp R) (k : nat) (dirof : string -> nat) (h : nat -> R) (sizes : list Z) (sys crs : list (string * expr)) (known : list string).
Notation ndim := (List.length sizes).
Hypothesis HJ : real_arithmetic J.
Hypothesis PP : periodic_problem ndim dirof (register_of ts) sys crs known.
Variable rank : string -> nat.
Hypothesis Hrank : forall b e c ix, In (b, e) crs -> In (c, ix) (dsets e) -> In c (map fst crs) -> (rank c < rank b)%nat.
Notation FD u S F := (fields J sizes sys crs S u F).
(* arrays that may be read *)
Definition readable (b : string) : Prop := In b (map fst sys) \/ In b (map fst crs) \/ given ts sys crs b.

Lemma system_reads : forall v rhs b ix, In (v, rhs) sys -> In (b, ix) (dsets rhs) -> ix = repeat 0%Z ndim /\ readable b.
Proof.
  intros v rhs b ix Hin Hb. destruct (in_disc sys v rhs Hin) as (r & Hr). destruct (wf_arrays _ _ _ _ (pp_form _ _ _ _ _ _ PP) r rhs b ix Hr Hb) as (E & N1 & N2). split; auto.
  unfold readable, given. destruct (in_dec string_dec b (map fst sys)); [auto|]. destruct (in_dec string_dec b (map fst crs)); auto 10.
Qed.
Lemma relation_reads : forall b e c ix, In (b, e) crs -> In (c, ix) (dsets e) -> ix = repeat 0%Z ndim /\ readable c.
Proof.
  intros b e c ix Hin Hc. destruct (pp_local _ _ _ _ _ _ PP b e c ix Hin Hc) as (E & N1 & N2). split; auto.
  unfold readable, given. destruct (in_dec string_dec c (map fst sys)); [auto|]. destruct (in_dec string_dec c (map fst crs)); auto 10.
Qed.
(* properties of arrays that relations inherit *)
Lemma inherited : forall (P : string -> Prop), (forall b, In b (map fst sys) -> P b) -> (forall b, given ts sys crs b -> P b) ->
  (forall b e, In (b, e) crs -> (forall c ix, In (c, ix) (dsets e) -> ix = repeat 0%Z ndim /\ P c) -> P b) -> forall b, readable b -> P b.
Proof.
  intros P Hs Hg Hr.
  assert (G : forall n b, (rank b < n)%nat -> readable b -> P b).
  { induction n as [|n IH]; intros b Hn R; [lia|]. destruct R as [R | [R | R]]; auto. apply in_named in R. destruct R as (e & He).
    apply (Hr b e He). intros c ix Hc. destruct (relation_reads b e c ix He Hc) as (Ex & Rc). split; auto.
    destruct Rc as [Rc | [Rc | Rc]]; auto. apply IH; [|right; left; auto]. specialize (Hrank b e c ix He Hc Rc). lia. }
  intros b. apply (G (Datatypes.S (rank b))). lia.
Qed.

(* ---- the semi-discrete system exists ---- *)
Fixpoint values (S : memory) (u : solution) (n : nat) (b : string) (x : list Z) : R :=
  if in_dec string_dec b (map fst sys) then u (b, wrap sizes x)
  else match ProgModel.relation crs b with
       | Some e => match n with O => 0%R | Datatypes.S n => value J (values S u n) x e end
       | None => S b x
       end.
Lemma values_enough : forall S u n m b x, (rank b < n)%nat -> (rank b < m)%nat -> values S u n b x = values S u m b x.
Proof.
  intros S u. induction n as [|n IH]; intros [|m] b x Hn Hm; try lia. cbn [values]. destruct (in_dec string_dec b (map fst sys)); auto.
  destruct (ProgModel.relation crs b) as [e|] eqn:E; auto. apply (relation_some dirof sizes sys crs known (register_of ts) PP) in E.
  unfold value. apply eval_ext. intros c ix Hc. destruct (in_dec string_dec c (map fst crs)) as [I | N].
  - specialize (Hrank b e c ix E Hc I). apply IH; lia.
  - destruct n as [|n], m as [|m]; cbn [values]; destruct (in_dec string_dec c (map fst sys)); auto;
    (assert (X : ProgModel.relation crs c = None) by (apply (relation_none dirof sizes sys crs known (register_of ts)); auto)); rewrite X; auto.
Qed.
Lemma fields_exist : forall S u, FD u S (fun b x => values S u (Datatypes.S (rank b)) b x).
Proof.
  intros S u. constructor.
  - intros b x Hb L. cbn [values]. destruct (in_dec string_dec b (map fst sys)) as [|N]; auto. destruct (N Hb).
  - intros b e x He L. assert (Hb : In b (map fst crs)) by (eapply ProgProofs.named; eauto).
    assert (E : ProgModel.relation crs b = Some e) by (apply (relation_some dirof sizes sys crs known (register_of ts) PP); auto).
    cbn [values]. destruct (in_dec string_dec b (map fst sys)) as [I|N]; [destruct (proj1 (proj2 (pp_names _ _ _ _ _ _ PP b Hb)) I)|].
    rewrite E. unfold value. apply eval_ext. intros c ix Hc. destruct (in_dec string_dec c (map fst crs)) as [Ic | Nc].
    + pose proof (Hrank b e c ix He Hc Ic). apply (values_enough S u (rank b) (Datatypes.S (rank c)) c (vadd x ix)); lia.
    + assert (X : ProgModel.relation crs c = None) by (apply (relation_none dirof sizes sys crs known (register_of ts)); auto).
      destruct (rank b); cbn [values]; destruct (in_dec string_dec c (map fst sys)); auto; rewrite X; auto.
  - intros b x N1 N2. cbn [values]. destruct (in_dec string_dec b (map fst sys)) as [I|N]; [destruct (N1 I)|].
    assert (X : ProgModel.relation crs b = None) by (apply (relation_none dirof sizes sys crs known (register_of ts)); auto). rewrite X. auto.
Qed.
Definition slope (S : memory) (u : solution) : solution := fun i =>
  match find (fun p => String.eqb (fst i) (fst p)) sys with
  | Some p => sem J k dirof h (fun b x => values S u (Datatypes.S (rank b)) b x) (snd p) (snd i)
  | None => 0%R
  end.
Lemma system_nodup : NoDup (map fst sys).
Proof. pose proof (pp_arrays _ _ _ _ _ _ PP) as H. unfold AdvSpec.distinct_arrays in H. rewrite advanced_eq in H. apply AdvProofs.NoDup_app_remove_r in H. exact H. Qed.
Lemma slope_value : forall S u v rhs x, In (v, rhs) sys -> slope S u (v, x) = sem J k dirof h (fun b x => values S u (Datatypes.S (rank b)) b x) rhs x.
Proof.
  intros S u v rhs x Hin. unfold slope. cbn [fst snd]. pose proof system_nodup as ND.
  assert (E : find (fun p : string * expr => String.eqb v (fst p)) sys = Some (v, rhs)); [|rewrite E; auto].
  clear - ND Hin. induction sys as [|(w, e) l IH]; [destruct Hin|]. cbn [find fst]. inversion ND; subst. destruct Hin as [E | Hin].
  - injection E as -> ->. rewrite String.eqb_refl. auto.
  - destruct (String.eqb_spec v w) as [-> | N]; auto. exfalso. apply H1. eapply ProgProofs.named; eauto.
Qed.
Lemma slope_semi_discrete : forall S, semi_discrete J k dirof h sizes sys crs S (slope S).
Proof. intros S u. eexists. split; [apply fields_exist|]. intros v rhs x Hin _. apply slope_value. auto. Qed.

(* ---- conservation ---- *)
Lemma fields_periodic : forall ns, sizes = map Z.of_nat ns -> forall S u F, FD u S F -> (forall b, given ts sys crs b -> block_periodic ns (S b)) ->
  forall b, readable b -> block_periodic ns (F b).
Proof.
  intros ns Hns S u F HF PS. assert (Ln : ndim = List.length ns) by (rewrite Hns, map_length; auto). apply inherited.
  - intros b Hb d x Hd L. rewrite !(f_solution _ _ _ _ _ _ _ HF) by (rewrite ?move_length; auto; lia). f_equal. f_equal.
    rewrite <- (wrap_move sizes d x) by lia. f_equal. f_equal. rewrite Hns. change 0%Z with (Z.of_nat 0). rewrite map_nth. auto.
  - intros b (N1 & N2 & N3 & N4) d x Hd L. rewrite !(f_other _ _ _ _ _ _ _ HF) by auto. apply PS; auto. repeat split; auto.
  - intros b e He IH d x Hd L. rewrite !(f_relation _ _ _ _ _ _ _ HF b e) by (rewrite ?move_length; auto; lia).
    apply (value_periodic J F ndim); [lia|]. intros c ix Hc. destruct (IH c ix Hc) as (-> & P). split; auto.
Qed.
Lemma system_terms : forall F v rhs x, In (v, rhs) sys -> sem J k dirof h F rhs x = fold_right Rplus 0%R (map (fun t => sem J k dirof h F t x) (terms rhs)).
Proof.
  intros F v rhs x Hin. destruct (in_disc sys v rhs Hin) as (r & Hr). destruct (wf_form _ _ _ _ (pp_form _ _ _ _ _ _ PP) r rhs Hr) as (args & [-> | ->]).
  - cbn [terms]. rewrite sem_add by auto. auto.
  - cbn [terms map fold_right]. ring.
Qed.
Lemma system_derivative : forall v rhs w, In (v, rhs) sys -> inside w rhs -> derivative w -> proper_derivative ndim dirof w.
Proof. intros v rhs w Hin Hi Hd. destruct (in_disc sys v rhs Hin) as (r & Hr). apply (wf_derivative _ _ _ _ (pp_form _ _ _ _ _ _ PP) r rhs w Hr Hi Hd). Qed.
Lemma derivative_total : forall ns, sizes = map Z.of_nat ns -> forall S u F, FD u S F -> (forall b, given ts sys crs b -> block_periodic ns (S b)) ->
  forall v rhs w, In (v, rhs) sys -> inside w rhs -> derivative w -> block_total ns (sem J k dirof h F w) = 0%R.
Proof.
  intros ns Hns S u F HF PS v rhs w Hin Hi Hd. assert (Ln : ndim = List.length ns) by (rewrite Hns, map_length; auto).
  destruct (system_derivative v rhs w Hin Hi Hd) as (a & m & q & -> & Hm & _).
  rewrite (bt_ext ns _ (fun x => grid_formula (2 * Z.of_nat k) (Datatypes.S q) (h (dirof m)) (fun j => sem J k dirof h F a (move (dirof m) j x)) 0)) by (intros; apply sem_cd).
  apply bt_grid; [lia | lia|]. intros d x Hd' L. apply (sem_periodic J k dirof h F ndim); [|lia].
  intros b ix Hb. destruct (system_reads v rhs b ix Hin) as (E & Rb).
  { eapply inside_dsets; [exact Hi|]. rewrite dsets_app. apply in_flat_map. exists a. split; [left|]; auto. }
  split; auto. intros y Ly. apply (fields_periodic ns Hns S u F HF PS b Rb d y); lia.
Qed.
Lemma conserved : forall ns, sizes = map Z.of_nat ns -> forall S, (forall b, given ts sys crs b -> block_periodic ns (S b)) ->
  forall v rhs, In (v, rhs) sys -> conservation_law rhs -> forall u, block_total ns (fun x => slope S u (v, x)) = 0%R.
Proof.
  intros ns Hns S PS v rhs Hin HC u. set (F := fun b x => values S u (Datatypes.S (rank b)) b x).
  assert (HF : FD u S F) by apply fields_exist.
  rewrite (bt_ext ns _ (fun x => fold_right Rplus 0%R (map (fun t => sem J k dirof h F t x) (terms rhs)))) by (intros; rewrite (slope_value S u v rhs), <- (system_terms F v rhs) by auto; auto).
  clearbody F. rewrite bt_list. apply sum_zero. intros a Ha. apply in_map_iff in Ha. destruct Ha as (t & <- & Ht). pose proof (terms_inside rhs t Ht) as It.
  destruct (HC t Ht) as [Dt | (l1 & w & l2 & -> & Dw & HK)]; [apply (derivative_total ns Hns S u F HF PS v rhs); auto|].
  rewrite (bt_ext ns _ (fun x => fold_right Rmult 1 (map (fun c => sem J k dirof h F c []) (l1 ++ l2)) * sem J k dirof h F w x)%R).
  2: { intros x _. cbn [sem]. destruct HJ as (_ & _ & Jm). rewrite Jm, map_app. cbn [map]. rewrite prod_split, <- map_app. f_equal. f_equal.
       apply map_ext_in. intros c Hc. apply sem_free. auto. }
  rewrite bt_scale, (derivative_total ns Hns S u F HF PS v rhs w); auto; [ring|]. eapply inside_trans; [|exact It]. econstructor; [apply in_elt | constructor].
Qed.

(* ---- uniform states ---- *)
Lemma fields_uniform : forall S u F (c : string -> R), FD u S F -> (forall d, (d < ndim)%nat -> (0 < nth d sizes 0)%Z) ->
  (forall v x, In v (map fst sys) -> grid_point sizes x -> u (v, x) = c v) -> (forall b x y, given ts sys crs b -> S b x = S b y) ->
  forall b, readable b -> forall x y, List.length x = ndim -> List.length y = ndim -> F b x = F b y.
Proof.
  intros S u F c HF Hpos Hu HS. apply (inherited (fun b => forall x y, List.length x = ndim -> List.length y = ndim -> F b x = F b y)).
  - intros b Hb x y Lx Ly. rewrite !(f_solution _ _ _ _ _ _ _ HF) by auto. rewrite !Hu; auto; apply wrap_in; auto.
  - intros b (N1 & N2 & N3 & N4) x y Lx Ly. rewrite !(f_other _ _ _ _ _ _ _ HF) by auto. apply HS. repeat split; auto.
  - intros b e He IH x y Lx Ly. rewrite !(f_relation _ _ _ _ _ _ _ HF b e) by auto. unfold value. apply eval_ext. intros b' ix Hb.
    destruct (IH b' ix Hb) as (-> & E). rewrite !vadd_0_r by auto. auto.
Qed.
Lemma steady : forall S u (c : string -> R), (forall d, (d < ndim)%nat -> (0 < nth d sizes 0)%Z) ->
  (forall v x, In v (map fst sys) -> grid_point sizes x -> u (v, x) = c v) -> (forall b x y, given ts sys crs b -> S b x = S b y) ->
  forall v rhs x, In (v, rhs) sys -> made_of derivative rhs -> List.length x = ndim -> slope S u (v, x) = 0%R.
Proof.
  intros S u c Hpos Hu HS v rhs x Hin Md L. rewrite (slope_value S u v rhs) by auto. pose proof (fields_exist S u) as HF.
  pose proof (fields_uniform S u _ c HF Hpos Hu HS) as U. set (F := fun b x => values S u (Datatypes.S (rank b)) b x) in *. clearbody F.
  assert (G : forall e, made_of derivative e -> inside e rhs -> sem J k dirof h F e x = 0%R); [|apply G; auto; constructor].
  clear Md. intros e Md. induction Md as [w Hw|a args Ha Md IH|args Md IH]; intros He.
  - destruct (system_derivative v rhs w Hin He Hw) as (a & m & q & -> & Hm & _). rewrite sem_cd.
    assert (Ra : forall b ix, In (b, ix) (dsets a) -> ix = repeat 0%Z ndim /\ forall y z, List.length y = ndim -> List.length z = ndim -> F b y = F b z).
    { intros b ix Hb. destruct (system_reads v rhs b ix Hin) as (E & Rb).
      { eapply inside_dsets; [exact He|]. rewrite dsets_app. apply in_flat_map. exists a. split; [left|]; auto. }
      split; auto. }
    rewrite (grid_ext _ _ _ _ (fun _ => sem J k dirof h F a x)); [apply grid_const; lia|].
    intros j. apply (sem_const J k dirof h F ndim); rewrite ?move_length; auto.
  - cbn [sem]. destruct HJ as (_ & _ & Jm). rewrite Jm. apply prod_zero. apply in_map_iff. exists a. split; auto. apply IH. eapply inside_trans; [|exact He]. econstructor; [exact Ha | constructor].
  - cbn [sem]. destruct HJ as (_ & Ja & _). rewrite Ja. apply sum_zero. intros z Hz. apply in_map_iff in Hz. destruct Hz as (a & <- & Ha).
    apply IH; auto. eapply inside_trans; [|exact He]. econstructor; [exact Ha | constructor].
Qed.

(* ---- moved problems ---- *)
Lemma fields_moved : forall s S1 S2 u1 u2 F1 F2, List.length s = ndim -> FD u1 S1 F1 -> FD u2 S2 F2 -> (forall d, (d < ndim)%nat -> (0 < nth d sizes 0)%Z) ->
  (forall v x, In v (map fst sys) -> grid_point sizes x -> u2 (v, x) = u1 (v, wrap sizes (vadd x s))) ->
  (forall b x, given ts sys crs b -> List.length x = ndim -> S2 b x = S1 b (vadd x s)) ->
  forall b, readable b -> forall x, List.length x = ndim -> F2 b x = F1 b (vadd x s).
Proof.
  intros s S1 S2 u1 u2 F1 F2 Ls H1 H2 Hpos Hu HS. apply (inherited (fun b => forall x, List.length x = ndim -> F2 b x = F1 b (vadd x s))).
  - intros b Hb x Lx. rewrite (f_solution _ _ _ _ _ _ _ H1), (f_solution _ _ _ _ _ _ _ H2) by (auto; rewrite vadd_len; lia).
    rewrite Hu; auto; [|apply wrap_in; auto]. rewrite wrap_vadd by auto. auto.
  - intros b (N1 & N2 & N3 & N4) x Lx. rewrite (f_other _ _ _ _ _ _ _ H1), (f_other _ _ _ _ _ _ _ H2) by auto. apply HS; auto. repeat split; auto.
  - intros b e He IH x Lx. rewrite (f_relation _ _ _ _ _ _ _ H1 b e), (f_relation _ _ _ _ _ _ _ H2 b e) by (auto; rewrite vadd_len; lia).
    unfold value. apply eval_ext. intros b' ix Hb. destruct (IH b' ix Hb) as (-> & E). rewrite !vadd_0_r by (rewrite ?vadd_len; lia). auto.
Qed.
Lemma slope_moved : forall s S1 S2 u1 u2, List.length s = ndim -> (forall d, (d < ndim)%nat -> (0 < nth d sizes 0)%Z) ->
  (forall v x, In v (map fst sys) -> grid_point sizes x -> u2 (v, x) = u1 (v, wrap sizes (vadd x s))) ->
  (forall b x, given ts sys crs b -> List.length x = ndim -> S2 b x = S1 b (vadd x s)) ->
  forall v rhs x, In (v, rhs) sys -> List.length x = ndim -> slope S2 u2 (v, x) = slope S1 u1 (v, vadd x s).
Proof.
  intros s S1 S2 u1 u2 Ls Hpos Hu HS v rhs x Hin L. rewrite !(slope_value _ _ v rhs) by auto.
  pose proof (fields_moved s S1 S2 u1 u2 _ _ Ls (fields_exist S1 u1) (fields_exist S2 u2) Hpos Hu HS) as E.
  rewrite <- (sem_moved J k dirof h _ ndim s rhs Ls); auto; [|intros b ix Hb; apply (system_reads v rhs b ix Hin Hb)].
  apply (sem_ext J k dirof h _ _ ndim); auto. intros b ix Hb. destruct (system_reads v rhs b ix Hin Hb) as (Ex & Rb). split; [exact Ex|]. intros y Ly. apply (E b Rb y Ly).
Qed.
Lemma slope_periodic : forall ns, sizes = map Z.of_nat ns -> forall S u, (forall b, given ts sys crs b -> block_periodic ns (S b)) ->
  forall v rhs, In (v, rhs) sys -> forall x, List.length x = ndim -> slope S u (v, wrap sizes x) = slope S u (v, x).
Proof.
  intros ns Hns S u PS v rhs Hin x L. assert (Ln : ndim = List.length ns) by (rewrite Hns, map_length; auto).
  rewrite !(slope_value _ _ v rhs) by auto. set (F := fun b x => values S u (Datatypes.S (rank b)) b x). assert (HF : FD u S F) by apply fields_exist. clearbody F.
  rewrite Hns at 1. apply (wrap_periodic _ ns (sem J k dirof h F rhs)); [|lia]. intros d y Hd Ly.
  apply (sem_periodic J k dirof h F ndim); [|lia]. intros b ix Hb. destruct (system_reads v rhs b ix Hin Hb) as (Ex & Rb). split; auto.
  intros z Lz. apply (fields_periodic ns Hns S u F HF PS b Rb d z); lia.
Qed.
End problem.
