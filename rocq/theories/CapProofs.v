(* Proofs about whole programs with shock capturing. *)
From Verif Require Import Base BaseProofs Expr ExprProofs FDModel FDProofs WorkModel WorkProofs ShiftSpec ShiftProofs DiscModel DiscSpec DiscProofs DiscRun DiscMain
  LLFModel LLFProofs LLFProps KernelModel KernelProps HybModel HybSpec HybProofs HybMore ProgModel ProgSpec ProgProofs CapModel CapSpec.
From Verif Require AdvModel AdvSpec AdvProofs AdvProps AlgModel AlgSpec OrdModel OrdSpec OrdProps BCModel BCSpec PerProps RKModel RKSpec RKProofs WenoModel BCMirror.
From Coq Require Import QArith ZArith Reals Lia Lra Permutation.
Local Close Scope Q_scope.
Local Open Scope list_scope.

(* ---- stencils and halos ---- *)
Lemma scheme_supported : forall sh, usable_scheme sh -> exists o, supported (recon sh) o.
Proof.
  intros [fm order eps | order eps CT] H; cbn [usable_scheme recon] in *.
  - destruct H as (A & B & C). exists ((order + 1) / 2 - 1)%nat. constructor; auto.
    + apply (Nat.div_le_mono 4 (order + 1) 2); lia.
    + intros Z. specialize (B Z). apply (Nat.div_le_mono (order + 1) 15 2); lia.
  - destruct H as (A & B & C). exists 2%nat. constructor; auto.
Qed.
Lemma reach_pos : forall sh, usable_scheme sh -> (2 <= reach sh)%nat.
Proof.
  intros [fm order eps | order eps CT] H; cbn [usable_scheme reach] in *.
  - apply (Nat.div_le_mono 4 (order + 1) 2); lia.
  - destruct (order =? 8)%nat; lia.
Qed.
Lemma stencil_reach : forall sh p, usable_scheme sh -> In p (sch_points (recon sh) WenoModel.SRight) \/ In p (sch_points (recon sh) WenoModel.SLeft) ->
  (- Z.of_nat (reach sh) + 1 <= p <= Z.of_nat (reach sh))%Z.
Proof.
  intros [fm order eps | order eps CT] p H; cbn [usable_scheme recon reach] in *.
  - cbn [sch_points weno_scheme]. set (k := ((order + 1) / 2)%nat).
    assert (G : forall s, In p (WenoModel.func_points s k) -> exists a b, (a < k)%nat /\ (b < k)%nat /\ p = (- Z.of_nat a + Z.of_nat b + WenoModel.point_shift s)%Z).
    { intros s Hp. unfold WenoModel.func_points in Hp. apply in_flat_map in Hp. destruct Hp as (a & Ha & Hp). apply in_map_iff in Hp.
      destruct Hp as (b & <- & Hb). apply in_seq in Ha. apply in_seq in Hb. exists a, b. repeat split; lia. }
    intros [Hp | Hp]; apply G in Hp; destruct Hp as (a & b & Ha & Hb & ->); unfold WenoModel.point_shift; lia.
  - cbn [sch_points teno_scheme]. destruct H as ([-> | ->] & _); cbn; intros [Hp | Hp];
      repeat (destruct Hp as [<- | Hp]; [lia|]); destruct Hp.
Qed.

(* ---- ranges of the relations ---- *)
Lemma extend_spec : forall h ds hr d hl hh, nth_error hr d = Some (hl, hh) ->
  exists hl' hh', nth_error (extend h ds hr) d = Some (hl', hh') /\
    (forall x, In x hl' <-> In x hl \/ (In d ds /\ x = h)) /\ (forall x, In x hh' <-> In x hh \/ (In d ds /\ x = h)).
Proof.
  intros h. unfold extend. induction ds as [|e ds IH]; intros hr d hl hh E.
  - exists hl, hh. split; auto. cbn. split; intros x; tauto.
  - cbn [fold_left].
    destruct (C55_set_halo_range hr e false h d hl hh E) as (h1 & h2 & E1 & A1 & A2).
    destruct (C55_set_halo_range _ e true h d h1 h2 E1) as (h3 & h4 & E2 & A3 & A4).
    destruct (IH _ d h3 h4 E2) as (h5 & h6 & E3 & A5 & A6). exists h5, h6. split; [exact E3|].
    split; intros x.
    + rewrite A5, A3, A1. cbn [In]. split; intros H; intuition (try congruence; auto).
    + rewrite A6, A4, A2. cbn [In]. split; intros H; intuition (try congruence; auto).
Qed.
Lemma within_iff : forall ranges x, within ranges x = true <->
  List.length x = List.length ranges /\ forall d lo hi, nth_error ranges d = Some (lo, hi) -> (lo <= nth d x 0 < hi)%Z.
Proof.
  induction ranges as [|[lo hi] ranges IH]; intros [|i x]; cbn [within].
  - split; auto. intros _. split; auto. intros [|d]; discriminate.
  - split; [discriminate|]. intros [L _]. discriminate.
  - split; [discriminate|]. intros [L _]. discriminate.
  - rewrite !andb_true_iff, Z.leb_le, Z.ltb_lt, IH. cbn [List.length]. split.
    + intros ((A & B) & L & H). split; [lia|]. intros [|d] lo' hi' E; cbn in *; [injection E as <- <-; lia | eapply H; eauto].
    + intros (L & H). pose proof (H 0%nat lo hi eq_refl) as H0. cbn in H0. split; [lia|]. split; [lia|]. intros d lo' hi' E. apply (H (S d) lo' hi' E).
Qed.
Lemma wf_hweaken : forall ndim dirof (P Q : string -> Prop) c fl eqs, (forall b, Q b -> P b) ->
  hybrid_system ndim dirof P c fl eqs -> hybrid_system ndim dirof Q c fl eqs.
Proof.
  intros ndim dirof P Q c fl eqs H [[A1 A2 A3 A4 A5 A6 A7] B C D]. constructor; auto. constructor; auto.
  - intros r rhs Hin q. apply (A4 r rhs Hin). auto.
  - intros r rhs b ix Hin Hb. destruct (A5 r rhs b ix Hin Hb) as (X & Y & Z). split; auto.
Qed.
Lemma zsem_ext : forall J M M' wd wd' e x, (forall b ix, In (b, ix) (dsets e) -> M b (vadd x ix) = M' b (vadd x ix)) ->
  (forall f m, inside (WD f m) e -> wd m x = wd' m x) -> zsem J M wd e x = zsem J M' wd' e x.
Proof.
  intros J M M' wd wd'. induction e as [q|kd n|b ix|hd args IH] using expr_ind'; intros x HM HW; auto.
  - cbn [zsem]. apply HM. left. auto.
  - cbn [zsem]. destruct (is_wd (EApp hd args)) eqn:EW.
    + destruct (proj1 (is_wd_iff _) EW) as (f & n & Eq). rewrite Eq. unfold WD. cbn [coordinate_of]. apply (HW f). rewrite Eq. constructor.
    + assert (A : map (fun a => zsem J M wd a x) args = map (fun a => zsem J M' wd' a x) args).
      { rewrite Forall_forall in IH. apply map_ext_in. intros a Ha. apply IH; auto.
        - intros b ix Hb. apply HM. rewrite dsets_app. apply in_flat_map. eauto.
        - intros f m Hi. apply (HW f). eapply in_arg; eauto. }
      destruct hd; auto; rewrite A; auto.
Qed.

Section prog.
Variables (J : interp R) (k : nat) (sh : shock) (central : bool) (dirof : string -> nat) (inv : nat -> nat -> expr)
  (dord : expr -> list dset) (sord : list (expr * string) -> list (expr * string)) (worder : list expr -> list expr)
  (num : string -> OrdModel.key) (kord : list string -> list string) (h : nat -> R) (g : R) (av : averaging) (sizes : list Z)
  (coordinate : nat -> string) (fluxes : nat -> list expr)
  (sys crs : list (string * expr)) (known : list string) (vcds : list expr) (register : string -> string).
Notation ndim := (List.length sizes).
Notation eqs := (disc_eqs sys).
Notation sch := (recon sh).
Notation r := (reach sh).
Hypothesis HJ : real_arithmetic J.
Hypothesis Hinv : forall M x d m, value J M x (inv d m) = (/ h d ^ m)%R.
Hypothesis Hdord : forall e, enumerates (dord e) e.
Hypothesis Hperm : forall l, Permutation l (sord l).
Hypothesis Hinner : forall l l', Permutation l l' -> inner_first l' -> inner_first (sord l).
Hypothesis Hw : forall l, Permutation l (worder l).
Hypothesis Hnum : forall a b, num a = num b -> a = b.
Hypothesis Hkord : forall l, Permutation l (kord l).
Hypothesis Hdim : ndim <> 0%nat.
Hypothesis Hsup : usable_scheme sh.
Hypothesis PP : shock_problem ndim r k dirof register coordinate fluxes sys crs known.
Hypothesis HV : lists_derivatives eqs viscous_term vcds.
Hypothesis Hcen : central = false -> vcds = [].

Lemma HC : lists_derivatives eqs (fun t => ~ viscous_term t) [].
Proof.
  split; [constructor|]. intros v. split; [intros []|]. intros (Dv & rr & rhs & t & Hr & Ht & V & Hi).
  destruct (hs_inviscid _ _ _ _ _ _ (cp_form _ _ _ _ _ _ _ _ _ _ PP) rr rhs t Hr Ht V v Hi) as [N _].
  destruct Dv as (a & cs & ->). exfalso. apply (N _ eq_refl).
Qed.
Notation HS := (wf_hweaken _ _ _ reserved _ _ _ (fun b H => or_introl H) (cp_form _ _ _ _ _ _ _ _ _ _ PP)).
Notation SS := (hs_shock _ _ _ _ _ _ HS).
Notation E := (cr_directions dirof vcds).

(* the central derivatives *)
Lemma deriv_shape : forall v rhs u, In (v, rhs) sys -> inside u rhs -> derivative u -> In u vcds /\
  exists a n m, u = EApp HCD (a :: repeat (ESym KCoord n) (S m)) /\ (dirof n < ndim)%nat /\
    (forall b ix, In (b, ix) (dsets a) -> In (dirof n) (E b)) /\
    forall w a' n' m', inside w a -> w = EApp HCD (a' :: repeat (ESym KCoord n') (S m')) -> dirof n' <> dirof n.
Proof.
  intros v rhs u Hin Hi Hd. destruct (in_disc sys v rhs Hin) as (rr & Hr). pose proof (cp_form _ _ _ _ _ _ _ _ _ _ PP) as WF.
  destruct (inside_term rhs u (hs_form _ _ _ _ _ _ WF rr rhs Hr) Hi Hd) as (t & Ht & Hit).
  destruct (viscous_dec t) as [V | V].
  2:{ exfalso. destruct (hs_inviscid _ _ _ _ _ _ WF rr rhs t Hr Ht V u Hit) as [N _]. destruct Hd as (a & cs & ->). apply (N _ eq_refl). }
  assert (L : In u vcds). { apply (proj2 HV). split; auto. exists rr, rhs, t. auto. }
  split; auto. destruct (hs_viscous _ _ _ _ _ _ WF rr rhs t Hr Ht V) as (_ & _ & X). destruct (X u Hit Hd) as ((a & n & m & Eu & Hn & _) & _ & Y).
  exists a, n, m. split; auto. split; auto. split.
  - intros b ix Hb. unfold cr_directions. apply in_flat_map. exists u. split; auto.
    subst u. cbn [cd_arg]. destruct (in_dec string_dec b (arrays_in a)) as [_ | N].
    + left. unfold cd_dir, cd_dirs. reflexivity.
    + exfalso. apply N. unfold arrays_in. change b with (fst (b, ix)). apply in_map. auto.
  - intros w a' n' m' Hwa Ew Eq. assert (Dw : derivative w) by (subst w; eexists _, _; reflexivity).
    apply (Y a n (repeat (ESym KCoord n) m) w Eu Hwa Dw).
    assert (n' = n).
    { eapply (cp_coordinates _ _ _ _ _ _ _ _ _ _ PP v rhs v rhs); eauto.
      - eapply inside_syms; [eapply inside_trans; [exact Hwa|]; eapply inside_trans; [|exact Hi]; subst u; eapply in_arg; [left; reflexivity | constructor]|].
        subst w. cbn. apply in_app_iff. right. left. reflexivity.
      - eapply inside_syms; [exact Hi|]. subst u. cbn. apply in_app_iff. right. left. reflexivity. }
    subst n' w. cbn. apply in_app_iff. right. left. reflexivity.
Qed.
Lemma dirs_iff : forall b d, In d (E b) <-> differentiated dirof sys b d.
Proof.
  intros b d. split.
  - intros H. unfold cr_directions in H. apply in_flat_map in H. destruct H as (u & Hu & Hd).
    destruct (in_dec string_dec b (arrays_in (cd_arg u))) as [i | i]; [|contradiction]. destruct Hd as [<- | []].
    assert (Q : derivative u /\ exists v rhs, In (v, rhs) sys /\ inside u rhs).
    { apply (proj2 HV) in Hu. destruct Hu as (Du & rr & rhs & t & Hr & Ht & _ & Hi); split; auto; destruct (disc_in _ _ _ Hr) as (v & Hv);
        exists v, rhs; split; auto; eapply inside_trans; [exact Hi | apply terms_inside; auto]. }
    destruct Q as (Du & v & rhs & Hin & Hi). destruct (deriv_shape v rhs u Hin Hi Du) as (_ & a & n & m & -> & _).
    cbn [cd_arg] in i. unfold arrays_in in i. apply in_map_iff in i. destruct i as ([b' ix] & Eb & i). cbn in Eb. subst b'.
    exists v, rhs, a, n, (repeat (ESym KCoord n) m), ix. repeat split; auto.
  - intros (v & rhs & a & n & cs & ix & Hin & Hi & Hb & <-).
    destruct (deriv_shape v rhs _ Hin Hi) as (_ & a' & n' & m & Eq & _ & X & _); [eexists _, _; reflexivity|].
    injection Eq as <- <- _. eapply X; eauto.
Qed.

Lemma flux_reads : forall d f b ix, (d < ndim)%nat -> In f (fluxes d) -> In (b, ix) (dsets f) ->
  ix = repeat 0%Z ndim /\ ~ private register sys b /\ ~ In b (map fst eqs).
Proof.
  intros d f b ix Hd Hf Hb. pose proof (hs_shock _ _ _ _ _ _ (cp_form _ _ _ _ _ _ _ _ _ _ PP)) as S0.
  destruct (ss_fluxes _ _ _ _ _ _ S0 d Hd) as (L & _). apply In_nth with (d := ENum 0) in Hf. destruct Hf as (i & Hi & <-).
  destruct (nth_error eqs i) as [(rr & rhs)|] eqn:Ei; [|apply nth_error_None in Ei; lia].
  assert (X : inside (WDof coordinate fluxes d i) rhs) by (apply (ss_one _ _ _ _ _ _ S0 i rr rhs Ei); exists d; auto).
  apply (ss_arrays _ _ _ _ _ _ S0 rr rhs b ix); [eapply nth_error_In; eauto|]. eapply inside_dsets; [exact X|].
  unfold WDof, WD. rewrite dsets_app. apply in_flat_map. exists (nth i (fluxes d) (ENum 0)). split; [left|]; auto.
Qed.
(* the arrays of the fluxes *)
Lemma groups_are : sorted_groups (shock_groups dirof worder eqs) = map (fun d => (d, map (WDof coordinate fluxes d) (seq 0 (List.length eqs)))) (seq 0 ndim).
Proof. apply (groups_ok ndim dirof worder sizes eq_refl Hw coordinate fluxes eqs SS). Qed.
Lemma symbols_iff : forall b d, (d < ndim)%nat ->
  In b (flux_symbols sizes (map wd_flux (map (WDof coordinate fluxes d) (seq 0 (List.length eqs))))) <-> in_flux ndim fluxes b d.
Proof.
  intros b d Hd. rewrite (fluxes_nth ndim dirof coordinate fluxes eqs SS d Hd). unfold flux_symbols, in_flux, flow_names.
  rewrite app_assoc, in_app_iff, in_flat_map. unfold arrays_in. split; (intros [H | H]; [left; exact H | right]).
  - destruct H as (f & Hf & Hb). apply in_map_iff in Hb. destruct Hb as ([c ix] & <- & Hb). exists f, ix. auto.
  - destruct H as (f & ix & Hf & Hb). exists f. split; auto. change b with (fst (b, ix)). apply in_map. auto.
Qed.
Notation SD := (shock_directions sizes dirof worder eqs).
Lemma shock_iff : forall b d, In d (SD b) <-> (d < ndim)%nat /\ in_flux ndim fluxes b d.
Proof.
  intros b d. unfold shock_directions. rewrite groups_are, in_flat_map. split.
  - intros (gp & Hg & Hd). apply in_map_iff in Hg. destruct Hg as (d' & <- & Hd'). apply in_seq in Hd'. cbn [fst snd] in Hd.
    destruct (in_dec string_dec b _) as [i|]; [|contradiction]. destruct Hd as [<- | []]. split; [lia|]. apply symbols_iff; auto. lia.
  - intros (Hd & Hb). eexists. split; [apply in_map; apply in_seq; split; [apply Nat.le_0_l | exact Hd]|]. cbn [fst snd].
    destruct (in_dec string_dec b _) as [i|n]; [left; auto|]. exfalso. apply n. apply symbols_iff; auto.
Qed.

(* ---- the constituent relations ---- *)
Lemma relation_some : forall b e, ProgModel.relation crs b = Some e <-> In (b, e) crs.
Proof.
  intros b e. unfold ProgModel.relation. pose proof (cp_relations _ _ _ _ _ _ _ _ _ _ PP) as ND. split.
  - destruct (find _ _) as [[b' e']|] eqn:F; cbn; [|discriminate]. intros [= ->]. apply find_some in F. destruct F as [I Q].
    apply String.eqb_eq in Q. cbn in Q. subst b'. apply in_rev. auto.
  - intros H. destruct (find _ _) as [[b' e']|] eqn:F; cbn.
    + apply find_some in F. destruct F as [I Q]. apply String.eqb_eq in Q. cbn in Q. subst b'. apply in_rev in I.
      f_equal. clear - ND H I. induction crs as [|[c q] l IH]; [destruct H|]. cbn in ND. inversion ND; subst.
      destruct H as [H | H], I as [I | I]; auto.
      * congruence.
      * injection H as -> ->. exfalso. apply H2. change b with (fst (b, e')). apply in_map. auto.
      * injection I as -> ->. exfalso. apply H2. change b with (fst (b, e)). apply in_map. auto.
    + exfalso. pose proof (find_none _ _ F (b, e) (proj1 (in_rev _ _) H)) as Q. cbn in Q. rewrite String.eqb_refl in Q. discriminate.
Qed.
Lemma relation_none : forall b, ProgModel.relation crs b = None <-> ~ In b (map fst crs).
Proof.
  intros b. split.
  - intros H C. apply in_map_iff in C. destruct C as ([b' e] & Eb & C). cbn in Eb. subst b'. apply relation_some in C. congruence.
  - intros H. destruct (ProgModel.relation crs b) eqn:R; auto. apply relation_some in R. exfalso. apply H. change b with (fst (b, e)). apply in_map. auto.
Qed.
Notation REQ := (all_required central sizes dirof worder kord (map fst sys) vcds eqs).
Lemma required_nodup : NoDup REQ.
Proof. unfold all_required. eapply Permutation_NoDup; [apply Hkord|]. apply NoDup_nodup. Qed.
Lemma required_reads : forall v rhs b ix, In (v, rhs) sys -> In (b, ix) (dsets rhs) -> In b REQ.
Proof.
  intros v rhs b ix Hin Hb. destruct (in_disc sys v rhs Hin) as (rr & Hr). unfold all_required.
  eapply Permutation_in; [apply Hkord|]. apply nodup_In. apply in_app_iff. left. unfold shock_required. rewrite !in_app_iff. right. right.
  apply in_flat_map. exists (rr, rhs). split; auto. unfold arrays_in. change b with (fst (b, ix)). apply in_map. auto.
Qed.
Lemma required_flux : forall b d, (d < ndim)%nat -> in_flux ndim fluxes b d -> In b REQ.
Proof.
  intros b d Hd Hb. unfold all_required. eapply Permutation_in; [apply Hkord|]. apply nodup_In. apply in_app_iff. left. unfold shock_required. rewrite groups_are, !in_app_iff. left.
  apply in_flat_map. eexists. split; [apply in_map; apply in_seq; split; [apply Nat.le_0_l | exact Hd]|]. cbn [snd]. apply symbols_iff; auto.
Qed.

(* the layers in which a relation is evaluated *)
Definition ext (b : string) (d : nat) : Z :=
  Z.max (if in_dec Nat.eq_dec d (SD b) then Z.of_nat r else 0) (if in_dec Nat.eq_dec d (E b) then Z.of_nat k else 0).
Definition box (b : string) (y : list Z) : Prop :=
  List.length y = ndim /\ forall d, (d < ndim)%nat -> (- ext b d <= nth d y 0 < nth d sizes 0 + ext b d)%Z.
Notation RNG b := (total_range (map (fun n => (0, n)%Z) sizes) (relation_halos k sh central sizes dirof worder vcds eqs b)).
Lemma halos_spec : forall b d, (d < ndim)%nat -> exists hl hh,
  nth_error (relation_halos k sh central sizes dirof worder vcds eqs b) d = Some (hl, hh) /\
  (In d (SD b) -> In (shock_halo sh) hl /\ In (shock_halo sh) hh) /\ (In d (E b) -> In (central_halo k) hl /\ In (central_halo k) hh) /\
  (forall x, In x hl \/ In x hh -> x = shock_halo sh \/ x = central_halo k).
Proof.
  intros b d Hd. unfold relation_halos.
  assert (N : nth_error (no_halos sizes) d = Some ([], [])) by (unfold no_halos; apply nth_error_repeat; auto).
  destruct (extend_spec (shock_halo sh) (SD b) (no_halos sizes) d [] [] N) as (h1 & h2 & E1 & A1 & A2).
  destruct central eqn:Ec.
  - destruct (extend_spec (central_halo k) (E b) (no_halos sizes) d [] [] N) as (h3 & h4 & E2 & A3 & A4).
    destruct (C55_merge_halo_range _ _ d h1 h2 h3 h4 E1 E2) as (ml & mh & E3 & B1 & B2).
    exists ml, mh. split; [exact E3|]. split; [|split].
    + intros H. rewrite B1, B2, A1, A2. tauto.
    + intros H. rewrite B1, B2, A3, A4. tauto.
    + intros x. rewrite B1, B2, A1, A2, A3, A4. cbn [In]. tauto.
  - exists h1, h2. split; [exact E1|]. split; [|split].
    + intros H. rewrite A1, A2. tauto.
    + rewrite (Hcen eq_refl). intros [].
    + intros x. rewrite A1, A2. cbn [In]. tauto.
Qed.
Lemma range_len : forall b, List.length (RNG b) = ndim.
Proof.
  assert (S1 : forall hr d s x, List.length (set_halo_range hr d s x) = List.length hr).
  { intros. unfold set_halo_range. rewrite map_length, combine_length, seq_length. apply Nat.min_id. }
  assert (S2 : forall x ds hr, List.length (extend x ds hr) = List.length hr).
  { intros x ds. unfold extend. induction ds as [|d ds IH]; intros hr; auto. cbn [fold_left]. rewrite IH, !S1. auto. }
  intros b. unfold total_range, get_min_max_halo_values, relation_halos. cbn [fst snd]. rewrite map_length, !combine_length, !map_length.
  destruct central.
  - unfold merge_halo_range. rewrite map_length, combine_length, !S2. unfold no_halos. rewrite repeat_length. lia.
  - rewrite S2. unfold no_halos. rewrite repeat_length. lia.
Qed.
Lemma box_range : forall b y, box b y -> within (RNG b) y = true.
Proof.
  intros b y [L H]. apply within_iff. rewrite range_len. split; auto. intros d lo hi Hn.
  assert (Hd : (d < ndim)%nat). { rewrite <- (range_len b). apply nth_error_Some. congruence. }
  destruct (halos_spec b d Hd) as (hl & hh & Eh & A & B & C).
  assert (Er : nth_error (map (fun n => (0, n)%Z) sizes) d = Some (0, nth d sizes 0)%Z).
  { rewrite nth_error_map. rewrite (nth_error_nth' sizes 0%Z Hd). reflexivity. }
  destruct (C55_total_range _ _ d 0%Z (nth d sizes 0%Z) hl hh Er Eh) as (a & c & Et & T1 & T2 & T3 & T4 & T5 & T6).
  rewrite Hn in Et. injection Et as <- <-. specialize (H d Hd). unfold ext in H.
  assert (Lo : (lo <= 0)%Z).
  { destruct hl as [|x hl]; [rewrite T3; auto; lia|]. destruct T5 as (z & Hz & ->); [discriminate|]. destruct (C z (or_introl Hz)) as [-> | ->]; cbn; lia. }
  assert (Hi : (nth d sizes 0 <= hi)%Z).
  { destruct hh as [|x hh]; [rewrite T4; auto; lia|]. destruct T6 as (z & Hz & ->); [discriminate|]. destruct (C z (or_intror Hz)) as [-> | ->]; cbn; lia. }
  assert (P1 : In d (SD b) -> (lo <= - Z.of_nat r /\ nth d sizes 0 + Z.of_nat r <= hi)%Z).
  { intros Q. destruct (A Q) as [Q1 Q2]. specialize (T1 _ Q1). specialize (T2 _ Q2). cbn in T1, T2. lia. }
  assert (P2 : In d (E b) -> (lo <= - Z.of_nat k /\ nth d sizes 0 + Z.of_nat k <= hi)%Z).
  { intros Q. destruct (B Q) as [Q1 Q2]. specialize (T1 _ Q1). specialize (T2 _ Q2). cbn in T1, T2. lia. }
  destruct (in_dec Nat.eq_dec d (SD b)) as [i1 | i1], (in_dec Nat.eq_dec d (E b)) as [i2 | i2];
    try specialize (P1 i1); try specialize (P2 i2); lia.
Qed.
Lemma ext_mono : forall b e c ix d, In (b, e) crs -> In (c, ix) (dsets e) -> In c (map fst crs) -> (ext b d <= ext c d)%Z.
Proof.
  intros b e c ix d He Hc Hcr.
  assert (Q : forall w, needs_layers ndim r k dirof fluxes sys b d w -> (Z.of_nat w <= ext c d)%Z).
  { intros w N. destruct (cp_ranges _ _ _ _ _ _ _ _ _ _ PP b e c ix d w He Hc Hcr N) as (w' & [(Hd & Hf & ->) | (Hf & ->)] & L); unfold ext.
    - destruct (in_dec Nat.eq_dec d (SD c)) as [i | i]; [lia|]. exfalso. apply i. apply shock_iff. auto.
    - destruct (in_dec Nat.eq_dec d (E c)) as [i | i]; [lia|]. exfalso. apply i. apply dirs_iff. auto. }
  assert (Z0 : (0 <= ext c d)%Z) by (unfold ext; destruct (in_dec Nat.eq_dec d (SD c)), (in_dec Nat.eq_dec d (E c)); lia).
  unfold ext at 1. apply Z.max_lub.
  - destruct (in_dec Nat.eq_dec d (SD b)) as [i | i]; auto. apply shock_iff in i. apply Q. left. tauto.
  - destruct (in_dec Nat.eq_dec d (E b)) as [i | i]; auto. apply dirs_iff in i. apply Q. right. auto.
Qed.

Definition crk (b : string) (e : expr) : OrdModel.crkernel rkernel :=
  {| OrdModel.ck_base := num b; OrdModel.ck_index := repeat 0%Z ndim;
     OrdModel.ck_requires := map num (nodup string_dec (arrays_in e)); OrdModel.ck_kernel := (b, e, RNG b) |}.
Notation CRK := (relation_kernels k sh central sizes dirof worder num kord (map fst sys) crs vcds eqs).
Lemma crk_in : forall c, In c CRK <-> exists b e, In b REQ /\ In (b, e) crs /\ c = crk b e.
Proof.
  intros c. unfold relation_kernels. rewrite in_flat_map. split.
  - intros (b & Hb & Hc). destruct (ProgModel.relation crs b) as [e|] eqn:R; [|contradiction]. destruct Hc as [<- | []].
    exists b, e. split; auto. split; auto. apply relation_some. auto.
  - intros (b & e & Hb & He & ->). exists b. split; auto. apply relation_some in He. rewrite He. left. reflexivity.
Qed.
Lemma crk_nodup : NoDup (map OrdModel.ck_base CRK).
Proof.
  unfold relation_kernels. pose proof required_nodup as ND. induction REQ as [|b l IH]; cbn [flat_map map]; [constructor|].
  inversion ND; subst. rewrite map_app. destruct (ProgModel.relation crs b) as [e|]; cbn [map app]; auto. constructor; auto.
  intros C. apply in_map_iff in C. destruct C as (c & Ec & C). apply in_flat_map in C. destruct C as (b' & Hb' & C).
  destruct (ProgModel.relation crs b'); [|contradiction]. destruct C as [<- | []]. cbn in Ec. apply Hnum in Ec. subst. contradiction.
Qed.

(* ---- names ---- *)
Lemma sys_names : forall v, In v (map fst sys) ->
  ~ In v (map fst eqs) /\ ~ In v (map fst crs) /\ (forall i, v <> wk_name i) /\
  ~ In (register v) (map fst eqs) /\ ~ In (register v) (map fst crs) /\ (forall i, register v <> wk_name i) /\
  ~ In (register v) (map fst sys).
Proof.
  intros v Hv. pose proof (cp_arrays _ _ _ _ _ _ _ _ _ _ PP) as ND. unfold AdvSpec.distinct_arrays in ND. rewrite advanced_eq, residual_eq in ND.
  destruct (cp_work _ _ _ _ _ _ _ _ _ _ PP v Hv) as [W1 W2].
  assert (D : forall a, In a (map fst sys) -> ~ In a (map register (map fst sys) ++ map fst eqs)).
  { apply nodup_disjoint. auto. }
  assert (D2 : forall a, In a (map register (map fst sys)) -> ~ In a (map fst eqs)).
  { apply nodup_disjoint. eapply AdvProofs.NoDup_app_remove_l; eauto. }
  assert (Hr : In (register v) (map register (map fst sys))) by (apply in_map; auto).
  repeat split; auto.
  - intros C. apply (D v Hv). apply in_app_iff. auto.
  - intros C. destruct (cp_names _ _ _ _ _ _ _ _ _ _ PP v C) as (_ & A & _). auto.
  - intros C. destruct (cp_names _ _ _ _ _ _ _ _ _ _ PP _ C) as (A & _). apply A. right. eauto.
  - intros C. apply (D _ C). apply in_app_iff. auto.
Qed.
Lemma sys_private : forall v, In v (map fst sys) -> ~ private register sys v.
Proof.
  intros v Hv [(i & Ei) | (w & Hwi & Ew)].
  - apply (proj1 (cp_work _ _ _ _ _ _ _ _ _ _ PP v Hv) i Ei).
  - subst v. destruct (sys_names w Hwi) as (_ & _ & _ & _ & _ & _ & N). auto.
Qed.

(* ---- the arrays of one stage ---- *)
(* the number of layers that are exchanged correctly *)
Definition layers : Z := Z.max (Z.of_nat r) (if central then Z.of_nat k else 0).
Definition near (x : list Z) : Prop :=
  List.length x = ndim /\ forall d, (d < ndim)%nat -> (- layers <= nth d x 0 < nth d sizes 0 + layers)%Z.
Lemma box_near : forall b x, box b x -> near x.
Proof.
  intros b x [L H]. split; auto. intros d Hd. specialize (H d Hd). unfold ext in H. unfold layers.
  assert (central = false -> ~ In d (E b)) by (intros Q; rewrite (Hcen Q); intros []).
  destruct central, (in_dec Nat.eq_dec d (SD b)), (in_dec Nat.eq_dec d (E b)); try lia; exfalso; apply H0; auto.
Qed.
Lemma grid_box : forall b x, grid_point sizes x -> box b x.
Proof.
  intros b x Hx. apply (grid_point_range k) in Hx. apply in_range_iff in Hx. destruct Hx as [L H]. split; auto. intros d Hd. specialize (H d Hd).
  rewrite (ex_notin k [] d) in H by auto. unfold ext. destruct (in_dec Nat.eq_dec d (SD b)), (in_dec Nat.eq_dec d (E b)); lia.
Qed.
Definition other (b : string) : Prop :=
  ~ In b (map fst sys) /\ ~ In b (map fst crs) /\ ~ private register sys b /\ ~ In b (map fst eqs).
(* M holds the solution U with halos, and the other arrays *)
Definition holds (S : memory) (U : ProgSpec.solution) (M : memory) : Prop :=
  (forall v y, In v (map fst sys) -> near y -> M v y = U (v, wrap sizes y)) /\
  (forall b y, other b -> M b y = S b y).

Notation START := (map num (nodup string_dec (not_relations central sizes dirof worder kord (map fst sys) crs vcds eqs ++ map fst sys ++ known))).
Lemma start_not_cr : forall b, In b (map fst crs) -> ~ In (num b) START.
Proof.
  intros b Hb C. apply in_map_iff in C. destruct C as (c & Ec & C). apply Hnum in Ec. subst c. apply nodup_In in C.
  destruct (cp_names _ _ _ _ _ _ _ _ _ _ PP b Hb) as (_ & A & _ & B). rewrite !in_app_iff in C. destruct C as [C | [C | C]]; auto.
  unfold not_relations in C. apply filter_In in C. destruct C as [_ C]. destruct (ProgModel.relation crs b) eqn:R; [discriminate|].
  apply relation_none in R. auto.
Qed.

(* M holds F wherever it is read before the relations are evaluated *)
Definition agrees (M F : memory) : Prop :=
  forall c y, near y -> ~ In c (map fst crs) -> ~ private register sys c -> ~ In c (map fst eqs) -> M c y = F c y.
Definition related (F : memory) : Prop := forall b e y, In (b, e) crs -> near y -> F b y = value J F y e.
Lemma holds_agrees : forall S U F M, fields J sizes sys crs S U F -> holds S U M -> agrees M F.
Proof.
  intros S U F M HF [HM1 HM2] c y Hy Ic Np Nr. destruct (in_dec string_dec c (map fst sys)) as [Is | Is].
  - rewrite HM1 by auto. symmetry. apply (f_solution _ _ _ _ _ _ _ HF); auto. apply Hy.
  - rewrite HM2 by (unfold other; auto). symmetry. apply (f_other _ _ _ _ _ _ _ HF); auto.
Qed.
Lemma fields_related : forall S U F, fields J sizes sys crs S U F -> related F.
Proof. intros S U F HF b e y He Hy. apply (f_relation _ _ _ _ _ _ _ HF); auto. apply Hy. Qed.

Section stage.
Variable F : memory.
Hypothesis HF : related F.

Lemma reads_ok : forall M (a : string -> Prop) M' c y, agrees M F -> near y ->
  (forall b y, ~ In b (map fst crs) -> M' b y = M b y) ->
  (forall b e y, a b -> In (b, e) crs -> box b y -> M' b y = F b y) ->
  ~ private register sys c -> ~ In c (map fst eqs) ->
  (In c (map fst crs) -> a c /\ box c y) ->
  M' c y = F c y.
Proof.
  intros M a M' c y HM Hy Hfr Ha Np Nr Hc.
  destruct (in_dec string_dec c (map fst crs)) as [Ic | Ic].
  - destruct (Hc Ic) as [A B]. destruct (in_named _ _ _ Ic) as (e & He). eapply Ha; eauto.
  - rewrite Hfr by auto. apply HM; auto.
Qed.
Notation RELS := (fold_left (exec_relation J)).
Lemma cr_run : forall cs M, agrees M F ->
  OrdSpec.evaluation_order START (map (fun c => (OrdModel.ck_base c, OrdModel.ck_requires c)) CRK) (map OrdModel.ck_base cs) ->
  (forall c, In c cs -> In c CRK) ->
  forall a rest, cs = a ++ rest ->
  let M' := RELS (map OrdModel.ck_kernel a) M in
  (forall b y, ~ In b (map fst crs) -> M' b y = M b y) /\
  (forall b e y, In (num b) (map OrdModel.ck_base a) -> In (b, e) crs -> box b y -> M' b y = F b y).
Proof.
  intros cs M HM EO Hin. induction a as [|c a IH] using rev_ind; intros rest Hcs.
  { split; auto. intros b e y []. }
  rewrite <- app_assoc in Hcs. cbn [app] in Hcs. specialize (IH (c :: rest) Hcs). destruct IH as [IF IV].
  rewrite map_app, fold_left_app. cbn [map]. set (Ma := RELS (map OrdModel.ck_kernel a) M) in *.
  assert (Hc : In c CRK) by (apply Hin; rewrite Hcs; apply in_app_iff; right; left; auto).
  pose proof Hc as Hc'. apply crk_in in Hc'. destruct Hc' as (b0 & e0 & Hreq & He0 & Ec).
  assert (V : forall b y, RELS [OrdModel.ck_kernel c] Ma b y =
             if String.eqb b b0 && within (RNG b0) y then value J Ma y e0 else Ma b y).
  { intros b y. rewrite Ec. unfold crk. cbn [OrdModel.ck_kernel fold_left]. unfold exec_relation.
    destruct (String.eqb b b0 && within (RNG b0) y); [apply eval_value | reflexivity]. }
  assert (W : forall y, box b0 y -> value J Ma y e0 = F b0 y).
  { intros y Hy. assert (Ly : List.length y = ndim) by apply Hy.
    rewrite (HF b0 e0 y He0 (box_near _ _ Hy)). unfold value. apply eval_ext. intros c0 ix Hix.
    destruct (cp_local _ _ _ _ _ _ _ _ _ _ PP b0 e0 c0 ix He0 Hix) as (-> & Np & Nr). rewrite vadd_0_r by auto.
    apply (reads_ok M (fun b => In (num b) (map OrdModel.ck_base a)) Ma c0 y HM (box_near _ _ Hy) IF); auto.
    intros Hcr. split.
    - destruct EO as (_ & _ & EO). specialize (EO (map OrdModel.ck_base a) (OrdModel.ck_base c) (map OrdModel.ck_base rest) (OrdModel.ck_requires c)).
      destruct (EO ltac:(rewrite Hcs, map_app; reflexivity) ltac:(apply in_map_iff; exists c; auto) (num c0)) as [A | A]; auto.
      + rewrite Ec. cbn [crk OrdModel.ck_requires]. apply in_map. apply nodup_In. unfold arrays_in.
        change c0 with (fst (c0, repeat 0%Z ndim)). apply in_map. auto.
      + exfalso. eapply start_not_cr; eauto.
    - split; auto. intros d Hd. pose proof (ext_mono b0 e0 c0 _ d He0 Hix Hcr). destruct Hy as [_ Hy]. specialize (Hy d Hd). lia. }
  split.
  - intros b y Nb. rewrite V. destruct (String.eqb_spec b b0) as [-> | N]; [exfalso; apply Nb; eapply ProgProofs.named; eauto|]. cbn [andb]. auto.
  - intros b e y Hb He Hy. rewrite V. destruct (String.eqb_spec b b0) as [-> | N].
    + rewrite (box_range _ _ Hy). cbn [andb]. auto.
    + cbn [andb]. rewrite map_app in Hb. apply in_app_iff in Hb. destruct Hb as [Hb | [Hb | []]]; [eapply IV; eauto|].
      exfalso. rewrite Ec in Hb. cbn in Hb. apply Hnum in Hb. congruence.
Qed.

(* faces and residuals, from arrays that agree with F wherever they are read *)
Section faces.
Variable Mc : memory.
Hypothesis HMc : forall b y, near y -> ~ private register sys b -> ~ In b (map fst eqs) -> (In b (map fst crs) -> In b REQ /\ box b y) -> Mc b y = F b y.
Lemma flux_near : forall b d x p, (d < ndim)%nat -> grid_point sizes x -> (- Z.of_nat r <= p <= Z.of_nat r)%Z -> in_flux ndim fluxes b d -> box b (move d p x).
Proof.
  intros b d x p Hd Hx Hp Hb. apply (grid_point_range k) in Hx. apply in_range_iff in Hx. destruct Hx as [L H]. split; [rewrite move_len; auto|].
  intros i Hi. specialize (H i Hi). rewrite (ex_notin k [] i) in H by auto.
  assert (Z0 : (0 <= ext b i)%Z) by (unfold ext; destruct (in_dec Nat.eq_dec i (SD b)), (in_dec Nat.eq_dec i (E b)); lia).
  destruct (Nat.eq_dec i d) as [-> | Ne].
  - rewrite move_nth_at by lia. assert (Z.of_nat r <= ext b d)%Z; [|lia]. unfold ext.
    destruct (in_dec Nat.eq_dec d (SD b)) as [q | q]; [lia|]. exfalso. apply q. apply shock_iff. auto.
  - rewrite move_nth_off by auto. lia.
Qed.
Lemma cell_near : forall d x p, (d < ndim)%nat -> grid_point sizes x -> (- Z.of_nat r <= p <= Z.of_nat r)%Z -> near (move d p x).
Proof.
  intros d x p Hd Hx Hp. apply (box_near "rho"). apply flux_near; auto. left. cbn. auto.
Qed.
Lemma flux_same : forall d x s, (d < ndim)%nat -> grid_point sizes x -> s = 0%Z \/ s = (-1)%Z ->
  numerical_flux J sch g av (map fst sys) ndim d (fluxes d) Mc (move d s x) = numerical_flux J sch g av (map fst sys) ndim d (fluxes d) F (move d s x).
Proof.
  intros d x s Hd Hx Hs. unfold numerical_flux. destruct (scheme_supported sh Hsup) as (o & Ho).
  apply (C37_local sch o); auto. intros p Hp. pose proof (stencil_reach sh p Hsup Hp) as Hr.
  rewrite Z.add_0_l. rewrite move_move.
  assert (Hq : (- Z.of_nat r <= s + p <= Z.of_nat r)%Z) by lia.
  pose proof (cell_near d x _ Hd Hx Hq) as Hn.
  assert (A : forall b, in_flux ndim fluxes b d -> ~ private register sys b -> ~ In b (map fst eqs) -> Mc b (move d (s + p) x) = F b (move d (s + p) x)).
  { intros b Hb Np Nr. apply HMc; auto. intros _. split; [eapply required_flux; eauto | apply flux_near; auto]. }
  assert (B : forall b, In b (flow_names ndim) -> Mc b (move d (s + p) x) = F b (move d (s + p) x)).
  { intros b Hb. destruct (cp_flow _ _ _ _ _ _ _ _ _ _ PP b (or_intror Hb)) as [C1 C2]. apply A; auto. left. auto. }
  f_equal.
  - apply map_ext_in. intros q Hq'. destruct (sys_names q Hq') as (N1 & N2 & _). apply HMc; auto; [apply sys_private; auto | contradiction].
  - apply map_ext_in. intros f Hf. unfold value. apply eval_ext. intros b ix Hb.
    destruct (flux_reads d f b ix Hd Hf Hb) as (-> & Np & Nr).
    rewrite vadd_0_r by apply Hn. apply A; auto. right. eauto.
  - apply B. cbn. auto.
  - apply map_ext_in. intros u Hu. apply B. unfold flow_names. apply in_app_iff. auto.
  - apply B. cbn. auto.
  - destruct (cp_flow _ _ _ _ _ _ _ _ _ _ PP "p"%string (or_introl eq_refl)) as [C1 C2]. apply HMc; auto. intros Hp'.
    pose proof (cp_pressure _ _ _ _ _ _ _ _ _ _ PP Hp' d Hd) as Hf. split; [eapply required_flux; eauto | apply flux_near; auto].
Qed.
Lemma value_same : forall i rr rhs face face' x, nth_error eqs i = Some (rr, rhs) -> grid_point sizes x ->
  (forall d x, (d < ndim)%nat -> numerical_flux J sch g av (map fst sys) ndim d (fluxes d) Mc x = Ok (face' d x)) ->
  (forall d x, (d < ndim)%nat -> numerical_flux J sch g av (map fst sys) ndim d (fluxes d) F x = Ok (face d x)) ->
  hybrid_value J k dirof h Mc (flux_difference dirof h face' i) rhs x = hybrid_value J k dirof h F (flux_difference dirof h face i) rhs x.
Proof.
  intros i rr rhs face face' x Hi Hx Hf' Hf. pose proof (nth_error_In _ _ Hi) as Hr. destruct (disc_in _ _ _ Hr) as (v & Hv).
  pose proof (hs_shock _ _ _ _ _ _ (cp_form _ _ _ _ _ _ _ _ _ _ PP)) as S0.
  assert (Lx : List.length x = ndim) by (apply (grid_box EmptyString x Hx)).
  rewrite <- !(split_value J k ndim dirof h HJ coordinate fluxes eqs HS rr rhs) by auto. f_equal.
  - apply zsem_ext.
    + intros b ix Hb. destruct (ss_arrays _ _ _ _ _ _ S0 rr rhs b ix Hr Hb) as (-> & Np & Nr). rewrite vadd_0_r by auto.
      apply HMc; auto; [apply (box_near b), grid_box; auto|]. intros _. split; [eapply required_reads; eauto | apply grid_box; auto].
    + intros f m Hw'. assert (X : exists d, (d < ndim)%nat /\ WD f m = WD (nth i (fluxes d) (ENum 0)) (coordinate d)) by (apply (ss_one _ _ _ _ _ _ S0 i rr rhs Hi); split; eauto).
      destruct X as (d & Hd & X). unfold WD in X. injection X as _ ->.
      unfold flux_difference. rewrite (ss_coordinate _ _ _ _ _ _ S0 d Hd).
      assert (Q : forall s, s = 0%Z \/ s = (-1)%Z -> face' d (move d s x) = face d (move d s x)).
      { intros s Hs. pose proof (flux_same d x s Hd Hx Hs) as Q. rewrite Hf', Hf in Q by auto. injection Q as Q. exact Q. }
      pose proof (Q 0%Z (or_introl eq_refl)) as Q0. rewrite BCMirror.move_0 in Q0. rewrite Q0, (Q (-1)%Z) by auto. reflexivity.
  - apply (sem_reach J k dirof h sizes E Mc F (fv rhs) []).
    + intros b ix Hb. apply (fv_dsets ndim dirof coordinate fluxes eqs HS rr) in Hb; auto.
      destruct (ss_arrays _ _ _ _ _ _ S0 rr rhs b ix Hr Hb) as (Ez & Np & Nr).
      split; auto. split; [intros d []|]. intros y Hy.
      assert (By : box b y).
      { apply in_range_iff in Hy. destruct Hy as [Ly Hy]. split; auto. intros d Hd. specialize (Hy d Hd). unfold ext.
        destruct (in_dec Nat.eq_dec d (E b)) as [q | q]; [rewrite (ex_in k _ d q) in Hy | rewrite (ex_notin k _ d q) in Hy];
          destruct (in_dec Nat.eq_dec d (SD b)); lia. }
      apply HMc; auto; [apply (box_near b); auto|]. intros _. split; auto. eapply required_reads; eauto.
    + intros u Hu Hd. destruct (fv_cds ndim dirof coordinate fluxes eqs HS rr rhs u Hr) as (t & Ht & _ & Hc); [apply in_cds; auto|].
      apply in_cds in Hc. destruct Hc as [Hc _]. assert (Hir : inside u rhs) by (eapply inside_trans; [exact Hc | apply terms_inside; auto]).
      destruct (deriv_shape v rhs u Hv Hir Hd) as (_ & a & n & m & Eu & Hn & Ha & Hwd). exists a, n, m. repeat split; auto.
    + apply grid_point_range. auto.
Qed.
End faces.
End stage.

Notation RELS := (fold_left (exec_relation J)).
Notation HYB := (exec_hybrid J k sizes sch g av (map fst sys)).
Lemma discretise_central : forall ks, hybrid_discretise k ndim dirof inv dord sord worder [] vcds [Shock; CentralDiff] eqs = Ok ks ->
  hybrid_discretise k ndim dirof inv dord sord worder [] vcds (spatial_schemes central) eqs = Ok ks.
Proof.
  intros ks H. destruct central eqn:Ec; [exact H|]. pose proof (Hcen eq_refl) as Ev. subst vcds. unfold spatial_schemes.
  unfold hybrid_discretise in *. cbn [mapM discretise_scheme] in *.
  destruct (shock_discretise ndim dirof inv worder eqs) as [k1|]; [|discriminate]. cbn [bind] in *.
  cbn in H. rewrite app_nil_r in H. cbn [List.concat]. rewrite app_nil_r. exact H.
Qed.
Lemma spatial_ok : forall cs ks, capturing_kernels k sh central sizes dirof inv dord sord worder num kord (map fst sys) crs known vcds eqs = Ok (cs, ks) ->
  forall S U F face M, fields J sizes sys crs S U F -> holds S U M ->
  (forall d x, (d < ndim)%nat -> numerical_flux J sch g av (map fst sys) ndim d (fluxes d) F x = Ok (face d x)) ->
  let M' := HYB ks (RELS cs M) in
  (forall i rr rhs x, nth_error eqs i = Some (rr, rhs) -> grid_point sizes x -> M' rr x = hybrid_value J k dirof h F (flux_difference dirof h face i) rhs x) /\
  (forall b y, ~ In b (map fst eqs) -> ~ In b (map fst crs) -> (forall i, b <> wk_name i) -> M' b y = M b y).
Proof.
  intros cs ks Esp S U F face M HF HM Hface M'. unfold capturing_kernels in Esp.
  assert (Hsol : forall q, In q (map fst sys) -> ~ reserved q).
  { intros q Hq (i & Ei). apply (proj1 (cp_work _ _ _ _ _ _ _ _ _ _ PP q Hq) i Ei). }
  destruct (hybrid_run J k ndim dirof inv dord sord worder h sizes HJ Hinv eq_refl Hw coordinate fluxes eqs SS sch g av (map fst sys) Hsol HS Hdord Hperm Hinner
     [] vcds HC HV Hdim) as (ks' & Eks & X).
  apply discretise_central in Eks. rewrite Eks in Esp. cbn [bind] in Esp.
  destruct (OrdModel.sort_constituents rkernel OrdModel.max_passes START CRK) as [cs'|] eqn:Ecs; [|discriminate].
  cbn [bind] in Esp. injection Esp as <- <-.
  destruct (OrdProps.C20_kernels rkernel START CRK cs' crk_nodup Ecs) as (cl & -> & EO & Hcl).
  pose proof (fields_related S U F HF) as RF. pose proof (holds_agrees S U F M HF HM) as AM.
  destruct (cr_run F RF cl M AM EO (fun c H => proj1 (proj1 (Hcl c) H)) cl [] (eq_sym (app_nil_r cl))) as [CF CV].
  unfold M'. set (Mc := RELS (map OrdModel.ck_kernel cl) M) in *.
  destruct (X Mc) as [X1 X2]. split.
  - destruct (scheme_supported sh Hsup) as (o & Ho).
    set (face' := fun d x => match numerical_flux J sch g av (map fst sys) ndim d (fluxes d) Mc x with Ok w => w | Err _ => [] end).
    assert (Hf' : forall d x, (d < ndim)%nat -> numerical_flux J sch g av (map fst sys) ndim d (fluxes d) Mc x = Ok (face' d x)).
    { intros d x Hd. unfold face'. unfold numerical_flux. match goal with |- interface_flux ?s ?g ?a ?l ?i = _ => destruct (flux_total s o g a l i Ho) as (w & Ew) end.
      rewrite Ew. reflexivity. }
    intros i rr rhs x Hi Hx. rewrite (X2 face' Hf' i rr rhs x Hi Hx).
    apply (value_same F Mc) with (rr := rr); auto.
    intros b y Hy Np Nr Hb. apply (reads_ok F M (fun b => In b REQ) Mc b y AM Hy CF); auto.
    intros b' e y' Hb' He Hy'. eapply CV; eauto.
    apply in_map_iff. exists (crk b' e). split; auto. apply Hcl. split.
    + apply crk_in. exists b', e. split; auto.
    + apply start_not_cr. eapply ProgProofs.named; eauto.
  - intros b y Nr Ncr Nw. rewrite X1; auto. intros (i & Ei). apply (Nw i Ei).
Qed.

(* ---- time stepping ---- *)
Section time.
Variables (S : memory) (f : ProgSpec.solution -> ProgSpec.solution) (cs : list rkernel) (ks : list hkernel) (dt : R) (ab : list R * list R).
Hypothesis Hf : shock_semi_discrete J k dirof h sch g av fluxes sizes sys crs S f.
Hypothesis Esp : capturing_kernels k sh central sizes dirof inv dord sord worder num kord (map fst sys) crs known vcds eqs = Ok (cs, ks).
Hypothesis Hsz : forall d, (d < ndim)%nat -> (layers <= nth d sizes 0)%Z.
Notation RUN := (run_cevent J k sizes sch g av (map fst sys) dt ab).
Notation SP := (map Relation cs ++ map Field ks).
Notation STEPS l := (map Step l).
Notation EX := (BCModel.periodic_all sizes (capturing_halos k sh central sizes) (map fst sys)).
Notation gp := (grid_point sizes).

Definition interior (U : ProgSpec.solution) (M : memory) : Prop :=
  (forall v x, In v (map fst sys) -> gp x -> M v x = U (v, x)) /\ (forall b y, other b -> M b y = S b y).
Definition registered (T : ProgSpec.solution) (M : memory) : Prop :=
  forall v x, In v (map fst sys) -> gp x -> M (register v) x = T (v, x).


Lemma layers_pos : (2 <= layers)%Z.
Proof. unfold layers. pose proof (reach_pos sh Hsup). lia. Qed.
Definition upper : Z := Z.max (Z.of_nat r + 1) (if central then Z.of_nat k else 0).
Lemma halo_values : forall i, (i < ndim)%nat -> BCSpec.lower_halo (capturing_halos k sh central sizes) i = (- layers)%Z /\
  BCSpec.upper_halo (capturing_halos k sh central sizes) i = upper /\ (layers <= upper <= 2 * layers)%Z.
Proof.
  intros i Hi. unfold BCSpec.lower_halo, BCSpec.upper_halo, capturing_halos.
  rewrite (nth_indep _ _ (if central then [shock_halo sh; central_halo k] else [shock_halo sh], if central then [shock_halo sh; central_halo k] else [shock_halo sh])) by (rewrite repeat_length; auto).
  rewrite nth_repeat. pose proof (reach_pos sh Hsup). unfold layers, upper, shock_halo, central_halo.
  destruct central; cbn [nth fst snd halo_min halo_max map minl maxl]; lia.
Qed.
Lemma exchanged : forall U M, interior U M ->
  holds S U (BCModel.transfers EX M) /\ forall b y, ~ In b (map fst sys) -> BCModel.transfers EX M b y = M b y.
Proof.
  intros U M [HI HO]. pose proof layers_pos as LP. destruct (halo_values 0 ltac:(lia)) as (Hl & Hu & Hlu).
  assert (Lh : List.length (capturing_halos k sh central sizes) = ndim) by (unfold capturing_halos; destruct central; apply repeat_length).
  assert (Fr : forall b y, ~ In b (map fst sys) -> BCModel.transfers EX M b y = M b y).
  { intros b y Nb. apply PerProps.C43_frame; auto. rewrite Hl, Hu. lia. }
  split; auto. split.
  - intros v y Hv [Ly Hy].
    rewrite (PerProps.C43_periodic_partial R sizes (capturing_halos k sh central sizes) (map fst sys) M layers upper v y); auto; try lia.
    rewrite wrap_map2 by auto. apply HI; auto. apply wrap_in; auto. intros d Hd. specialize (Hsz d Hd). lia.
  - intros b y Ob. rewrite Fr; auto. apply Ob.
Qed.
Lemma holds_interior : forall U M, holds S U M -> interior U M.
Proof.
  intros U M [A B]. split; auto. intros v x Hv Hx. rewrite A; auto.
  - rewrite wrap_grid; auto.
  - apply (box_near EmptyString), grid_box. auto.
Qed.
Lemma run_at : forall it st l M, fold_left RUN (AlgSpec.at_ it st l) M = fold_left (fun M pk => run_ckernel J k sizes sch g av (map fst sys) dt ab M pk st) l M.
Proof. intros it st. induction l as [|pk l IH]; intros M; auto. cbn. apply IH. Qed.
Lemma run_spatial : forall st M, fold_left (fun M pk => run_ckernel J k sizes sch g av (map fst sys) dt ab M pk st) SP M = HYB ks (RELS cs M).
Proof.
  intros st M. rewrite fold_left_app. unfold exec_hybrid.
  assert (A : forall l M, fold_left (fun M pk => run_ckernel J k sizes sch g av (map fst sys) dt ab M pk st) (map Relation l) M = RELS l M).
  { induction l as [|c l IH]; intros M'; auto. cbn [map fold_left run_ckernel]. apply IH. }
  rewrite A. generalize (RELS cs M) as M'. generalize ks as l. induction l as [|kn l IH]; intros M'; auto. cbn [map fold_left run_ckernel]. apply IH.
Qed.
Lemma run_exchange : forall st exs M, fold_left (fun M pk => run_ckernel J k sizes sch g av (map fst sys) dt ab M pk st) (map (fun ex => Step (Exchange ex)) exs) M = BCModel.transfers exs M.
Proof. intros st. induction exs as [|kn l IH]; intros M; auto. cbn. apply IH. Qed.

(* the spatial kernels of a stage *)
Lemma stage_residual : forall U T M, holds S U M -> registered T M ->
  let M' := HYB ks (RELS cs M) in
  interior U M' /\ registered T M' /\
  forall e v x, In e (adv_eqs sys) -> AdvSpec.advances e v -> gp x -> M' (AdvModel.eq_residual e) x = f U (v, x).
Proof.
  intros U T M HM HT M'. destruct (Hf U) as (F & face & HF & Hface & Hfv). destruct (spatial_ok cs ks Esp S U F face M HF HM Hface) as [A B].
  fold M' in A, B. destruct (holds_interior _ _ HM) as [I1 I2]. split; [split|split].
  - intros v x Hv Hx. destruct (sys_names v Hv) as (N1 & N2 & N3 & _). rewrite B by auto. apply I1; auto.
  - intros b y Ob. destruct Ob as (O1 & O2 & O3 & O4). rewrite B; auto; [apply I2; unfold other; auto|]. intros i ->. apply O3. left. eauto.
  - intros v x Hv Hx. destruct (sys_names v Hv) as (_ & _ & _ & N1 & N2 & N3 & _). rewrite B by auto. apply HT; auto.
  - intros e v x He Hv Hx.
    assert (Q : exists i rhs, nth_error sys i = Some (v, rhs) /\ nth_error eqs i = Some (AdvModel.eq_residual e, rhs)).
    { clear - He Hv. unfold adv_eqs, AdvModel.with_residuals, disc_eqs in *. rewrite map_length in He. revert He. generalize 0%nat as s.
      induction sys as [|[w q] l IH]; intros s He; [destruct He|]. cbn in He. destruct He as [<- | He].
      - unfold AdvSpec.advances in Hv. cbn in Hv. injection Hv as ->. exists 0%nat, q. split; reflexivity.
      - destruct (IH _ He) as (i & rhs & P & Q). exists (Datatypes.S i), rhs. split; auto. }
    destruct Q as (i & rhs & Hin & Hr). rewrite (A i _ rhs x Hr Hx). symmetry. apply Hfv; auto.
Qed.
Lemma one_each : AdvSpec.one_derivative_each (adv_eqs sys).
Proof. intros e He. destruct (adv_one sys e He) as (v & rhs & _ & E). exists v. exact E. Qed.
Lemma advanced_in : forall e v, In e (adv_eqs sys) -> AdvSpec.advances e v -> In v (map fst sys).
Proof.
  intros e v He Hv. destruct (adv_one sys e He) as (w & rhs & Hwv & E). unfold AdvSpec.advances in Hv. rewrite E in Hv. injection Hv as <-.
  eapply ProgProofs.named; eauto.
Qed.
Lemma advanced_by : forall v, In v (map fst sys) -> exists e, In e (adv_eqs sys) /\ AdvSpec.advances e v.
Proof.
  intros v Hv. destruct (in_named _ _ _ Hv) as (rhs & H). destruct (adv_disc sys v rhs H) as (r & _ & He). eexists. split; [exact He | reflexivity].
Qed.
Lemma grid_inside : forall x, gp x <-> in_range k sizes [] x = true.
Proof. apply grid_point_range. Qed.

Definition state_ok (m : ProgSpec.solution * ProgSpec.solution) (M : memory) : Prop := holds S (fst m) M /\ registered (snd m) M.
Lemma after_exchange : forall U T M, interior U M -> registered T M -> state_ok (U, T) (BCModel.transfers EX M).
Proof.
  intros U T M HI HT. destruct (exchanged U M HI) as [A B]. split; auto. intros v x Hv Hx. cbn [snd]. rewrite B; auto.
  destruct (sys_names v Hv) as (_ & _ & _ & _ & _ & _ & N). auto.
Qed.

(* one stage of each scheme *)
Lemma ls_stage_ok : register = AdvModel.temp_name -> forall it st M m, state_ok m M ->
  state_ok (RKModel.ls_stage _ dt f m (nth st (fst ab) 0%R, nth st (snd ab) 0%R))
    (fold_left RUN (AlgSpec.at_ it (Some (Z.of_nat st)) (SP ++ STEPS [LowStorage (adv_eqs sys)] ++ map (fun ex => Step (Exchange ex)) EX)) M).
Proof.
  intros ER it st M [U T] [HM HT]. cbn [fst snd] in HM, HT. rewrite run_at, fold_left_app, run_spatial. cbn [map app fold_left].
  rewrite run_exchange. cbn [run_ckernel run_pkernel]. rewrite Nat2Z.id. cbn [RKModel.ls_stage].
  destruct (stage_residual U T M HM HT) as (I1 & I2 & I3). set (M1 := HYB ks (RELS cs M)) in *.
  set (a := nth st (fst ab) 0%R). set (b := nth st (snd ab) 0%R).
  assert (DA : AdvSpec.distinct_arrays AdvModel.temp_name (adv_eqs sys)) by (rewrite <- ER; apply (cp_arrays _ _ _ _ _ _ _ _ _ _ PP)).
  destruct (AdvProps.C63_low_storage_update_partial (list Z) (in_range k sizes []) (adv_eqs sys) dt a b M1 one_each DA) as [P Q].
  apply after_exchange.
  - split.
    + intros v x Hv Hx. destruct (advanced_by v Hv) as (e & He & Hev). apply grid_inside in Hx as Hx'.
      destruct (P e v x He Hev Hx') as [P1 P2]. rewrite P2, P1. rewrite (I3 e v x He Hev Hx). rewrite (proj1 I1 v x Hv Hx).
      rewrite <- ER. rewrite (I2 v x Hv Hx). reflexivity.
    + intros w y Ow. rewrite Q; [apply (proj2 I1); auto|]. right. intros e v He Hev. pose proof (advanced_in e v He Hev) as Hv.
      destruct Ow as (O1 & O2 & O3 & O4). split; [intros ->; auto|]. intros ->. apply O3. right. exists v. rewrite ER. auto.
  - intros v x Hv Hx. destruct (advanced_by v Hv) as (e & He & Hev). apply grid_inside in Hx as Hx'.
    destruct (P e v x He Hev Hx') as [P1 P2]. rewrite ER, P1. rewrite (I3 e v x He Hev Hx). rewrite <- ER, (I2 v x Hv Hx). reflexivity.
Qed.
Lemma sbli_stage_ok : register = AdvModel.old_name -> forall it st M m, state_ok m M ->
  state_ok (RKModel.sbli_stage _ dt f m (nth st (fst ab) 0%R, nth st (snd ab) 0%R))
    (fold_left RUN (AlgSpec.at_ it (Some (Z.of_nat st)) (SP ++ STEPS [SbliUpdate (adv_eqs sys)] ++ map (fun ex => Step (Exchange ex)) EX)) M).
Proof.
  intros ER it st M [U T] [HM HT]. cbn [fst snd] in HM, HT. rewrite run_at, fold_left_app, run_spatial. cbn [map app fold_left].
  rewrite run_exchange. cbn [run_ckernel run_pkernel]. rewrite Nat2Z.id. cbn [RKModel.sbli_stage].
  destruct (stage_residual U T M HM HT) as (I1 & I2 & I3). set (M1 := HYB ks (RELS cs M)) in *.
  set (a := nth st (fst ab) 0%R). set (b := nth st (snd ab) 0%R).
  assert (DA : AdvSpec.distinct_arrays AdvModel.old_name (adv_eqs sys)) by (rewrite <- ER; apply (cp_arrays _ _ _ _ _ _ _ _ _ _ PP)).
  destruct (AdvProps.C63_sbli_update_partial (list Z) (in_range k sizes []) (adv_eqs sys) dt a b M1 one_each DA) as [P Q].
  apply after_exchange.
  - split.
    + intros v x Hv Hx. destruct (advanced_by v Hv) as (e & He & Hev). apply grid_inside in Hx as Hx'.
      destruct (P e v x He Hev Hx') as (_ & _ & P1 & P2). rewrite P1. rewrite (I3 e v x He Hev Hx).
      rewrite <- ER. rewrite (I2 v x Hv Hx). reflexivity.
    + intros w y Ow. refine (eq_trans (proj2 (Q w y _)) (proj2 I1 w y Ow)). right. intros e v He Hev. pose proof (advanced_in e v He Hev) as Hv.
      destruct Ow as (O1 & O2 & O3 & O4). split; [intros ->; auto|]. intros ->. apply O3. right. exists v. rewrite ER. auto.
  - intros v x Hv Hx. destruct (advanced_by v Hv) as (e & He & Hev). apply grid_inside in Hx as Hx'.
    destruct (P e v x He Hev Hx') as (_ & _ & P1 & P2). rewrite ER, P2. rewrite (I3 e v x He Hev Hx). rewrite <- ER, (I2 v x Hv Hx). reflexivity.
Qed.
Lemma save_ok : register = AdvModel.old_name -> forall U M, holds S U M ->
  state_ok (U, U) (AdvModel.run (list Z) (in_range k sizes []) (AdvModel.sbli_save (adv_eqs sys)) M).
Proof.
  intros ER U M HM. assert (DA : AdvSpec.distinct_arrays AdvModel.old_name (adv_eqs sys)) by (rewrite <- ER; apply (cp_arrays _ _ _ _ _ _ _ _ _ _ PP)).
  destruct (AdvProps.C63_sbli_update_partial (list Z) (in_range k sizes []) (adv_eqs sys) dt 0%R 0%R M one_each DA) as [P Q].
  split; [split|]; cbn [fst snd].
  - intros v y Hv Hy. rewrite <- (proj1 HM v y Hv Hy). destruct (in_range k sizes [] y) eqn:Ey; [|apply Q; auto].
    destruct (advanced_by v Hv) as (e & He & Hev). apply (P e v y He Hev Ey).
  - intros w y Ow. refine (eq_trans (proj1 (Q w y _)) (proj2 HM w y Ow)). right. intros e v He Hev. pose proof (advanced_in e v He Hev) as Hv.
    destruct Ow as (O1 & O2 & O3 & O4). split; [intros ->; auto|]. intros ->. apply O3. right. exists v. rewrite ER. auto.
  - intros v x Hv Hx. destruct (advanced_by v Hv) as (e & He & Hev). apply grid_inside in Hx as Hx'.
    rewrite ER. destruct (P e v x He Hev Hx') as (P1 & _). rewrite P1. apply (holds_interior _ _ HM); auto.
Qed.

(* ---- steps and the program ---- *)
Lemma run_files : forall (gf : AlgSpec.request -> list (AlgModel.event ckernel)) rqs M,
  (forall r ev, In ev (gf r) -> exists a b, ev = AlgModel.EWrite a b) -> fold_left RUN (flat_map gf rqs) M = M.
Proof.
  intros gf rqs M H. induction rqs as [|r rqs IH]; auto. cbn [flat_map]. rewrite fold_left_app.
  assert (Q : forall l M, (forall ev, In ev l -> exists a b, ev = @AlgModel.EWrite ckernel a b) -> fold_left RUN l M = M).
  { induction l as [|ev l IHl]; intros M' Hl; auto. cbn [fold_left]. destruct (Hl ev (or_introl eq_refl)) as (a & b & ->). cbn [run_cevent].
    apply IHl. intros. apply Hl. right. auto. }
  rewrite (Q (gf r)) by (intros ev Hev; exact (H r ev Hev)). exact IH.
Qed.
Lemma run_monitor : forall mon it M, fold_left RUN (AlgSpec.monitored mon it) M = M.
Proof. intros [fq|] it M; auto. unfold AlgSpec.monitored. destruct (_ || _); auto. Qed.

Section scheme.
Variables (startks advks : list ckernel) (stg : ProgSpec.solution * ProgSpec.solution -> R * R -> ProgSpec.solution * ProgSpec.solution)
  (prep : ProgSpec.solution * ProgSpec.solution -> ProgSpec.solution * ProgSpec.solution).
Hypothesis Hlen : List.length (fst ab) = List.length (snd ab).
Hypothesis Hstart : forall it M m, state_ok m M -> state_ok (prep m) (fold_left RUN (AlgSpec.at_ it None startks) M).
Hypothesis Hstage : forall it st M m, state_ok m M ->
  state_ok (stg m (nth st (fst ab) 0%R, nth st (snd ab) 0%R))
    (fold_left RUN (AlgSpec.at_ it (Some (Z.of_nat st)) (SP ++ advks ++ map (fun ex => Step (Exchange ex)) EX)) M).
Definition phase : AlgSpec.phases ckernel := AlgSpec.Build_phases [] (map (fun ex => Step (Exchange ex)) EX) startks (SP) advks [] [] [].
Notation nst := (Z.of_nat (List.length (fst ab))).
Definition one_step (m : ProgSpec.solution * ProgSpec.solution) : ProgSpec.solution * ProgSpec.solution := fold_left stg (combine (fst ab) (snd ab)) (prep m).

Lemma stages_ok : forall it l m M, state_ok m M ->
  state_ok (fold_left (fun m i => stg m (nth i (fst ab) 0%R, nth i (snd ab) 0%R)) l m)
    (fold_left RUN (flat_map (fun st => AlgSpec.at_ it (Some st) (SP ++ advks ++ map (fun ex => Step (Exchange ex)) EX)) (map Z.of_nat l)) M).
Proof.
  intros it. induction l as [|i l IH]; intros m M H; auto. cbn [map flat_map fold_left]. rewrite fold_left_app. apply IH. apply Hstage. auto.
Qed.
Lemma step_ok : forall mon rqs it m M, interior (fst m) M -> registered (snd m) M ->
  state_ok (one_step m) (fold_left RUN (AlgSpec.step phase nst mon rqs it) M).
Proof.
  intros mon rqs it [U T] M HI HT. unfold AlgSpec.step. cbn [phase AlgSpec.p_bc AlgSpec.p_start AlgSpec.p_in AlgSpec.p_end AlgSpec.p_spatial AlgSpec.p_advance].
  rewrite !fold_left_app. cbn [AlgSpec.at_ map fold_left].
  rewrite run_monitor.
  match goal with |- state_ok _ (fold_left _ (flat_map (AlgSpec.written_in it) rqs) ?M0) => rewrite (run_files (AlgSpec.written_in it) rqs M0) end.
  2:{ intros r ev H. unfold AlgSpec.written_in in H. destruct (_ && _); [|contradiction]. destruct H as [<- | []]. eauto. }
  unfold one_step. rewrite combine_nth_seq by auto. rewrite fold_left_map. unfold AlgSpec.upto. rewrite Nat2Z.id. apply stages_ok.
  unfold AlgSpec.at_ at 1. rewrite map_app, fold_left_app. apply Hstart. fold (AlgSpec.at_ (K := ckernel) (Some it) None (map (fun ex => Step (Exchange ex)) EX)). rewrite run_at, run_exchange.
  apply after_exchange; auto.
Qed.
Lemma steps_ok : forall mon rqs l m M, interior (fst m) M -> registered (snd m) M ->
  let m' := RKSpec.iterate (List.length l) one_step m in
  let M' := fold_left RUN (flat_map (AlgSpec.step phase nst mon rqs) l) M in
  interior (fst m') M' /\ registered (snd m') M'.
Proof.
  intros mon rqs. induction l as [|it l IH]; intros m M HI HT; auto. cbn [flat_map List.length RKSpec.iterate]. cbn zeta. rewrite fold_left_app.
  destruct (step_ok mon rqs it m M HI HT) as [A B]. apply IH; auto. apply holds_interior. auto.
Qed.
Lemma program_ok : forall mon rqs niter (rk : ProgSpec.solution -> ProgSpec.solution) M,
  (forall m, fst (one_step m) = rk (fst m)) -> (forall b y, other b -> M b y = S b y) ->
  let M' := run_capturing J k sizes sch g av (map fst sys) dt ab (AlgSpec.program_trace phase nst niter mon rqs) M in
  (forall v x, In v (map fst sys) -> gp x -> M' v x = RKSpec.iterate (Z.to_nat niter) rk (fun i => M (fst i) (snd i)) (v, x)) /\
  (forall b y, other b -> M' b y = S b y).
Proof.
  intros mon rqs niter rk M Hrk HS M'. unfold M', run_capturing, AlgSpec.program_trace.
  cbn [phase AlgSpec.p_before AlgSpec.p_after AlgSpec.at_ map app]. fold phase. rewrite fold_left_app.
  match goal with |- context [fold_left _ (flat_map AlgSpec.written_at_end rqs) ?M0] => rewrite (run_files AlgSpec.written_at_end rqs M0) end.
  2:{ intros r ev H. unfold AlgSpec.written_at_end in H. destruct (AlgSpec.is_write r); [|contradiction]. destruct H as [<- | []]. eauto. }
  set (m := ((fun i => M (fst i) (snd i)) : solution, (fun i => M (register (fst i)) (snd i)) : ProgSpec.solution)).
  destruct (steps_ok mon rqs (AlgSpec.upto niter) m M) as [A B].
  - split; auto.
  - intros v x Hv Hx. reflexivity.
  - destruct A as [A1 A2]. split; auto. intros v x Hv Hx. rewrite (A1 v x Hv Hx). f_equal.
    assert (Q : forall n m0, fst (RKSpec.iterate n one_step m0) = RKSpec.iterate n rk (fst m0)).
    { induction n as [|n IH]; intros m0; auto. cbn. rewrite IH, Hrk. reflexivity. }
    rewrite Q. unfold AlgSpec.upto. rewrite map_length, seq_length. reflexivity.
Qed.
End scheme.
End time.
End prog.
