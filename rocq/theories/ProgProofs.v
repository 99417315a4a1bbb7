(* Proofs about the whole program. *)
From Verif Require Import Base Expr ExprProofs FDModel FDProofs WorkModel WorkProofs ShiftSpec DiscModel DiscSpec DiscProofs DiscRun DiscMain ProgModel ProgSpec.
From Verif Require AdvModel AdvSpec AdvProofs AdvProps AlgModel AlgSpec OrdModel OrdSpec OrdProps BCModel BCSpec PerProps RKModel RKSpec RKProofs.
From Coq Require Import QArith ZArith Reals Lia Lra Permutation.
Local Close Scope Q_scope.

(* ---- ranges ---- *)
Section ranges.
Variables (k : nat) (sizes : list Z).
Notation n_ d := (nth d sizes 0%Z).
Definition ex (D : list nat) (d : nat) : Z := if existsb (Nat.eqb d) D then Z.of_nat k else 0%Z.
Lemma ex_in : forall D d, In d D -> ex D d = Z.of_nat k.
Proof.
  intros D d H. unfold ex. replace (existsb (Nat.eqb d) D) with true; auto. symmetry. apply existsb_exists.
  exists d. split; auto. apply Nat.eqb_refl.
Qed.
Lemma ex_notin : forall D d, ~ In d D -> ex D d = 0%Z.
Proof.
  intros D d H. unfold ex. destruct (existsb (Nat.eqb d) D) eqn:E; auto. apply existsb_exists in E. destruct E as (y & Hy & E).
  apply Nat.eqb_eq in E. subst. contradiction.
Qed.
Lemma ex_bound : forall D d, (0 <= ex D d <= Z.of_nat k)%Z.
Proof. intros. unfold ex. destruct existsb; lia. Qed.
Lemma in_range_iff : forall D x, in_range k sizes D x = true <->
  List.length x = List.length sizes /\ forall d, (d < List.length sizes)%nat -> (- ex D d <= nth d x 0 < n_ d + ex D d)%Z.
Proof.
  intros D x. unfold in_range. rewrite andb_true_iff, Nat.eqb_eq, forallb_forall. fold (ex D).
  split; intros [L H]; split; auto.
  - intros d Hd. specialize (H d ltac:(apply in_seq; lia)). fold (ex D d) in H. apply andb_true_iff in H. rewrite Z.leb_le, Z.ltb_lt in H. lia.
  - intros d Hd. apply in_seq in Hd. specialize (H d ltac:(lia)). fold (ex D d). apply andb_true_iff. rewrite Z.leb_le, Z.ltb_lt. lia.
Qed.
Lemma in_range_incl : forall D E x, incl D E -> in_range k sizes D x = true -> in_range k sizes E x = true.
Proof.
  intros D E x I H. apply in_range_iff in H. apply in_range_iff. destruct H as [L H]. split; auto. intros d Hd. specialize (H d Hd).
  destruct (in_dec Nat.eq_dec d E) as [i | i].
  - rewrite (ex_in E d i). pose proof (ex_bound D d). lia.
  - rewrite (ex_notin E d i). rewrite (ex_notin D d) in H; auto.
Qed.
Lemma move_nth_at : forall d v x, (d < List.length x)%nat -> nth d (move d v x) 0%Z = (nth d x 0 + v)%Z.
Proof. induction d; intros v [|a x] H; cbn in *; try lia. apply IHd. lia. Qed.
Lemma move_nth_off : forall d v x i, i <> d -> nth i (move d v x) 0%Z = nth i x 0%Z.
Proof. induction d; intros v [|a x] [|i] H; cbn; auto; try congruence. Qed.
Lemma move_len : forall d v x, List.length (move d v x) = List.length x.
Proof. induction d; intros v [|a x]; cbn; auto. Qed.
Lemma in_range_moved : forall D d v x, ~ In d D -> (d < List.length sizes)%nat -> (- Z.of_nat k <= v <= Z.of_nat k)%Z ->
  in_range k sizes D x = true -> in_range k sizes (d :: D) (move d v x) = true.
Proof.
  intros D d v x Nd Hd Hv H. apply in_range_iff in H. apply in_range_iff. destruct H as [L H]. rewrite move_len. split; auto.
  intros i Hi. specialize (H i Hi). destruct (Nat.eq_dec i d) as [-> | Ne].
  - rewrite move_nth_at by lia. rewrite (ex_in (d :: D)) by (left; auto). rewrite (ex_notin D d Nd) in H. lia.
  - rewrite move_nth_off by auto.
    assert (E : ex (d :: D) i = ex D i).
    { unfold ex. cbn [existsb]. replace (Nat.eqb i d) with false; auto. symmetry. apply Nat.eqb_neq. auto. }
    rewrite E. lia.
Qed.
End ranges.

(* ---- what a right-hand side reads ---- *)
Lemma sem_reach : forall J k dirof h sizes (E : string -> list nat) M F e D x,
  (forall b ix, In (b, ix) (dsets e) -> ix = repeat 0%Z (List.length sizes) /\
     (forall d, In d D -> In d (E b)) /\ forall y, in_range k sizes (E b) y = true -> M b y = F b y) ->
  (forall u, inside u e -> derivative u -> exists a n m, u = EApp HCD (a :: repeat (ESym KCoord n) (S m)) /\
     (dirof n < List.length sizes)%nat /\ ~ In (dirof n) D /\ (forall b ix, In (b, ix) (dsets a) -> In (dirof n) (E b)) /\
     forall w a' n' m', inside w a -> w = EApp HCD (a' :: repeat (ESym KCoord n') (S m')) -> dirof n' <> dirof n) ->
  in_range k sizes D x = true -> sem J k dirof h M e x = sem J k dirof h F e x.
Proof.
  intros J k dirof h sizes E M F. induction e as [q|kd n|b ix|hd args IH] using expr_ind'; intros D x Hb Hu Hx; auto.
  - cbn [sem]. destruct (Hb b ix) as (-> & HD & HM); [left; auto|].
    assert (L : List.length x = List.length sizes) by (apply in_range_iff in Hx; tauto).
    rewrite vadd_0_r by auto. apply HM. eapply in_range_incl; [|exact Hx]. exact HD.
  - rewrite Forall_forall in IH.
    assert (A : hd <> HCD \/ args = [] -> map (fun a => sem J k dirof h M a x) args = map (fun a => sem J k dirof h F a x) args).
    { intros _. apply map_ext_in. intros a Ha. apply (IH a Ha D); auto.
      - intros b ix Hin. apply Hb. rewrite dsets_app. apply in_flat_map. eauto.
      - intros u Hi Hd. apply Hu; auto. eapply in_arg; eauto. }
    destruct hd; cbn [sem]; try (rewrite A by (left; discriminate); reflexivity).
    destruct args as [|a cs]; [reflexivity|].
    destruct (Hu (EApp HCD (a :: cs)) (in_self _) ltac:(eexists _, _; reflexivity)) as (a0 & n & m & Eq & Hd & Nd & Ha & Hw).
    injection Eq as <- ->. cbn [repeat direction]. cbn [List.length]. rewrite repeat_length.
    apply grid_ext_in. intros i Hi. apply (IH a (or_introl eq_refl) (dirof n :: D)).
    + intros b ix Hin. destruct (Hb b ix) as (Ez & HD & HM); [rewrite dsets_app; apply in_flat_map; exists a; split; [left|]; auto|].
      split; auto. split; auto. intros d [<- | H]; auto. eapply Ha; eauto.
    + intros u Hui Hdu. destruct (Hu u) as (a' & n' & m' & Eu & Hd' & Nd' & Ha' & Hw'); auto.
      { eapply in_arg; [left; reflexivity | auto]. }
      exists a', n', m'. split; auto. split; auto. split; [|split; auto].
      intros [C | C]; [|contradiction]. eapply Hw; eauto.
    + apply in_range_moved; auto.
Qed.

Lemma wf_weaken : forall ndim dirof (P Q : string -> Prop) eqs, (forall b, Q b -> P b) ->
  well_formed ndim dirof P eqs -> well_formed ndim dirof Q eqs.
Proof.
  intros ndim dirof P Q eqs H [A B C D E F G I]. constructor; auto.
  - intros r rhs Hin q. apply (B r rhs Hin). auto.
  - intros r rhs b ix Hin Hb. destruct (C r rhs b ix Hin Hb) as (X & Y & Z). split; auto.
Qed.
Lemma disc_in : forall sys r rhs, In (r, rhs) (disc_eqs sys) -> exists v, In (v, rhs) sys.
Proof.
  intros sys r rhs H. unfold disc_eqs in H. apply in_combine_r in H. apply in_map_iff in H. destruct H as ([v e] & E & H).
  cbn in E. subst. eauto.
Qed.
Lemma in_disc_gen : forall (sys : list (string * expr)) s v rhs, In (v, rhs) sys ->
  exists j, nth_error sys j = Some (v, rhs) /\ In (AdvModel.residual_name (s + j), rhs) (combine (map AdvModel.residual_name (seq s (List.length sys))) (map snd sys)).
Proof.
  induction sys as [|p sys IH]; intros s v rhs H; [destruct H|]. destruct H as [-> | H].
  - exists 0%nat. rewrite Nat.add_0_r. split; auto. left. reflexivity.
  - destruct (IH (S s) v rhs H) as (j & E & I). exists (S j). split; auto. right. rewrite Nat.add_succ_r. exact I.
Qed.
Lemma in_disc : forall sys v rhs, In (v, rhs) sys -> exists r, In (r, rhs) (disc_eqs sys).
Proof. intros. destruct (in_disc_gen sys 0 v rhs H) as (j & _ & I). eauto. Qed.
(* the equation that advances v has the residual array of its right-hand side *)
Lemma adv_disc_gen : forall (sys : list (string * expr)) s v rhs, In (v, rhs) sys ->
  exists r, In (r, rhs) (combine (map AdvModel.residual_name (seq s (List.length sys))) (map snd sys)) /\
    In {| AdvModel.eq_advanced := [v]; AdvModel.eq_residual := r |}
       (map (fun p => {| AdvModel.eq_advanced := fst p; AdvModel.eq_residual := AdvModel.residual_name (snd p) |})
            (combine (map (fun s => [fst s]) sys) (seq s (List.length sys)))).
Proof.
  induction sys as [|p sys IH]; intros s v rhs H; [destruct H|]. destruct H as [-> | H].
  - eexists. split; left; reflexivity.
  - destruct (IH (S s) v rhs H) as (r & A & B). exists r. split; right; auto.
Qed.
Lemma adv_disc : forall sys v rhs, In (v, rhs) sys ->
  exists r, In (r, rhs) (disc_eqs sys) /\ In {| AdvModel.eq_advanced := [v]; AdvModel.eq_residual := r |} (adv_eqs sys).
Proof.
  intros sys v rhs H. destruct (adv_disc_gen sys 0 v rhs H) as (r & A & B). exists r. split; auto.
  unfold adv_eqs, AdvModel.with_residuals. rewrite map_length. exact B.
Qed.
Lemma adv_one_gen : forall (sys : list (string * expr)) s e, In e (map (fun p => {| AdvModel.eq_advanced := fst p; AdvModel.eq_residual := AdvModel.residual_name (snd p) |})
            (combine (map (fun s => [fst s]) sys) (seq s (List.length sys)))) ->
  exists v rhs, In (v, rhs) sys /\ AdvModel.eq_advanced e = [v].
Proof.
  induction sys as [|[v rhs] sys IH]; intros s e H; [destruct H|]. destruct H as [<- | H].
  - exists v, rhs. split; [left|]; reflexivity.
  - destruct (IH (S s) e H) as (v' & rhs' & A & B). exists v', rhs'. split; auto. right. auto.
Qed.
Lemma adv_one : forall sys e, In e (adv_eqs sys) -> exists v rhs, In (v, rhs) sys /\ AdvModel.eq_advanced e = [v].
Proof. intros sys e H. unfold adv_eqs, AdvModel.with_residuals in H. rewrite map_length in H. eapply adv_one_gen; eauto. Qed.

Lemma inside_term : forall rhs u, (exists args, rhs = EApp HAdd args \/ rhs = EApp HMul args) -> inside u rhs -> derivative u ->
  exists t, In t (terms rhs) /\ inside u t.
Proof.
  intros rhs u (args & [-> | ->]) Hi (a & cs & Hd).
  - inversion Hi; subst; [discriminate|]. eauto.
  - exists (EApp HMul args). split; [left|]; auto.
Qed.

Lemma advanced_eq : forall sys, flat_map AdvModel.eq_advanced (adv_eqs sys) = map fst sys.
Proof.
  intros sys. unfold adv_eqs, AdvModel.with_residuals. rewrite map_length. generalize 0%nat as s. induction sys as [|p l IH]; intros s; auto.
  cbn [map combine seq List.length flat_map AdvModel.eq_advanced fst app]. f_equal. apply IH.
Qed.
Lemma residual_eq : forall sys, map AdvModel.eq_residual (adv_eqs sys) = map fst (disc_eqs sys).
Proof.
  intros sys. unfold disc_eqs, adv_eqs, AdvModel.with_residuals. rewrite map_length. generalize 0%nat as s. induction sys as [|p l IH]; intros s; auto.
  cbn [map combine seq List.length AdvModel.eq_residual fst snd app]. f_equal. apply IH.
Qed.
Lemma nodup_disjoint : forall (A : Type) (l l' : list A), NoDup (l ++ l') -> forall a, In a l -> ~ In a l'.
Proof.
  induction l as [|c l IH]; intros l' ND a Ha; [destruct Ha|]. cbn in ND. inversion ND; subst. destruct Ha as [-> | Ha]; [|eapply IH; eauto].
  intros C. apply H1. apply in_app_iff. auto.
Qed.

Lemma wrap_grid : forall sizes x, grid_point sizes x -> wrap sizes x = x.
Proof.
  unfold grid_point. intros sizes x H. induction H as [|n i sizes' x' Hi H IH]; auto. cbn. rewrite IH, Z.mod_small by auto. reflexivity.
Qed.
Lemma wrap_map2 : forall sizes x, List.length x = List.length sizes -> BCModel.map2 Z.modulo x sizes = wrap sizes x.
Proof. induction sizes as [|n sizes IH]; intros [|i x] L; cbn in *; auto; try lia. rewrite IH by lia. reflexivity. Qed.
Lemma wrap_in : forall sizes x, List.length x = List.length sizes -> (forall d, (d < List.length sizes)%nat -> (0 < nth d sizes 0)%Z) -> grid_point sizes (wrap sizes x).
Proof.
  unfold grid_point. induction sizes as [|n sizes IH]; intros [|i x] L H; cbn in *; try lia; constructor.
  - apply Z.mod_pos_bound. apply (H 0%nat). lia.
  - apply IH; [lia|]. intros d Hd. apply (H (S d)). lia.
Qed.
Lemma fold_left_map : forall (A B C : Type) (g : A -> B) (f : C -> B -> C) l a, fold_left f (map g l) a = fold_left (fun c x => f c (g x)) l a.
Proof. induction l as [|x l IH]; intros a; auto. cbn. apply IH. Qed.
Lemma combine_nth_seq : forall (a b : list R), List.length a = List.length b ->
  combine a b = map (fun i => (nth i a 0%R, nth i b 0%R)) (seq 0 (List.length a)).
Proof.
  induction a as [|x a IH]; intros [|y b] L; cbn in *; auto; try lia. f_equal. rewrite IH by lia. rewrite <- seq_shift, map_map. reflexivity.
Qed.
Lemma coefficients_len : forall ts ab, coefficients ts = Ok ab -> List.length (fst ab) = List.length (snd ab).
Proof.
  intros [order form | order] ab E; cbn in E.
  - destruct order as [|[|[|[|[|o]]]]], form; cbn in E; try discriminate; injection E as <-; reflexivity.
  - destruct order as [|[|[|[|o]]]]; cbn in E; try discriminate; injection E as <-; reflexivity.
Qed.

Section prog.
Variables (J : interp R) (k : nat) (dirof : string -> nat) (inv : nat -> nat -> expr)
  (dord : expr -> list dset) (sord : list (expr * string) -> list (expr * string))
  (num : string -> OrdModel.key) (kord : list string -> list string) (h : nat -> R) (sizes : list Z)
  (sys crs : list (string * expr)) (known : list string) (ccds vcds : list expr) (register : string -> string).
Notation ndim := (List.length sizes).
Notation eqs := (disc_eqs sys).
Notation E := (cr_directions dirof (ccds ++ vcds)).
Hypothesis HJ : real_arithmetic J.
Hypothesis Hinv : forall M x d m, value J M x (inv d m) = (/ h d ^ m)%R.
Hypothesis Hdord : forall e, enumerates (dord e) e.
Hypothesis Hperm : forall l, Permutation l (sord l).
Hypothesis Hinner : forall l l', Permutation l l' -> inner_first l' -> inner_first (sord l).
Hypothesis Hnum : forall a b, num a = num b -> a = b.
Hypothesis Hkord : forall l, Permutation l (kord l).
Hypothesis PP : periodic_problem ndim dirof register sys crs known.
Hypothesis HC : lists_derivatives eqs (fun t => ~ viscous_term t) ccds.
Hypothesis HV : lists_derivatives eqs viscous_term vcds.
Hypothesis Nc : ccds <> [].
Hypothesis Nv : vcds = [] -> forall r rhs t, In (r, rhs) eqs -> In t (terms rhs) -> ~ viscous_term t.

Lemma viscous_dec : forall t, viscous_term t \/ ~ viscous_term t.
Proof. intros t. rewrite <- has_re_spec. destruct (has_re t); [left | right]; congruence. Qed.

Lemma deriv_listed : forall v rhs u, In (v, rhs) sys -> inside u rhs -> derivative u -> In u (ccds ++ vcds).
Proof.
  intros v rhs u Hin Hi Hd. destruct (in_disc sys v rhs Hin) as (r & Hr).
  destruct (inside_term rhs u (wf_form _ _ _ _ (pp_form _ _ _ _ _ _ PP) r rhs Hr) Hi Hd) as (t & Ht & Hit).
  apply in_app_iff. destruct (viscous_dec t) as [V | V].
  - right. apply (proj2 HV). split; auto. exists r, rhs, t. auto.
  - left. apply (proj2 HC). split; auto. exists r, rhs, t. auto.
Qed.
Lemma deriv_shape : forall v rhs u, In (v, rhs) sys -> inside u rhs -> derivative u ->
  exists a n m, u = EApp HCD (a :: repeat (ESym KCoord n) (S m)) /\ (dirof n < ndim)%nat /\
    (forall b ix, In (b, ix) (dsets a) -> In (dirof n) (E b)) /\
    forall w a' n' m', inside w a -> w = EApp HCD (a' :: repeat (ESym KCoord n') (S m')) -> dirof n' <> dirof n.
Proof.
  intros v rhs u Hin Hi Hd. destruct (in_disc sys v rhs Hin) as (r & Hr). pose proof (pp_form _ _ _ _ _ _ PP) as WF.
  destruct (wf_derivative _ _ _ _ WF r rhs u Hr Hi Hd) as (a & n & m & Eu & Hn & _).
  exists a, n, m. split; auto. split; auto. split.
  - intros b ix Hb. unfold cr_directions. apply in_flat_map. exists u. split; [eapply deriv_listed; eauto|].
    subst u. cbn [cd_arg]. destruct (in_dec string_dec b (arrays_in a)) as [_ | N].
    + left. unfold cd_dir, cd_dirs. reflexivity.
    + exfalso. apply N. unfold arrays_in. change b with (fst (b, ix)). apply in_map. auto.
  - intros w a' n' m' Hw Ew Eq. assert (Dw : derivative w) by (subst w; eexists _, _; reflexivity).
    destruct (inside_term rhs u (wf_form _ _ _ _ WF r rhs Hr) Hi Hd) as (t & Ht & Hit).
    destruct (viscous_dec t) as [V | V].
    + destruct (wf_viscous _ _ _ _ WF r rhs t u Hr Ht V Hit Hd) as (_ & X).
      apply (X a n (repeat (ESym KCoord n) m) w Eu Hw Dw).
      assert (n' = n).
      { eapply (pp_coordinates _ _ _ _ _ _ PP v rhs v rhs); eauto.
        - eapply inside_syms; [eapply inside_trans; [exact Hw|]; eapply inside_trans; [|exact Hi]; subst u; eapply in_arg; [left; reflexivity | constructor]|].
          subst w. cbn. apply in_app_iff. right. left. reflexivity.
        - eapply inside_syms; [exact Hi|]. subst u. cbn. apply in_app_iff. right. left. reflexivity. }
      subst n' w. cbn. apply in_app_iff. right. left. reflexivity.
    + pose proof (wf_convective _ _ _ _ WF r rhs t u Hr Ht V Hit Hd) as L. rewrite nderivs_len in L. subst u. rewrite cds_cd in L.
      assert (In w (cds_post a)) by (apply in_cds; auto). destruct (cds_post a) as [|c l]; [contradiction|].
      rewrite app_length in L. cbn in L. lia.
Qed.
Lemma dirs_iff : forall b d, In d (E b) <-> differentiated dirof sys b d.
Proof.
  intros b d. split.
  - intros H. unfold cr_directions in H. apply in_flat_map in H. destruct H as (u & Hu & Hd).
    destruct (in_dec string_dec b (arrays_in (cd_arg u))) as [i | i]; [|contradiction]. destruct Hd as [<- | []].
    assert (Q : derivative u /\ exists v rhs, In (v, rhs) sys /\ inside u rhs).
    { apply in_app_iff in Hu. destruct Hu as [Hu | Hu]; [apply (proj2 HC) in Hu | apply (proj2 HV) in Hu];
        destruct Hu as (Du & r & rhs & t & Hr & Ht & _ & Hi); split; auto; destruct (disc_in _ _ _ Hr) as (v & Hv);
        exists v, rhs; split; auto; eapply inside_trans; [exact Hi | apply terms_inside; auto | exact Hi | apply terms_inside; auto]. }
    destruct Q as (Du & v & rhs & Hin & Hi). destruct (deriv_shape v rhs u Hin Hi Du) as (a & n & m & -> & _).
    cbn [cd_arg] in i. unfold arrays_in in i. apply in_map_iff in i. destruct i as ([b' ix] & Eb & i). cbn in Eb. subst b'.
    exists v, rhs, a, n, (repeat (ESym KCoord n) m), ix. repeat split; auto.
  - intros (v & rhs & a & n & cs & ix & Hin & Hi & Hb & <-).
    destruct (deriv_shape v rhs _ Hin Hi) as (a' & n' & m & Eq & _ & X & _); [eexists _, _; reflexivity|].
    injection Eq as <- <- _. eapply X; eauto.
Qed.

(* ---- the constituent relations ---- *)
Lemma relation_some : forall b e, ProgModel.relation crs b = Some e <-> In (b, e) crs.
Proof.
  intros b e. unfold ProgModel.relation. pose proof (pp_relations _ _ _ _ _ _ PP) as ND. split.
  - destruct (find _ _) as [[b' e']|] eqn:F; cbn; [|discriminate]. intros [= ->]. apply find_some in F. destruct F as [I Q].
    apply String.eqb_eq in Q. cbn in Q. subst b'. apply in_rev. auto.
  - intros H. destruct (find _ _) as [[b' e']|] eqn:F; cbn.
    + apply find_some in F. destruct F as [I Q]. apply String.eqb_eq in Q. cbn in Q. subst b'. apply in_rev in I.
      f_equal. clear - ND H I. induction crs as [|[c q] l IH]; [destruct H|]. cbn in ND. inversion ND; subst.
      destruct H as [H | H], I as [I | I]; auto.
      * congruence.
      * injection H as -> ->. exfalso. apply H2. change b with (fst (b, e')). apply in_map. auto.
      * injection I as -> ->. exfalso. apply H2. change b with (fst (b, e)). apply in_map. auto.
    + exfalso. pose proof (find_none _ _ F (b, e) (proj1 (in_rev _ _) H)) as Q. cbn in Q. rewrite String.eqb_refl in Q. discriminate.
Qed.
Lemma relation_none : forall b, ProgModel.relation crs b = None <-> ~ In b (map fst crs).
Proof.
  intros b. split.
  - intros H C. apply in_map_iff in C. destruct C as ([b' e] & Eb & C). cbn in Eb. subst b'. apply relation_some in C. congruence.
  - intros H. destruct (ProgModel.relation crs b) eqn:R; auto. apply relation_some in R. exfalso. apply H. change b with (fst (b, e)). apply in_map. auto.
Qed.
Notation REQ := (required kord ccds vcds eqs).
Lemma required_nodup : NoDup REQ.
Proof. unfold required. eapply Permutation_NoDup; [apply Hkord|]. apply NoDup_nodup. Qed.
Lemma classify_arrays : forall r rhs b ix, In (r, rhs) eqs -> In (b, ix) (dsets rhs) ->
  In (b, ix) (dsets (fst (classify rhs))) \/ In (b, ix) (dsets (snd (classify rhs))).
Proof.
  intros r rhs b ix Hr Hb. pose proof (pp_form _ _ _ _ _ _ PP) as WF. pose proof (wf_function _ _ _ _ WF r rhs Hr) as NF.
  destruct (wf_form _ _ _ _ WF r rhs Hr) as (args & [-> | ->]).
  - cbn [classify fst snd zero_functions].
    assert (Z : forall p, map zero_functions (filter p args) = filter p args).
    { intros p. apply map_zero_id. intros a Ha. apply filter_In in Ha. eapply no_function_args; [exact NF | tauto]. }
    rewrite !Z, !dsets_app. rewrite dsets_app in Hb. apply in_flat_map in Hb. destruct Hb as (a & Ha & Hb).
    destruct (has_re a) eqn:H; [left | right]; apply in_flat_map; exists a; split; auto; apply filter_In; rewrite H; auto.
  - unfold classify. destruct (has_re (EApp HMul args)); cbn [fst snd]; rewrite (zero_functions_id _ NF); auto.
Qed.
Lemma required_reads : forall v rhs b ix, In (v, rhs) sys -> In (b, ix) (dsets rhs) -> In b REQ.
Proof.
  intros v rhs b ix Hin Hb. destruct (in_disc sys v rhs Hin) as (r & Hr). unfold required.
  eapply Permutation_in; [apply Hkord|]. apply nodup_In. rewrite !in_app_iff.
  destruct (classify_arrays r rhs b ix Hr Hb) as [H | H].
  - right. right. right. apply in_flat_map. exists (r, rhs). split; auto. unfold arrays_in. change b with (fst (b, ix)). apply in_map. auto.
  - right. left. destruct ccds as [|c l]; [congruence|]. apply in_flat_map. exists (r, rhs). split; auto. unfold arrays_in. change b with (fst (b, ix)). apply in_map. auto.
Qed.
Definition crk (b : string) (e : expr) : OrdModel.crkernel kernel :=
  {| OrdModel.ck_base := num b; OrdModel.ck_index := repeat 0%Z ndim;
     OrdModel.ck_requires := map num (nodup string_dec (arrays_in e));
     OrdModel.ck_kernel := {| k_eqs := [(b, e)]; k_ext := E b |} |}.
Notation CRK := (cr_kernels ndim dirof num kord crs ccds vcds eqs).
Lemma crk_in : forall c, In c CRK <-> exists b e, In b REQ /\ In (b, e) crs /\ c = crk b e.
Proof.
  intros c. unfold cr_kernels. rewrite in_flat_map. split.
  - intros (b & Hb & Hc). destruct (ProgModel.relation crs b) as [e|] eqn:R; [|contradiction]. destruct Hc as [<- | []].
    exists b, e. split; auto. split; auto. apply relation_some. auto.
  - intros (b & e & Hb & He & ->). exists b. split; auto. apply relation_some in He. rewrite He. left. reflexivity.
Qed.
Lemma crk_nodup : NoDup (map OrdModel.ck_base CRK).
Proof.
  unfold cr_kernels. pose proof required_nodup as ND. induction REQ as [|b l IH]; cbn [flat_map map]; [constructor|].
  inversion ND; subst. rewrite map_app. destruct (ProgModel.relation crs b) as [e|]; cbn [map app]; auto. constructor; auto.
  intros C. apply in_map_iff in C. destruct C as (c & Ec & C). apply in_flat_map in C. destruct C as (b' & Hb' & C).
  destruct (ProgModel.relation crs b'); [|contradiction]. destruct C as [<- | []]. cbn in Ec. apply Hnum in Ec. subst. contradiction.
Qed.

(* ---- names ---- *)
Lemma sys_names : forall v, In v (map fst sys) ->
  ~ In v (map fst eqs) /\ ~ In v (map fst crs) /\ (forall i, v <> wk_name i) /\
  ~ In (register v) (map fst eqs) /\ ~ In (register v) (map fst crs) /\ (forall i, register v <> wk_name i) /\
  ~ In (register v) (map fst sys).
Proof.
  intros v Hv. pose proof (pp_arrays _ _ _ _ _ _ PP) as ND. unfold AdvSpec.distinct_arrays in ND. rewrite advanced_eq, residual_eq in ND.
  destruct (pp_work _ _ _ _ _ _ PP v Hv) as [W1 W2].
  assert (D : forall a, In a (map fst sys) -> ~ In a (map register (map fst sys) ++ map fst eqs)).
  { apply nodup_disjoint. auto. }
  assert (D2 : forall a, In a (map register (map fst sys)) -> ~ In a (map fst eqs)).
  { apply nodup_disjoint. eapply AdvProofs.NoDup_app_remove_l; eauto. }
  assert (Hr : In (register v) (map register (map fst sys))) by (apply in_map; auto).
  repeat split; auto.
  - intros C. apply (D v Hv). apply in_app_iff. auto.
  - intros C. destruct (pp_names _ _ _ _ _ _ PP v C) as (_ & A & _). auto.
  - intros C. destruct (pp_names _ _ _ _ _ _ PP _ C) as (A & _). apply A. right. eauto.
  - intros C. apply (D _ C). apply in_app_iff. auto.
Qed.

(* ---- the arrays of one stage ---- *)
(* the points the halos of the scheme reach *)
Definition near (x : list Z) : Prop :=
  List.length x = ndim /\ forall d, (d < ndim)%nat -> (- Z.of_nat k <= nth d x 0 < nth d sizes 0 + Z.of_nat k)%Z.
Lemma range_near : forall D x, in_range k sizes D x = true -> near x.
Proof.
  intros D x H. apply in_range_iff in H. destruct H as [L H]. split; auto. intros d Hd. specialize (H d Hd).
  pose proof (ex_bound k D d). lia.
Qed.
Definition other (b : string) : Prop :=
  ~ In b (map fst sys) /\ ~ In b (map fst crs) /\ ~ private register sys b /\ ~ In b (map fst eqs).
(* M holds the solution U with halos, and the other arrays *)
Definition holds (S : memory) (U : solution) (M : memory) : Prop :=
  (forall v y, In v (map fst sys) -> near y -> M v y = U (v, wrap sizes y)) /\
  (forall b y, other b -> M b y = S b y).

Lemma named : forall (A : Type) (l : list (string * A)) b e, In (b, e) l -> In b (map fst l).
Proof. intros A l b e H. change b with (fst (b, e)). apply in_map. auto. Qed.
Lemma in_named : forall (A : Type) (l : list (string * A)) b, In b (map fst l) -> exists e, In (b, e) l.
Proof. intros A l b H. apply in_map_iff in H. destruct H as ([c e] & <- & H). eauto. Qed.
Notation START := (map num (nodup string_dec (requires kord crs ccds vcds eqs ++ map fst sys ++ known))).
Lemma start_not_cr : forall b, In b (map fst crs) -> ~ In (num b) START.
Proof.
  intros b Hb C. apply in_map_iff in C. destruct C as (c & Ec & C). apply Hnum in Ec. subst c. apply nodup_In in C.
  destruct (pp_names _ _ _ _ _ _ PP b Hb) as (_ & A & _ & B). rewrite !in_app_iff in C. destruct C as [C | [C | C]]; auto.
  unfold requires in C. apply filter_In in C. destruct C as [_ C]. destruct (ProgModel.relation crs b) eqn:R; [discriminate|].
  apply relation_none in R. auto.
Qed.

Section stage.
Variables (S : memory) (U : solution) (F : memory).
Hypothesis HF : fields J sizes sys crs S U F.

Lemma reads_ok : forall M a M' c y, holds S U M -> near y ->
  (forall b y, ~ In b (map fst crs) -> M' b y = M b y) ->
  (forall b e y, In b a -> In (b, e) crs -> in_range k sizes (E b) y = true -> M' b y = F b y) ->
  ~ private register sys c -> ~ In c (map fst eqs) ->
  (In c (map fst crs) -> In c a /\ in_range k sizes (E c) y = true) ->
  M' c y = F c y.
Proof.
  intros M a M' c y [HM1 HM2] Hy Hfr Ha Np Nr Hc.
  destruct (in_dec string_dec c (map fst crs)) as [Ic | Ic].
  - destruct (Hc Ic) as [A B]. destruct (in_named _ _ _ Ic) as (e & He). eapply Ha; eauto.
  - rewrite Hfr by auto. destruct (in_dec string_dec c (map fst sys)) as [Is | Is].
    + rewrite HM1 by auto. symmetry. apply (f_solution _ _ _ _ _ _ _ HF); auto. apply Hy.
    + rewrite HM2 by (unfold other; auto). symmetry. apply (f_other _ _ _ _ _ _ _ HF); auto.
Qed.

Lemma cr_run : forall cs M, holds S U M ->
  OrdSpec.evaluation_order START (map (fun c => (OrdModel.ck_base c, OrdModel.ck_requires c)) CRK) (map OrdModel.ck_base cs) ->
  (forall c, In c cs -> In c CRK) ->
  forall a rest, cs = a ++ rest ->
  let M' := exec J k sizes (map OrdModel.ck_kernel a) M in
  (forall b y, ~ In b (map fst crs) -> M' b y = M b y) /\
  (forall b e y, In (num b) (map OrdModel.ck_base a) -> In (b, e) crs -> in_range k sizes (E b) y = true -> M' b y = F b y).
Proof.
  intros cs M HM EO Hin. induction a as [|c a IH] using rev_ind; intros rest Hcs.
  { split; auto. intros b e y []. }
  rewrite <- app_assoc in Hcs. cbn [app] in Hcs. specialize (IH (c :: rest) Hcs). destruct IH as [IF IV].
  rewrite map_app, exec_app. cbn [map]. set (Ma := exec J k sizes (map OrdModel.ck_kernel a) M) in *.
  assert (Hc : In c CRK) by (apply Hin; rewrite Hcs; apply in_app_iff; right; left; auto).
  pose proof Hc as Hc'. apply crk_in in Hc'. destruct Hc' as (b0 & e0 & Hreq & He0 & Ec).
  assert (V : forall b y, exec J k sizes [OrdModel.ck_kernel c] Ma b y =
             if String.eqb b b0 && in_range k sizes (E b0) y then value J Ma y e0 else Ma b y).
  { intros b y. rewrite Ec. unfold crk. cbn [OrdModel.ck_kernel exec fold_left exec_kernel k_eqs k_ext]. unfold exec_eq. cbn [fst snd].
    destruct (String.eqb b b0 && in_range k sizes (E b0) y); [apply eval_value | reflexivity]. }
  assert (W : forall y, in_range k sizes (E b0) y = true -> value J Ma y e0 = F b0 y).
  { intros y Hy. assert (Ly : List.length y = ndim) by (apply in_range_iff in Hy; tauto).
    rewrite (f_relation _ _ _ _ _ _ _ HF b0 e0 y He0 Ly). unfold value. apply eval_ext. intros c0 ix Hix.
    destruct (pp_local _ _ _ _ _ _ PP b0 e0 c0 ix He0 Hix) as (-> & Np & Nr). rewrite vadd_0_r by auto.
    apply (reads_ok M (filter (fun b => if in_dec Nat.eq_dec (num b) (map OrdModel.ck_base a) then true else false) (map fst crs)) Ma c0 y HM (range_near _ _ Hy) IF); auto.
    - intros b e y0 Hb Hbe Hr. apply filter_In in Hb. destruct Hb as [_ Hb]. destruct (in_dec Nat.eq_dec (num b) (map OrdModel.ck_base a)); [|discriminate].
      eapply IV; eauto.
    - intros Hcr. split.
      + apply filter_In. split; auto. destruct (in_dec Nat.eq_dec (num c0) (map OrdModel.ck_base a)) as [|N]; auto. exfalso.
        destruct EO as (_ & _ & EO). specialize (EO (map OrdModel.ck_base a) (OrdModel.ck_base c) (map OrdModel.ck_base rest) (OrdModel.ck_requires c)).
        destruct (EO ltac:(rewrite Hcs, map_app; reflexivity) ltac:(apply in_map_iff; exists c; auto) (num c0)) as [A | A].
        * rewrite Ec. cbn [crk OrdModel.ck_requires]. apply in_map. apply nodup_In. unfold arrays_in.
          change c0 with (fst (c0, repeat 0%Z ndim)). apply in_map. auto.
        * eapply start_not_cr; eauto.
        * auto.
      + eapply in_range_incl; [|exact Hy]. intros d Hd. apply dirs_iff. apply dirs_iff in Hd. eapply pp_ranges; eauto. }
  split.
  - intros b y Nb. rewrite V. destruct (String.eqb_spec b b0) as [-> | N]; [exfalso; apply Nb; eapply named; eauto|]. cbn [andb]. auto.
  - intros b e y Hb He Hy. rewrite V. destruct (String.eqb_spec b b0) as [-> | N].
    + rewrite Hy. cbn [andb]. auto.
    + cbn [andb]. rewrite map_app in Hb. apply in_app_iff in Hb. destruct Hb as [Hb | [Hb | []]]; [eapply IV; eauto|].
      exfalso. rewrite Ec in Hb. cbn in Hb. apply Hnum in Hb. congruence.
Qed.
End stage.

Lemma spatial_ok : forall sp, all_spatial_kernels k ndim dirof inv dord sord num kord crs (map fst sys ++ known) ccds vcds eqs = Ok sp ->
  forall S U F M, fields J sizes sys crs S U F -> holds S U M ->
  let M' := exec J k sizes sp M in
  (forall v rhs r x, In (v, rhs) sys -> In (r, rhs) eqs -> grid_point sizes x -> M' r x = sem J k dirof h F rhs x) /\
  (forall b y, ~ In b (map fst eqs) -> ~ In b (map fst crs) -> (forall i, b <> wk_name i) -> M' b y = M b y).
Proof.
  intros sp Esp S U F M HF HM M'. unfold all_spatial_kernels in Esp.
  destruct (residual_ok J k ndim dirof inv dord sord h sizes HJ Hinv Hdord eq_refl Hperm Hinner eqs
     (wf_weaken _ _ _ reserved _ (fun b H => or_introl H) (pp_form _ _ _ _ _ _ PP)) ccds vcds HC HV Nc Nv) as (ks & Eks & X).
  rewrite Eks in Esp. cbn [bind] in Esp.
  destruct (OrdModel.sort_constituents kernel OrdModel.max_passes START CRK) as [cs|] eqn:Ecs; [|discriminate].
  cbn [bind] in Esp. injection Esp as <-.
  destruct (OrdProps.C20_kernels kernel START CRK cs crk_nodup Ecs) as (cl & -> & EO & Hcl).
  destruct (cr_run S U F HF cl M HM EO (fun c H => proj1 (proj1 (Hcl c) H)) cl [] (eq_sym (app_nil_r cl))) as [CF CV].
  unfold M'. rewrite exec_app. set (Mc := exec J k sizes (map OrdModel.ck_kernel cl) M) in *.
  destruct (X Mc) as [X1 X2]. split.
  - intros v rhs r x Hv Hr Hx. rewrite (X1 r rhs x Hr Hx).
    apply (sem_reach J k dirof h sizes E Mc F rhs []).
    + intros b ix Hb. destruct (wf_arrays _ _ _ _ (pp_form _ _ _ _ _ _ PP) r rhs b ix Hr Hb) as (Ei & Np & Nr).
      split; auto. split; [intros d []|]. intros y Hy.
      apply (reads_ok S U F HF M REQ Mc b y HM (range_near _ _ Hy) CF); auto.
      * intros b' e y' Hb' He Hy'. eapply CV; eauto.
        apply in_map_iff. exists (crk b' e). split; auto. apply Hcl. split.
        -- apply crk_in. exists b', e. split; auto.
        -- apply start_not_cr. eapply named; eauto.
      * intros _. split; auto. eapply required_reads; eauto.
    + intros u Hi Hd. destruct (deriv_shape v rhs u Hv Hi Hd) as (a & n & m & Eu & Hn & Ha & Hw). exists a, n, m. repeat split; auto.
    + apply grid_point_range. auto.
  - intros b y Nr Ncr Nw. rewrite X2; auto. intros (i & Ei). apply (Nw i Ei).
Qed.

(* ---- time stepping ---- *)
Section time.
Variables (S : memory) (f : solution -> solution) (sp : list kernel) (dt : R) (ab : list R * list R).
Hypothesis Hf : semi_discrete J k dirof h sizes sys crs S f.
Hypothesis Esp : all_spatial_kernels k ndim dirof inv dord sord num kord crs (map fst sys ++ known) ccds vcds eqs = Ok sp.
Hypothesis Hsz : forall d, (d < ndim)%nat -> (Z.of_nat k <= nth d sizes 0)%Z.
Notation RUN := (run_event J k sizes dt ab).
Notation EX := (BCModel.periodic_all sizes (block_halos k ndim) (map fst sys)).
Notation gp := (grid_point sizes).

Definition interior (U : solution) (M : memory) : Prop :=
  (forall v x, In v (map fst sys) -> gp x -> M v x = U (v, x)) /\ (forall b y, other b -> M b y = S b y).
Definition registered (T : solution) (M : memory) : Prop :=
  forall v x, In v (map fst sys) -> gp x -> M (register v) x = T (v, x).


Lemma dim_pos : (0 < ndim)%nat.
Proof.
  destruct ccds as [|c l] eqn:Ec; [congruence|].
  assert (Hc : In c ccds) by (rewrite Ec; left; auto). pose proof HC as HC'. rewrite <- Ec in HC'. apply (proj2 HC') in Hc.
  destruct Hc as (Dc & r & rhs & t & Hr & Ht & _ & Hi).
  assert (Hi' : inside c rhs) by (eapply inside_trans; [exact Hi | apply terms_inside; auto]).
  destruct (wf_derivative _ _ _ _ (pp_form _ _ _ _ _ _ PP) r rhs c Hr Hi' Dc) as (a & n & m & _ & Hn & _). lia.
Qed.
Lemma exchanged : forall U M, interior U M ->
  holds S U (BCModel.transfers EX M) /\ forall b y, ~ In b (map fst sys) -> BCModel.transfers EX M b y = M b y.
Proof.
  intros U M [HI HO]. pose proof dim_pos as DP.
  assert (Lh : List.length (block_halos k ndim) = ndim) by apply repeat_length.
  assert (Hl : BCSpec.lower_halo (block_halos k ndim) 0 = (- Z.of_nat k)%Z).
  { unfold BCSpec.lower_halo, block_halos. destruct ndim; [lia|]. cbn. lia. }
  assert (Hu : BCSpec.upper_halo (block_halos k ndim) 0 = (Z.of_nat k)%Z).
  { unfold BCSpec.upper_halo, block_halos. destruct ndim; [lia|]. cbn. lia. }
  assert (Fr : forall b y, ~ In b (map fst sys) -> BCModel.transfers EX M b y = M b y).
  { intros b y Nb. apply PerProps.C43_frame; auto. rewrite Hl, Hu. lia. }
  split; auto. split.
  - intros v y Hv [Ly Hy].
    rewrite (PerProps.C43_periodic_partial R sizes (block_halos k ndim) (map fst sys) M (Z.of_nat k) (Z.of_nat k) v y); auto; try lia.
    rewrite wrap_map2 by auto. destruct (Nat.eq_dec k 0) as [K0 | K0].
    + (* no halos: the point itself is a grid point *)
      assert (G : gp y). { apply (grid_point_range k). apply in_range_iff. split; auto. intros d Hd. specialize (Hy d Hd). rewrite (ex_notin k [] d) by auto. lia. }
      rewrite wrap_grid by auto. apply HI; auto.
    + apply HI; auto. apply wrap_in; auto. intros d Hd. specialize (Hsz d Hd). lia.
  - intros b y Ob. rewrite Fr; auto. apply Ob.
Qed.
Lemma holds_interior : forall U M, holds S U M -> interior U M.
Proof.
  intros U M [A B]. split; auto. intros v x Hv Hx. rewrite A; auto.
  - rewrite wrap_grid; auto.
  - apply (range_near []). apply grid_point_range. auto.
Qed.
Lemma run_at : forall it st ks M, fold_left RUN (AlgSpec.at_ it st ks) M = fold_left (fun M pk => run_pkernel J k sizes dt ab M pk st) ks M.
Proof. intros it st. induction ks as [|pk ks IH]; intros M; auto. cbn. apply IH. Qed.
Lemma run_spatial : forall st M, fold_left (fun M pk => run_pkernel J k sizes dt ab M pk st) (map Spatial sp) M = exec J k sizes sp M.
Proof. intros st. unfold exec. generalize sp as l. induction l as [|kn l IH]; intros M; auto. cbn. apply IH. Qed.
Lemma run_exchange : forall st exs M, fold_left (fun M pk => run_pkernel J k sizes dt ab M pk st) (map Exchange exs) M = BCModel.transfers exs M.
Proof. intros st. induction exs as [|kn l IH]; intros M; auto. cbn. apply IH. Qed.

(* the spatial kernels of a stage *)
Lemma stage_residual : forall U T M, holds S U M -> registered T M ->
  let M' := exec J k sizes sp M in
  interior U M' /\ registered T M' /\
  forall e v x, In e (adv_eqs sys) -> AdvSpec.advances e v -> gp x -> M' (AdvModel.eq_residual e) x = f U (v, x).
Proof.
  intros U T M HM HT M'. destruct (Hf U) as (F & HF & Hfv). destruct (spatial_ok sp Esp S U F M HF HM) as [A B].
  fold M' in A, B. destruct (holds_interior _ _ HM) as [I1 I2]. split; [split|split].
  - intros v x Hv Hx. destruct (sys_names v Hv) as (N1 & N2 & N3 & _). rewrite B by auto. apply I1; auto.
  - intros b y Ob. destruct Ob as (O1 & O2 & O3 & O4). rewrite B; auto; [apply I2; unfold other; auto|]. intros i ->. apply O3. left. eauto.
  - intros v x Hv Hx. destruct (sys_names v Hv) as (_ & _ & _ & N1 & N2 & N3 & _). rewrite B by auto. apply HT; auto.
  - intros e v x He Hv Hx.
    assert (Q : exists rhs, In (v, rhs) sys /\ In (AdvModel.eq_residual e, rhs) eqs).
    { clear - He Hv. unfold adv_eqs, AdvModel.with_residuals, disc_eqs in *. rewrite map_length in He. revert He. generalize 0%nat as s.
      induction sys as [|[w q] l IH]; intros s He; [destruct He|]. cbn in He. destruct He as [<- | He].
      - unfold AdvSpec.advances in Hv. cbn in Hv. injection Hv as ->. exists q. split; left; reflexivity.
      - destruct (IH _ He) as (rhs & P & Q). exists rhs. split; right; auto. }
    destruct Q as (rhs & Hin & Hr). rewrite (A v rhs _ x Hin Hr Hx). symmetry. apply Hfv; auto.
Qed.
Lemma one_each : AdvSpec.one_derivative_each (adv_eqs sys).
Proof. intros e He. destruct (adv_one sys e He) as (v & rhs & _ & E). exists v. exact E. Qed.
Lemma advanced_in : forall e v, In e (adv_eqs sys) -> AdvSpec.advances e v -> In v (map fst sys).
Proof.
  intros e v He Hv. destruct (adv_one sys e He) as (w & rhs & Hw & E). unfold AdvSpec.advances in Hv. rewrite E in Hv. injection Hv as <-.
  eapply named; eauto.
Qed.
Lemma advanced_by : forall v, In v (map fst sys) -> exists e, In e (adv_eqs sys) /\ AdvSpec.advances e v.
Proof.
  intros v Hv. destruct (in_named _ _ _ Hv) as (rhs & H). destruct (adv_disc sys v rhs H) as (r & _ & He). eexists. split; [exact He | reflexivity].
Qed.
Lemma grid_inside : forall x, gp x <-> in_range k sizes [] x = true.
Proof. apply grid_point_range. Qed.

Definition state_ok (m : solution * solution) (M : memory) : Prop := holds S (fst m) M /\ registered (snd m) M.
Lemma after_exchange : forall U T M, interior U M -> registered T M -> state_ok (U, T) (BCModel.transfers EX M).
Proof.
  intros U T M HI HT. destruct (exchanged U M HI) as [A B]. split; auto. intros v x Hv Hx. cbn [snd]. rewrite B; auto.
  destruct (sys_names v Hv) as (_ & _ & _ & _ & _ & _ & N). auto.
Qed.

(* one stage of each scheme *)
Lemma ls_stage_ok : register = AdvModel.temp_name -> forall it st M m, state_ok m M ->
  state_ok (RKModel.ls_stage _ dt f m (nth st (fst ab) 0%R, nth st (snd ab) 0%R))
    (fold_left RUN (AlgSpec.at_ it (Some (Z.of_nat st)) (map Spatial sp ++ [LowStorage (adv_eqs sys)] ++ map Exchange EX)) M).
Proof.
  intros ER it st M [U T] [HM HT]. cbn [fst snd] in HM, HT. rewrite run_at, fold_left_app, run_spatial. cbn [app fold_left].
  rewrite run_exchange. cbn [run_pkernel]. rewrite Nat2Z.id. cbn [RKModel.ls_stage].
  destruct (stage_residual U T M HM HT) as (I1 & I2 & I3). set (M1 := exec J k sizes sp M) in *.
  set (a := nth st (fst ab) 0%R). set (b := nth st (snd ab) 0%R).
  assert (DA : AdvSpec.distinct_arrays AdvModel.temp_name (adv_eqs sys)) by (rewrite <- ER; apply (pp_arrays _ _ _ _ _ _ PP)).
  destruct (AdvProps.C63_low_storage_update_partial (list Z) (in_range k sizes []) (adv_eqs sys) dt a b M1 one_each DA) as [P Q].
  apply after_exchange.
  - split.
    + intros v x Hv Hx. destruct (advanced_by v Hv) as (e & He & Hev). apply grid_inside in Hx as Hx'.
      destruct (P e v x He Hev Hx') as [P1 P2]. rewrite P2, P1. rewrite (I3 e v x He Hev Hx). rewrite (proj1 I1 v x Hv Hx).
      rewrite <- ER. rewrite (I2 v x Hv Hx). reflexivity.
    + intros w y Ow. rewrite Q; [apply (proj2 I1); auto|]. right. intros e v He Hev. pose proof (advanced_in e v He Hev) as Hv.
      destruct Ow as (O1 & O2 & O3 & O4). split; [intros ->; auto|]. intros ->. apply O3. right. exists v. rewrite ER. auto.
  - intros v x Hv Hx. destruct (advanced_by v Hv) as (e & He & Hev). apply grid_inside in Hx as Hx'.
    destruct (P e v x He Hev Hx') as [P1 P2]. rewrite ER, P1. rewrite (I3 e v x He Hev Hx). rewrite <- ER, (I2 v x Hv Hx). reflexivity.
Qed.
Lemma sbli_stage_ok : register = AdvModel.old_name -> forall it st M m, state_ok m M ->
  state_ok (RKModel.sbli_stage _ dt f m (nth st (fst ab) 0%R, nth st (snd ab) 0%R))
    (fold_left RUN (AlgSpec.at_ it (Some (Z.of_nat st)) (map Spatial sp ++ [SbliUpdate (adv_eqs sys)] ++ map Exchange EX)) M).
Proof.
  intros ER it st M [U T] [HM HT]. cbn [fst snd] in HM, HT. rewrite run_at, fold_left_app, run_spatial. cbn [app fold_left].
  rewrite run_exchange. cbn [run_pkernel]. rewrite Nat2Z.id. cbn [RKModel.sbli_stage].
  destruct (stage_residual U T M HM HT) as (I1 & I2 & I3). set (M1 := exec J k sizes sp M) in *.
  set (a := nth st (fst ab) 0%R). set (b := nth st (snd ab) 0%R).
  assert (DA : AdvSpec.distinct_arrays AdvModel.old_name (adv_eqs sys)) by (rewrite <- ER; apply (pp_arrays _ _ _ _ _ _ PP)).
  destruct (AdvProps.C63_sbli_update_partial (list Z) (in_range k sizes []) (adv_eqs sys) dt a b M1 one_each DA) as [P Q].
  apply after_exchange.
  - split.
    + intros v x Hv Hx. destruct (advanced_by v Hv) as (e & He & Hev). apply grid_inside in Hx as Hx'.
      destruct (P e v x He Hev Hx') as (_ & _ & P1 & P2). rewrite P1. rewrite (I3 e v x He Hev Hx).
      rewrite <- ER. rewrite (I2 v x Hv Hx). reflexivity.
    + intros w y Ow. refine (eq_trans (proj2 (Q w y _)) (proj2 I1 w y Ow)). right. intros e v He Hev. pose proof (advanced_in e v He Hev) as Hv.
      destruct Ow as (O1 & O2 & O3 & O4). split; [intros ->; auto|]. intros ->. apply O3. right. exists v. rewrite ER. auto.
  - intros v x Hv Hx. destruct (advanced_by v Hv) as (e & He & Hev). apply grid_inside in Hx as Hx'.
    destruct (P e v x He Hev Hx') as (_ & _ & P1 & P2). rewrite ER, P2. rewrite (I3 e v x He Hev Hx). rewrite <- ER, (I2 v x Hv Hx). reflexivity.
Qed.
Lemma save_ok : register = AdvModel.old_name -> forall U M, holds S U M ->
  state_ok (U, U) (AdvModel.run (list Z) (in_range k sizes []) (AdvModel.sbli_save (adv_eqs sys)) M).
Proof.
  intros ER U M HM. assert (DA : AdvSpec.distinct_arrays AdvModel.old_name (adv_eqs sys)) by (rewrite <- ER; apply (pp_arrays _ _ _ _ _ _ PP)).
  destruct (AdvProps.C63_sbli_update_partial (list Z) (in_range k sizes []) (adv_eqs sys) dt 0%R 0%R M one_each DA) as [P Q].
  split; [split|]; cbn [fst snd].
  - intros v y Hv Hy. rewrite <- (proj1 HM v y Hv Hy). destruct (in_range k sizes [] y) eqn:Ey; [|apply Q; auto].
    destruct (advanced_by v Hv) as (e & He & Hev). apply (P e v y He Hev Ey).
  - intros w y Ow. refine (eq_trans (proj1 (Q w y _)) (proj2 HM w y Ow)). right. intros e v He Hev. pose proof (advanced_in e v He Hev) as Hv.
    destruct Ow as (O1 & O2 & O3 & O4). split; [intros ->; auto|]. intros ->. apply O3. right. exists v. rewrite ER. auto.
  - intros v x Hv Hx. destruct (advanced_by v Hv) as (e & He & Hev). apply grid_inside in Hx as Hx'.
    rewrite ER. destruct (P e v x He Hev Hx') as (P1 & _). rewrite P1. apply (holds_interior _ _ HM); auto.
Qed.

(* ---- steps and the program ---- *)
Lemma run_files : forall (g : AlgSpec.request -> list (AlgModel.event pkernel)) rqs M,
  (forall r ev, In ev (g r) -> exists a b, ev = AlgModel.EWrite a b) -> fold_left RUN (flat_map g rqs) M = M.
Proof.
  intros g rqs M H. induction rqs as [|r rqs IH]; auto. cbn [flat_map]. rewrite fold_left_app.
  assert (Q : forall l M, (forall ev, In ev l -> exists a b, ev = @AlgModel.EWrite pkernel a b) -> fold_left RUN l M = M).
  { induction l as [|ev l IHl]; intros M' Hl; auto. cbn [fold_left]. destruct (Hl ev (or_introl eq_refl)) as (a & b & ->). cbn [run_event].
    apply IHl. intros. apply Hl. right. auto. }
  rewrite (Q (g r)) by (intros ev Hev; exact (H r ev Hev)). exact IH.
Qed.
Lemma run_monitor : forall mon it M, fold_left RUN (AlgSpec.monitored mon it) M = M.
Proof. intros [fq|] it M; auto. unfold AlgSpec.monitored. destruct (_ || _); auto. Qed.

Section scheme.
Variables (startks advks : list pkernel) (stg : solution * solution -> R * R -> solution * solution)
  (prep : solution * solution -> solution * solution).
Hypothesis Hlen : List.length (fst ab) = List.length (snd ab).
Hypothesis Hstart : forall it M m, state_ok m M -> state_ok (prep m) (fold_left RUN (AlgSpec.at_ it None startks) M).
Hypothesis Hstage : forall it st M m, state_ok m M ->
  state_ok (stg m (nth st (fst ab) 0%R, nth st (snd ab) 0%R))
    (fold_left RUN (AlgSpec.at_ it (Some (Z.of_nat st)) (map Spatial sp ++ advks ++ map Exchange EX)) M).
Definition phase : AlgSpec.phases pkernel := AlgSpec.Build_phases [] (map Exchange EX) startks (map Spatial sp) advks [] [] [].
Notation nst := (Z.of_nat (List.length (fst ab))).
Definition one_step (m : solution * solution) : solution * solution := fold_left stg (combine (fst ab) (snd ab)) (prep m).

Lemma stages_ok : forall it l m M, state_ok m M ->
  state_ok (fold_left (fun m i => stg m (nth i (fst ab) 0%R, nth i (snd ab) 0%R)) l m)
    (fold_left RUN (flat_map (fun st => AlgSpec.at_ it (Some st) (map Spatial sp ++ advks ++ map Exchange EX)) (map Z.of_nat l)) M).
Proof.
  intros it. induction l as [|i l IH]; intros m M H; auto. cbn [map flat_map fold_left]. rewrite fold_left_app. apply IH. apply Hstage. auto.
Qed.
Lemma step_ok : forall mon rqs it m M, interior (fst m) M -> registered (snd m) M ->
  state_ok (one_step m) (fold_left RUN (AlgSpec.step phase nst mon rqs it) M).
Proof.
  intros mon rqs it [U T] M HI HT. unfold AlgSpec.step. cbn [phase AlgSpec.p_bc AlgSpec.p_start AlgSpec.p_in AlgSpec.p_end AlgSpec.p_spatial AlgSpec.p_advance].
  rewrite !fold_left_app. cbn [AlgSpec.at_ map fold_left].
  rewrite run_monitor.
  match goal with |- state_ok _ (fold_left _ (flat_map (AlgSpec.written_in it) rqs) ?M0) => rewrite (run_files (AlgSpec.written_in it) rqs M0) end.
  2:{ intros r ev H. unfold AlgSpec.written_in in H. destruct (_ && _); [|contradiction]. destruct H as [<- | []]. eauto. }
  unfold one_step. rewrite combine_nth_seq by auto. rewrite fold_left_map. unfold AlgSpec.upto. rewrite Nat2Z.id. apply stages_ok.
  unfold AlgSpec.at_ at 1. rewrite map_app, fold_left_app. apply Hstart. fold (AlgSpec.at_ (K := pkernel) (Some it) None (map Exchange EX)). rewrite run_at, run_exchange.
  apply after_exchange; auto.
Qed.
Lemma steps_ok : forall mon rqs l m M, interior (fst m) M -> registered (snd m) M ->
  let m' := RKSpec.iterate (List.length l) one_step m in
  let M' := fold_left RUN (flat_map (AlgSpec.step phase nst mon rqs) l) M in
  interior (fst m') M' /\ registered (snd m') M'.
Proof.
  intros mon rqs. induction l as [|it l IH]; intros m M HI HT; auto. cbn [flat_map List.length RKSpec.iterate]. cbn zeta. rewrite fold_left_app.
  destruct (step_ok mon rqs it m M HI HT) as [A B]. apply IH; auto. apply holds_interior. auto.
Qed.
Lemma program_ok : forall mon rqs niter (rk : solution -> solution) M,
  (forall m, fst (one_step m) = rk (fst m)) -> (forall b y, other b -> M b y = S b y) ->
  let M' := run_program J k sizes dt ab (AlgSpec.program_trace phase nst niter mon rqs) M in
  (forall v x, In v (map fst sys) -> gp x -> M' v x = RKSpec.iterate (Z.to_nat niter) rk (fun i => M (fst i) (snd i)) (v, x)) /\
  (forall b y, other b -> M' b y = S b y).
Proof.
  intros mon rqs niter rk M Hrk HS M'. unfold M', run_program, AlgSpec.program_trace.
  cbn [phase AlgSpec.p_before AlgSpec.p_after AlgSpec.at_ map app]. fold phase. rewrite fold_left_app.
  match goal with |- context [fold_left _ (flat_map AlgSpec.written_at_end rqs) ?M0] => rewrite (run_files AlgSpec.written_at_end rqs M0) end.
  2:{ intros r ev H. unfold AlgSpec.written_at_end in H. destruct (AlgSpec.is_write r); [|contradiction]. destruct H as [<- | []]. eauto. }
  set (m := ((fun i => M (fst i) (snd i)) : solution, (fun i => M (register (fst i)) (snd i)) : solution)).
  destruct (steps_ok mon rqs (AlgSpec.upto niter) m M) as [A B].
  - split; auto.
  - intros v x Hv Hx. reflexivity.
  - destruct A as [A1 A2]. split; auto. intros v x Hv Hx. rewrite (A1 v x Hv Hx). f_equal.
    assert (Q : forall n m0, fst (RKSpec.iterate n one_step m0) = RKSpec.iterate n rk (fst m0)).
    { induction n as [|n IH]; intros m0; auto. cbn. rewrite IH, Hrk. reflexivity. }
    rewrite Q. unfold AlgSpec.upto. rewrite map_length, seq_length. reflexivity.
Qed.
End scheme.
End time.
End prog.
