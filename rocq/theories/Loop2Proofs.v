(* Proofs for C85: the loops of programs with shock capturing and boundary conditions may
   visit their points in any order. *)
From Verif Require Import Base BaseProofs Expr ExprProofs FDModel WorkModel ShiftSpec ShiftModel DiscModel DiscSpec DiscProofs DiscRun DiscMain KernelModel
  LLFModel HybModel HybSpec HybProofs ProgModel ProgSpec ProgProofs StoreModel StoreSpec StoreProofs LoopModel LoopProofs
  BndModel OneModel SideModel SideProps CapModel CapSpec CapProofs FaceModel ShkModel Loop2Model Loop2Wall.
From Verif Require WorkProofs AdvModel AlgModel AlgSpec BCSpec BCModel BCKern OrdModel OrdProps BCProofs.
From Coq Require Import QArith ZArith Reals Lia Permutation FunctionalExtensionality.
Local Close Scope Q_scope.
Local Open Scope list_scope.

(* ---- bodies that depend on what they write at the point itself only ---- *)
Section body.
Variables (ndim : nat) (W : string -> Prop) (body : memory -> list Z -> memory).
Definition alike2 (x : list Z) (M M' : memory) : Prop := (forall b, M b x = M' b x) /\ (forall b y, ~ W b -> M b y = M' b y).
Hypothesis other : forall M x b y, x <> y -> body M x b y = M b y.
Hypothesis frame : forall M x b y, ~ W b -> body M x b y = M b y.
Hypothesis dep : forall M M' x b, List.length x = ndim -> alike2 x M M' -> body M x b x = body M' x b x.
Lemma loop_body : forall pts M x b, NoDup pts -> (forall y, In y pts -> List.length y = ndim) ->
  fold_left body pts M b x = if in_dec (list_eq_dec Z.eq_dec) x pts then body M x b x else M b x.
Proof.
  induction pts as [|p pts IH]; intros M x b ND HL; [reflexivity|]. cbn [fold_left].
  apply NoDup_cons_iff in ND. destruct ND as [Np ND]. rewrite IH by (auto; intros; apply HL; right; auto).
  destruct (in_dec (list_eq_dec Z.eq_dec) x pts) as [H | H]; destruct (in_dec (list_eq_dec Z.eq_dec) x (p :: pts)) as [H' | H'].
  - assert (N : p <> x) by (intros ->; auto). apply dep; auto. split; intros.
    + apply other. auto.
    + apply frame. auto.
  - exfalso. apply H'. right. auto.
  - destruct H' as [<- | H']; [auto | contradiction].
  - apply other. intros ->. apply H'. left. auto.
Qed.
End body.

Section statements.
Context {S : Type} (name : S -> string) (val : S -> memory -> list Z -> R).
Variables (ndim : nat) (l0 : list S).
Notation W := (fun b => In b (map name l0)).
Definition visit2 (x : list Z) (M : memory) (s : S) : memory :=
  fun a y => if String.eqb a (name s) && same_point x y then val s M x else M a y.
Definition sweep2 (inside : list Z -> bool) (M : memory) (s : S) : memory :=
  fun a y => if String.eqb a (name s) && inside y then val s M y else M a y.
Definition indep (s : S) : Prop := forall M M' x, List.length x = ndim -> alike2 W x M M' -> val s M x = val s M' x.
Hypothesis Ind : forall s, In s l0 -> indep s.
Lemma visits_other : forall l M x b y, x <> y -> fold_left (visit2 x) l M b y = M b y.
Proof.
  induction l as [|s l IH]; intros M x b y N; cbn [fold_left]; auto. rewrite IH by auto.
  unfold visit2. destruct (same_point x y) eqn:E; [apply same_point_iff in E; contradiction|]. rewrite andb_false_r. auto.
Qed.
Lemma visits_frame : forall l M x b y, ~ In b (map name l) -> fold_left (visit2 x) l M b y = M b y.
Proof.
  induction l as [|s l IH]; intros M x b y N; cbn [fold_left]; auto. cbn [map In] in N. rewrite IH by tauto.
  unfold visit2. destruct (String.eqb_spec b (name s)); auto. subst. tauto.
Qed.
Lemma visits_alike : forall x, List.length x = ndim -> forall l, incl l l0 -> forall M M', alike2 W x M M' ->
  alike2 W x (fold_left (visit2 x) l M) (fold_left (visit2 x) l M').
Proof.
  intros x L. induction l as [|s l IH]; intros Hl M M' H; cbn [fold_left]; auto.
  apply IH; [intros q Hq; apply Hl; right; auto|].
  assert (E : val s M x = val s M' x) by (apply Ind; auto; apply Hl; left; auto). destruct H as [A B].
  split; [intros b | intros b y Nb]; unfold visit2.
  - destruct (_ && _); auto.
  - destruct (_ && _); auto.
Qed.
Variable inside : list Z -> bool.
Hypothesis Hlen : forall x, inside x = true -> List.length x = ndim.
Lemma sweeps_alike : forall x, inside x = true -> forall l, incl l l0 -> forall M M', alike2 W x M M' ->
  alike2 W x (fold_left (sweep2 inside) l M) (fold_left (visit2 x) l M').
Proof.
  intros x Hx. induction l as [|s l IH]; intros Hl M M' H; cbn [fold_left]; auto.
  assert (Hs : In s l0) by (apply Hl; left; auto).
  apply IH; [intros q Hq; apply Hl; right; auto|].
  assert (E : val s M x = val s M' x) by (apply Ind; auto). destruct H as [A B].
  split; [intros b | intros b y Nb]; unfold sweep2, visit2.
  - rewrite Hx, same_point_refl. destruct (String.eqb b (name s)); cbn [andb]; auto.
  - destruct (String.eqb_spec b (name s)) as [-> | N]; [exfalso; apply Nb; apply in_map; auto|]. cbn [andb]. apply B. auto.
Qed.
Lemma sweeps_outside : forall x, inside x = false -> forall l M b, fold_left (sweep2 inside) l M b x = M b x.
Proof. intros x Hx. induction l as [|s l IH]; intros M b; cbn [fold_left]; auto. rewrite IH. unfold sweep2. rewrite Hx, andb_false_r. auto. Qed.
Theorem statements_any : forall pts M, BCSpec.sweeps pts (fun x => inside x = true) ->
  forall b x, fold_left (fun M x => fold_left (visit2 x) l0 M) pts M b x = fold_left (sweep2 inside) l0 M b x.
Proof.
  intros pts M [ND Hp] b x.
  rewrite (loop_body ndim W (fun M x => fold_left (visit2 x) l0 M)); auto.
  - destruct (in_dec (list_eq_dec Z.eq_dec) x pts) as [H | H].
    + symmetry. refine (proj1 (sweeps_alike x (proj1 (Hp x) H) l0 (incl_refl _) M M _) b). split; auto.
    + symmetry. apply sweeps_outside. destruct (inside x) eqn:E; auto. exfalso. apply H. apply Hp. auto.
  - intros. apply visits_other. auto.
  - intros. apply visits_frame. auto.
  - intros N N' y c L H. exact (proj1 (visits_alike y L l0 (incl_refl _) N N' H) c).
  - intros y Hy. apply Hlen. apply Hp. auto.
Qed.
End statements.

(* ---- kernels ---- *)
Section kernels.
Variables (J : interp R) (k : nat) (sizes : list Z).
Notation ndim := (List.length sizes).
Notation zero := (repeat 0%Z ndim).
Definition eval_of (s : string * expr) (M : memory) (x : list Z) : R := eval J (fun b ix => M b (at_offset x ix)) (snd s).
Definition form_of (s : string * rform) (M : memory) (x : list Z) : R := rvalue J M x (snd s).
Definition own_k (kn : kernel) : Prop := forall s, In s (k_eqs kn) -> indep fst eval_of ndim (k_eqs kn) s.
Definition own_s (s : skernel) : Prop := forall q, In q (sk_eqs s) -> indep fst form_of ndim (sk_eqs s) q.

Lemma kernel_any : forall kn pts M, own_k kn -> BCSpec.sweeps pts (fun x => in_range k sizes (k_ext kn) x = true) ->
  forall b x, fold_left (visit J (k_eqs kn)) pts M b x = exec_kernel J k sizes M kn b x.
Proof.
  intros kn pts M Own Hp b x.
  exact (statements_any fst eval_of ndim (k_eqs kn) Own (in_range k sizes (k_ext kn)) (fun x Hx => proj1 (proj1 (in_range_iff k sizes (k_ext kn) x) Hx)) pts M Hp b x).
Qed.
Lemma skernel_any : forall s pts M, own_s s -> BCSpec.sweeps pts (fun x => in_range k sizes (sk_ext s) x = true) ->
  forall b x, fold_left (visit_forms J (sk_eqs s)) pts M b x = exec_kernel1 J k sizes M s b x.
Proof.
  intros s pts M Own Hp b x.
  exact (statements_any fst form_of ndim (sk_eqs s) Own (in_range k sizes (sk_ext s)) (fun x Hx => proj1 (proj1 (in_range_iff k sizes (sk_ext s) x) Hx)) pts M Hp b x).
Qed.
Lemma relation_any : forall c e ranges pts M, List.length ranges = ndim -> (forall b ix, In (b, ix) (dsets e) -> ix = zero) ->
  BCSpec.sweeps pts (fun x => within ranges x = true) ->
  forall b x, fold_left (visit J [(c, e)]) pts M b x = exec_relation J M (c, e, ranges) b x.
Proof.
  intros c e ranges pts M L H Hp b x.
  refine (statements_any fst eval_of ndim [(c, e)] _ (within ranges) _ pts M Hp b x).
  - intros s [<- | []] N N' y Ly [A B]. unfold eval_of. apply eval_ext. intros b' ix Hb. rewrite !at_offset_vadd, (H _ _ Hb), vadd_0_r by auto. auto.
  - intros y Hy. rewrite <- L. revert Hy. clear. revert y. induction ranges as [|[lo hi] ranges IH]; intros [|i y] Hy; cbn in *; auto; try discriminate.
    apply andb_true_iff in Hy. f_equal. apply IH. tauto.
Qed.
Variables (sch : scheme) (gamma : R) (av : averaging) (solution : list string).
Definition own_flux (d : nat) (works : list string) (fluxes : list expr) : Prop := forall M M' x, (forall b y, ~ In b works -> M b y = M' b y) ->
  flux_at J sizes sch gamma av solution d fluxes M x = flux_at J sizes sch gamma av solution d fluxes M' x.
Lemma index_some : forall a l i, index_of a l = Some i -> In a l.
Proof.
  induction l as [|b l IH]; intros i H; cbn in H; [discriminate|]. destruct (String.eqb_spec a b) as [-> | N]; [left; auto|].
  destruct (index_of a l) as [j|]; [|discriminate]. right. eapply IH. reflexivity.
Qed.
Lemma flux_any : forall d works fluxes pts M, own_flux d works fluxes -> BCSpec.sweeps pts (fun x => in_range 1 sizes [d] x = true) ->
  forall b x, fold_left (visit_flux J sizes sch gamma av solution d works fluxes) pts M b x = exec_hkernel J k sizes sch gamma av solution M (HRec d works fluxes) b x.
Proof.
  intros d works fluxes pts M Own [ND Hp] b x.
  rewrite (loop_body ndim (fun b => In b works)); auto.
  - cbn [exec_hkernel]. unfold visit_flux. rewrite same_point_refl. destruct (in_dec (list_eq_dec Z.eq_dec) x pts) as [H | H].
    + apply Hp in H. rewrite H. reflexivity.
    + destruct (in_range 1 sizes [d] x) eqn:E; [exfalso; apply H, Hp; auto|]. destruct (index_of b works); auto.
  - intros N y c z Nz. unfold visit_flux. destruct (index_of c works); auto. destruct (same_point y z) eqn:E; auto. apply same_point_iff in E. contradiction.
  - intros N y c z Nc. unfold visit_flux. destruct (index_of c works) as [i|] eqn:E; auto. exfalso. apply Nc. eapply index_some; eauto.
  - intros N N' y c L [A B]. unfold visit_flux. rewrite same_point_refl. rewrite (Own N N' y B). rewrite (A c). reflexivity.
  - intros y Hy. apply Hp in Hy. apply in_range_iff in Hy. tauto.
Qed.

(* ---- programs ---- *)
Variables (dt : R) (ab : list R * list R) (points : BCModel.bkernel -> list (list Z)).
Definition loopable2 (x : gkernel) : Prop :=
  match x with
  | Constituent (_, e, ranges) => List.length ranges = ndim /\ forall b ix, In (b, ix) (dsets e) -> ix = zero
  | Capture (HRec d works fluxes) => own_flux d works fluxes
  | Capture (HKer kn) => own_k kn
  | Ordinary (Difference s) => own_s s
  | Ordinary (Other (Inner pk)) => loopable sizes pk
  | Ordinary (Other (Wall bk)) => sweep_free bk
  end.
Notation LOOP := (loop_gkernel J sizes sch gamma av solution dt ab).
Hypothesis Hpoints : forall bk, BCSpec.sweeps (points bk) (fun x => BCModel.bk_points bk x = true).
Notation RUN := (run_gkernel J k sizes sch gamma av solution dt ab points).
Lemma gkernel_any : forall x pts M st, loopable2 x -> BCSpec.sweeps pts (fun y => points_of k sizes x y = true) -> LOOP pts M x st = RUN M x st.
Proof.
  intros x pts M st HL Hp. apply functional_extensionality. intros b. apply functional_extensionality. intros y.
  destruct x as [[[c e] ranges] | [d works fluxes | kn] | [[bk | pk] | s]]; cbn [loop_gkernel run_gkernel run_fkernel run_xkernel points_of loopable2] in *.
  - destruct HL as [L H]. apply relation_any; auto.
  - apply flux_any; auto.
  - apply kernel_any; auto.
  - apply HL; auto.
  - destruct pk as [kn | eqs | eqs | eqs | ex]; cbn [loop_pkernel run_pkernel range_of loopable] in *; try (apply advance_any_order; auto); auto.
    apply any_order; auto.
  - apply skernel_any; auto.
Qed.
Lemma gprogram_any : forall K (kind : K -> gkernel) order, (forall n x, BCSpec.sweeps (order n x) (fun y => points_of k sizes x y = true)) ->
  forall tr n M, (forall x it st, In (AlgModel.EKernel x it st) tr -> loopable2 (kind x)) ->
  loop_gprogram J sizes sch gamma av solution dt ab kind order tr n M =
  fold_left (fun M ev => match ev with AlgModel.EKernel x _ st => RUN M (kind x) st | _ => M end) tr M.
Proof.
  intros K kind order HO. induction tr as [|ev tr IH]; intros n M HL; [reflexivity|].
  assert (HL' : forall x it st, In (AlgModel.EKernel x it st) tr -> loopable2 (kind x)) by (intros x it st H; apply (HL x it st); right; auto).
  destruct ev as [x it st | | |]; cbn [loop_gprogram fold_left]; try (apply IH; auto).
  rewrite gkernel_any; [apply IH; auto | apply (HL x it st); left; auto | apply HO].
Qed.
End kernels.

(* the kernels of a program *)
Lemma trace_kernels2 : forall K (p : AlgSpec.phases K) nst niter mon rqs x it st,
  AlgSpec.p_before p = [] -> AlgSpec.p_after p = [] -> AlgSpec.p_in p = [] -> AlgSpec.p_end p = [] ->
  In (AlgModel.EKernel x it st) (AlgSpec.program_trace p nst niter mon rqs) ->
  In x (AlgSpec.p_bc p ++ AlgSpec.p_start p ++ AlgSpec.p_spatial p ++ AlgSpec.p_advance p).
Proof.
  intros K p nst niter mon rqs pk it st E1 E2 E3 E4 H. unfold AlgSpec.program_trace in H. rewrite E1, E2 in H.
  assert (A : forall i s ks, In (AlgModel.EKernel pk it st) (AlgSpec.at_ i s ks) -> In pk ks).
  { intros i s ks Hin. unfold AlgSpec.at_ in Hin. apply in_map_iff in Hin. destruct Hin as (q & E & Hq). congruence. }
  cbn [AlgSpec.at_ map app] in H. apply in_app_iff in H. destruct H as [H | H].
  - apply in_flat_map in H. destruct H as (i & _ & H). unfold AlgSpec.step in H. rewrite E3, E4 in H.
    rewrite !in_app_iff in *. destruct H as [H | [H | [H | [H | [H | H]]]]].
    + apply A in H. rewrite in_app_iff in H. tauto.
    + apply in_flat_map in H. destruct H as (s & _ & H). apply A in H. rewrite !in_app_iff in H. tauto.
    + destruct H.
    + unfold AlgSpec.monitored in H. destruct mon as [f|]; [|destruct H]. destruct ((i =? 0)%Z || _); [|destruct H]. destruct H as [H | []]. discriminate.
    + apply in_flat_map in H. destruct H as (r & _ & H). unfold AlgSpec.written_in in H. destruct (_ && _); [|destruct H]. destruct H as [H | []]. discriminate.
    + destruct H.
  - apply in_flat_map in H. destruct H as (r & _ & H). unfold AlgSpec.written_at_end in H. destruct (AlgSpec.is_write r); [|destruct H]. destruct H as [H | []]. discriminate.
Qed.

(* ---- the kernels of the central discretisation ---- *)
Section central.
Variables (J : interp R) (k : nat) (dirof : string -> nat) (inv : nat -> nat -> expr) (dord : expr -> list dset)
  (sord : list (expr * string) -> list (expr * string)) (h : nat -> R) (sizes : list Z) (sd : sides).
Notation ndim := (List.length sizes).
Notation zero := (repeat 0%Z ndim).
Hypothesis Hinv : forall M x d m, value J M x (inv d m) = (/ h d ^ m)%R.
Hypothesis Hdord : forall e, enumerates (dord e) e.
Notation OWN := (own_s J sizes).

Lemma here_own : forall kn, (forall r e b ix, In (r, e) (k_eqs kn) -> In (b, ix) (dsets e) -> ix = zero) -> OWN (plain_kernel kn).
Proof.
  intros kn H q Hq M M' x L [A _]. cbn [plain_kernel sk_eqs] in Hq. apply in_map_iff in Hq. destruct Hq as ([r e] & <- & Hin). cbn [fst snd].
  unfold form_of. cbn [snd rvalue]. apply eval_ext. intros b ix Hb. rewrite !at_offset_vadd, (H r e b ix Hin Hb), vadd_0_r by auto. auto.
Qed.
Lemma here_own_k : forall kn, (forall r e b ix, In (r, e) (k_eqs kn) -> In (b, ix) (dsets e) -> ix = zero) -> own_k J sizes kn.
Proof.
  intros kn H [r e] Hin M M' x L [A _]. unfold eval_of. cbn [snd]. apply eval_ext. intros b ix Hb. rewrite !at_offset_vadd, (H r e b ix Hin Hb), vadd_0_r by auto. auto.
Qed.
Lemma inv_value : forall d m (M : memory) x, eval J (fun b ix => M b (at_offset x ix)) (inv d m) = (/ h d ^ m)%R.
Proof.
  intros d m M x. rewrite <- (Hinv M x d m). unfold value. apply eval_ext. intros b ix _. rewrite at_offset_vadd. reflexivity.
Qed.
Lemma central_reads : forall m d e form b ix, central_form k dord m d e = Ok form -> In (b, ix) (dsets form) -> In b (map fst (dsets e)).
Proof.
  intros m d e form b ix H Hb. unfold central_form in H. destruct (dsets e) as [|x0 l] eqn:E0; [discriminate|]. rewrite <- E0 in *.
  destruct (dsets_terms _ _ _ _ _ _ H _ Hb) as [[] | [A | (p & w & [b0 ix0] & A & B & C)]].
  - apply (in_map fst) in A. auto.
  - injection C as -> _. apply Hdord in B. apply (in_map fst) in B. auto.
Qed.
Lemma terms_reads : forall d e s ts w t b ix, formula_terms dord d e s = Ok ts -> In (w, t) ts -> In (b, ix) (dsets t) -> In b (map fst (dsets e)).
Proof.
  intros d e s ts w t b ix H Hin Hb. unfold formula_terms in H. destruct (dord e) as [|[b0 loc] o]; [discriminate|]. injection H as <-.
  apply in_map_iff in Hin. destruct Hin as (p & E & _). injection E as _ <-.
  rewrite BCKern.relocate_any in Hb by exact Hdord. rewrite dsets_map_dsets in Hb. apply in_map_iff in Hb. destruct Hb as ([b1 ix1] & E & Hb).
  cbn [fst] in E. injection E as <- _. apply (in_map fst) in Hb. auto.
Qed.
Lemma pairs_reads : forall e m d b side prs ts l w t c ix, condition_pairs dord sizes e m d b side = Ok prs -> In (ts, l) prs -> In (w, t) ts -> In (c, ix) (dsets t) -> In c (map fst (dsets e)).
Proof.
  intros e m d b side prs ts l w t c ix H Hp Ht Hc. unfold condition_pairs in H. destruct (pairs_of b m side (nth d sizes 0%Z)) as [q|]; [|discriminate]. cbn [bind] in H.
  destruct (mapM_in _ _ _ _ _ H _ Hp) as (s & _ & E). destruct (formula_terms dord d e (fst s)) as [ts'|] eqn:Ef; [|discriminate]. cbn [bind] in E. injection E as <- _.
  eapply terms_reads; eauto.
Qed.
Lemma one_equation1 : forall v r w ext, discretise1 k dirof inv dord sizes sd v = Ok r -> ~ In w (map fst (dsets (cd_arg v))) ->
  OWN {| sk_eqs := [(w, r)]; sk_ext := ext |}.
Proof.
  intros v r w ext H Hw q [<- | []] M M' x L [_ B]. unfold form_of. cbn [snd]. cbn [sk_eqs map fst] in B.
  assert (EV : forall e, (forall b ix, In (b, ix) (dsets e) -> In b (map fst (dsets (cd_arg v)))) ->
    eval J (fun b ix => M b (at_offset x ix)) e = eval J (fun b ix => M' b (at_offset x ix)) e).
  { intros e He. apply eval_ext. intros b ix Hb. apply B. intros [<- | []]. apply Hw. eapply He; eauto. }
  unfold discretise1 in H. cbv zeta in H. destruct (homogeneous dirof v); [|discriminate].
  destruct (central_form k dord _ _ _) as [form|] eqn:Ec in H; [|discriminate]. cbn [bind] in H.
  assert (EF : eval J (fun b ix => M b (at_offset x ix)) form = eval J (fun b ix => M' b (at_offset x ix)) form).
  { apply EV. intros b ix Hb. exact (central_reads _ _ _ _ b ix Ec Hb). }
  assert (G : forall l u, bind (condition_pairs dord sizes (cd_arg v) (List.length (cd_coords v)) (cd_dir dirof v) l false) (fun ps =>
      bind (condition_pairs dord sizes (cd_arg v) (List.length (cd_coords v)) (cd_dir dirof v) u true) (fun qs =>
      Ok (Piecewise (ps ++ qs) form (inv (cd_dir dirof v) (List.length (cd_coords v)))))) = Ok r -> rvalue J M x r = rvalue J M' x r).
  { intros l u H1.
    destruct (condition_pairs dord sizes _ _ _ l false) as [ps|] eqn:Ep; [|discriminate]. cbn [bind] in H1.
    destruct (condition_pairs dord sizes _ _ _ u true) as [qs|] eqn:Eq; [|discriminate]. cbn [bind] in H1. injection H1 as <-.
    unfold rvalue. rewrite !inv_value. f_equal. destruct (find _ (ps ++ qs)) as [[ts lo]|] eqn:Ef; [|exact EF].
    apply find_some in Ef. destruct Ef as [Hin _].
    assert (T : forall w t c ix, In (w, t) ts -> In (c, ix) (dsets t) -> In c (map fst (dsets (cd_arg v)))).
    { intros w0 t c ix Ht Hc. apply in_app_iff in Hin. destruct Hin as [Hin | Hin];
        [exact (pairs_reads _ _ _ _ _ _ _ _ _ _ _ _ Ep Hin Ht Hc) | exact (pairs_reads _ _ _ _ _ _ _ _ _ _ _ _ Eq Hin Ht Hc)]. }
    clear Hin Ep Eq. induction ts as [|[w0 t] ts IH]; auto. cbn [fold_right fst snd]. rewrite IH by (intros; eapply T; [right|]; eauto).
    rewrite (EV t); auto. intros b ix Hb. eapply T; [left; reflexivity | exact Hb]. }
  destruct (sd (cd_dir dirof v)) as [[l|] [u|]]; try (apply (G _ _ H)). injection H as <-. cbn [rvalue eval map].
  rewrite !inv_value, EF. reflexivity.
Qed.
Lemma residual_own1 : forall conv eqs, (forall r e b ix, In (r, e) eqs -> In (b, ix) (dsets e) -> ix = zero) -> OWN (plain_kernel (residual_kernel ndim conv eqs)).
Proof.
  intros conv eqs H. apply here_own. intros r e b ix Hin Hb. cbn [residual_kernel k_eqs] in Hin.
  apply in_map_iff in Hin. destruct Hin as ([r0 e0] & E & Hin). cbn [fst snd] in E. injection E as -> <-. destruct conv; [eapply H; eauto|].
  rewrite dsets_app in Hb. cbn [flat_map here dsets app] in Hb. rewrite app_nil_r in Hb. destruct Hb as [E | Hb]; [injection E as _ <-; auto | eapply H; eauto].
Qed.
Notation free := (free_arg ndim).
Lemma conv_group_own1 : forall all vs c eqs ks, conv_group1 k ndim dirof inv dord sizes sd (assign_works 0 all) c vs = Ok (eqs, ks) ->
  (List.length all <= c)%nat -> incl vs all -> (forall v, In v vs -> free v) ->
  (forall r e b ix, In (r, e) eqs -> In (b, ix) (dsets e) -> ix = zero) /\ (forall kn, In kn ks -> OWN kn).
Proof.
  intros all. induction vs as [|v vs IH]; intros c eqs ks H Hc Hi Hv; cbn [conv_group1] in H; [injection H as <- <-; split; intros; contradiction|].
  set (v1 := if many_datasets v then EApp HCD (here ndim (wk_name c) :: cd_coords v) else v) in *.
  destruct (discretise1 k dirof inv dord sizes sd v1) as [r|] eqn:Er; [|discriminate]. cbn [bind] in H.
  destruct (conv_group1 k ndim dirof inv dord sizes sd (assign_works 0 all) (if many_datasets v then S c else c) vs) as [[eqs' ks']|] eqn:Eg; [|discriminate].
  cbn [bind fst snd] in H. injection H as <- <-. destruct (IH _ _ _ Eg) as [A B]; [destruct (many_datasets v); lia | intros u Hu; apply Hi; right; auto | intros u Hu; apply Hv; right; auto |].
  pose proof (Hv v (or_introl eq_refl)) as Av. destruct (assign_lookup 0 [] eq_refl all v (Hi v (or_introl eq_refl))) as (_ & i & Ei & Li).
  split.
  - intros r' e b ix Hin Hb. apply in_app_iff in Hin. destruct Hin as [Hin | Hin]; [|eapply A; eauto].
    destruct (many_datasets v); [|contradiction]. destruct Hin as [E | []]. injection E as <- <-. apply (Av b ix Hb).
  - intros kn [<- | Hk]; auto. eapply one_equation1; [exact Er|]. rewrite Ei. unfold v1. intros Hin. apply in_map_iff in Hin. destruct Hin as ([b ix] & E & Hb). cbn [fst] in E. subst b.
    destruct (many_datasets v).
    + destruct Hb as [E | []]. assert (E1 : wk_name c = wk_name i) by congruence. apply WorkProofs.wk_name_inj in E1. lia.
    + destruct (Av _ _ Hb) as [_ N]. apply N. exists i. auto.
Qed.
Lemma conv_groups_own1 : forall all c g ks, conv_groups1 k ndim dirof inv dord sizes sd (assign_works 0 all) c g = Ok ks ->
  (List.length all <= c)%nat -> incl (flat_map snd g) all -> (forall v, In v (flat_map snd g) -> free v) ->
  forall kn, In kn ks -> OWN kn.
Proof.
  intros all c. induction g as [|[d vs] g IH]; intros ks H Hc Hi Hv kn Hk; cbn [conv_groups1] in H; [injection H as <-; contradiction|].
  destruct (conv_group1 k ndim dirof inv dord sizes sd (assign_works 0 all) c vs) as [[eqs ks1]|] eqn:Eg; [|discriminate]. cbn [bind fst snd] in H.
  destruct (conv_groups1 k ndim dirof inv dord sizes sd (assign_works 0 all) c g) as [rest|] eqn:Er; [|discriminate]. cbn [bind] in H. injection H as <-.
  cbn [flat_map snd] in Hi, Hv.
  destruct (conv_group_own1 _ _ _ _ _ Eg Hc) as [A B]; [intros v Hin; apply Hi; apply in_app_iff; auto | intros v Hin; apply Hv; apply in_app_iff; auto |].
  apply in_app_iff in Hk. destruct Hk as [Hk | Hk]; [|apply in_app_iff in Hk; destruct Hk as [Hk | Hk]; auto].
  - destruct eqs as [|q eqs]; [contradiction|]. destruct Hk as [<- | []]. apply here_own. intros r e b ix Hin. cbn [k_eqs] in *. eapply A; eauto.
  - apply (IH rest eq_refl); auto; intros v Hin; [apply Hi | apply Hv]; apply in_app_iff; auto.
Qed.
Lemma convective_own1 : forall cds eqs ks, convective_kernels1 k ndim dirof inv dord sord sizes sd cds eqs = Ok ks ->
  (forall v, In v cds -> free v) -> (forall r e b ix, In (r, e) eqs -> In (b, ix) (dsets e) -> ix = zero) ->
  forall kn, In kn ks -> OWN kn.
Proof.
  intros cds eqs ks H Hv He kn Hk. unfold convective_kernels1 in H.
  pose proof (group_perm dirof cds) as GP. destruct (group_by_direction dirof cds) as [|gg g] eqn:Eg; [injection H as <-; contradiction|]. rewrite <- Eg in *.
  destruct (conv_groups1 k ndim dirof inv dord sizes sd (assign_works 0 (flat_map snd (group_by_direction dirof cds))) _ (group_by_direction dirof cds)) as [ks1|] eqn:Ec; [|discriminate].
  cbn [bind] in H. injection H as <-. apply in_app_iff in Hk. destruct Hk as [Hk | [<- | []]].
  - eapply conv_groups_own1; [exact Ec | rewrite assign_length; auto | apply incl_refl | | exact Hk].
    intros v Hin. apply Hv. eapply Permutation_in; [exact GP | exact Hin].
  - apply residual_own1. apply subs_store. auto.
Qed.
Lemma viscous_own1 : forall cds eqs ks, viscous_kernels1 k ndim dirof inv dord sord sizes sd cds eqs = Ok ks ->
  (forall v, In v cds -> orig ndim dirof v /\ shallow cds v /\ free v) ->
  (forall r e b ix, In (r, e) eqs -> In (b, ix) (dsets e) -> ix = zero) ->
  forall kn, In kn ks -> OWN kn.
Proof.
  intros cds eqs ks H Hv He kn Hk. unfold viscous_kernels1 in H. destruct cds as [|c0 l0] eqn:Ecd; [injection H as <-; contradiction|].
  rewrite <- Ecd in *. clear Ecd c0 l0. set (works := assign_works 0 cds) in *.
  destruct (mapM _ (sort_by_coordinates cds)) as [ks1|] eqn:Em in H; [|discriminate]. cbn [bind] in H. injection H as <-.
  apply in_app_iff in Hk. destruct Hk as [Hk | [<- | []]].
  - destruct (mapM_in _ _ _ _ _ Em kn Hk) as (v & Hin & Ev).
    assert (Hc : In v cds) by (eapply Permutation_in; [apply csort_perm | exact Hin]).
    destruct (discretise1 k dirof inv dord sizes sd (traverse ndim works v)) as [r|] eqn:Er; [|discriminate]. cbn [bind] in Ev. injection Ev as <-.
    destruct (Hv v Hc) as (Or & Sh & Av). eapply one_equation1; [exact Er|].
    destruct (assign_lookup 0 [] eq_refl cds v Hc) as (_ & i & Ei & Li). fold works in Ei.
    intros Hin2. apply in_map_iff in Hin2. destruct Hin2 as ([b ix] & E & Hb). cbn [fst] in E. subst b.
    assert (NW : forall ix', In (lookup v works, ix') (dsets (cd_arg v)) -> False).
    { intros ix' Hw. destruct (Av _ _ Hw) as [_ N]. apply N. exists i. auto. }
    destruct Sh as [Sh | (c & Sh & Hcc & Lt)].
    + unfold works in Hb at 2. rewrite traverse_flat in Hb by auto. eauto.
    + unfold works in Hb at 2. rewrite (traverse_nested ndim cds c v) in Hb by auto. fold works in Hb.
      destruct Or as ((a & n & m & Ea & _) & _). assert (Ncv : c <> v) by (intros ->; lia).
      remember (lookup v works) as w eqn:Ew. subst v.
      rewrite T_eq in Hb. cbn [is_cd assoc] in Hb. destruct (expr_eq_dec (EApp HCD (a :: repeat (ESym KCoord n) (S m))) c) as [E | N]; [congruence|].
      rewrite map_cons, T_coords in Hb. cbn [cd_arg] in Hb. apply dsets_T in Hb. destruct Hb as [Hb | ([E | []] & _)]; [eapply NW; eauto|].
      cbn [snd] in E. apply Ncv. apply (assign_inj 0 [] eq_refl cds c _ Hcc Hc). fold works. congruence.
  - apply residual_own1. apply subs_store. auto.
Qed.
Lemma rhs_own1 : forall eqs ccds vcds ks, sbli_rhs_discretisation1 k ndim dirof inv dord sord sizes sd ccds vcds eqs = Ok ks ->
  (forall r rhs b ix, In (r, rhs) eqs -> In (b, ix) (dsets (fst (classify rhs))) -> ix = zero) ->
  (ccds = [] \/ forall r rhs b ix, In (r, rhs) eqs -> In (b, ix) (dsets (snd (classify rhs))) -> ix = zero) ->
  (forall v, In v ccds -> free v) -> (forall v, In v vcds -> orig ndim dirof v /\ shallow vcds v /\ free v) ->
  forall s, In s ks -> OWN s.
Proof.
  intros eqs ccds vcds ks H E1 E2 C V s Hs. unfold sbli_rhs_discretisation1 in H.
  destruct (convective_kernels1 _ _ _ _ _ _ _ _ _ _) as [kc|] eqn:Ec in H; [|discriminate]. cbn [bind] in H.
  destruct (viscous_kernels1 _ _ _ _ _ _ _ _ _ _) as [kv|] eqn:Ev in H; [|discriminate]. cbn [bind] in H. injection H as <-.
  apply in_app_iff in Hs. destruct Hs as [Hs | Hs].
  - destruct E2 as [-> | E2]; [cbn in Ec; injection Ec as <-; contradiction|].
    eapply convective_own1; [exact Ec | exact C | | exact Hs].
    intros r e b ix Hin. apply in_map_iff in Hin. destruct Hin as ([r0 rhs] & E & Hin). cbn [fst snd] in E. injection E as -> <-. eapply E2; eauto.
  - eapply viscous_own1; [exact Ev | exact V | | exact Hs].
    intros r e b ix Hin. apply in_map_iff in Hin. destruct Hin as ([r0 rhs] & E & Hin). cbn [fst snd] in E. injection E as -> <-. eapply E1; eauto.
Qed.
End central.
(* without one-sided formulas *)
Lemma plain_own : forall J sizes kn, own_s J sizes (plain_kernel kn) -> own_k J sizes kn.
Proof.
  intros J sizes kn H [r e] Hin M M' x L A. unfold eval_of. cbn [snd].
  assert (Hq : In (r, Plain e) (sk_eqs (plain_kernel kn))) by (cbn [plain_kernel sk_eqs]; apply in_map_iff; exists (r, e); auto).
  apply (H _ Hq M M' x L). cbn [plain_kernel sk_eqs]. rewrite map_map. exact A.
Qed.

(* ---- the kernels of the shock-capturing scheme ---- *)
Section shock.
Variables (J : interp R) (k : nat) (dirof : string -> nat) (inv : nat -> nat -> expr) (worder : list expr -> list expr) (h : nat -> R) (sizes : list Z).
Notation ndim := (List.length sizes).
Hypothesis Hinv : forall M x d m, value J M x (inv d m) = (/ h d ^ m)%R.
Hypothesis Hw : forall l, Permutation l (worder l).
Variables (coordinate : nat -> string) (fluxes : nat -> list expr) (eqs : list (string * expr)).
Hypothesis SS : shock_system ndim dirof reserved coordinate fluxes eqs.
Variables (sch : LLFModel.scheme) (gamma : R) (av : averaging) (solution : list string).
Hypothesis Hsol : forall q, In q solution -> ~ reserved q.
Hypothesis Hdim : ndim <> 0%nat.
Lemma shock_own : forall ks, shock_discretise ndim dirof inv worder eqs = Ok ks ->
  forall kn, In kn ks -> match kn with HRec d works fl => own_flux J sizes sch gamma av solution d works fl | HKer kn => own_k J sizes kn end.
Proof.
  intros ks H kn Hk. rewrite (shock_ok ndim dirof inv worder sizes eq_refl Hw coordinate fluxes eqs SS Hdim) in H. injection H as <-.
  apply in_app_iff in Hk. destruct Hk as [Hk | [<- | []]].
  - apply in_map_iff in Hk. destruct Hk as (d & <- & Hd). apply in_seq in Hd. intros M M' x A.
    apply (flux_agree J ndim dirof sizes eq_refl coordinate fluxes eqs SS sch gamma av solution Hsol); [lia|].
    intros b y Nb. apply A. intros Hb. apply Nb. apply in_map_iff in Hb. destruct Hb as (i & <- & _). exists i. auto.
  - intros q Hq M M' x L [_ B]. cbn [k_eqs] in *. apply in_map_iff in Hq. destruct Hq as ([r rhs] & <- & Hin). cbn [fst snd].
    apply In_nth_error in Hin. destruct Hin as (i & E). unfold eval_of. cbn [snd].
    pose proof (replace_stable J ndim dirof inv h sizes Hinv eq_refl coordinate fluxes eqs SS i r rhs E M M' x) as X.
    assert (F : forall N : memory, eval J (fun b ix => N b (at_offset x ix)) (replace ndim dirof inv (all_works ndim coordinate fluxes eqs) rhs) = value J N x (replace ndim dirof inv (all_works ndim coordinate fluxes eqs) rhs)).
    { intros N. unfold value. apply eval_ext. intros b ix _. rewrite at_offset_vadd. reflexivity. }
    rewrite !F. apply X; [|constructor]. intros b y Nb. apply B. rewrite map_map. exact Nb.
Qed.
End shock.
