(* Proofs for C74: user-defined equations. *)
From Verif Require Import Base BaseProofs Expr ExprProofs KernelModel ShiftSpec ShiftModel WorkModel DiscModel DiscSpec DiscProofs DiscRun DiscMain StoreModel BCModel BCProofs BCMirror SomeLoop UserModel UserSpec.
From Verif Require WorkProofs AdvProofs BCSpec StoreProofs BCKern KernelProofs StoreShock.
From Coq Require Import QArith ZArith Reals Lia List Permutation FunctionalExtensionality.
Import ListNotations.
Local Close Scope Q_scope.
Local Open Scope list_scope.

Lemma at_point_start : forall V (J : interp V) M x e, at_point J M (isym J KGridVar) x e = value J M x e.
Proof.
  intros V J M x e. unfold at_point, value. induction e as [q|k s|b ix|h args IH] using expr_ind'; auto.
  - cbn [eval with_locals isym]. destruct k; reflexivity.
  - cbn [eval]. cbn [with_locals iapp]. f_equal. apply map_ext_in. rewrite Forall_forall in IH. auto.
Qed.

(* ---- kernels with one assignment at the grid point ---- *)
Section user.
Variables (J : interp R) (k ndim : nat) (dirof : string -> nat) (inv : nat -> nat -> expr)
  (dord : expr -> list dset) (sord : list (expr * string) -> list (expr * string)) (eorder : list expr -> list expr) (h : nat -> R) (sizes : list Z).
Hypothesis HJ : real_arithmetic J.
Hypothesis Hinv : forall M x d m, value J M x (inv d m) = (/ h d ^ m)%R.
Hypothesis Hinvd : forall d m, dsets (inv d m) = [].
Hypothesis Hdord : forall e, enumerates (dord e) e.
Hypothesis Hsz : List.length sizes = ndim.
Hypothesis Hs : forall l, Permutation l (sord l).
Hypothesis Hinner : forall l l', Permutation l l' -> inner_first l' -> inner_first (sord l).
Notation SEM := (sem J k dirof h).
Notation INR_ := (in_range k sizes).

Definition convert (kn : kernel) : ukernel :=
  {| u_eqs := map (fun ae => KEq (here ndim (fst ae)) (snd ae)) (k_eqs kn); u_range := Extended (k_ext kn) |}.
Definition single (kn : kernel) : Prop :=
  exists a e, k_eqs kn = [(a, e)] /\ forall ix, In (a, ix) (dsets e) -> ix = repeat 0%Z ndim.
Lemma single_run : forall kn pts M, single kn -> BCSpec.sweeps pts (fun x => INR_ (k_ext kn) x = true) ->
  run_kernel J (u_eqs (convert kn)) pts M = exec_kernel J k sizes M kn.
Proof.
  intros kn pts M (a & e & E & Ha) (ND & Hp). unfold convert, exec_kernel. cbn [u_eqs]. rewrite E. cbn [map fst snd fold_left].
  assert (T1 : forall q, In q [KEq (here ndim a) e] -> q = KEq (here ndim a) e) by (intros q [<- | []]; auto).
  assert (W : forall b, wr [KEq (here ndim a) e] b <-> b = a).
  { intros b. split.
    - intros (q & ix & Hq & Ht). rewrite (T1 q Hq) in Ht. destruct Ht as [Ht | []]. congruence.
    - intros ->. exists (KEq (here ndim a) e), (repeat 0%Z ndim). split; left; auto. }
  assert (Ow : own ndim [KEq (here ndim a) e]).
  { split.
    - intros q b ix Hq Ht. rewrite (T1 q Hq) in Ht. destruct Ht as [Ht | []]. congruence.
    - intros q b ix Hq Hr Hw. rewrite (T1 q Hq) in Hr. apply W in Hw. subst b. apply Ha. cbn [reads] in Hr.
      apply in_app_iff in Hr. destruct Hr as [Hr | Hr]; apply in_map_iff in Hr; destruct Hr as (z & Ez & Hz); [|discriminate]. injection Ez as ->. auto. }
  extensionality b. extensionality x.
  rewrite (loop_run J ndim _ Ow); auto.
  2: { intros b0. destruct (string_dec b0 a) as [-> | N]; [left; apply W; auto | right; rewrite W; auto]. }
  2: { intros y Hy. apply Hp in Hy. apply (in_range_length k ndim sizes Hsz (k_ext kn)). auto. }
  unfold exec_eq. cbn [fst snd]. destruct (in_dec (list_eq_dec Z.eq_dec) x pts) as [Hx | Hx].
  - apply Hp in Hx. rewrite Hx, andb_true_r. assert (L := in_range_length k ndim sizes Hsz _ _ Hx). unfold run_point. cbn [fold_left here exec1 fst snd].
    unfold upd. rewrite vadd_here by auto. rewrite at_point_start. unfold value.
    destruct (string_dec a b) as [<- | N].
    + rewrite String.eqb_refl. destruct (list_eq_dec Z.eq_dec x x); [|congruence]. apply eval_ext. intros. reflexivity.
    + destruct (String.eqb_spec b a); [congruence|auto].
  - destruct (INR_ (k_ext kn) x) eqn:I; [exfalso; apply Hx, Hp; auto|]. rewrite andb_false_r. auto.
Qed.
Lemma convert_run : forall order, (forall n r, BCSpec.sweeps (order n r) (fun x => in_urange k sizes r x = true)) ->
  forall ks n M, (forall kn, In kn ks -> single kn) -> run_user J order n (map convert ks) M = exec J k sizes ks M.
Proof.
  intros order Ho. induction ks as [|kn ks IH]; intros n M H; [reflexivity|]. cbn [map run_user].
  rewrite single_run; [|apply H; left; auto | apply (Ho n (Extended (k_ext kn)))]. rewrite IH by (intros; apply H; right; auto). reflexivity.
Qed.
Lemma run_user_app : forall order ks ks' n M, run_user J order n (ks ++ ks') M = run_user J order (n + List.length ks) ks' (run_user J order n ks M).
Proof.
  intros order. induction ks as [|kn ks IH]; intros ks' n M; cbn [app run_user List.length]; [rewrite Nat.add_0_r; auto|].
  rewrite IH. f_equal. lia.
Qed.

(* ---- one equation ---- *)
Section equation.
Variables (a : string) (rhs : expr).
Hypothesis DE : differential_equation ndim dirof a rhs.
Hypothesis Hperm : forall l, Permutation l (eorder l).
Let cds := eorder (nodup expr_eq_dec (cds_post rhs)).
Hypothesis Hord : inner_listed_first cds.
Let works := assign_works 0 cds.

Lemma eq_cds : forall v, In v cds <-> In v (cds_post rhs).
Proof.
  intros v. unfold cds. split; intros H.
  - apply (Permutation_in v (Permutation_sym (Hperm _))) in H. apply nodup_In in H. auto.
  - apply (Permutation_in v (Hperm _)). apply nodup_In. auto.
Qed.
Lemma eq_nodup : NoDup cds.
Proof. unfold cds. eapply Permutation_NoDup; [apply Hperm | apply NoDup_nodup]. Qed.
Lemma eq_shallow : forall v, In v cds -> orig ndim dirof v /\ shallow cds v.
Proof.
  intros v Hv. apply eq_cds in Hv. assert (Hv' := Hv). apply in_cds in Hv'. destruct Hv' as (Hi & Hd).
  assert (Or : orig ndim dirof v).
  { split; [eapply de_derivative; eauto|]. split; intros b ix Hb; apply (inside_dsets _ _ _ Hi), (de_arrays _ _ _ _ DE b ix) in Hb; first [exact (proj1 Hb) | exact (proj2 Hb)]. }
  split; auto. destruct (de_nested _ _ _ _ DE v Hi Hd) as (L & Co). rewrite nderivs_len in L.
  destruct Or as ((e & n & m & Ev & Hdn & Hne) & _).
  assert (E : cds_post v = cds_post e ++ [v]) by (rewrite Ev; apply cds_cd).
  unfold shallow. rewrite E in L. rewrite app_length in L. cbn in L.
  destruct (cds_post e) as [|c [|c' l]] eqn:Ea; [left; auto | | cbn in L; lia].
  right. exists c. split; [auto|].
  assert (Hca : In c (cds_post e)) by (rewrite Ea; left; auto). apply in_cds in Hca. destruct Hca as (Hia & Hcd).
  assert (Hcv : inside c v) by (rewrite Ev; econstructor; [left; reflexivity | auto]).
  split.
  - apply eq_cds. apply in_cds. split; auto. eapply inside_trans; eauto.
  - apply (fewer_coordinates c v n); auto.
    + rewrite Ev, syms_app. apply in_flat_map. exists (ESym KCoord n). split; [right; left; auto | left; auto].
    + apply (Co e n (repeat (ESym KCoord n) m)); auto.
Qed.
Lemma eq_subs : forall e, clean e ->
  exists P, (forall v w, In (v, w) P -> exists i, w = wk_name i) /\ NoDup (map fst P) /\ (forall v, In v cds -> In (v, lookup v works) P) /\
    subs ndim (sord (map (fun v => (traverse ndim works v, lookup v works)) cds)) e = T ndim (rev P) e.
Proof.
  intros e Ce. pose proof eq_nodup as NDc. pose proof eq_shallow as Hc.
  set (keys := map (fun v => (traverse ndim works v, lookup v works)) cds) in *.
  assert (Ho : inner_first (sord keys)).
  { eapply Hinner; [|apply (inner_first_sorted ndim dirof sizes Hsz cds NDc Hc)]. apply Permutation_map. symmetry. apply csort_perm. }
  destruct (Permutation_map_inv (fun v => (traverse ndim works v, lookup v works)) cds (Permutation_sym (Hs keys))) as (cds' & Ek & Pc).
  set (P := map (fun v => (v, lookup v works)) cds').
  assert (Pf : map fst P = cds') by (unfold P; rewrite map_map; apply map_id).
  assert (Nf : NoDup (map fst P)) by (rewrite Pf; eapply Permutation_NoDup; [exact Pc | auto]).
  assert (InC : forall v, In v cds' -> In v cds) by (intros v; eapply Permutation_in; symmetry; auto).
  assert (PIn : forall v w, In (v, w) P -> In v cds /\ w = lookup v works).
  { intros v w Hin. unfold P in Hin. apply in_map_iff in Hin. destruct Hin as (u & Eu & Hu). injection Eu as <- <-. auto. }
  assert (Ns : NoDup (map snd P)).
  { apply snd_nodup; auto. intros u v w Hu Hv. destruct (PIn _ _ Hu) as (A & EA). destruct (PIn _ _ Hv) as (B & EB).
    apply (assign_inj ndim sizes Hsz cds); auto. fold works. congruence. }
  exists P. split. { intros v w Hin. destruct (PIn v w Hin) as (A & ->). apply (wk_look ndim sizes Hsz cds). auto. } split; auto.
  split. { intros v Hv. unfold P. apply in_map_iff. exists v. split; auto. eapply Permutation_in; eauto. }
  pose proof (subs_T ndim (traverse ndim works) P [] e) as S. rewrite T_nil, !app_nil_r in S.
  replace (map (fun vw : expr * string => (traverse ndim works (fst vw), snd vw)) P) with (sord keys) in S.
  2: { rewrite Ek. unfold P. rewrite map_map. reflexivity. }
  apply S; clear S; auto.
  - intros v w Hin. destruct (Hc v (proj1 (PIn v w Hin))) as (((b & n & m & Ev & _) & _) & _). rewrite Ev. reflexivity.
  - intros v w Hin. apply fresh_clean.
    + apply (proj2 (proj2 (proj1 (Hc v (proj1 (PIn v w Hin)))))).
    + intros u z Hz. destruct (PIn u z Hz) as (A & ->). apply (wk_look ndim sizes Hsz cds). auto.
  - apply fresh_clean; auto. intros u z Hz. destruct (PIn u z Hz) as (A & ->). apply (wk_look ndim sizes Hsz cds). auto.
  - intros l1 v w l2 El. rewrite app_nil_r.
    assert (Hin : In (v, w) P) by (rewrite El; apply in_app_iff; right; left; auto).
    destruct (PIn v w Hin) as (Hv & Ew).
    assert (Nv : assoc v (rev l1) = None).
    { destruct (assoc v (rev l1)) as [w'|] eqn:A; auto. apply assoc_in in A. apply in_rev in A. exfalso.
      assert (NDf := Nf). rewrite El, map_app in NDf. cbn [map fst] in NDf. apply NoDup_remove_2 in NDf. apply NDf. apply in_app_iff. left.
      change v with (fst (v, w')). apply in_map. auto. }
    destruct (Hc v Hv) as (_ & [F | (c & F & Hcc & Lt)]).
    + unfold works. rewrite traverse_flat by auto. rewrite <- (T_nil ndim v) at 1. apply T_ext. intros u Hu.
      rewrite F in Hu. destruct Hu as [<- | []]. cbn [assoc]. auto.
    + unfold works. rewrite (traverse_nested ndim cds c v) by auto. fold works. apply T_ext. intros u Hu. rewrite F in Hu.
      assert (Ncv : c <> v) by (intros ->; lia).
      destruct Hu as [<- | [<- | []]]; cbn [assoc].
      * destruct (expr_eq_dec c c); [|congruence]. symmetry. apply assoc_unique.
        { rewrite map_rev. apply NoDup_rev. assert (NDf := Nf). rewrite El, map_app in NDf. eapply AdvProofs.NoDup_app_remove_r; eauto. }
        apply in_rev. rewrite rev_involutive.
        assert (Hcp : In (c, lookup c works) P).
        { unfold P. apply in_map_iff. exists c. split; auto. eapply Permutation_in; eauto. }
        rewrite El in Hcp. apply in_app_iff in Hcp. destruct Hcp as [Hcp | [Hcp | Hcp]]; auto.
        { injection Hcp as Hcp _. congruence. }
        exfalso.
        apply (Ho (map (fun vw => (traverse ndim works (fst vw), snd vw)) l1) (traverse ndim works v) w
                  (map (fun vw => (traverse ndim works (fst vw), snd vw)) l2)) with (key' := traverse ndim works c) (w' := lookup c works) (ix := repeat 0%Z ndim).
        { rewrite Ek. transitivity (map (fun vw => (traverse ndim works (fst vw), snd vw)) P).
          - unfold P. rewrite map_map. reflexivity.
          - rewrite El, map_app. reflexivity. }
        { change (traverse ndim works c, lookup c works) with ((fun vw : expr * string => (traverse ndim works (fst vw), snd vw)) (c, lookup c works)).
          apply in_map. auto. }
        { unfold works. rewrite (traverse_nested ndim cds c v) by auto. apply dsets_T_has. rewrite F. left. auto. }
      * rewrite Nv. destruct (expr_eq_dec v c); congruence.
Qed.

(* the kernels of the derivatives *)
Lemma mapM_convert : forall s ks, mapM (visc_kernel k ndim dirof inv dord cds) s = Ok ks ->
  mapM (fun v => bind (discretise k dirof inv dord (traverse ndim works v)) (fun e =>
    Ok {| u_eqs := [KEq (here ndim (lookup v works)) e]; u_range := Extended (extended dirof cds v) |})) s = Ok (map convert ks).
Proof.
  induction s as [|v s IH]; intros ks E; cbn [mapM] in *; [injection E as <-; auto|].
  unfold visc_kernel in E at 1. fold works in E.
  destruct (discretise k dirof inv dord (traverse ndim works v)) as [e|]; [|discriminate]. cbn [bind] in *.
  destruct (mapM (visc_kernel k ndim dirof inv dord cds) s) as [ks'|]; [|discriminate]. cbn [bind] in E. injection E as <-.
  rewrite (IH ks' eq_refl). reflexivity.
Qed.
Lemma visc_single : forall s ks, (forall v, In v s -> In v cds) -> mapM (visc_kernel k ndim dirof inv dord cds) s = Ok ks ->
  forall kn, In kn ks -> single kn.
Proof.
  induction s as [|v s IH]; intros ks Hin E kn Hk; cbn [mapM] in E; [injection E as <-; destruct Hk|].
  unfold visc_kernel in E at 1. fold works in E.
  destruct (discretise k dirof inv dord (traverse ndim works v)) as [e|] eqn:D; [|discriminate]. cbn [bind] in *.
  destruct (mapM (visc_kernel k ndim dirof inv dord cds) s) as [ks'|] eqn:Em; [|discriminate]. cbn [bind] in E. injection E as <-.
  destruct Hk as [<- | Hk]; [|apply (IH ks'); auto; intros; apply Hin; right; auto].
  exists (lookup v works), e. split; [reflexivity|]. intros ix Hx. exfalso.
  assert (Hv : In v cds) by (apply Hin; left; auto).
  assert (Hr : exists jx, In (lookup v works, jx) (dsets (cd_arg (traverse ndim works v)))).
  { destruct (StoreProofs.dsets_discretise k dirof inv dord Hinvd Hdord _ _ D _ _ Hx) as [A | (ix0 & p & A & _)]; eauto. }
  destruct Hr as (jx & Hj). pose proof eq_shallow as Hc.
  destruct (wk_look ndim sizes Hsz cds v Hv) as (i & Ei). fold works in Ei.
  destruct (Hc v Hv) as ((Pv & Lv & Cv) & [F | (c & F & Hcc & Lt)]).
  - unfold works in Hj. rewrite traverse_flat in Hj by auto. destruct Pv as (b & n & m & Ev & _).
    apply (Cv (lookup v works) jx) with (i := i); auto. rewrite Ev at 2. rewrite dsets_cd. rewrite Ev in Hj at 2. exact Hj.
  - unfold works in Hj. rewrite (traverse_nested ndim cds c v) in Hj by auto. fold works in Hj.
    destruct Pv as (b & n & m & Ev & _).
    assert (Ncv : v <> c) by (intros ->; lia).
    rewrite Ev in Hj at 2. rewrite T_eq in Hj. cbn [is_cd assoc] in Hj.
    destruct (expr_eq_dec (EApp HCD (b :: repeat (ESym KCoord n) (S m))) c) as [E | N]; [congruence|].
    cbn [map cd_arg] in Hj. apply dsets_T in Hj. destruct Hj as [Hj | (Hj & _)].
    + apply (Cv (lookup v works) jx) with (i := i); auto. rewrite Ev at 2. rewrite dsets_cd. auto.
    + cbn in Hj. destruct Hj as [Hj | []]. apply (assign_inj ndim sizes Hsz cds) in Hj; auto.
Qed.

Lemma central_unfold : forall l r, eq_derivatives eorder (KEq l r) <> [] -> central_equation k ndim dirof inv dord sord eorder (KEq l r) =
  let cds := eq_derivatives eorder (KEq l r) in
  let works := assign_works 0 cds in
  let keys := map (fun v => (traverse ndim works v, lookup v works)) cds in
  bind (mapM (fun v => bind (discretise k dirof inv dord (traverse ndim works v)) (fun e =>
     Ok {| u_eqs := [KEq (here ndim (lookup v works)) e]; u_range := Extended (extended dirof cds v) |})) cds) (fun ks =>
     Ok (ks ++ [{| u_eqs := [KEq (subs ndim (sord keys) l) (subs ndim (sord keys) r)]; u_range := Extended [] |}])).
Proof. intros l r H. unfold central_equation. destruct (eq_derivatives eorder (KEq l r)); [congruence | reflexivity]. Qed.
Lemma equation_ok : exists ks, central_equation k ndim dirof inv dord sord eorder (KEq (here ndim a) rhs) = Ok ks /\ ks <> [] /\
  forall order, (forall n r, BCSpec.sweeps (order n r) (fun x => in_urange k sizes r x = true)) ->
  forall n M, evaluated J k dirof h sizes a rhs M (run_user J order n ks M).
Proof.
  pose proof eq_nodup as NDc. pose proof eq_shallow as Hc.
  destruct (visc_run J k ndim dirof inv dord sord h sizes HJ Hinv Hdord Hsz cds Hc cds []) as (ks & E & W & X); auto.
  { intros l1 v l2 El c Hcv Nc. cbn [app]. apply in_cds in Hcv. apply (Hord l1 v l2 c El); tauto. }
  assert (Cr : clean rhs) by (intros b ix Hb; exact (proj2 (de_arrays _ _ _ _ DE b ix Hb))).
  assert (Ca : clean (here ndim a)) by (intros b ix [Eb | []]; injection Eb as <- <-; exact (de_target _ _ _ _ DE)).
  destruct (eq_subs rhs Cr) as (P & Pw & Pn & Pin & Sr).
  destruct (eq_subs (here ndim a) Ca) as (P' & _ & _ & _ & Sa).
  change (T ndim (rev P') (here ndim a)) with (here ndim a) in Sa.
  assert (Ne : cds <> []).
  { destruct (de_some _ _ _ _ DE) as (v & Hi & Hd). intros C. assert (H : In v cds) by (apply eq_cds, in_cds; auto). rewrite C in H. destruct H. }
  assert (Ec : eq_derivatives eorder (KEq (here ndim a) rhs) = cds) by reflexivity.
  rewrite central_unfold by (rewrite Ec; auto). rewrite Ec. cbv zeta. fold works. rewrite (mapM_convert _ _ E). cbn [bind]. eexists. split; [reflexivity|].
  split; [destruct (map convert ks); discriminate|].
  rewrite Sa, Sr. intros order Ho n M.
  set (last := {| k_eqs := [(a, T ndim (rev P) rhs)]; k_ext := [] |}).
  change [{| u_eqs := [KEq (here ndim a) (T ndim (rev P) rhs)]; u_range := Extended [] |}] with (map convert [last]).
  rewrite <- map_app. rewrite convert_run; auto.
  2: { intros kn Hk. apply in_app_iff in Hk. destruct Hk as [Hk | [<- | []]]; [eapply visc_single; eauto|].
    exists a, (T ndim (rev P) rhs). split; [reflexivity|]. intros ix Hx. apply dsets_T in Hx. destruct Hx as [Hx | (_ & Hx)]; auto.
    apply (de_arrays _ _ _ _ DE a ix Hx). }
  rewrite exec_app. set (M1 := exec J k sizes ks M).
  assert (F1 : forall b, notwork b -> forall x, M1 b x = M b x).
  { intros b Hb x. unfold M1. apply exec_frame. rewrite W. intros Hin. apply in_map_iff in Hin.
    destruct Hin as (v & <- & Hv). destruct (wk_look ndim sizes Hsz cds v Hv) as (i & Ei). apply (Hb i). auto. }
  assert (Na : notwork a) by (exact (de_target _ _ _ _ DE)).
  rewrite exec_cons. cbn [exec fold_left]. unfold exec_kernel, last. cbn [k_eqs k_ext fold_left]. unfold exec_eq. cbn [fst snd]. split; [|split].
  - intros x Hx. apply grid_point_range with (k := k) in Hx. rewrite String.eqb_refl, Hx. cbn [andb]. rewrite eval_value.
    apply (value_T J k ndim dirof h).
    + eapply in_range_length; eauto.
    + intros v Hv. apply eq_cds in Hv. exists (lookup v works). split.
      * apply assoc_unique; [rewrite map_rev; apply NoDup_rev; auto|]. apply in_rev. rewrite rev_involutive. auto.
      * unfold M1. apply X; auto; [intros v0 []|]. eapply in_range_weaken; eauto.
    + intros b ix Hb y. apply F1. apply (Cr b ix Hb).
  - intros x Hx. destruct (INR_ [] x) eqn:I; [exfalso; apply Hx; apply grid_point_range with (k := k); auto|].
    rewrite andb_false_r. auto.
  - intros b x Nb Wb. destruct (String.eqb_spec b a); [congruence|]. cbn [andb]. auto.
Qed.
End equation.

(* ---- a list of equations ---- *)
Lemma user_equations_ok : forall schemes, In SCentral schemes -> ~ In SWeno schemes -> NoDup schemes -> forall eqs,
  (forall a rhs, In (a, rhs) eqs -> differential_equation ndim dirof a rhs) ->
  (forall l, Permutation l (eorder l)) ->
  (forall a rhs, In (a, rhs) eqs -> inner_listed_first (eorder (nodup expr_eq_dec (cds_post rhs)))) ->
  exists kss, mapM (fun q => bind (mapM (fun s => scheme_equation k ndim dirof inv dord sord eorder s q) schemes) (fun l => Ok (List.concat l)))
      (map (fun ae => KEq (here ndim (fst ae)) (snd ae)) eqs) = Ok kss /\ (eqs <> [] -> List.concat kss <> []) /\
  forall order, (forall n r, BCSpec.sweeps (order n r) (fun x => in_urange k sizes r x = true)) ->
  forall n M, in_turn J k dirof h sizes eqs M (run_user J order n (List.concat kss) M).
Proof.
  intros schemes Hin Nin NDs. induction eqs as [|[a rhs] eqs IH]; intros HD Hperm Hord.
  { exists []. split; [reflexivity|]. split; [congruence|]. intros. cbn. constructor. auto. }
  destruct IH as (kss & E & _ & X); auto.
  { intros a' rhs' H. apply HD. right. auto. } { intros a' rhs' H. apply (Hord a'). right. auto. }
  destruct (equation_ok a rhs (HD _ _ (or_introl eq_refl)) Hperm (Hord _ _ (or_introl eq_refl))) as (ks & Ek & Nk & Xk).
  assert (S : exists l, mapM (fun s => scheme_equation k ndim dirof inv dord sord eorder s (KEq (here ndim a) rhs)) schemes = Ok l /\ List.concat l = ks).
  { assert (G : forall l, ~ In SWeno l -> NoDup l -> exists r, mapM (fun s => scheme_equation k ndim dirof inv dord sord eorder s (KEq (here ndim a) rhs)) l = Ok r /\
        List.concat r = if in_dec (fun a b : spatial => ltac:(decide equality)) SCentral l then ks else []).
    { induction l as [|s l IHl]; intros Nw ND; [exists []; auto|]. apply NoDup_cons_iff in ND. destruct ND as [N0 ND].
      destruct (IHl (fun H => Nw (or_intror H)) ND) as (r & Er & Cr). destruct s; [| exfalso; apply Nw; left; auto |]; cbn [mapM scheme_equation].
      - rewrite Ek. cbn [bind]. rewrite Er. cbn [bind]. eexists. split; [reflexivity|]. cbn [List.concat]. rewrite Cr.
        destruct (in_dec _ SCentral l); [contradiction|]. destruct (in_dec _ SCentral (SCentral :: l)) as [|N]; [apply app_nil_r | exfalso; apply N; left; auto].
      - cbn [bind]. rewrite Er. cbn [bind]. eexists. split; [reflexivity|]. cbn [List.concat app]. rewrite Cr.
        destruct (in_dec _ SCentral l) as [H | H]; destruct (in_dec _ SCentral (STeno :: l)) as [H' | H']; auto.
        + exfalso. apply H'. right. auto.
        + destruct H' as [H' | H']; [discriminate | contradiction]. }
    destruct (G schemes Nin NDs) as (r & Er & Cr). exists r. split; auto. rewrite Cr. destruct (in_dec _ SCentral schemes); [auto | contradiction]. }
  destruct S as (l & El & Cl). cbn [map mapM fst snd]. rewrite El. cbn [bind]. rewrite E. cbn [bind].
  eexists. split; [reflexivity|]. cbn [List.concat]. rewrite Cl. split.
  { intros _ C. apply app_eq_nil in C. tauto. }
  intros order Ho n M. rewrite run_user_app. econstructor; [apply Xk; auto|]. apply X; auto.
Qed.
End user.

(* ---- the requested range ---- *)
Lemma minl_le : forall l x z, (minl x l <= z)%Z <-> (x <= z)%Z \/ exists y, In y l /\ (y <= z)%Z.
Proof.
  induction l as [|y l IH]; intros x z; cbn [minl].
  - split; auto. intros [H | (y & [] & _)]; auto.
  - rewrite IH. split.
    + intros [H | (u & Hu & H)]; [|right; exists u; split; auto; right; auto].
      destruct (Z.min_spec x y) as [[_ E] | [_ E]]; rewrite E in H; auto. right. exists y. split; auto. left. auto.
    + intros [H | (u & [<- | Hu] & H)]; [left; lia | left; lia | right; eauto].
Qed.
Lemma maxl_gt : forall l x z, (z < maxl x l)%Z <-> (z < x)%Z \/ exists y, In y l /\ (z < y)%Z.
Proof.
  induction l as [|y l IH]; intros x z; cbn [maxl].
  - split; auto. intros [H | (y & [] & _)]; auto.
  - rewrite IH. split.
    + intros [H | (u & Hu & H)]; [|right; exists u; split; auto; right; auto].
      destruct (Z.max_spec x y) as [[_ E] | [_ E]]; rewrite E in H; auto. right. exists y. split; auto. left. auto.
    + intros [H | (u & [<- | Hu] & H)]; [left; lia | left; lia | right; eauto].
Qed.
Lemma halo_min_le : forall hs z, (halo_min hs <= z)%Z <-> (hs = [] /\ 0 <= z)%Z \/ exists t, In t hs /\ (fst t <= z)%Z.
Proof.
  intros [|h hs] z; cbn [halo_min].
  - split; auto. intros [[_ H] | (t & [] & _)]; auto.
  - rewrite minl_le. split.
    + intros [H | (y & Hy & H)]; right; [exists h; split; [left|]; auto|]. apply in_map_iff in Hy. destruct Hy as (t & <- & Ht). exists t. split; [right|]; auto.
    + intros [[C _] | (t & [<- | Ht] & H)]; [discriminate | auto |]. right. exists (fst t). split; auto. apply in_map. auto.
Qed.
Lemma halo_max_gt : forall hs s z, (z < s + halo_max hs)%Z <-> (hs = [] /\ z < s)%Z \/ exists t, In t hs /\ (z < s + snd t)%Z.
Proof.
  intros [|h hs] s z; cbn [halo_max].
  - split; [left; split; auto; lia|]. intros [[_ H] | (t & [] & _)]; lia.
  - assert (Q : (z < s + maxl (snd h) (map snd hs))%Z <-> (z - s < maxl (snd h) (map snd hs))%Z) by lia. rewrite Q, maxl_gt. split.
      * intros [H | (y & Hy & H)]; right; [exists h; split; [left|lia]; auto|]. apply in_map_iff in Hy. destruct Hy as (t & <- & Ht). exists t. split; [right; auto|lia].
      * intros [[C _] | (t & [<- | Ht] & H)]; [discriminate | left; lia |]. right. exists (snd t). split; [apply in_map; auto|lia].
Qed.
Lemma add_halos_spec : forall types hr dir side d hl hh, nth_error hr d = Some (hl, hh) ->
  exists hl' hh', nth_error (add_halos hr dir side types) d = Some (hl', hh') /\
    (forall x, In x hl' <-> In x hl \/ (d = dir /\ side = false /\ In x types)) /\
    (forall x, In x hh' <-> In x hh \/ (d = dir /\ side = true /\ In x types)).
Proof.
  unfold add_halos. induction types as [|t types IH]; intros hr dir side d hl hh H; cbn [fold_left].
  - exists hl, hh. split; auto. cbn [In]. split; intros x; tauto.
  - destruct (KernelProofs.set_halo_spec _ dir side t _ _ _ H) as (l1 & h1 & N1 & A1 & B1).
    destruct (IH _ dir side d l1 h1 N1) as (l2 & h2 & N2 & A2 & B2). exists l2, h2. split; auto. cbn [In].
    split; intros x; [rewrite A2, A1 | rewrite B2, B1]; intuition congruence.
Qed.
Lemma add_halos_length : forall types hr d side, List.length (add_halos hr d side types) = List.length hr.
Proof.
  unfold add_halos. induction types as [|t types IH]; intros; cbn [fold_left]; auto. rewrite IH. apply StoreShock.set_halo_length.
Qed.
Definition holds_types (halos : halo_ranges) (done : nat -> Prop) (i : nat) (p : list halo * list halo) : Prop :=
  (forall t, In t (fst p) <-> done i /\ In t (fst (nth i halos ([], [])))) /\ (forall t, In t (snd p) <-> done i /\ In t (snd (nth i halos ([], [])))).
Lemma request_ok : forall halos dirs hr (done : nat -> Prop), (forall d, In d dirs -> (d < List.length halos)%nat) ->
  (forall d, In d dirs -> ~ done d) -> NoDup dirs ->
  (forall i, (i < List.length hr)%nat -> holds_types halos done i (nth i hr ([], []))) ->
  exists hr', request_halos hr halos dirs = Ok hr' /\ List.length hr' = List.length hr /\
    forall i, (i < List.length hr)%nat -> holds_types halos (fun i => done i \/ In i dirs) i (nth i hr' ([], [])).
Proof.
  intros halos. induction dirs as [|d dirs IH]; intros hr done Hd Hn ND H; cbn [request_halos].
  - exists hr. split; auto. split; auto. intros i Hi. destruct (H i Hi) as [A B]. split; intros t; [rewrite A | rewrite B]; cbn [In]; tauto.
  - apply NoDup_cons_iff in ND. destruct ND as [N0 ND].
    rewrite (nth_error_nth' halos ([], [])) by (apply Hd; left; auto). destruct (nth d halos ([], [])) as [lo hi] eqn:En.
    set (hr1 := add_halos (add_halos hr d false lo) d true hi).
    assert (L : List.length hr1 = List.length hr) by (unfold hr1; rewrite !add_halos_length; auto).
    destruct (IH hr1 (fun i => done i \/ i = d)) as (hr' & E & L' & X); auto.
    + intros i Hi. apply Hd. right. auto.
    + intros i Hi [C | ->]; auto. apply (Hn i); auto. right. auto.
    + rewrite L. intros i Hi. specialize (H i Hi).
      assert (N : nth_error hr i = Some (nth i hr ([], []))) by (apply nth_error_nth'; auto).
      destruct (nth i hr ([], [])) as [l0 h0]. destruct H as [H1 H2]. cbn [fst snd] in H1, H2.
      destruct (add_halos_spec lo _ d false _ _ _ N) as (l1 & h1 & N1 & A1 & B1).
      destruct (add_halos_spec hi _ d true _ _ _ N1) as (l2 & h2 & N2 & A2 & B2).
      fold hr1 in N2. rewrite (nth_error_nth _ _ _ N2). unfold holds_types. cbn [fst snd].
      assert (Nd : i = d -> nth i halos ([], []) = (lo, hi)) by (intros ->; auto).
      split; intros t; [rewrite A2, A1, H1 | rewrite B2, B1, H2]; (split; [|intros [[Q | ->] R]]; [|auto|]).
      * intros [[[Q R] | (-> & _ & R)] | (_ & C & _)]; [split; auto | rewrite En; split; auto | discriminate].
      * rewrite Nd in R by auto. left. right. auto.
      * intros [[[Q R] | (_ & C & _)] | (-> & _ & R)]; [split; auto | discriminate | rewrite En; split; auto].
      * rewrite Nd in R by auto. right. auto.
    + rewrite L in *. exists hr'. split; auto. split; auto. intros i Hi. destruct (X i Hi) as [A B].
      split; intros t; [rewrite A | rewrite B]; cbn [In]; intuition congruence.
Qed.
Lemma in_requested : forall sizes halos, halos = [] \/ (List.length sizes <= List.length halos)%nat ->
  exists r, requested_range sizes halos = Ok r /\ forall x, in_ranges r x = true <-> requested_point sizes halos x.
Proof.
  intros sizes halos Hh. unfold requested_range.
  assert (E : exists hr, (match halos with [] => Ok (repeat ([], []) (List.length sizes)) | _ => request_halos (repeat ([], []) (List.length sizes)) halos (seq 0 (List.length sizes)) end) = Ok hr /\
     List.length hr = List.length sizes /\ forall i, (i < List.length sizes)%nat -> holds_types halos (fun _ => True) i (nth i hr ([], []))).
  { destruct Hh as [-> | Hh].
    - eexists. split; [reflexivity|]. rewrite repeat_length. split; auto. intros i Hi. rewrite nth_repeat. split; intros t; destruct i; cbn; tauto.
    - destruct (request_ok halos (seq 0 (List.length sizes)) (repeat ([], []) (List.length sizes)) (fun _ => False)) as (hr & E & L & X); auto.
      + intros d Hd. apply in_seq in Hd. lia.
      + apply seq_NoDup.
      + intros i Hi. rewrite nth_repeat. split; cbn [fst snd In]; tauto.
      + rewrite repeat_length in *. exists hr. split; [|split; auto].
        * destruct halos; [|exact E]. destruct sizes; [|cbn in Hh; lia]. cbn in *. congruence.
        * intros i Hi. destruct (X i Hi) as [A B]. split; intros t; [rewrite A | rewrite B]; rewrite in_seq; split; intros [_ H]; (split; [|exact H]); auto; right; lia. }
  destruct E as (hr & -> & L & X). cbn [bind]. eexists. split; [reflexivity|]. intros x.
  assert (Lr : List.length (map (fun s => (0, s)%Z) sizes) = List.length hr) by (rewrite map_length; auto).
  unfold in_ranges, requested_point. rewrite andb_true_iff, Nat.eqb_eq, BCKern.total_range_length, map_length by auto.
  assert (D : List.length x = List.length sizes -> forall d, (d < List.length sizes)%nat ->
    (let '(lo, hi) := nth d (total_range (map (fun s => (0, s)%Z) sizes) hr) (0, 0)%Z in ((lo <=? nth d x 0) && (nth d x 0 <? hi))%Z) = true <->
    (let '(lo, hi) := nth d halos ([], []) in
    ((lo = [] /\ 0 <= nth d x 0)%Z \/ exists t, In t lo /\ (fst t <= nth d x 0)%Z) /\
    ((hi = [] /\ nth d x 0 < nth d sizes 0)%Z \/ exists t, In t hi /\ (nth d x 0 < nth d sizes 0 + snd t)%Z))).
  { intros Lx d Hd. rewrite BCKern.total_range_nth by (try rewrite map_length; auto).
    change (0, 0)%Z with ((fun n => (0, n)%Z) 0%Z). rewrite map_nth. cbn [fst snd]. rewrite andb_true_iff, Z.leb_le, Z.ltb_lt, Z.add_0_l.
    rewrite halo_min_le, halo_max_gt. destruct (X d Hd) as [A B]. destruct (nth d halos ([], [])) as [lo hi]. destruct (nth d hr ([], [])) as [l0 h0].
    cbn [fst snd] in *.
    assert (El : l0 = [] <-> lo = []).
    { split; intros E; [destruct lo as [|t lo] | destruct l0 as [|t l0]]; auto; exfalso; [specialize (proj2 (A t)) | specialize (proj1 (A t))]; rewrite E; cbn [In]; tauto. }
    assert (Eh : h0 = [] <-> hi = []).
    { split; intros E; [destruct hi as [|t hi] | destruct h0 as [|t h0]]; auto; exfalso; [specialize (proj2 (B t)) | specialize (proj1 (B t))]; rewrite E; cbn [In]; tauto. }
    rewrite El, Eh. split; intros [[P | (t & Ht & P)] [Q | (u & Hu & Q)]]; (split; [first [left; exact P | right; eexists; split; [apply A; eauto|exact P]] | first [left; exact Q | right; eexists; split; [apply B; eauto|exact Q]]]). }
  split; intros [Lx H]; split; auto.
  - intros d Hd. apply (D Lx d Hd). rewrite (BCKern.forallb_combine _ _ _ _ _ 0%Z (0, 0)%Z) in H by (rewrite BCKern.total_range_length, map_length; auto).
    apply H. lia.
  - rewrite (BCKern.forallb_combine _ _ _ _ _ 0%Z (0, 0)%Z) by (rewrite BCKern.total_range_length, map_length; auto).
    intros d Hd. apply (D Lx d ltac:(lia)). apply H. lia.
Qed.
