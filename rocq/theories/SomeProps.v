(* C71: the low-storage variant of the central scheme. *)
From Verif Require Import Base Expr ExprProofs FDModel FDProofs WorkModel ShiftSpec DiscModel DiscSpec DiscProofs DiscRun DiscMain DiscProps SomeModel SomeSpec SomeMain.
From Verif Require KernelModel BCSpec BCModel.
From Coq Require Import QArith ZArith Reals Qreals Lia Lra Permutation.
Local Close Scope Q_scope.
Local Open Scope list_scope.

(* C71, for the systems of [storable] in which both groups of terms keep a derivative that
   is not stored: the discretisation succeeds, and after its kernels have run, each over
   its own points in any order and from any contents of the memory, the residual array of
   every equation holds at every grid point its right-hand side with every derivative
   replaced by the difference formula; apart from residual and work arrays nothing is
   changed.  Missing for the full claim: see the refutations below. *)
Theorem C71_residual_partial :
  forall J k ndim dirof inv dord sord corder eorder vsort korder h sizes fns eqs,
  real_arithmetic J ->
  (forall M x d m, value J M x (inv d m) = (/ h d ^ m)%R) ->
  (forall d m, dsets (inv d m) = [] /\ syms KGridVar (inv d m) = []) ->
  (forall e, enumerates (dord e) e) ->
  (forall l, Permutation l (sord l)) -> (forall l, Permutation l (corder l)) -> (forall l, Permutation l (eorder l)) ->
  (forall l, Permutation l (vsort l)) -> (forall l, Permutation l (korder l)) ->
  List.length sizes = ndim ->
  storable ndim dirof fns eqs ->
  keeps_derivative ndim fns eqs (fun t => ~ viscous_term t) ->
  (keeps_derivative ndim fns eqs viscous_term \/ forall r rhs t, In (r, rhs) eqs -> In t (terms rhs) -> ~ viscous_term t) ->
  exists ks, store_some k ndim dirof inv dord sord corder eorder vsort korder fns eqs = Ok ks /\
    forall order, (forall n ext, BCSpec.sweeps (order n ext) (fun x => in_range k sizes ext x = true)) ->
    forall M, (forall r rhs x, In (r, rhs) eqs -> grid_point sizes x -> run_kernels J order 0 ks M r x = sem J k dirof h M rhs x) /\
      (forall b x, (forall i, b <> wk_name i) -> ~ In b (map fst eqs) -> run_kernels J order 0 ks M b x = M b x).
Proof.
  intros J k ndim dirof inv dord sord corder eorder vsort korder h sizes fns eqs HJ Hi Hn. intros.
  apply residual_some; auto; intros; apply Hn.
Qed.
Print Assumptions C71_residual_partial.

(* Storing only some of the derivatives changes nothing: the residuals are those of the
   scheme that stores all of them (C31). *)
Theorem C71_same_residual_partial :
  forall J k ndim dirof inv dord sord corder eorder vsort korder h sizes fns eqs ccds vcds,
  real_arithmetic J ->
  (forall M x d m, value J M x (inv d m) = (/ h d ^ m)%R) ->
  (forall d m, dsets (inv d m) = [] /\ syms KGridVar (inv d m) = []) ->
  (forall e, enumerates (dord e) e) ->
  (forall l, Permutation l (sord l)) -> (forall l l', Permutation l l' -> inner_first l' -> inner_first (sord l)) ->
  (forall l, Permutation l (corder l)) -> (forall l, Permutation l (eorder l)) ->
  (forall l, Permutation l (vsort l)) -> (forall l, Permutation l (korder l)) ->
  List.length sizes = ndim ->
  storable ndim dirof fns eqs -> well_formed ndim dirof (fun b => exists i, b = wk_name i) eqs ->
  keeps_derivative ndim fns eqs (fun t => ~ viscous_term t) ->
  (keeps_derivative ndim fns eqs viscous_term \/ forall r rhs t, In (r, rhs) eqs -> In t (terms rhs) -> ~ viscous_term t) ->
  lists_derivatives eqs (fun t => ~ viscous_term t) ccds -> lists_derivatives eqs viscous_term vcds ->
  exists ks ks', store_some k ndim dirof inv dord sord corder eorder vsort korder fns eqs = Ok ks /\
    sbli_rhs_discretisation k ndim dirof inv dord sord ccds vcds eqs = Ok ks' /\
    forall order, (forall n ext, BCSpec.sweeps (order n ext) (fun x => in_range k sizes ext x = true)) ->
    forall M r rhs x, In (r, rhs) eqs -> grid_point sizes x -> run_kernels J order 0 ks M r x = exec J k sizes ks' M r x.
Proof.
  intros J k ndim dirof inv dord sord corder eorder vsort korder h sizes fns eqs ccds vcds HJ Hi Hn Hd Hs Hin Hc He Hv Hk Hsz SB WF Kc Kv LC LV.
  destruct (C71_residual_partial J k ndim dirof inv dord sord corder eorder vsort korder h sizes fns eqs) as (ks & E & X); auto.
  destruct (C31_residual_partial J k ndim dirof inv dord sord h sizes eqs ccds vcds) as (ks' & E' & X'); auto.
  - intros C. destruct Kc as (r & rhs & t & v & A & B & Nv & Iv & Dv & _). assert (H : In v ccds) by (apply (proj2 LC); split; auto; exists r, rhs, t; auto).
    rewrite C in H. destruct H.
  - intros C. destruct Kv as [(r & rhs & t & v & A & B & Nv & Iv & Dv & _) | Kv]; auto. exfalso.
    assert (H : In v vcds) by (apply (proj2 LV); split; auto; exists r, rhs, t; auto). rewrite C in H. destruct H.
  - exists ks, ks'. split; auto. split; auto. intros order Ho M r rhs x A B. rewrite (proj1 (X order Ho M) r rhs x A B). symmetry. apply (X' M); auto.
Qed.
Print Assumptions C71_same_residual_partial.

(* The system of C31's example, with the derivatives of u0 stored. *)
Definition stored_fns := ["u0"%string].
Lemma ex_sys_storable : storable 2 dir3 stored_fns ex_sys.
Proof.
  destruct ex_sys_ok as (W & _). 
  assert (D : forall r rhs v, In (r, rhs) ex_sys -> In v (cds_post rhs) -> In v [ex_c1; ex_c2; ex_v1; ex_v2; ex_v3]).
  { intros r rhs v [E | [E | []]] Hv; injection E as <- <-; vm_compute in Hv; vm_compute; tauto. }
  constructor.
  - apply W.
  - split; [repeat constructor; intros []|]. intros f i [<- | []]. split; [discriminate | cbn; intuition discriminate].
  - intros r rhs i Hin E. eapply (wf_residual _ _ _ _ W); eauto.
  - intros r rhs b ix Hin Hb. destruct (wf_arrays _ _ _ _ W r rhs b ix Hin Hb) as (A & B & C). split; auto. split; auto. intros i E. apply B. eauto.
  - intros r rhs n [E | [E | []]] Hn; injection E as <- <-; vm_compute in Hn; repeat (destruct Hn as [<- | Hn]; [vm_compute; lia|]); destruct Hn.
  - intros r rhs [E | [E | []]]; injection E as <- <-; reflexivity.
  - apply W.
  - apply W.
  - apply W.
  - intros r rhs a cs u Hin Hi Hu Hd. apply (inside_cds _ rhs (ex_intro _ a (ex_intro _ cs eq_refl))) in Hi. apply (D r rhs _ Hin) in Hi. apply (inside_cds u a Hd) in Hu.
    destruct Hi as [E | [E | [E | [E | [E | []]]]]]; unfold ex_c1, ex_c2, ex_v1, ex_v2, ex_v3 in E; injection E as <- _; try destruct Hu.
    + exists "u0"%string, "x0"%string. split; [left; auto | symmetry; auto].
    + contradiction.
  - intros r rhs v Hin Hi Hd. apply (inside_cds v rhs Hd) in Hi. apply (D r rhs v Hin) in Hi.
    destruct Hi as [<- | [<- | [<- | [<- | [<- | []]]]]]; vm_compute; lia.
Qed.
Lemma ex_keeps : keeps_derivative 2 stored_fns ex_sys (fun t => ~ viscous_term t) /\ keeps_derivative 2 stored_fns ex_sys viscous_term.
Proof.
  split.
  - exists "Residual0"%string. eexists _, _, ex_c1. split; [left; reflexivity|]. split; [left; reflexivity|].
    split; [rewrite <- has_re_spec; vm_compute; discriminate|]. split; [apply cds_inside; vm_compute; tauto|]. split; [eexists _, _; reflexivity|].
    intros (f & n & _ & E). discriminate.
  - exists "Residual1"%string. eexists _, _, ex_v3. split; [right; left; reflexivity|]. split; [right; left; reflexivity|].
    split; [rewrite <- has_re_spec; vm_compute; reflexivity|]. split; [apply cds_inside; vm_compute; tauto|]. split; [eexists _, _; reflexivity|].
    intros (f & n & _ & E). discriminate.
Qed.
Example C71_nonvacuous :
  exists ks ks', store_some 2 2 dir3 inv1 set_order inner_order (fun l => l) (fun l => l) (fun l => l) (fun l => l) stored_fns ex_sys = Ok ks /\
    map sk_ext ks = [[]; [1%nat]; []; []] /\
    sbli_rhs_discretisation 2 2 dir3 inv1 set_order inner_order [ex_c1; ex_c2] [ex_v2; ex_v1; ex_v3] ex_sys = Ok ks' /\
    forall order, (forall n ext, BCSpec.sweeps (order n ext) (fun x => in_range 2 [10; 20]%Z ext x = true)) ->
    forall M r rhs x, In (r, rhs) ex_sys -> grid_point [10; 20]%Z x ->
      run_kernels J1 order 0 ks M r x = exec J1 2 [10; 20]%Z ks' M r x.
Proof.
  destruct ex_sys_ok as (A & B & C). destruct ex_keeps as (Kc & Kv).
  destruct (C71_same_residual_partial J1 2 2 dir3 inv1 set_order inner_order (fun l => l) (fun l => l) (fun l => l) (fun l => l) (fun _ => 1%R) [10; 20]%Z stored_fns ex_sys
    [ex_c1; ex_c2] [ex_v2; ex_v1; ex_v3]) as (ks & ks' & E & E' & X); auto using J1_real, inv1_ok, set_order_ok, inner_order_perm, ex_sys_storable.
  { intros l l' P H. eapply inner_order_inner; eauto. }
  exists ks, ks'. split; auto. split; [|split; auto].
  assert (Q : match store_some 2 2 dir3 inv1 set_order inner_order (fun l => l) (fun l => l) (fun l => l) (fun l => l) stored_fns ex_sys with
    | Ok ks => map sk_ext ks | _ => [] end = [[]; [1%nat]; []; []]) by (vm_compute; reflexivity).
  rewrite E in Q. exact Q.
Qed.

(* Refutations of the full claim. *)
Definition at1 (b : string) := EDat b [0%Z].
Definition lost_c := EApp HMul [ENum (-1); EApp HCD [EApp HMul [at1 "u"; at1 "u"]; x0]].
Definition lost_d := EApp HCD [at1 "u"; x0].
Definition lost_v := EApp HMul [inv_re; lost_d; lost_d].
Definition conv_sys : list (string * expr) := [("R"%string, EApp HAdd [lost_c])].
Definition lost_sys : list (string * expr) := [("R"%string, EApp HAdd [lost_c; lost_v])].
Notation some1 := (store_some 1 1 dir3 inv1 set_order inner_order (fun l => l) (fun l => l) (fun l => l) (fun l => l) ["u"%string]).
Lemma small_storable : forall rhs, (rhs = EApp HAdd [lost_c] \/ rhs = EApp HAdd [lost_c; lost_v]) -> storable 1 dir3 ["u"%string] [("R"%string, rhs)].
Proof.
  intros rhs Hr.
  assert (D : forall v, In v (cds_post rhs) -> v = EApp HCD [EApp HMul [at1 "u"; at1 "u"]; x0] \/ v = lost_d).
  { intros v Hv. destruct Hr as [-> | ->]; vm_compute in Hv; vm_compute; intuition auto. }
  constructor.
  - repeat constructor. intros [].
  - split; [repeat constructor; intros []|]. intros f i [<- | []]. split; [discriminate | cbn; intuition discriminate].
  - intros r e i [E | []]. injection E as <- <-. discriminate.
  - intros r e b ix [E | []] Hb. injection E as <- <-.
    assert (X : (b, ix) = ("u"%string, [0%Z])) by (destruct Hr as [-> | ->]; vm_compute in Hb; intuition auto).
    injection X as -> ->. split; [reflexivity|]. split; [discriminate | cbn; intuition discriminate].
  - intros r e n [E | []] Hn. injection E as <- <-.
    assert (X : n = "x0"%string) by (destruct Hr as [-> | ->]; vm_compute in Hn; intuition auto). subst n. vm_compute. lia.
  - intros r e [E | []]. injection E as <- <-. destruct Hr as [-> | ->]; reflexivity.
  - intros r e [E | []]. injection E as <- <-. destruct Hr as [-> | ->]; eauto.
  - intros r e [E | []]. injection E as <- <-. apply plain_ok. destruct Hr as [-> | ->]; reflexivity.
  - intros r e v [E | []] Hi Hd. injection E as <- <-. apply (inside_cds v rhs Hd) in Hi. destruct (D v Hi) as [-> | ->].
    + exists (EApp HMul [at1 "u"; at1 "u"]), "x0"%string, 0%nat. split; [reflexivity|]. split; [cbn; lia | discriminate].
    + exists (at1 "u"), "x0"%string, 0%nat. split; [reflexivity|]. split; [cbn; lia | discriminate].
  - intros r e a cs u [E | []] Hi Hu Hd. injection E as <- <-. apply (inside_cds _ rhs (ex_intro _ a (ex_intro _ cs eq_refl))) in Hi. apply (inside_cds u a Hd) in Hu.
    destruct (D _ Hi) as [E | E]; unfold lost_d in E; injection E as -> _; destruct Hu.
  - intros r e v [E | []] Hi Hd. injection E as <- <-. apply (inside_cds v rhs Hd) in Hi. destruct (D v Hi) as [-> | ->]; vm_compute; lia.
Qed.
Lemma small_keeps : forall rhs, In lost_c (terms rhs) -> keeps_derivative 1 ["u"%string] [("R"%string, rhs)] (fun t => ~ viscous_term t).
Proof.
  intros rhs H. exists "R"%string, rhs, lost_c, (EApp HCD [EApp HMul [at1 "u"; at1 "u"]; x0]). split; [left; auto|]. split; auto.
  split; [rewrite <- has_re_spec; vm_compute; discriminate|]. split; [apply cds_inside; vm_compute; tauto|]. split; [eexists _, _; reflexivity|].
  intros (f & n & _ & E). discriminate.
Qed.
Definition J2 : interp R := {| inum := Q2R; isym := fun _ _ => 1%R;
  iapp := fun hd l => match hd with HAdd => fold_right Rplus 0%R l | HMul => fold_right Rmult 1%R l | _ => 1%R end |}.

(* If all derivatives in the viscous terms are stored, the viscous terms are left out of
   the program: the residual is that of the convective terms alone. *)
Theorem C71_viscous_lost_refuted :
  exists ks, storable 1 dir3 ["u"%string] lost_sys /\ keeps_derivative 1 ["u"%string] lost_sys (fun t => ~ viscous_term t) /\
    some1 lost_sys = Ok ks /\
    exists M x, grid_point [5]%Z x /\
      forall order, (forall n ext, BCSpec.sweeps (order n ext) (fun x => in_range 1 [5]%Z ext x = true)) ->
        run_kernels J2 order 0 ks M "R"%string x <> sem J2 1 dir3 (fun _ => 1%R) M (EApp HAdd [lost_c; lost_v]) x.
Proof.
  assert (HJ : real_arithmetic J2) by (split; [|split]; reflexivity).
  assert (Hi : forall M x d m, value J2 M x (inv1 d m) = (/ (fun _ => 1%R) d ^ m)%R).
  { intros. unfold value, inv1. cbn [eval J2 inum]. rewrite RMicromega.Q2R_1, pow1. lra. }
  assert (Hk : keeps_derivative 1 ["u"%string] conv_sys (fun t => ~ viscous_term t)) by (apply small_keeps; left; auto).
  destruct (C71_residual_partial J2 1 1 dir3 inv1 set_order inner_order (fun l => l) (fun l => l) (fun l => l) (fun l => l) (fun _ => 1%R) [5]%Z ["u"%string] conv_sys) as (ks & E & X);
    auto using set_order_ok, inner_order_perm.
  { apply small_storable. auto. }
  { right. intros r rhs t [Er | []] Ht. injection Er as <- <-. destruct Ht as [<- | []]. rewrite <- has_re_spec. vm_compute. discriminate. }
  exists ks. split; [apply small_storable; auto|]. split; [apply small_keeps; left; auto|]. split.
  { rewrite <- E. vm_compute. reflexivity. }
  exists (fun _ x => match x with [i] => IZR i | _ => 0%R end), [0%Z]. split; [repeat constructor; lia|].
  intros order Ho. rewrite (proj1 (X order Ho _) "R"%string (EApp HAdd [lost_c])); [|left; auto|repeat constructor; lia].
  set (M := fun (_ : string) (x : list Z) => match x with [i] => IZR i | _ => 0%R end).
  rewrite !sem_add by auto. cbn [map fold_right].
  assert (V : sem J2 1 dir3 (fun _ => 1%R) M lost_v [0%Z] = 1%R).
  { unfold lost_v. assert (S : sem J2 1 dir3 (fun _ => 1%R) M lost_d [0%Z] = 1%R).
    { unfold lost_d. change (EApp HCD [at1 "u"; x0]) with (EApp HCD (at1 "u" :: repeat (ESym KCoord "x0"%string) 1)). rewrite sem_cd.
      unfold grid_formula. change (combine (central_points (2 * Z.of_nat 1)) (generate_weights (2 * Z.of_nat 1) 1)) with
        (ltac:(let t := eval vm_compute in (combine (central_points (2 * Z.of_nat 1)) (generate_weights (2 * Z.of_nat 1) 1)) in exact t)).
      cbn [fold_right fst snd]. unfold at1. cbn [sem dir3 String.eqb]. unfold M. cbn. unfold Q2R. cbn. lra. }
    cbn [sem]. cbn [map iapp J2 fold_right inv_re sem]. rewrite S. lra. }
  rewrite V. lra.
Qed.
Print Assumptions C71_viscous_lost_refuted.

(* If no derivative is left at all, there are no kernels: u*du/dx with du/dx stored. *)
Theorem C71_no_kernels_refuted :
  exists eqs, (exists r t, eqs = [(r, t)] /\ inside lost_d t) /\ some1 eqs = Ok [].
Proof.
  exists [("R"%string, EApp HMul [ENum (-1); at1 "u"; lost_d])]. split.
  - eexists _, _. split; [reflexivity|]. apply cds_inside. vm_compute. tauto.
  - vm_compute. reflexivity.
Qed.
Print Assumptions C71_no_kernels_refuted.

(* A derivative inside another that is not stored is left in the program undiscretised. *)
Theorem C71_inner_not_stored_refuted :
  exists eqs ks kn l e v, some1 eqs = Ok ks /\ In kn ks /\ In (KernelModel.KEq l e) (sk_eqs kn) /\ inside v e /\ derivative v.
Proof.
  set (eqs := [("R"%string, EApp HAdd [lost_c; EApp HMul [inv_re; EApp HCD [EApp HMul [at1 "mu"; EApp HCD [at1 "v"; x0]]; x0]]])]).
  destruct (some1 eqs) as [ks|er] eqn:E; [|exfalso; vm_compute in E; discriminate].
  vm_compute in E. injection E as <-. eexists eqs, _, _, _, _, (EApp HCD [EDat "v" [-1]%Z; x0]).
  split; [vm_compute; reflexivity|]. split; [do 2 right; left; reflexivity|]. cbn [sk_eqs].
  split; [right; left; reflexivity|]. split; [apply cds_inside; vm_compute; tauto | eexists _, _; reflexivity].
Qed.
Print Assumptions C71_inner_not_stored_refuted.

(* A derivative that is not stored beside a stored one inside a third: the ranges are
   looked up in an attribute it does not have. *)
Theorem C71_mixed_refuted :
  exists eqs, (exists r rhs o, eqs = [(r, rhs)] /\ inside o rhs /\ proper_derivative 1 dir3 o /\ nderivs o = 3%nat) /\
    some1 eqs = Err AttributeErr.
Proof.
  set (o := EApp HCD [EApp HMul [EApp HCD [at1 "v"; x0]; lost_d]; x0]).
  exists [("R"%string, EApp HAdd [lost_c; EApp HMul [inv_re; o]])]. split.
  - eexists _, _, o. split; [reflexivity|]. split; [apply cds_inside; vm_compute; tauto|]. split; [|reflexivity].
    eexists _, "x0"%string, 0%nat. split; [reflexivity|]. split; [cbn; lia | discriminate].
  - vm_compute. reflexivity.
Qed.
Print Assumptions C71_mixed_refuted.

(* Two stored derivatives inside a third: as in C61, the range of the first is extended
   in the direction of the second, and the third reads points that are not computed. *)
Definition sk_range (k : nat) (sizes : list Z) (kn : skernel) :=
  (map (fun q => match q with KernelModel.KEq (EDat b _) e => (b, e) | KernelModel.KEq _ e => (""%string, e) | _ => (""%string, ENum 0) end) (sk_eqs kn), in_range k sizes (sk_ext kn)).
Theorem C71_sibling_range_refuted :
  exists ks, store_some 1 3 dir3 inv1 set_order inner_order (fun l => l) (fun l => l) (fun l => l) (fun l => l) ["u"; "v"]%string sib_sys = Ok ks /\
    reads_uncomputed_point (map (sk_range 1 [4; 4; 4]%Z) ks).
Proof.
  destruct (store_some 1 3 dir3 inv1 set_order inner_order (fun l => l) (fun l => l) (fun l => l) (fun l => l) ["u"; "v"]%string sib_sys) as [ks|er] eqn:E.
  2: { exfalso. vm_compute in E. discriminate. }
  vm_compute in E. injection E as <-. eexists. split; [reflexivity|]. cbn [map].
  eexists _, ""%string, _, "wk0"%string, [0; 0; 1]%Z, [0; 0; 3]%Z.
  split; [do 7 right; left; reflexivity|]. split; [left; reflexivity|].
  split; [vm_compute; tauto|]. split; [vm_compute; reflexivity|].
  split. { eexists. split; [left; reflexivity|]. left. reflexivity. }
  intros kw Hk Hb. cbn [In] in Hk.
  repeat (destruct Hk as [<- | Hk]; [first [vm_compute; reflexivity | exfalso; vm_compute in Hb; intuition discriminate]|]). destruct Hk.
Qed.
Print Assumptions C71_sibling_range_refuted.
