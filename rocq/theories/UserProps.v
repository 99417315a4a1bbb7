(* C74: user-defined equations. *)
From Verif Require Import Base Expr ExprProofs KernelModel ShiftSpec WorkModel DiscModel DiscSpec DiscProofs DiscRun DiscMain DiscProps BCModel SomeLoop UserModel UserSpec UserProofs.
From Verif Require BCSpec BCProofs.
From Coq Require Import QArith ZArith Reals Lia List Permutation.
Import ListNotations.
Local Close Scope Q_scope.
Local Open Scope list_scope.

(* C74.  When every equation has derivatives (conditions of [differential_equation]) and
   the set of derivatives of each equation happens to be iterated with inner derivatives
   before outer ones: the kernels are generated and, each run over its own points in any
   order, have the effect of evaluating the equations one after the other at the points
   of the grid.  Missing for the full claim: equations without derivatives, requested
   halos, other iteration orders and local variables; see the refutations. *)
Theorem C74_differential_partial :
  forall J k ndim dirof inv dord sord eorder h schemes sizes halos eqs,
  real_arithmetic J ->
  (forall M x d m, value J M x (inv d m) = (/ h d ^ m)%R) ->
  (forall d m, dsets (inv d m) = []) ->
  (forall e, enumerates (dord e) e) ->
  (forall l, Permutation l (sord l)) -> (forall l l', Permutation l l' -> inner_first l' -> inner_first (sord l)) ->
  (forall l, Permutation l (eorder l)) ->
  List.length sizes = ndim ->
  In SCentral schemes -> ~ In SWeno schemes -> NoDup schemes -> eqs <> [] ->
  (forall a rhs, In (a, rhs) eqs -> differential_equation ndim dirof a rhs) ->
  (forall a rhs l, In (a, rhs) eqs -> (forall v, In v l <-> inside v rhs /\ derivative v) -> inner_listed_first (eorder l)) ->
  exists ks, user_defined k ndim dirof inv dord sord eorder schemes sizes halos (map (fun ae => KEq (EDat (fst ae) (repeat 0%Z ndim)) (snd ae)) eqs) = Ok ks /\
    forall order, (forall n r, BCSpec.sweeps (order n r) (fun x => in_urange k sizes r x = true)) ->
    forall M, in_turn J k dirof h sizes eqs M (run_user J order 0 ks M).
Proof.
  intros J k ndim dirof inv dord sord eorder h schemes sizes halos eqs HJ Hi Hd Ho Hs Hin Hp Hsz Sc Nw NDs Ne HD Hord.
  destruct (user_equations_ok J k ndim dirof inv dord sord eorder h sizes HJ Hi Hd Ho Hsz Hs Hin schemes Sc Nw NDs eqs HD Hp) as (kss & E & Nk & X).
  { intros a rhs H. apply (Hord a rhs); auto. intros v. rewrite nodup_In. apply in_cds. }
  unfold user_defined. change (fun ae : string * expr => KEq (EDat (fst ae) (repeat 0%Z ndim)) (snd ae)) with (fun ae : string * expr => KEq (here ndim (fst ae)) (snd ae)).
  rewrite E. cbn [bind]. specialize (Nk Ne). exists (List.concat kss). split.
  - destruct (List.concat kss); [congruence | reflexivity].
  - intros. apply X. auto.
Qed.
Print Assumptions C74_differential_partial.

(* If no derivative contains another, every iteration order will do. *)
Corollary C74_unnested_partial :
  forall J k ndim dirof inv dord sord eorder h schemes sizes halos eqs,
  real_arithmetic J ->
  (forall M x d m, value J M x (inv d m) = (/ h d ^ m)%R) ->
  (forall d m, dsets (inv d m) = []) ->
  (forall e, enumerates (dord e) e) ->
  (forall l, Permutation l (sord l)) -> (forall l l', Permutation l l' -> inner_first l' -> inner_first (sord l)) ->
  (forall l, Permutation l (eorder l)) ->
  List.length sizes = ndim ->
  In SCentral schemes -> ~ In SWeno schemes -> NoDup schemes -> eqs <> [] ->
  (forall a rhs, In (a, rhs) eqs -> differential_equation ndim dirof a rhs) ->
  (forall a rhs v, In (a, rhs) eqs -> inside v rhs -> derivative v -> nderivs v = 1%nat) ->
  exists ks, user_defined k ndim dirof inv dord sord eorder schemes sizes halos (map (fun ae => KEq (EDat (fst ae) (repeat 0%Z ndim)) (snd ae)) eqs) = Ok ks /\
    forall order, (forall n r, BCSpec.sweeps (order n r) (fun x => in_urange k sizes r x = true)) ->
    forall M, in_turn J k dirof h sizes eqs M (run_user J order 0 ks M).
Proof.
  intros J k ndim dirof inv dord sord eorder h schemes sizes halos eqs HJ Hi Hd Ho Hs Hin Hp Hsz Sc Nw NDs Ne HD Hone.
  apply C74_differential_partial; auto. intros a rhs l H Hl l1 v l2 c El Hc Dc Nc. exfalso.
  assert (Hv : In v l) by (apply (Permutation_in v (Permutation_sym (Hp l))); rewrite El; apply in_app_iff; right; left; auto).
  apply Hl in Hv. destruct Hv as (Iv & Dv). pose proof (Hone a rhs v H Iv Dv) as L. rewrite nderivs_len in L.
  assert (A : In v (cds_post v)) by (apply in_cds; split; [constructor | auto]).
  assert (B : In c (cds_post v)) by (apply in_cds; auto).
  destruct (cds_post v) as [|z [|z' t]]; cbn in L; try lia. destruct A as [<- | []]. destruct B as [<- | []]. auto.
Qed.
Print Assumptions C74_unnested_partial.

(* Without derivatives there is one kernel with all the equations, in the order given, at
   exactly the points requested; if arrays that are assigned are read at the point itself
   only, then after it, whatever the order of the points, every requested point holds the
   result of executing the equations there from the initial values, and the other
   points are unchanged. *)
Theorem C74_pointwise :
  forall V (J : interp V) k dirof inv dord sord eorder schemes sizes halos qs,
  (forall l, Permutation l (eorder l)) ->
  ~ In SWeno schemes ->
  (forall l r v, In (KEq l r) qs -> derivative v -> ~ inside v l /\ ~ inside v r) ->
  halos = [] \/ (List.length sizes <= List.length halos)%nat ->
  exists r, user_defined k (List.length sizes) dirof inv dord sord eorder schemes sizes halos qs = Ok [{| u_eqs := qs; u_range := Explicit r |}] /\
    (forall x, in_urange k sizes (Explicit r) x = true <-> requested_point sizes halos x) /\
    (pointwise (List.length sizes) qs -> forall pts, BCSpec.sweeps pts (requested_point sizes halos) ->
     forall M b x, (requested_point sizes halos x -> run_kernel J qs pts M b x = fst (run_point J qs M x) b x) /\
       (~ requested_point sizes halos x -> run_kernel J qs pts M b x = M b x)).
Proof.
  intros V J k dirof inv dord sord eorder schemes sizes halos qs Hp Nw Hd Hh.
  destruct (in_requested sizes halos Hh) as (r & E & X). exists r. split; [|split; [exact X|]].
  - unfold user_defined.
    assert (Q : forall q, In q qs -> eq_derivatives eorder q = []).
    { intros [l e|bs] Hq; [|reflexivity]. cbn [eq_derivatives]. destruct (eorder (nodup expr_eq_dec (cds_post l ++ cds_post e))) as [|v t] eqn:Ev; auto. exfalso.
      assert (Hv : In v (nodup expr_eq_dec (cds_post l ++ cds_post e))) by (apply (Permutation_in v (Permutation_sym (Hp _))); rewrite Ev; left; auto).
      apply nodup_In, in_app_iff in Hv. destruct Hv as [Hv | Hv]; apply in_cds in Hv; destruct (Hd l e v Hq (proj2 Hv)); tauto. }
    assert (S : forall q l, eq_derivatives eorder q = [] -> ~ In SWeno l -> exists t, mapM (fun s => scheme_equation k (List.length sizes) dirof inv dord sord eorder s q) l = Ok t /\ List.concat t = []).
    { intros q l Hq. induction l as [|s l IH]; intros N; [exists []; auto|]. destruct IH as (t & Et & Ct); [intro; apply N; right; auto|].
      assert (Es : scheme_equation k (List.length sizes) dirof inv dord sord eorder s q = Ok []).
      { destruct s; [cbn [scheme_equation]; unfold central_equation; rewrite Hq; reflexivity | exfalso; apply N; left; auto | reflexivity]. }
      cbn [mapM]. rewrite Es. cbn [bind]. rewrite Et. cbn [bind]. exists ([] :: t). auto. }
    assert (G : forall l, incl l qs -> exists t, mapM (fun q => bind (mapM (fun s => scheme_equation k (List.length sizes) dirof inv dord sord eorder s q) schemes) (fun l => Ok (List.concat l))) l = Ok t /\ List.concat t = []).
    { induction l as [|q l IH]; intros Hl; [exists []; auto|]. destruct IH as (t & Et & Ct); [intros z Hz; apply Hl; right; auto|].
      destruct (S q schemes (Q q (Hl q (or_introl eq_refl))) Nw) as (u & Eu & Cu). cbn [mapM]. rewrite Eu. cbn [bind]. rewrite Et. cbn [bind].
      exists (List.concat u :: t). split; auto. cbn [List.concat]. rewrite Cu, Ct. auto. }
    destruct (G qs (incl_refl _)) as (t & -> & Ct). cbn [bind]. rewrite Ct, E. reflexivity.
  - intros (T & Rd) pts (ND & Hpts) M b x.
    assert (Ow : own (List.length sizes) qs).
    { split.
      - intros q c ix Hq Ht. destruct (T q Hq) as (l & e & -> & [(c' & ->) | (g & ->)]); destruct Ht as [Ht | []]; [congruence | discriminate].
      - intros q c ix Hq Hr (q' & jx & Hq' & Ht). destruct (T q Hq) as (l & e & -> & _). destruct (T q' Hq') as (l' & e' & -> & C).
        cbn [BCProofs.reads] in Hr. apply in_app_iff in Hr. destruct Hr as [Hr | Hr]; apply in_map_iff in Hr; destruct Hr as (z & Ez & Hz); [|discriminate].
        injection Ez as ->. destruct C as [(c' & ->) | (g & ->)]; destruct Ht as [Ht | []]; [|discriminate]. injection Ht as -> _.
        apply (Rd l e c ix _ e' _ Hq Hz Hq' eq_refl). }
    assert (Wd : forall c, wr qs c \/ ~ wr qs c).
    { intros c. destruct (in_dec string_dec c (flat_map (fun q => match q with KEq (EDat b _) _ => [b] | _ => [] end) qs)) as [H | H].
      - left. apply in_flat_map in H. destruct H as (q & Hq & H). destruct q as [[| |d ix|] e|]; try destruct H as [<- | []]; try destruct H. exists (KEq (EDat d ix) e), ix. split; auto. left. auto.
      - right. intros (q & ix & Hq & Ht). apply H. apply in_flat_map. exists q. split; auto. destruct q as [[| |d jx|] e|]; cbn [BCProofs.target] in Ht; [destruct Ht | | | destruct Ht | destruct Ht].
        + destruct k0; destruct Ht as [Ht | []] || destruct Ht; discriminate.
        + destruct Ht as [Ht | []]. injection Ht as -> _. left. auto. }
    rewrite (loop_run J _ qs Ow Wd) by (auto; intros y Hy; apply Hpts in Hy; apply Hy).
    destruct (in_dec (list_eq_dec Z.eq_dec) x pts) as [H | H]; rewrite Hpts in H; split; tauto.
Qed.
Print Assumptions C74_pointwise.

(* --- Examples --- *)
(* b = d(mu du0/dx0)/dx1 + du0/dx0, then c = d b/dx0 *)
Definition ex_user : list (string * expr) :=
  [("b"%string, EApp HAdd [ex_v2; ex_v1]); ("c"%string, EApp HCD [at2 "b"; x0])].
Definition shallow_first (l : list expr) : list expr :=
  filter (fun v => Nat.eqb (nderivs v) 1) l ++ filter (fun v => negb (Nat.eqb (nderivs v) 1)) l.
Lemma shallow_first_perm : forall l, Permutation l (shallow_first l).
Proof.
  induction l as [|v l IH]; [constructor|]. unfold shallow_first in *. cbn [filter]. destruct (Nat.eqb (nderivs v) 1); cbn [negb app].
  - constructor. auto.
  - apply Permutation_cons_app. auto.
Qed.
Lemma not_work : forall b, match String.get 0 b with Some c => Ascii.eqb c "w" | None => false end = false -> forall i, b <> WorkModel.wk_name i.
Proof. intros b H i E. apply (not_wk b H). exists i. exact E. Qed.
Lemma ex_user_ok : forall a rhs, In (a, rhs) ex_user -> differential_equation 2 dir3 a rhs.
Proof.
  assert (C : forall a rhs v, In (a, rhs) ex_user -> inside v rhs -> derivative v -> In v [ex_v1; ex_v2; EApp HCD [at2 "b"; x0]]).
  { intros a rhs v H Hi Hd. apply (inside_cds v rhs Hd) in Hi. destruct H as [H | [H | []]]; injection H as <- <-; vm_compute in Hi; vm_compute; tauto. }
  intros a rhs H. constructor.
  - destruct H as [H | [H | []]]; injection H as <- <-.
    + exists ex_v1. split; [apply (in_arg _ _ _ ex_v1); [right; left; auto | constructor] | eexists; eexists; reflexivity].
    + eexists. split; [constructor | eexists; eexists; reflexivity].
  - destruct H as [H | [H | []]]; injection H as <- <-; apply not_work; reflexivity.
  - intros b ix Hb. destruct H as [H | [H | []]]; injection H as <- <-; cbn in Hb;
      repeat (destruct Hb as [Hb | Hb]; [injection Hb as <- <-; split; [reflexivity | apply not_work; reflexivity]|]); destruct Hb.
  - intros v Hi Hd. destruct (C a rhs v H Hi Hd) as [<- | [<- | [<- | []]]].
    + exists (at2 "u0"), "x0"%string, 0%nat. repeat split; cbn; try lia; discriminate.
    + exists (EApp HMul [at2 "mu"; ex_v1]), "x1"%string, 0%nat. repeat split; cbn; try lia; discriminate.
    + exists (at2 "b"), "x0"%string, 0%nat. repeat split; cbn; try lia; discriminate.
  - intros v Hi Hd. destruct (C a rhs v H Hi Hd) as [<- | [<- | [<- | []]]]; (split; [cbn; lia|]); intros b n cs u E Hu Du; unfold ex_v1, ex_v2, x0, x1 in E; injection E as <- <- <-;
      apply (inside_cds u _ Du) in Hu; vm_compute in Hu; try tauto.
    destruct Hu as [<- | []]. cbn. intuition discriminate.
Qed.
Lemma ex_user_inner : forall a rhs l, In (a, rhs) ex_user -> (forall v, In v l <-> inside v rhs /\ derivative v) -> inner_listed_first (shallow_first l).
Proof.
  intros a rhs l H Hl l1 v l2 c E Hc Dc Nc.
  assert (I : forall w, In w l -> In w (cds_post rhs)) by (intros w Hw; apply Hl in Hw; apply inside_cds; tauto).
  assert (Hv : In v l) by (apply (Permutation_in v (Permutation_sym (shallow_first_perm l))); rewrite E; apply in_app_iff; right; left; auto).
  pose proof (I v Hv) as Iv. apply (inside_cds c v Dc) in Hc.
  destruct H as [H | [H | []]]; injection H as <- <-.
  2: { destruct Iv as [<- | []]. destruct Hc as [<- | []]. congruence. }
  assert (Ev : v = ex_v2 /\ c = ex_v1).
  { cbn in Iv. destruct Iv as [<- | [<- | [<- | []]]]; cbn in Hc; destruct Hc as [<- | Hc]; try (destruct Hc as [<- | []]); try destruct Hc; try (exfalso; apply Nc; reflexivity); auto. }
  destruct Ev as (-> & ->).
  assert (Hi : In ex_v1 (filter (fun v => Nat.eqb (nderivs v) 1) l)).
  { apply filter_In. split; [|reflexivity]. apply Hl. split; [|eexists; eexists; reflexivity].
    apply (in_arg _ _ _ ex_v1); [right; left; auto | constructor]. }
  unfold shallow_first in E. set (f1 := filter _ l) in *. set (f2 := filter _ l) in E.
  assert (N : ~ In ex_v2 f1) by (intro G; apply filter_In in G; destruct G as (_ & G); discriminate).
  clearbody f1 f2. revert f1 E Hi N. induction l1 as [|z l1 IH]; intros f1 E Hi N.
  - destruct f1 as [|y f1]; [destruct Hi|]. injection E as -> _. exfalso. apply N. left. auto.
  - destruct f1 as [|y f1]; [destruct Hi|]. cbn [app] in E. injection E as -> E. destruct Hi as [-> | Hi]; [left; auto|].
    right. apply (IH f1 E Hi). intro; apply N; right; auto.
Qed.
Example C74_differential_nonvacuous :
  exists ks, user_defined 2 2 dir3 inv1 set_order inner_order shallow_first [SCentral] [10; 20]%Z [] (map (fun ae => KEq (EDat (fst ae) (repeat 0%Z 2)) (snd ae)) ex_user) = Ok ks /\
    List.length ks = 5%nat /\
    forall order, (forall n r, BCSpec.sweeps (order n r) (fun x => in_urange 2 [10; 20]%Z r x = true)) ->
    forall M, in_turn J1 2 dir3 (fun _ => 1%R) [10; 20]%Z ex_user M (run_user J1 order 0 ks M).
Proof.
  destruct (C74_differential_partial J1 2 2 dir3 inv1 set_order inner_order shallow_first (fun _ => 1%R) [SCentral] [10; 20]%Z [] ex_user
    J1_real inv1_ok (fun _ _ => eq_refl) set_order_ok inner_order_perm inner_order_inner shallow_first_perm eq_refl) as (ks & E & X).
  { left. auto. } { intros [H | []]. discriminate. } { repeat constructor; intros []. } { discriminate. } { exact ex_user_ok. } { exact ex_user_inner. }
  exists ks. split; [exact E|]. split; [|exact X].
  assert (Q : match user_defined 2 2 dir3 inv1 set_order inner_order shallow_first [SCentral] [10; 20]%Z [] (map (fun ae => KEq (EDat (fst ae) (repeat 0%Z 2)) (snd ae)) ex_user) with
    Ok ks => List.length ks = 5%nat | Err _ => False end) by (vm_compute; reflexivity).
  rewrite E in Q. exact Q.
Qed.

(* the Mach sensor of the filter: local variables first, then the array, with halos *)
Definition ex_mach : kernel_eqs :=
  [KEq (ESym KGridVar "inv_rho") (EApp HPow [at2 "rho"; ENum (-1)]);
   KEq (ESym KGridVar "M2") (EApp HMul [EApp HPow [at2 "rhou0"; ENum 2]; ESym KGridVar "inv_rho"]);
   KEq (at2 "Mach_sensor") (EApp HMul [ENum (1 # 2); ESym KGridVar "M2"])].
Definition ex_halos : list (list (Z * Z) * list (Z * Z)) := [([(-3, 4)], [(-3, 4)]); ([(-3, 4)], [(-3, 4)])]%Z.
Example C74_pointwise_nonvacuous :
  ~ In SWeno [SCentral; STeno] /\
  (forall l r v, In (KEq l r) ex_mach -> derivative v -> ~ inside v l /\ ~ inside v r) /\
  (ex_halos = [] \/ (2 <= List.length ex_halos)%nat) /\ pointwise 2 ex_mach /\
  requested_point [10; 20]%Z ex_halos [-3; 23]%Z /\ ~ requested_point [10; 20]%Z ex_halos [-4; 0]%Z.
Proof.
  split; [intros [H | [H | []]]; discriminate|]. split.
  { intros l r v H Hd. split; intro Hi; apply (inside_cds v _ Hd) in Hi; destruct H as [H | [H | [H | []]]]; injection H as <- <-; destruct Hi. }
  split; [right; cbn; lia|]. split; [split|].
  - intros q [<- | [<- | [<- | []]]]; eexists; eexists; (split; [reflexivity|]); [right | right | left]; eexists; reflexivity.
  - intros l r b ix l' r' jx H Hb H' El. destruct H' as [H' | [H' | [H' | []]]]; injection H' as <- <-; try discriminate. injection El as <- <-.
    destruct H as [H | [H | [H | []]]]; injection H as <- <-; cbn in Hb; repeat (destruct Hb as [Hb | Hb]; [discriminate|]); destruct Hb.
  - split.
    + split; [reflexivity|]. intros [|[|d]] Hd; [| |cbn in Hd; lia]; cbn; (split; (right; eexists; split; [left; reflexivity | cbn; lia])).
    + intros (_ & H). specialize (H 0%nat ltac:(cbn; lia)). cbn in H. destruct H as ([(H & _) | (t & [<- | []] & H)] & _); [discriminate | cbn in H; lia].
Qed.

(* --- What the full claim misses --- *)
(* "The equations of a user-defined list are all evaluated."  Not those without a
   derivative, if another equation of the list has one: nothing is computed for them and
   nothing is reported. *)
Definition at1u (b : string) := EDat b [0%Z].
Theorem C74_dropped_refuted :
  exists ks, user_defined 1 1 dir3 inv1 set_order inner_order shallow_first [SCentral] [10]%Z []
      [KEq (at1u "a") (EApp HCD [at1u "u"; x0]); KEq (at1u "b") (EApp HMul [ENum 2; at1u "u"])] = Ok ks /\
    forall kn l r, In kn ks -> In (KEq l r) (u_eqs kn) -> forall ix, l <> EDat "b" ix.
Proof.
  destruct (user_defined 1 1 dir3 inv1 set_order inner_order shallow_first [SCentral] [10]%Z []
      [KEq (at1u "a") (EApp HCD [at1u "u"; x0]); KEq (at1u "b") (EApp HMul [ENum 2; at1u "u"])]) as [ks|] eqn:E.
  2: { vm_compute in E. discriminate. }
  vm_compute in E. injection E as <-. eexists. split; [reflexivity|].
  intros kn l r [<- | [<- | []]] Hq ix ->; cbn [u_eqs] in Hq; destruct Hq as [Hq | []]; discriminate.
Qed.
Print Assumptions C74_dropped_refuted.

(* "They are evaluated at the halo points requested."  Not if they have derivatives: the
   Ducros sensor of the WENO filter, requested on three (four) halo points because the
   filter reads it two points away, is computed on the grid only. *)
Definition ex_div := EApp HAdd [EApp HCD [at2 "u0"; x0]; EApp HCD [at2 "u1"; x1]].
Definition ex_vort := EApp HAdd [EApp HCD [at2 "u1"; x0]; EApp HMul [ENum (-1); EApp HCD [at2 "u0"; x1]]].
Definition ex_ducros := KEq (at2 "kappa")
  (EApp HMul [ENum (1 # 2); EApp HAdd [ENum 1; EApp HMul [ENum (-1); EApp (HFun "tanh") [EApp HMul [ENum (5 # 2); EApp HAdd [ENum 1; EApp HMul [ENum 100; ex_div]]]]]];
              EApp HPow [ex_div; ENum 2]; EApp HPow [EApp HAdd [EApp HPow [ex_div; ENum 2]; EApp HPow [ex_vort; ENum 2]; ESym KConst "epsilon"]; ENum (-1)]]).
Theorem C74_halos_refuted :
  exists ks, user_defined 2 2 dir3 inv1 set_order inner_order shallow_first [SCentral] [10; 20]%Z ex_halos [ex_ducros] = Ok ks /\
    grid_point [10; 20]%Z [9; 0]%Z /\ requested_point [10; 20]%Z ex_halos [11; 0]%Z /\
    forall kn l r ix, In kn ks -> In (KEq l r) (u_eqs kn) -> l = EDat "kappa" ix ->
      ix = [0; 0]%Z /\ forall x, in_urange 2 [10; 20]%Z (u_range kn) x = true -> x <> [11; 0]%Z.
Proof.
  destruct (user_defined 2 2 dir3 inv1 set_order inner_order shallow_first [SCentral] [10; 20]%Z ex_halos [ex_ducros]) as [ks|] eqn:E.
  2: { vm_compute in E. discriminate. }
  vm_compute in E. injection E as <-. eexists. split; [reflexivity|]. split; [repeat constructor; lia|]. split.
  { split; [reflexivity|]. intros [|[|d]] Hd; [| |cbn in Hd; lia]; cbn; (split; (right; eexists; split; [left; reflexivity | cbn; lia])). }
  intros kn l r ix Hk Hq ->. cbn [In] in Hk. decompose [or] Hk; subst; cbn [u_eqs] in Hq; try destruct Hq as [Hq | []]; try discriminate; try contradiction.
  injection Hq as <- _. split; [reflexivity|]. intros x Hx ->. vm_compute in Hx. discriminate.
Qed.
Print Assumptions C74_halos_refuted.

(* "The equations can be used with any spatial scheme."  On a block with a WENO scheme a
   list with at least one equation cannot be discretised, with or without derivatives. *)
Theorem C74_weno_refuted :
  forall k ndim dirof inv dord sord eorder schemes sizes halos q qs,
  In SWeno schemes -> exists e, user_defined k ndim dirof inv dord sord eorder schemes sizes halos (q :: qs) = Err e.
Proof.
  intros k ndim dirof inv dord sord eorder schemes sizes halos q qs H. unfold user_defined. cbn [mapM].
  assert (A : exists e, mapM (fun s => scheme_equation k ndim dirof inv dord sord eorder s q) schemes = Err e).
  { induction schemes as [|s l IH]; [destruct H|]. cbn [mapM]. destruct (scheme_equation k ndim dirof inv dord sord eorder s q) as [t|e] eqn:E; cbn [bind]; [|eauto].
    destruct H as [-> | H]; [discriminate|]. destruct (IH H) as (e & ->). cbn [bind]. eauto. }
  destruct A as (e & ->). cbn [bind]. eauto.
Qed.
Print Assumptions C74_weno_refuted.
Example C74_weno_nonvacuous :
  user_defined 1 1 dir3 inv1 set_order inner_order shallow_first [SWeno] [10]%Z [] [KEq (at1u "b") (EApp HMul [ENum 2; at1u "u"])] = Err UnboundLocal.
Proof. reflexivity. Qed.

(* "A derivative is computed before the derivatives that contain it are."  The kernels
   follow the iteration order of a Python set: with the outer derivative first, its
   kernel reads a work array that the next kernel computes. *)
Definition arrays_of (k : nat) (sizes : list Z) (kn : ukernel) : list (string * expr) * (list Z -> bool) :=
  (flat_map (fun q => match q with KEq (EDat b _) r => [(b, r)] | _ => [] end) (u_eqs kn), in_urange k sizes (u_range kn)).
Theorem C74_order_refuted :
  exists ks, user_defined 1 2 dir3 inv1 set_order inner_order (fun l => rev (shallow_first l)) [SCentral] [10; 20]%Z []
      [KEq (at2 "b") (EApp HAdd [ex_v2; ex_v1])] = Ok ks /\
    reads_before_computed (map (arrays_of 1 [10; 20]%Z) ks).
Proof.
  destruct (user_defined 1 2 dir3 inv1 set_order inner_order (fun l => rev (shallow_first l)) [SCentral] [10; 20]%Z []
      [KEq (at2 "b") (EApp HAdd [ex_v2; ex_v1])]) as [ks|er] eqn:E.
  2: { vm_compute in E. discriminate. }
  vm_compute in E. injection E as <-. eexists. split; [reflexivity|]. cbn [map].
  unfold reads_before_computed. eexists [], _, _, "wk0"%string, _, "wk1"%string, [0; 1]%Z.
  split; [reflexivity|]. split; [left; reflexivity|]. split; [vm_compute; tauto|]. split.
  - intros (kn & [<- | []] & H). vm_compute in H. intuition discriminate.
  - eexists. split; [left; reflexivity|]. left. reflexivity.
Qed.
Print Assumptions C74_order_refuted.

(* "A local variable assigned by one equation can be used in the next."  Not if there are
   derivatives: every equation has its own kernel, and the generated function uses a
   variable that it does not declare. *)
Theorem C74_local_refuted :
  exists ks kn, user_defined 1 2 dir3 inv1 set_order inner_order shallow_first [SCentral] [10; 20]%Z []
      [KEq (ESym KGridVar "g") (EApp HCD [at2 "u0"; x0]); KEq (at2 "a") (EApp HMul [ESym KGridVar "g"; EApp HCD [at2 "u1"; x1]])] = Ok ks /\
    In kn ks /\ unassigned_local (u_eqs kn).
Proof.
  destruct (user_defined 1 2 dir3 inv1 set_order inner_order shallow_first [SCentral] [10; 20]%Z []
      [KEq (ESym KGridVar "g") (EApp HCD [at2 "u0"; x0]); KEq (at2 "a") (EApp HMul [ESym KGridVar "g"; EApp HCD [at2 "u1"; x1]])]) as [ks|er] eqn:E.
  2: { vm_compute in E. discriminate. }
  vm_compute in E. injection E as <-. eexists. eexists. split; [reflexivity|].
  split; [right; right; right; left; reflexivity|]. cbn [u_eqs].
  eexists. eexists. exists "g"%string. split; [left; reflexivity|]. split; [vm_compute; tauto|].
  intros r' [H | []]. discriminate.
Qed.
Print Assumptions C74_local_refuted.
