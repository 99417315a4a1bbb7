(* C30, C31, C61: discretisation of the simulation equations with the central scheme. *)
From Verif Require Import Base Expr ExprProofs FDModel FDProofs WorkModel WorkProofs ShiftSpec DiscModel DiscSpec DiscProofs DiscRun DiscMain.
From Coq Require Import QArith ZArith Reals Qreals Lia Lra Permutation.
Local Close Scope Q_scope.

(* C30.  The two groups of terms add up to the right-hand side, and the first group
   is made of the terms with the Reynolds number, for sums and products without
   functions. *)
Theorem C30_no_term_lost_partial :
  forall J k dirof h M rhs x, real_arithmetic J ->
  (exists args, rhs = EApp HAdd args \/ rhs = EApp HMul args) -> no_function rhs ->
  (sem J k dirof h M (fst (classify rhs)) x + sem J k dirof h M (snd (classify rhs)) x = sem J k dirof h M rhs x)%R.
Proof. intros. rewrite classify_sum by auto. rewrite keeps_id; auto. Qed.
Print Assumptions C30_no_term_lost_partial.

(* The first group are exactly the terms with the Reynolds number. *)
Theorem C30_groups :
  forall args, no_function (EApp HAdd args) ->
  exists l1 l2, fst (classify (EApp HAdd args)) = EApp HAdd l1 /\ snd (classify (EApp HAdd args)) = EApp HAdd l2 /\
    Permutation (l1 ++ l2) args /\ (forall t, In t l1 -> viscous_term t) /\ (forall t, In t l2 -> ~ viscous_term t).
Proof.
  intros args NF. cbn [classify fst snd zero_functions].
  assert (Z : forall p, map zero_functions (filter p args) = filter p args).
  { intros p. apply map_zero_id. intros a Ha. apply filter_In in Ha. eapply no_function_args; [exact NF | tauto]. }
  rewrite !Z. eexists _, _. split; [reflexivity|]. split; [reflexivity|]. split; [|split].
  - clear. induction args as [|a l IH]; cbn; auto. destruct (has_re a); cbn; [auto|].
    rewrite <- Permutation_middle. auto.
  - intros t Ht. apply filter_In in Ht. apply has_re_spec. tauto.
  - intros t Ht. apply filter_In in Ht. rewrite <- has_re_spec. destruct (has_re t); cbn in Ht; intuition congruence.
Qed.
Print Assumptions C30_groups.

(* The full claim is false: a right-hand side that is a single derivative, and a
   function of the solution, are lost. *)
Definition x0 := ESym KCoord "x0".
Definition x1 := ESym KCoord "x1".
Definition x2 := ESym KCoord "x2".
Definition J1 : interp R := {| inum := Q2R; isym := fun _ _ => 1%R;
  iapp := fun hd l => match hd with HAdd => fold_right Rplus 0%R l | HMul => fold_right Rmult 1%R l | HFun _ => 1%R | _ => 0%R end |}.
Lemma J1_real : real_arithmetic J1.
Proof. split; [|split]; reflexivity. Qed.
Theorem C30_no_term_lost_refuted :
  (forall u, classify (EApp HCD [u; x0]) = (ENum 0, ENum 0)) /\
  exists J k dirof h M rhs x, real_arithmetic J /\ (exists args, rhs = EApp HAdd args) /\
    (sem J k dirof h M (fst (classify rhs)) x + sem J k dirof h M (snd (classify rhs)) x <> sem J k dirof h M rhs x)%R.
Proof.
  split; [reflexivity|].
  exists J1, 1%nat, (fun _ => 0%nat), (fun _ => 1%R), (fun _ _ => 0%R),
    (EApp HAdd [EApp (HFun "sin") [EDat "u" [0%Z]]; EDat "u" [0%Z]]), [0%Z].
  split; [apply J1_real|]. split; [eauto|].
  change (classify (EApp HAdd [EApp (HFun "sin") [EDat "u" [0%Z]]; EDat "u" [0%Z]]))
    with (EApp HAdd [], EApp HAdd [ENum 0; EDat "u" [0%Z]]).
  cbn [fst snd map sem J1 iapp inum fold_right].
  rewrite RMicromega.Q2R_0. lra.
Qed.
Print Assumptions C30_no_term_lost_refuted.
Example C30_nonvacuous :
  let c := EApp HCD [EDat "u" [0%Z]; x0] in let v := EApp HMul [EApp HPow [ESym KConst "Re"; ENum (-1)]; EApp HCD [EDat "u" [0%Z]; x0; x0]] in
  classify (EApp HAdd [c; v]) = (EApp HAdd [v], EApp HAdd [c]).
Proof. reflexivity. Qed.

(* C31.  For the systems of [well_formed], with at least one convective derivative and,
   if there are viscous terms, at least one viscous derivative: the discretisation
   succeeds, and after its kernels have run, from any contents of the memory (work
   arrays and residual arrays included), the residual array of every equation holds at
   every grid point its right-hand side, with every derivative replaced by the
   difference formula; apart from residual and work arrays nothing is changed.
   [dord] and [sord] stand for the orders in which sets and dictionaries are treated;
   [inv d m] for the constant 1/delta_d^m.
   Missing for the full claim: see the refutations below. *)
Theorem C31_residual_partial :
  forall J k ndim dirof inv dord sord h sizes eqs ccds vcds,
  real_arithmetic J ->
  (forall M x d m, value J M x (inv d m) = (/ h d ^ m)%R) ->
  (forall e, enumerates (dord e) e) ->
  (forall l, Permutation l (sord l)) ->
  (forall l l', Permutation l l' -> inner_first l' -> inner_first (sord l)) ->
  List.length sizes = ndim ->
  well_formed ndim dirof (fun b => exists i, b = wk_name i) eqs ->
  lists_derivatives eqs (fun t => ~ viscous_term t) ccds ->
  lists_derivatives eqs viscous_term vcds ->
  ccds <> [] -> (vcds = [] -> forall r rhs t, In (r, rhs) eqs -> In t (terms rhs) -> ~ viscous_term t) ->
  exists ks, sbli_rhs_discretisation k ndim dirof inv dord sord ccds vcds eqs = Ok ks /\
    forall M, (forall r rhs x, In (r, rhs) eqs -> grid_point sizes x ->
        exec J k sizes ks M r x = sem J k dirof h M rhs x) /\
      (forall b x, (forall i, b <> wk_name i) -> ~ In b (map fst eqs) -> exec J k sizes ks M b x = M b x).
Proof.
  intros J k ndim dirof inv dord sord h sizes eqs ccds vcds HJ Hi Hd Hp Hn Hs WF HC HV Nc Nv.
  destruct (residual_ok J k ndim dirof inv dord sord h sizes HJ Hi Hd Hs Hp Hn eqs WF ccds vcds HC HV Nc Nv) as (ks & E & X).
  exists ks. split; auto. intros M. destruct (X M) as (A & B).
  split; auto. intros b x Nb Nr. apply B; auto. intros (i & Ei). apply (Nb i Ei).
Qed.
Print Assumptions C31_residual_partial.

(* C61, for the arrays this part of the program computes: whatever the work arrays and
   the residual arrays hold before does not influence the residuals. *)
Theorem C61_no_stale_value_partial :
  forall J k ndim dirof inv dord sord h sizes eqs ccds vcds,
  real_arithmetic J ->
  (forall M x d m, value J M x (inv d m) = (/ h d ^ m)%R) ->
  (forall e, enumerates (dord e) e) ->
  (forall l, Permutation l (sord l)) ->
  (forall l l', Permutation l l' -> inner_first l' -> inner_first (sord l)) ->
  List.length sizes = ndim ->
  well_formed ndim dirof (fun b => exists i, b = wk_name i) eqs ->
  lists_derivatives eqs (fun t => ~ viscous_term t) ccds ->
  lists_derivatives eqs viscous_term vcds ->
  ccds <> [] -> (vcds = [] -> forall r rhs t, In (r, rhs) eqs -> In t (terms rhs) -> ~ viscous_term t) ->
  exists ks, sbli_rhs_discretisation k ndim dirof inv dord sord ccds vcds eqs = Ok ks /\
    forall M M', (forall b, (forall i, b <> wk_name i) -> ~ In b (map fst eqs) -> M b = M' b) ->
      forall r rhs x, In (r, rhs) eqs -> grid_point sizes x -> exec J k sizes ks M r x = exec J k sizes ks M' r x.
Proof.
  intros J k ndim dirof inv dord sord h sizes eqs ccds vcds HJ Hi Hd Hp Hn Hs WF HC HV Nc Nv.
  destruct (residual_ok J k ndim dirof inv dord sord h sizes HJ Hi Hd Hs Hp Hn eqs WF ccds vcds HC HV Nc Nv) as (ks & E & X).
  exists ks. split; auto. intros M M' A r rhs x Hin Hx. rewrite !(proj1 (X _) r rhs x) by auto.
  apply sem_agree. intros b ix Hb y. destruct (wf_arrays _ _ _ _ WF r rhs b ix Hin Hb) as (_ & Nb & Nr).
  rewrite A; auto. intros i Eb. apply Nb. exists i. auto.
Qed.
Print Assumptions C61_no_stale_value_partial.

(* A substitution order and an order of sets that meet the hypotheses. *)
Fixpoint insertions {A} (a : A) (l : list A) : list (list A) :=
  match l with [] => [[a]] | b :: l' => (a :: l) :: map (cons b) (insertions a l') end.
Fixpoint perms {A} (l : list A) : list (list A) :=
  match l with [] => [[]] | a :: l => flat_map (insertions a) (perms l) end.
Lemma insertions_in : forall A (a : A) l1 l2, In (l1 ++ a :: l2) (insertions a (l1 ++ l2)).
Proof.
  induction l1 as [|b l1 IH]; intros l2; cbn [app insertions].
  - destruct l2; left; reflexivity.
  - right. apply in_map. apply IH.
Qed.
Lemma insertions_perm : forall A (a : A) l l', In l' (insertions a l) -> Permutation (a :: l) l'.
Proof.
  induction l as [|b l IH]; intros l' H; cbn [insertions] in H.
  - destruct H as [<- | []]. auto.
  - destruct H as [<- | H]; auto. apply in_map_iff in H. destruct H as (l0 & <- & H).
    rewrite perm_swap. constructor. apply IH. auto.
Qed.
Lemma perms_perm : forall A (l l' : list A), In l' (perms l) -> Permutation l l'.
Proof.
  induction l as [|a l IH]; intros l' H; cbn [perms] in H.
  - destruct H as [<- | []]. auto.
  - apply in_flat_map in H. destruct H as (l0 & H0 & H). rewrite (IH l0 H0). apply insertions_perm. auto.
Qed.
Lemma perms_all : forall A (l l' : list A), Permutation l l' -> In l' (perms l).
Proof.
  induction l as [|a l IH]; intros l' P.
  - apply Permutation_nil in P. subst. left. auto.
  - assert (In a l') by (eapply Permutation_in; [exact P | left; auto]).
    apply in_split in H. destruct H as (l1 & l2 & ->). cbn [perms]. apply in_flat_map.
    exists (l1 ++ l2). split; [apply IH; eapply Permutation_cons_app_inv; eauto | apply insertions_in].
Qed.
Fixpoint inner_firstb (l : list (expr * string)) : bool :=
  match l with
  | [] => true
  | (key, _) :: l => forallb (fun kw => negb (existsb (String.eqb (snd kw)) (map fst (dsets key)))) l && inner_firstb l
  end.
Lemma inner_firstb_iff : forall l, inner_firstb l = true <-> inner_first l.
Proof.
  induction l as [|[key w] l IH]; cbn [inner_firstb].
  - split; auto. intros _ l1 key w l2 E. destruct l1; discriminate.
  - rewrite andb_true_iff, IH, forallb_forall. split.
    + intros (A & B) l1 key0 w0 l2 E key' w' ix Hin Hd. destruct l1 as [|p l1]; cbn in E; injection E as E1 E2.
      * subst. specialize (A _ Hin). cbn [snd] in A. rewrite negb_true_iff in A. 
        assert (existsb (String.eqb w') (map fst (dsets key0)) = true); [|congruence].
        apply existsb_exists. exists w'. rewrite String.eqb_refl. split; auto. change w' with (fst (w', ix)). apply in_map. auto.
      * eapply (B l1 key0 w0 l2); eauto.
    + intros H. split.
      * intros [key' w'] Hin. rewrite negb_true_iff. cbn [snd]. destruct (existsb (String.eqb w') (map fst (dsets key))) eqn:E; auto.
        apply existsb_exists in E. destruct E as (b & Hb & Eb). apply String.eqb_eq in Eb. subst b.
        apply in_map_iff in Hb. destruct Hb as ([b ix] & Eb & Hb). cbn in Eb. subst b.
        exfalso. eapply (H [] key w l eq_refl key' w' ix); eauto.
      * intros l1 key0 w0 l2 E. apply (H ((key, w) :: l1) key0 w0 l2). cbn. congruence.
Qed.
Definition inner_order (l : list (expr * string)) : list (expr * string) :=
  match find inner_firstb (perms l) with Some l' => l' | None => l end.
Lemma inner_order_perm : forall l, Permutation l (inner_order l).
Proof.
  intros l. unfold inner_order. destruct (find inner_firstb (perms l)) eqn:E; auto.
  apply find_some in E. apply perms_perm. tauto.
Qed.
Lemma inner_order_inner : forall l l', Permutation l l' -> inner_first l' -> inner_first (inner_order l).
Proof.
  intros l l' P H. unfold inner_order. destruct (find inner_firstb (perms l)) eqn:E.
  - apply find_some in E. apply inner_firstb_iff. tauto.
  - exfalso. apply find_none with (x := l') in E; [|apply perms_all; auto]. apply inner_firstb_iff in H. congruence.
Qed.
Definition set_order (e : expr) : list dset := nodup dset_eq_dec (dsets e).
Lemma set_order_ok : forall e, enumerates (set_order e) e.
Proof. intros e. split; [apply NoDup_nodup | intros x; apply nodup_In]. Qed.
Definition inv1 (d m : nat) : expr := ENum 1.
Lemma inv1_ok : forall M x d m, value J1 M x (inv1 d m) = (/ (fun _ => 1%R) d ^ m)%R.
Proof. intros. unfold value, inv1. cbn [eval J1 inum]. rewrite RMicromega.Q2R_1, pow1. lra. Qed.
Definition dir3 (n : string) : nat :=
  if String.eqb n "x0" then 0%nat else if String.eqb n "x1" then 1%nat else 2%nat.

(* A two-dimensional system with convective terms, a second and a mixed derivative. *)
Definition at2 (b : string) := EDat b [0; 0]%Z.
Definition inv_re := EApp HPow [ESym KConst "Re"; ENum (-1)].
Definition ex_c1 := EApp HCD [EApp HMul [at2 "rho"; at2 "u0"]; x0].
Definition ex_c2 := EApp HCD [at2 "p"; x1].
Definition ex_v1 := EApp HCD [at2 "u0"; x0].
Definition ex_v2 := EApp HCD [EApp HMul [at2 "mu"; ex_v1]; x1].
Definition ex_v3 := EApp HCD [at2 "u1"; x1; x1].
Definition ex_sys : list (string * expr) :=
  [("Residual0"%string, EApp HAdd [EApp HMul [ENum (-1); ex_c1]; EApp HMul [inv_re; ex_v2]]);
   ("Residual1"%string, EApp HAdd [EApp HMul [ENum (-1); ex_c2]; EApp HMul [inv_re; ex_v3]; EApp HMul [inv_re; ex_v1]])].
Lemma inside_cds : forall v e, derivative v -> inside v e -> In v (cds_post e).
Proof. intros. apply in_cds. auto. Qed.
Lemma not_wk : forall b, match String.get 0 b with Some c => Ascii.eqb c "w" | None => false end = false ->
  ~ exists i, b = wk_name i.
Proof. intros b H (i & ->). discriminate. Qed.
Fixpoint plain (e : expr) : bool :=
  match e with
  | EApp hd args => match hd with HFun _ => false | _ => true end &&
      (fix go l := match l with [] => true | x :: l => plain x && go l end) args
  | _ => true
  end.
Lemma plain_ok : forall e, plain e = true -> no_function e.
Proof.
  intros e H f args Hi. remember (EApp (HFun f) args) as g eqn:Eg. revert H Eg. induction Hi as [e|e hd l a Ha Hi IH]; intros H Eg.
  - subst e. discriminate.
  - apply IH; auto. cbn [plain] in H. apply andb_true_iff in H. destruct H as [_ H].
    clear - H Ha. induction l as [|x l IHl]; [destruct Ha|]. apply andb_true_iff in H. destruct H as [H1 H2].
    destruct Ha as [<- | Ha]; auto.
Qed.
Lemma ex_sys_ok : well_formed 2 dir3 (fun b => exists i, b = wk_name i) ex_sys /\
  lists_derivatives ex_sys (fun t => ~ viscous_term t) [ex_c1; ex_c2] /\
  lists_derivatives ex_sys viscous_term [ex_v2; ex_v1; ex_v3].
Proof.
  assert (T : forall r rhs, In (r, rhs) ex_sys -> forall t, In t (terms rhs) ->
     (has_re t = false /\ (cds_post t = [ex_c1] \/ cds_post t = [ex_c2])) \/
     (has_re t = true /\ (cds_post t = [ex_v1; ex_v2] \/ cds_post t = [ex_v3] \/ cds_post t = [ex_v1]))).
  { intros r rhs [E | [E | []]] t Ht; injection E as <- <-; cbn [terms] in Ht;
      repeat (destruct Ht as [<- | Ht]; [vm_compute; tauto|]); destruct Ht. }
  assert (D : forall r rhs v, In (r, rhs) ex_sys -> In v (cds_post rhs) -> In v [ex_c1; ex_c2; ex_v1; ex_v2; ex_v3]).
  { intros r rhs v [E | [E | []]] Hv; injection E as <- <-; vm_compute in Hv; vm_compute; tauto. }
  split; [|split].
  - constructor.
    + repeat constructor; cbn; intuition discriminate.
    + intros r rhs [E | [E | []]]; injection E as <- <-; apply not_wk; reflexivity.
    + intros r rhs b ix [E | [E | []]] Hb; injection E as <- <-; vm_compute in Hb;
        repeat (destruct Hb as [Hb | Hb]; [injection Hb as <- <-; split; [reflexivity|]; split; [apply not_wk; reflexivity|]; cbn; intuition discriminate|]); destruct Hb.
    + intros r rhs [E | [E | []]]; injection E as <- <-; eauto.
    + intros r rhs [E | [E | []]]; injection E as <- <-; apply plain_ok; reflexivity.
    + intros r rhs v Hin Hi Hd. apply (inside_cds v rhs Hd) in Hi. apply (D r rhs v Hin) in Hi.
      destruct Hi as [<- | [<- | [<- | [<- | [<- | []]]]]].
      * exists (EApp HMul [at2 "rho"; at2 "u0"]), "x0"%string, 0%nat. repeat split; cbn; try lia; discriminate.
      * exists (at2 "p"), "x1"%string, 0%nat. repeat split; cbn; try lia; discriminate.
      * exists (at2 "u0"), "x0"%string, 0%nat. repeat split; cbn; try lia; discriminate.
      * exists (EApp HMul [at2 "mu"; ex_v1]), "x1"%string, 0%nat. repeat split; cbn; try lia; discriminate.
      * exists (at2 "u1"), "x1"%string, 1%nat. repeat split; cbn; try lia; discriminate.
    + intros r rhs t v Hin Ht Nv Hi Hd. apply (inside_cds v t Hd) in Hi.
      destruct (T r rhs Hin t Ht) as [(_ & [E | E]) | (E & _)].
      * rewrite E in Hi. destruct Hi as [<- | []]. vm_compute. lia.
      * rewrite E in Hi. destruct Hi as [<- | []]. vm_compute. lia.
      * exfalso. apply Nv. apply has_re_spec. auto.
    + intros r rhs t v Hin Ht Vt Hi Hd. apply (inside_cds v t Hd) in Hi. apply has_re_spec in Vt.
      destruct (T r rhs Hin t Ht) as [(E & _) | (_ & E)]; [congruence|].
      assert (Hv : In v [ex_v1; ex_v2; ex_v3]) by (destruct E as [E | [E | E]]; rewrite E in Hi; vm_compute in Hi; vm_compute; tauto).
      split. { destruct Hv as [<- | [<- | [<- | []]]]; vm_compute; lia. }
      intros a n cs u Ev Hu Hdu. apply (inside_cds u a Hdu) in Hu.
      destruct Hv as [<- | [<- | [<- | []]]]; unfold ex_v1, ex_v2, ex_v3, x0, x1 in Ev; injection Ev as <- <- <-;
        vm_compute in Hu; repeat (destruct Hu as [<- | Hu]; [vm_compute; intuition discriminate|]); destruct Hu.
  - split; [repeat constructor; cbn; intuition discriminate|]. intros v. split.
    + intros Hv. assert (Hd : derivative v) by (apply is_cd_derivative; destruct Hv as [<- | [<- | []]]; reflexivity). split; auto.
      destruct Hv as [<- | [<- | []]].
      * eexists _, _, _. split; [left; reflexivity|]. split; [left; reflexivity|]. split; [rewrite <- has_re_spec; vm_compute; discriminate|].
        apply cds_inside. vm_compute. tauto.
      * eexists _, _, _. split; [right; left; reflexivity|]. split; [left; reflexivity|]. split; [rewrite <- has_re_spec; vm_compute; discriminate|].
        apply cds_inside. vm_compute. tauto.
    + intros (Hd & r & rhs & t & Hin & Ht & Nv & Hi). apply (inside_cds v t Hd) in Hi.
      destruct (T r rhs Hin t Ht) as [(_ & [E | E]) | (E & _)].
      * rewrite E in Hi. vm_compute in Hi. vm_compute. tauto.
      * rewrite E in Hi. vm_compute in Hi. vm_compute. tauto.
      * exfalso. apply Nv. apply has_re_spec. auto.
  - split; [repeat constructor; cbn; intuition discriminate|]. intros v. split.
    + intros Hv. assert (Hd : derivative v) by (apply is_cd_derivative; destruct Hv as [<- | [<- | [<- | []]]]; reflexivity). split; auto.
      destruct Hv as [<- | [<- | [<- | []]]].
      * eexists _, _, _. split; [left; reflexivity|]. split; [right; left; reflexivity|]. split; [rewrite <- has_re_spec; vm_compute; reflexivity|].
        apply cds_inside. vm_compute. tauto.
      * eexists _, _, _. split; [left; reflexivity|]. split; [right; left; reflexivity|]. split; [rewrite <- has_re_spec; vm_compute; reflexivity|].
        apply cds_inside. vm_compute. tauto.
      * eexists _, _, _. split; [right; left; reflexivity|]. split; [right; left; reflexivity|]. split; [rewrite <- has_re_spec; vm_compute; reflexivity|].
        apply cds_inside. vm_compute. tauto.
    + intros (Hd & r & rhs & t & Hin & Ht & Nv & Hi). apply (inside_cds v t Hd) in Hi. apply has_re_spec in Nv.
      destruct (T r rhs Hin t Ht) as [(E & _) | (_ & E)]; [congruence|].
      destruct E as [E | [E | E]]; rewrite E in Hi; vm_compute in Hi; vm_compute; tauto.
Qed.
Example C31_nonvacuous :
  exists ks, sbli_rhs_discretisation 2 2 dir3 inv1 set_order inner_order [ex_c1; ex_c2] [ex_v2; ex_v1; ex_v3] ex_sys = Ok ks /\
    List.length ks = 8%nat /\
    forall M r rhs x, In (r, rhs) ex_sys -> grid_point [10; 20]%Z x ->
      exec J1 2 [10; 20]%Z ks M r x = sem J1 2 dir3 (fun _ => 1%R) M rhs x.
Proof.
  destruct ex_sys_ok as (A & B & C).
  destruct (C31_residual_partial J1 2 2 dir3 inv1 set_order inner_order (fun _ => 1%R) [10; 20]%Z ex_sys _ _
    J1_real inv1_ok set_order_ok inner_order_perm inner_order_inner eq_refl A B C) as (ks & E & X); try discriminate.
  exists ks. split; auto. split; [|intros M; apply (X M)].
  assert (Q : match sbli_rhs_discretisation 2 2 dir3 inv1 set_order inner_order [ex_c1; ex_c2] [ex_v2; ex_v1; ex_v3] ex_sys with
    | Ok ks => List.length ks | _ => 0%nat end = 8%nat) by (vm_compute; reflexivity).
  rewrite E in Q. exact Q.
Qed.

(* Refutations of the full claims. *)
(* Without a convective derivative, the residual array is added to, never assigned. *)
Theorem C31_residual_refuted :
  exists eqs vcds ks, well_formed 1 dir3 (fun b => exists i, b = wk_name i) eqs /\
    lists_derivatives eqs (fun t => ~ viscous_term t) [] /\ lists_derivatives eqs viscous_term vcds /\
    sbli_rhs_discretisation 1 1 dir3 inv1 set_order inner_order [] vcds eqs = Ok ks /\
    exists M r rhs x, In (r, rhs) eqs /\ grid_point [5]%Z x /\
      exec J1 1 [5]%Z ks M r x <> sem J1 1 dir3 (fun _ => 1%R) M rhs x.
Proof.
  set (v := EApp HCD [EDat "u" [0%Z]; x0; x0]). set (rhs := EApp HMul [inv_re; v]).
  assert (Cr : cds_post rhs = [v]) by reflexivity.
  assert (Dv : derivative v) by (eexists _, _; reflexivity).
  assert (Vt : viscous_term rhs) by (left; reflexivity).
  assert (Or : orig 1 dir3 v).
  { split; [|split].
    - exists (EDat "u" [0%Z]), "x0"%string, 1%nat. repeat split; cbn; try lia; discriminate.
    - intros b ix [E | []]. injection E as <- <-. reflexivity.
    - intros b ix [E | []] i C. injection E as <- <-. discriminate. }
  destruct (viscous_ok J1 1 1 dir3 inv1 set_order inner_order (fun _ => 1%R) [5%Z] J1_real inv1_ok set_order_ok eq_refl [v])
    with (eqs := [("R"%string, fst (classify rhs))]) as (ks & E & X).
  { repeat constructor. intros []. }
  { intros u [<- | []]. split; auto. left. reflexivity. }
  { discriminate. }
  { split; [repeat constructor; intros [] |]. intros r e [Er | []]. injection Er as <- <-.
    split; [intros i C; discriminate|]. split; [intros b ix [Eb | []] i C; injection Eb as <- <-; discriminate|].
    split; [intros u Hu; exact Hu|]. intros b ix [Eb | []] [Hb | []]. injection Eb as <- <-. discriminate. }
  { apply inner_order_perm. }
  { eapply inner_order_inner; [reflexivity|]. apply inner_firstb_iff. reflexivity. }
  exists [("R"%string, rhs)], [v], ks.
  assert (Iv : forall u, derivative u -> inside u rhs -> u = v).
  { intros u Hu Hi. apply (inside_cds u rhs Hu) in Hi. rewrite Cr in Hi. destruct Hi as [<- | []]. auto. }
  split; [|split; [|split; [|split]]].
  - constructor.
    + repeat constructor. intros [].
    + intros r e [Er | []]; injection Er as <- <-. apply not_wk. reflexivity.
    + intros r e b ix Hin. destruct Hin as [Er | []]; injection Er as <- <-. intros [Eb | []]. injection Eb as <- <-.
      split; [reflexivity|]. split; [apply not_wk; reflexivity|]. intros [C | []]. discriminate.
    + intros r e [Er | []]; injection Er as <- <-. eexists. right. reflexivity.
    + intros r e [Er | []]; injection Er as <- <-. apply plain_ok. reflexivity.
    + intros r e u Hin. destruct Hin as [Er | []]; injection Er as <- <-. intros Hi Hu. rewrite (Iv u Hu Hi). apply Or.
    + intros r e t u Hin. destruct Hin as [Er | []]; injection Er as <- <-. intros [<- | []] N. contradiction.
    + intros r e t u Hin. destruct Hin as [Er | []]; injection Er as <- <-. intros [<- | []] _ Hi Hu. rewrite (Iv u Hu Hi). split; [vm_compute; lia|].
      intros a n cs w Ew Hw Hdw. unfold v, x0 in Ew. injection Ew as <- <- <-. apply (inside_cds w _ Hdw) in Hw. destruct Hw.
  - split; [constructor|]. intros u. split; [intros []|]. intros (Hu & r & e & t & [Er | []] & Ht & N & Hi). injection Er as <- <-.
    destruct Ht as [<- | []]. contradiction.
  - split; [repeat constructor; intros []|]. intros u. split.
    + intros [<- | []]. split; auto. exists "R"%string, rhs, rhs. split; [left; auto|]. split; [left; auto|]. split; auto.
      apply cds_inside. rewrite Cr. left. auto.
    + intros (Hu & r & e & t & [Er | []] & Ht & N & Hi). injection Er as <- <-. destruct Ht as [<- | []]. left. symmetry. auto.
  - unfold sbli_rhs_discretisation. cbn [map fst snd]. change (convective_kernels 1 1 dir3 inv1 set_order inner_order [] _) with (Ok (A := list kernel) []).
    cbn [bind]. rewrite E. reflexivity.
  - set (M := fun (b : string) (x : list Z) => if String.eqb b "R" then 1%R else 0%R).
    exists M, "R"%string, rhs, [0%Z]. split; [left; auto|]. split; [repeat constructor; lia|].
    destruct (X M) as (_ & Xr). rewrite (Xr "R"%string (fst (classify rhs)) [0%Z]); [|left; auto|reflexivity].
    change (fst (classify rhs)) with rhs. change (M "R"%string [0%Z]) with 1%R. lra.
Qed.
Print Assumptions C31_residual_refuted.

(* SymPy replaces larger patterns first.  With that order a derivative whose argument is
   a product with an inner derivative is left in the residual undiscretised. *)
Fixpoint size (e : expr) : nat :=
  match e with EApp _ args => S ((fix go l := match l with [] => 0 | x :: l => size x + go l end) args)%nat | _ => 1%nat end.
Fixpoint insert_large (x : expr * string) (l : list (expr * string)) : list (expr * string) :=
  match l with [] => [x] | y :: l' => if Nat.ltb (size (fst y)) (size (fst x)) then x :: l else y :: insert_large x l' end.
Definition larger_first (l : list (expr * string)) : list (expr * string) := fold_right insert_large [] l.
Theorem C31_variable_viscosity_refuted :
  exists ks r e v kn, sbli_rhs_discretisation 2 2 dir3 inv1 set_order larger_first [ex_c1; ex_c2] [ex_v2; ex_v1; ex_v3] ex_sys = Ok ks /\
    In kn ks /\ In (r, e) (k_eqs kn) /\ inside v e /\ derivative v.
Proof.
  destruct (sbli_rhs_discretisation 2 2 dir3 inv1 set_order larger_first [ex_c1; ex_c2] [ex_v2; ex_v1; ex_v3] ex_sys) as [ks|er] eqn:E.
  2: { exfalso. vm_compute in E. discriminate. }
  vm_compute in E. injection E as <-. 
  eexists _, "Residual0"%string, _, _, _. split; [reflexivity|].
  split; [do 7 right; left; reflexivity|]. split; [left; reflexivity|].
  split; [|eexists _, _; reflexivity].
  eapply in_arg; [right; left; reflexivity|]. eapply in_arg; [left; reflexivity|]. eapply in_arg; [right; left; reflexivity|]. constructor.
Qed.
Print Assumptions C31_variable_viscosity_refuted.

(* Two derivatives inside a third: the range of the first is extended in the direction
   of the second instead of the third, and the third reads points that are not computed. *)
Definition with_range (k : nat) (sizes : list Z) (kn : kernel) := (k_eqs kn, in_range k sizes (k_ext kn)).
Definition at3 (b : string) := EDat b [0; 0; 0]%Z.
Definition sib_a := EApp HCD [at3 "u"; x0].
Definition sib_b := EApp HCD [at3 "v"; x1].
Definition sib_o := EApp HCD [EApp HMul [sib_a; sib_b]; x2].
Definition sib_sys : list (string * expr) :=
  [("Residual0"%string, EApp HAdd [EApp HMul [ENum (-1); EApp HCD [at3 "p"; x0]]; EApp HMul [inv_re; sib_o]])].
Theorem C61_sibling_range_refuted :
  exists ks, sbli_rhs_discretisation 1 3 dir3 inv1 set_order inner_order [EApp HCD [at3 "p"; x0]] [sib_a; sib_b; sib_o] sib_sys = Ok ks /\
    reads_uncomputed_point (map (with_range 1 [4; 4; 4]%Z) ks).
Proof.
  destruct (sbli_rhs_discretisation 1 3 dir3 inv1 set_order inner_order [EApp HCD [at3 "p"; x0]] [sib_a; sib_b; sib_o] sib_sys) as [ks|er] eqn:E.
  2: { exfalso. vm_compute in E. discriminate. }
  vm_compute in E. injection E as <-. eexists. split; [reflexivity|]. cbn [map].
  unfold reads_uncomputed_point.
  eexists _, "wk2"%string, _, "wk0"%string, [0; 0; 1]%Z, [0; 0; 3]%Z.
  split; [do 4 right; left; reflexivity|]. split; [left; reflexivity|].
  split; [vm_compute; tauto|]. split; [vm_compute; reflexivity|].
  split. { eexists. split; [do 2 right; left; reflexivity|]. left. reflexivity. }
  intros kw Hk Hb. cbn [In] in Hk.
  (* the convective kernel also writes wk0, at interior points *)
  repeat (destruct Hk as [<- | Hk]; [first [vm_compute; reflexivity | exfalso; vm_compute in Hb; intuition discriminate]|]). destruct Hk.
Qed.
Print Assumptions C61_sibling_range_refuted.

(* A derivative of a derivative in the same direction: if the set lists the outer one
   first, its kernel runs first and reads an array computed later. *)
Definition nest_i := EApp HCD [EDat "u" [0%Z]; x0].
Definition nest_o := EApp HCD [EApp HMul [EDat "mu" [0%Z]; nest_i]; x0].
Definition nest_sys : list (string * expr) :=
  [("Residual0"%string, EApp HMul [inv_re; nest_o])].
Theorem C61_same_direction_refuted :
  exists ks, sbli_rhs_discretisation 1 1 dir3 inv1 set_order inner_order [] [nest_o; nest_i] nest_sys = Ok ks /\
    reads_before_computed (map (with_range 1 [4]%Z) ks).
Proof.
  destruct (sbli_rhs_discretisation 1 1 dir3 inv1 set_order inner_order [] [nest_o; nest_i] nest_sys) as [ks|er] eqn:E.
  2: { exfalso. vm_compute in E. discriminate. }
  vm_compute in E. injection E as <-. eexists. split; [reflexivity|]. cbn [map].
  unfold reads_before_computed. eexists [], _, _, "wk0"%string, _, "wk1"%string, [1]%Z.
  split; [reflexivity|]. split; [left; reflexivity|]. split; [vm_compute; tauto|]. split.
  - intros (kn & [<- | []] & H). vm_compute in H. intuition discriminate.
  - eexists. split; [left; reflexivity|]. left. reflexivity.
Qed.
Print Assumptions C61_same_direction_refuted.
