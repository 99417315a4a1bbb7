(* Proofs for C16: the whole program stays inside the declared storage. *)
From Verif Require Import Base BaseProofs Expr ExprProofs FDModel WorkModel ShiftSpec ShiftModel DiscModel DiscSpec DiscProofs DiscRun DiscMain KernelModel ProgModel ProgSpec ProgProofs StoreModel StoreSpec StoreProofs.
From Verif Require AdvModel AlgModel AlgSpec AlgProps BCSpec BCKern BCMirror BCModel OrdModel OrdProps PerProps.
From Coq Require Import QArith ZArith Reals Lia Permutation.
Local Close Scope Q_scope.
Local Open Scope list_scope.

(* ---- a kernel that touches stored elements only ---- *)
Section one.
Variables (J : interp R) (k : nat) (sizes : list Z) (dt : R) (ab : list R * list R).
Notation agree := (fun M M' : memory => forall b y, stored sizes b y = true -> M b y = M' b y).
Notation RUN := (run_pkernel J k sizes dt ab).
Definition contained (pk : pkernel) : Prop := forall b y, touches k sizes pk b y -> stored sizes b y = true.
Definition proper_exchange (pk : pkernel) : Prop :=
  match pk with Exchange ex => List.length (BCModel.ex_to ex) = List.length (BCModel.ex_size ex) /\ List.length (BCModel.ex_from ex) = List.length (BCModel.ex_size ex) | _ => True end.

Lemma advance_agree : forall l M M', agree M M' ->
  agree (AdvModel.run (list Z) (in_range k sizes []) l M) (AdvModel.run (list Z) (in_range k sizes []) l M').
Proof.
  unfold AdvModel.run. induction l as [|s l IH]; intros M M' H; cbn [fold_left]; auto. apply IH. intros b y Hy.
  unfold AdvModel.run_stmt. destruct (String.eqb b (fst s)); auto. destruct (in_range k sizes [] y) eqn:E; auto.
  unfold AdvModel.value. destruct (snd s); rewrite !H by (apply (stored_grid k); auto); reflexivity.
Qed.
Lemma advance_frame : forall l M b y, stored sizes b y = false ->
  AdvModel.run (list Z) (in_range k sizes []) l M b y = M b y.
Proof.
  unfold AdvModel.run. induction l as [|s l IH]; intros M b y H; cbn [fold_left]; auto. rewrite IH by auto.
  unfold AdvModel.run_stmt. destruct (String.eqb b (fst s)); auto. destruct (in_range k sizes [] y) eqn:E; auto.
  rewrite (stored_grid k sizes b y E) in H. discriminate.
Qed.
Lemma in_box_from : forall to from size x, List.length to = List.length size -> List.length from = List.length size ->
  BCModel.in_box to size x = true ->
  BCModel.in_box from size (BCModel.map2 (fun i p => i - fst p + snd p)%Z x (combine to from)) = true.
Proof.
  intros to from size x Lt Lf H. apply PerProps.in_box_iff in H; auto. destruct H as [L H].
  assert (Lc : List.length (combine to from) = List.length x) by (rewrite combine_length; lia).
  apply PerProps.in_box_iff; auto. rewrite BCMirror.map2_length by lia. split; auto. intros i Hi. specialize (H i Hi).
  rewrite (PerProps.map2_nth _ _ _ _ _ _ _ 0%Z (0, 0)%Z) by lia. rewrite combine_nth by lia. cbn [fst snd]. lia.
Qed.
Lemma contained_agree : forall pk st M M', contained pk -> proper_exchange pk -> agree M M' -> agree (RUN M pk st) (RUN M' pk st).
Proof.
  intros pk st M M' HC HP HM. destruct pk as [kn | eqs | eqs | eqs | ex]; cbn [run_pkernel]; try (apply advance_agree; auto).
  - unfold exec_kernel. assert (G : forall l, incl l (k_eqs kn) -> forall M M', agree M M' ->
      agree (fold_left (exec_eq J k sizes (k_ext kn)) l M) (fold_left (exec_eq J k sizes (k_ext kn)) l M')).
    { clear M M' HM. induction l as [|[r e] l IH]; intros Hl M M' HM; cbn [fold_left]; auto.
      apply IH; [intros q Hq; apply Hl; right; auto|]. intros b y Hy. unfold exec_eq. cbn [fst snd].
      destruct (String.eqb b r && in_range k sizes (k_ext kn) y) eqn:E; auto. apply andb_true_iff in E. destruct E as [_ E].
      apply eval_ext. intros c ix Hc. apply HM. rewrite at_offset_vadd. apply HC. exists r, e, y. split; [apply Hl; left; auto|]. split; auto.
      right. exists ix. auto. }
    apply G; auto. apply incl_refl.
  - intros b y Hy. unfold BCModel.transfer. destruct (in_dec string_dec b (BCModel.ex_arrays ex)) as [Hb | Hb]; auto.
    destruct (BCModel.in_box (BCModel.ex_to ex) (BCModel.ex_size ex) y) eqn:E; auto. apply HM. apply HC. split; auto.
    right. destruct HP. apply in_box_from; auto.
Qed.
Lemma contained_frame : forall pk st M, contained pk -> forall b y, stored sizes b y = false -> RUN M pk st b y = M b y.
Proof.
  intros pk st M HC b y Hy. destruct pk as [kn | eqs | eqs | eqs | ex]; cbn [run_pkernel]; try (apply advance_frame; auto).
  - unfold exec_kernel. assert (G : forall l, incl l (k_eqs kn) -> forall M, fold_left (exec_eq J k sizes (k_ext kn)) l M b y = M b y).
    { induction l as [|[r e] l IH]; intros Hl M0; cbn [fold_left]; auto. rewrite IH by (intros q Hq; apply Hl; right; auto).
      unfold exec_eq. cbn [fst snd]. destruct (String.eqb_spec b r) as [-> | N]; auto.
      destruct (in_range k sizes (k_ext kn) y) eqn:E; auto. exfalso. rewrite HC in Hy; [discriminate|].
      exists r, e, y. split; [apply Hl; left; auto|]. auto. }
    apply G. apply incl_refl.
  - unfold BCModel.transfer. destruct (in_dec string_dec b (BCModel.ex_arrays ex)) as [Hb | Hb]; auto.
    destruct (BCModel.in_box (BCModel.ex_to ex) (BCModel.ex_size ex) y) eqn:E; auto. rewrite HC in Hy; [discriminate|]. split; auto.
Qed.
Lemma events_agree : forall tr, (forall pk it st, In (AlgModel.EKernel pk it st) tr -> contained pk /\ proper_exchange pk) ->
  forall M M', agree M M' -> agree (run_program J k sizes dt ab tr M) (run_program J k sizes dt ab tr M').
Proof.
  unfold run_program. induction tr as [|ev tr IH]; intros H M M' HM; cbn [fold_left]; auto.
  apply IH; [intros pk it st Hin; apply (H pk it st); right; auto|].
  destruct ev as [pk it st | | |]; cbn [run_event]; auto. destruct (H pk it st (or_introl eq_refl)). apply contained_agree; auto.
Qed.
Lemma events_frame : forall tr, (forall pk it st, In (AlgModel.EKernel pk it st) tr -> contained pk /\ proper_exchange pk) ->
  forall M b y, stored sizes b y = false -> run_program J k sizes dt ab tr M b y = M b y.
Proof.
  unfold run_program. induction tr as [|ev tr IH]; intros H M b y Hy; cbn [fold_left]; auto.
  rewrite IH; auto; [|intros pk it st Hin; apply (H pk it st); right; auto].
  destruct ev as [pk it st | | |]; cbn [run_event]; auto. destruct (H pk it st (or_introl eq_refl)). apply contained_frame; auto.
Qed.
End one.

(* ---- the kernels of a program ---- *)
Section program.
Variables (k : nat) (dirof : string -> nat) (inv : nat -> nat -> expr) (dord : expr -> list dset)
  (sord : list (expr * string) -> list (expr * string)) (num : string -> OrdModel.key) (kord : list string -> list string)
  (sizes : list Z) (sys crs : list (string * expr)) (known : list string) (register : string -> string) (ccds vcds : list expr).
Notation ndim := (List.length sizes).
Hypothesis Hk : (k <= 5)%nat.
Hypothesis Hinv : forall d m, dsets (inv d m) = [].
Hypothesis Hdord : forall e, enumerates (dord e) e.
Hypothesis Hnum : forall a b, num a = num b -> a = b.
Hypothesis Hkord : forall l, Permutation l (kord l).
Hypothesis PP : periodic_problem ndim dirof register sys crs known.
Hypothesis Names : forall a rhs, In (a, rhs) (sys ++ crs) -> ~ own_name a /\ forall b ix, In (b, ix) (dsets rhs) -> ~ own_name b.
Hypothesis HC : lists_derivatives (disc_eqs sys) (fun t => ~ viscous_term t) ccds.
Hypothesis HV : lists_derivatives (disc_eqs sys) viscous_term vcds.

Lemma listed_ok : forall v, In v ccds \/ In v vcds -> exists w rhs, In (w, rhs) sys /\ inside v rhs /\ derivative v.
Proof.
  intros v [H | H]; [apply (proj2 HC) in H | apply (proj2 HV) in H]; destruct H as (Hd & r & rhs & t & Hr & Ht & _ & Hi);
    destruct (disc_in _ _ _ Hr) as (w & Hw); exists w, rhs; split; auto; split; auto; (eapply inside_trans; [exact Hi | apply terms_inside; auto]).
Qed.
Lemma listed_arg : forall v, In v ccds \/ In v vcds -> arg_ok ndim dirof v.
Proof.
  intros v H. destruct (listed_ok v H) as (w & rhs & Hin & Hi & Hd).
  destruct (deriv_shape dirof sizes sys crs known ccds vcds register PP HC HV w rhs v Hin Hi Hd) as (a & n & m & Ev & Hn & _ & _).
  split; [rewrite Ev; exact Hn|]. intros b ix Hb. destruct (in_disc sys w rhs Hin) as (r & Hr).
  assert (Hb' : In (b, ix) (dsets rhs)) by (eapply inside_dsets; [exact Hi|]; rewrite Ev in *; rewrite dsets_cd; exact Hb).
  split; [eapply (wf_arrays _ _ _ _ (pp_form _ _ _ _ _ _ PP)); eauto|]. apply plain_spec.
  eapply (Names w rhs); [apply in_app_iff; left; auto | exact Hb'].
Qed.
Lemma own_direction : forall v, In v vcds -> ~ In (cd_dir dirof v) (extended dirof vcds v).
Proof.
  intros v Hv Hin. unfold extended in Hin. apply in_flat_map in Hin. destruct Hin as ([u ds] & Hu & Hn). cbn [fst snd] in Hn.
  destruct (expr_eq_dec u v); [subst u | destruct Hn].
  apply in_flat_map in Hu. destruct Hu as (o & Ho & Hu).
  destruct (vcds_ok ndim dirof sizes eq_refl (disc_eqs sys) (wf_weaken _ _ _ reserved _ (fun b H => or_introl H) (pp_form _ _ _ _ _ _ PP)) vcds HV o Ho)
    as (_ & [Eo | (c & Eo & _)]); rewrite Eo in Hu; [destruct Hu|]. destruct Hu as [E | []]. injection E as -> <-.
  destruct (listed_ok o (or_intror Ho)) as (w & rhs & Hin & Hi & Hd).
  destruct (deriv_shape dirof sizes sys crs known ccds vcds register PP HC HV w rhs o Hin Hi Hd) as (a & n & m & -> & _ & _ & X).
  destruct (listed_ok v (or_intror Hv)) as (w' & rhs' & Hin' & Hi' & Hd').
  destruct (deriv_shape dirof sizes sys crs known ccds vcds register PP HC HV w' rhs' v Hin' Hi' Hd') as (a' & n' & m' & Ev & _).
  rewrite cds_cd in Eo. change [v; EApp HCD (a :: repeat (ESym KCoord n) (S m))] with ([v] ++ [EApp HCD (a :: repeat (ESym KCoord n) (S m))]) in Eo.
  apply app_inj_tail in Eo. destruct Eo as [Eo _].
  assert (Iv : inside v a) by (apply in_cds; rewrite Eo; left; auto).
  apply (X v a' n' m' Iv Ev). rewrite Ev in Hn. unfold cd_dirs, cd_dir in Hn. cbn [cd_coords] in Hn.
  change (cd_dirs dirof (EApp HCD (a' :: repeat (ESym KCoord n') (S m')))) with (map (fun c => match c with ESym KCoord n => dirof n | _ => 0%nat end) (repeat (ESym KCoord n') (S m'))) in Hn.
  cbn [repeat map hd] in Hn. clear - Hn. change (dirof n :: map (fun c : expr => match c with ESym KCoord n0 => dirof n0 | _ => 0%nat end) (repeat (ESym KCoord n) m)) with
    (map (fun c : expr => match c with ESym KCoord n0 => dirof n0 | _ => 0%nat end) (repeat (ESym KCoord n) (S m))) in Hn.
  apply in_map_iff in Hn. destruct Hn as (c & E & Hc). apply repeat_spec in Hc. subst c. auto.
Qed.
Lemma part_arrays : forall (sel : expr -> expr), (sel = (fun rhs => fst (classify rhs)) \/ sel = (fun rhs => snd (classify rhs))) ->
  forall r e b ix, In (r, e) (map (fun re => (fst re, sel (snd re))) (disc_eqs sys)) -> In (b, ix) (dsets e) -> ix = repeat 0%Z ndim.
Proof.
  intros sel Hs r e b ix Hin Hb. apply in_map_iff in Hin. destruct Hin as ([r0 rhs] & E & Hin). cbn [fst snd] in E. injection E as -> <-.
  pose proof (pp_form _ _ _ _ _ _ PP) as WF.
  destruct (classify_form rhs (wf_form _ _ _ _ WF r rhs Hin) (wf_function _ _ _ _ WF r rhs Hin)) as (_ & _ & A & B).
  destruct Hs as [-> | ->]; cbn in Hb; [apply A in Hb | apply B in Hb]; eapply (wf_arrays _ _ _ _ WF r rhs b ix Hin Hb).
Qed.
Lemma spatial_contained : forall sp, all_spatial_kernels k ndim dirof inv dord sord num kord crs (map fst sys ++ known) ccds vcds (disc_eqs sys) = Ok sp ->
  forall kn, In kn sp -> kernel_ok k ndim kn.
Proof.
  intros sp Esp kn Hkn. unfold all_spatial_kernels in Esp.
  destruct (sbli_rhs_discretisation k ndim dirof inv dord sord ccds vcds (disc_eqs sys)) as [ks|] eqn:Eks; [|discriminate]. cbn [bind] in Esp.
  destruct (OrdModel.sort_constituents kernel OrdModel.max_passes _ _) as [cs|] eqn:Ecs in Esp; [|discriminate].
  cbn [bind] in Esp. injection Esp as <-. apply in_app_iff in Hkn. destruct Hkn as [Hkn | Hkn].
  - destruct (OrdProps.C20_kernels kernel _ _ cs (crk_nodup dirof num kord sizes sys crs ccds vcds Hnum Hkord) Ecs) as (cl & -> & _ & Hcl).
    apply in_map_iff in Hkn. destruct Hkn as (c & <- & Hc). apply Hcl in Hc. destruct Hc as [Hc _].
    apply (crk_in dirof num kord sizes sys crs known ccds vcds register PP) in Hc. destruct Hc as (b & e & _ & Hin & ->).
    intros r e' [E | []]. cbn [crk OrdModel.ck_kernel k_ext] in *. injection E as <- <-.
    destruct (Names b e) as [N1 N2]; [apply in_app_iff; auto|]. split; [right; apply plain_spec; auto|].
    intros c ix Hc. left. split; [eapply (pp_local _ _ _ _ _ _ PP); eauto|]. right. apply plain_spec. eapply N2; eauto.
  - unfold sbli_rhs_discretisation in Eks.
    destruct (convective_kernels _ _ _ _ _ _ _ _) as [kc|] eqn:Ec in Eks; [|discriminate]. cbn [bind] in Eks.
    destruct (viscous_kernels _ _ _ _ _ _ _ _) as [kv|] eqn:Ev in Eks; [|discriminate]. cbn [bind] in Eks. injection Eks as <-.
    apply in_app_iff in Hkn. destruct Hkn as [Hkn | Hkn].
    + eapply (convective_store k ndim dirof inv dord sord Hinv Hdord); [exact Ec | | | exact Hkn].
      * intros v Hv. apply listed_arg. auto.
      * apply (part_arrays (fun rhs => snd (classify rhs))). auto.
    + eapply (viscous_store k ndim dirof inv dord sord Hinv Hdord); [exact Ev | | | exact Hkn].
      * intros v Hv.
        destruct (vcds_ok ndim dirof sizes eq_refl (disc_eqs sys) (wf_weaken _ _ _ reserved _ (fun b H => or_introl H) (pp_form _ _ _ _ _ _ PP)) vcds HV v Hv) as (A & B).
        split; auto. split; auto. split; [apply listed_arg; auto | apply own_direction; auto].
      * apply (part_arrays (fun rhs => fst (classify rhs))). auto.
Qed.
End program.
