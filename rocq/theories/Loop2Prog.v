(* The kernels of the generated programs with shock capturing and boundary conditions can be
   executed in any order of their points. *)
From Verif Require Import Base BaseProofs Expr ExprProofs FDModel WorkModel ShiftSpec ShiftProofs DiscModel DiscSpec DiscProofs DiscRun DiscMain DiscProps
  LLFModel ProgModel ProgSpec ProgProofs ProgProps HybModel HybSpec HybProofs HybMore HybProps CapModel CapSpec CapProofs CapMore CapProps.
From Verif Require AdvModel AlgModel AlgSpec OrdModel OrdProps BCModel BCSpec.
From Verif Require Import BndModel SideModel SideProps FaceModel FaceSpec FaceTime ShkModel ShkSpec LoopModel LoopProofs Loop2Model Loop2Wall Loop2Proofs.
From Coq Require Import ZArith Reals Lia Permutation.
Local Open Scope list_scope.

(* the kernels of the boundaries *)
Lemma conditions_loop : forall J sizes sch gamma av solution shock ord bh fs g, BCSpec.good_order ord -> List.length bh = List.length sizes ->
  forall types d bcs, (d + List.length types <= List.length sizes)%nat ->
  (forall i l r, nth_error types i = Some (l, r) -> admissible (List.length sizes) fs g (d + i) l /\ admissible (List.length sizes) fs g (d + i) r) ->
  apply_conditions shock ord sizes bh (BCSpec.arrays_of (List.length sizes) fs) g d types = Ok bcs -> forall x, In x bcs -> loopable2 J sizes sch gamma av solution (Ordinary x).
Proof.
  intros J sizes sch gamma av solution shock ord bh fs g Ho Lb.
  assert (A : forall d side c x, (d < List.length sizes)%nat -> admissible (List.length sizes) fs g d c ->
    apply_condition shock ord sizes bh (BCSpec.arrays_of (List.length sizes) fs) g d side c = Ok x -> loopable2 J sizes sch gamma av solution (Ordinary x)).
  { intros d side c x Hd Adm H. pose proof (condition_free shock ord sizes bh fs g d side c x Ho Lb Hd Adm H) as X.
    destruct x as [[bk | pk] | s]; [exact X | destruct pk; try destruct X; exact I | destruct X]. }
  induction types as [|[l r] types IH]; intros d bcs Hl Adm H x Hx; cbn [apply_conditions] in H.
  - injection H as <-. contradiction.
  - destruct (apply_condition shock ord sizes bh _ g d false l) as [kl|] eqn:El in H; [|discriminate]. cbn [bind] in H.
    destruct (apply_condition shock ord sizes bh _ g d true r) as [kr|] eqn:Er in H; [|discriminate]. cbn [bind] in H.
    destruct (apply_conditions shock ord sizes bh _ g (S d) types) as [ks|] eqn:Ek in H; [|discriminate]. cbn [bind] in H. injection H as <-.
    cbn [List.length] in Hl. destruct (Adm 0%nat l r eq_refl) as [Al Ar]. rewrite Nat.add_0_r in Al, Ar.
    destruct Hx as [<- | [<- | Hx]]; [apply (A d false l kl ltac:(lia) Al El) | apply (A d true r kr ltac:(lia) Ar Er)|].
    apply (IH (S d) ks); auto; [lia|]. intros i l' r' Hi. replace (S d + i)%nat with (d + S i)%nat by lia. apply Adm. exact Hi.
Qed.

(* ---- programs of FaceModel ---- *)
Section face.
Variables (J : interp R) (k : nat) (dirof : string -> nat) (inv : nat -> nat -> expr) (dord : expr -> list dset) (sord : list (expr * string) -> list (expr * string))
  (num : string -> OrdModel.key) (kord : list string -> list string) (h : nat -> R) (sizes : list Z) (sd : sides)
  (sys crs : list (string * expr)) (known : list string) (ccds vcds : list expr) (register : string -> string).
Notation ndim := (List.length sizes).
Hypothesis Hinv : forall M x d m, value J M x (inv d m) = (/ h d ^ m)%R.
Hypothesis Hdord : forall e, enumerates (dord e) e.
Hypothesis Hnum : forall a b, num a = num b -> a = b.
Hypothesis Hkord : forall l, Permutation l (kord l).
Hypothesis PP : periodic_problem ndim dirof register sys crs known.
Hypothesis HC : lists_derivatives (disc_eqs sys) (fun t => ~ viscous_term t) ccds.
Hypothesis HV : lists_derivatives (disc_eqs sys) viscous_term vcds.
Lemma face_own : forall sp, all_spatial_kernels1 k ndim dirof inv dord sord num kord sizes sd crs (map fst sys ++ known) ccds vcds (disc_eqs sys) = Ok sp ->
  forall s, In s sp -> own_s J sizes s.
Proof.
  intros sp Esp s Hs. unfold all_spatial_kernels1 in Esp.
  destruct (sbli_rhs_discretisation1 k ndim dirof inv dord sord sizes sd ccds vcds (disc_eqs sys)) as [ks|] eqn:Eks; [|discriminate]. cbn [bind] in Esp.
  destruct (OrdModel.sort_constituents kernel OrdModel.max_passes _ _) as [cs|] eqn:Ecs in Esp; [|discriminate].
  cbn [bind] in Esp. injection Esp as <-. apply in_app_iff in Hs. destruct Hs as [Hs | Hs].
  - apply in_map_iff in Hs. destruct Hs as (kn & <- & Hkn).
    destruct (OrdProps.C20_kernels kernel _ _ cs (ProgProofs.crk_nodup dirof num kord sizes sys crs ccds vcds Hnum Hkord) Ecs) as (cl & -> & _ & Hcl).
    apply in_map_iff in Hkn. destruct Hkn as (c & <- & Hc). apply Hcl in Hc. destruct Hc as [Hc _].
    apply (ProgProofs.crk_in dirof num kord sizes sys crs known ccds vcds register PP) in Hc. destruct Hc as (b & e & _ & Hin & ->).
    apply here_own. intros r e' c ix [E | []] Hc. injection E as <- <-. eapply (pp_local _ _ _ _ _ _ PP); eauto.
  - apply (rhs_own1 J k dirof inv dord sord h sizes sd Hinv Hdord _ _ _ ks Eks).
    + intros r rhs b ix Hin Hb. apply (parts_here dirof sizes sys crs known register PP (fun rhs => fst (classify rhs)) (or_introl eq_refl) r (fst (classify rhs)) b ix); auto.
      apply in_map_iff. exists (r, rhs). auto.
    + right. intros r rhs b ix Hin Hb. apply (parts_here dirof sizes sys crs known register PP (fun rhs => snd (classify rhs)) (or_intror eq_refl) r (snd (classify rhs)) b ix); auto.
      apply in_map_iff. exists (r, rhs). auto.
    + intros v Hv. apply (listed_free dirof sizes sys crs known register ccds vcds PP HC HV). auto.
    + intros v Hv.
      destruct (vcds_ok ndim dirof sizes eq_refl (disc_eqs sys) (wf_weaken _ _ _ reserved _ (fun b H => or_introl H) (pp_form _ _ _ _ _ _ PP)) vcds HV v Hv) as (A & B).
      split; auto. split; auto. apply (listed_free dirof sizes sys crs known register ccds vcds PP HC HV). auto.
    + exact Hs.
Qed.
End face.

(* ---- programs with shock capturing ---- *)
Section shock.
Variables (J : interp R) (k : nat) (sh : shock) (central : bool) (dirof : string -> nat) (inv : nat -> nat -> expr) (dord : expr -> list dset)
  (sord : list (expr * string) -> list (expr * string)) (worder : list expr -> list expr) (num : string -> OrdModel.key) (kord : list string -> list string)
  (h : nat -> R) (sizes : list Z) (coordinate : nat -> string) (fluxes : nat -> list expr)
  (sys crs : list (string * expr)) (known : list string) (vcds : list expr) (register : string -> string).
Notation ndim := (List.length sizes).
Hypothesis Hinv : forall M x d m, value J M x (inv d m) = (/ h d ^ m)%R.
Hypothesis Hdord : forall e, enumerates (dord e) e.
Hypothesis Hw : forall l, Permutation l (worder l).
Hypothesis Hnum : forall a b, num a = num b -> a = b.
Hypothesis Hkord : forall l, Permutation l (kord l).
Hypothesis Hdim : ndim <> 0%nat.
Hypothesis PP : shock_problem ndim (reach sh) k dirof register coordinate fluxes sys crs known.
Hypothesis HV : lists_derivatives (disc_eqs sys) viscous_term vcds.
Hypothesis Hcen : central = false -> vcds = [].
Variables (gamma : R) (av : averaging) (sch : scheme).
Notation HS := (wf_hweaken ndim dirof _ reserved coordinate fluxes (disc_eqs sys) (fun b H => or_introl H) (cp_form _ _ _ _ _ _ _ _ _ _ PP)).
Lemma HSr : hybrid_system ndim dirof reserved coordinate fluxes (disc_eqs sys).
Proof. exact HS. Qed.
Notation LOOPS := (loopable2 J sizes sch gamma av (map fst sys)).
Lemma relations_own : forall start cs, OrdModel.sort_constituents rkernel OrdModel.max_passes start
    (relation_kernels k sh central sizes dirof worder num kord (map fst sys) crs vcds (disc_eqs sys)) = Ok cs ->
  forall r, In r cs -> LOOPS (Constituent r).
Proof.
  intros start cs Ecs r Hr.
  destruct (OrdProps.C20_kernels rkernel _ _ cs (CapProofs.crk_nodup k sh central dirof worder num kord sizes sys crs vcds Hnum Hkord) Ecs) as (cl & -> & _ & Hcl).
  apply in_map_iff in Hr. destruct Hr as (c & <- & Hc). apply Hcl in Hc. destruct Hc as [Hc _].
  apply (CapProofs.crk_in k sh central dirof worder num kord sizes coordinate fluxes sys crs known vcds register PP) in Hc. destruct Hc as (b & e & _ & Hin & ->).
  cbn [CapProofs.crk OrdModel.ck_kernel loopable2]. split.
  - apply CapProofs.range_len; auto.
  - intros c ix Hc. apply (cp_local _ _ _ _ _ _ _ _ _ _ PP b e c ix Hin Hc).
Qed.
Lemma visc_free : forall v, In v vcds -> free_arg ndim v.
Proof.
  intros v Hv. destruct (visc_ok ndim dirof sizes eq_refl coordinate fluxes (disc_eqs sys) (hs_shock _ _ _ _ _ _ HSr) HSr vcds HV v Hv) as (((a & n & m & Ev & _) & _) & _).
  apply (proj2 HV) in Hv. destruct Hv as (Hd & r & rhs & t & Hr & Ht & _ & Hi).
  intros b ix Hb. assert (Hb' : In (b, ix) (dsets rhs)).
  { eapply inside_dsets; [eapply inside_trans; [exact Hi | apply terms_inside; exact Ht]|]. rewrite Ev in *. rewrite dsets_cd. exact Hb. }
  destruct (ss_arrays _ _ _ _ _ _ (hs_shock _ _ _ _ _ _ HSr) r rhs b ix Hr Hb') as (A & B & _). auto.
Qed.
Lemma central_own : forall sd ks, sbli_rhs_discretisation1 k ndim dirof inv dord sord sizes sd [] vcds (disc_eqs sys) = Ok ks ->
  forall s, In s ks -> own_s J sizes s.
Proof.
  intros sd ks H. apply (rhs_own1 J k dirof inv dord sord h sizes sd Hinv Hdord _ _ _ ks H).
  - intros r rhs b ix Hin Hb. rewrite (fv_classify ndim dirof coordinate fluxes _ HSr r rhs Hin) in Hb.
    apply (fv_dsets ndim dirof coordinate fluxes _ HSr r rhs _ Hin) in Hb. apply (ss_arrays _ _ _ _ _ _ (hs_shock _ _ _ _ _ _ HSr) r rhs b ix Hin Hb).
  - left. reflexivity.
  - intros v [].
  - intros v Hv. destruct (visc_ok ndim dirof sizes eq_refl coordinate fluxes (disc_eqs sys) (hs_shock _ _ _ _ _ _ HSr) HSr vcds HV v Hv) as (A & B).
    split; auto. split; auto. apply visc_free. auto.
Qed.
Lemma capture_own : forall ks, shock_discretise ndim dirof inv worder (disc_eqs sys) = Ok ks -> forall kn, In kn ks -> LOOPS (Capture kn).
Proof.
  intros ks H kn Hk.
  assert (Hsol : forall q, In q (map fst sys) -> ~ reserved q). { intros q Hq (i & E). apply (proj1 (cp_work _ _ _ _ _ _ _ _ _ _ PP q Hq) i E). }
  pose proof (shock_own J dirof inv worder h sizes Hinv Hw coordinate fluxes (disc_eqs sys) (hs_shock _ _ _ _ _ _ HSr) sch gamma av (map fst sys) Hsol Hdim ks H kn Hk) as X.
  destruct kn; exact X.
Qed.
Lemma hybrid_own : forall ks, hybrid_discretise k ndim dirof inv dord sord worder [] vcds (spatial_schemes central) (disc_eqs sys) = Ok ks ->
  forall kn, In kn ks -> LOOPS (Capture kn).
Proof.
  intros ks H kn Hk. unfold hybrid_discretise in H.
  assert (C : forall ks, shock_discretise ndim dirof inv worder (disc_eqs sys) = Ok ks -> forall kn, In kn ks -> LOOPS (Capture kn)) by exact capture_own.
  destruct central; cbn [spatial_schemes mapM discretise_scheme] in H;
    destruct (shock_discretise ndim dirof inv worder (disc_eqs sys)) as [k1|] eqn:E1; try discriminate; cbn [bind] in H.
  - destruct (sbli_rhs_discretisation k ndim dirof inv dord sord [] vcds (disc_eqs sys)) as [k2|] eqn:E2; [|discriminate]. cbn [bind List.concat] in H.
    injection H as <-. rewrite app_nil_r in Hk. apply in_app_iff in Hk. destruct Hk as [Hk | Hk]; [apply (C k1 eq_refl); auto|].
    apply in_map_iff in Hk. destruct Hk as (kn0 & <- & Hk). cbn [loopable2]. apply plain_own.
    destruct (C79_unmodified k ndim dirof inv dord sord sizes (disc_eqs sys) [] vcds) as [U _]. rewrite E2 in U. cbn [all_plain] in U.
    apply (central_own _ _ U). apply in_map. auto.
  - cbn [List.concat] in H. injection H as <-. rewrite app_nil_r in Hk. apply (C k1 eq_refl); auto.
Qed.
End shock.
