(* The kernels of programs with shock capturing and boundary conditions access stored
   elements only (C86). *)
From Verif Require Import Base BaseProofs Expr ExprProofs FDModel WorkModel KernelModel ShiftSpec ShiftModel ShiftProofs DiscModel DiscSpec DiscProofs DiscRun DiscMain DiscProps
  LLFModel ProgModel ProgSpec ProgProofs ProgProps HybModel HybSpec HybProofs HybMore HybProps CapModel CapSpec CapProofs CapMore CapProps.
From Verif Require AdvModel AlgModel AlgSpec OrdModel OrdProps BCModel BCSpec BCKern BCMirror PerProps KernelProps LLFProofs.
From Verif Require Import BndModel SideModel SideProps FaceModel FaceSpec FaceTime ShkModel ShkSpec StoreModel StoreSpec StoreProofs StoreRun StoreShock Store2Spec Store2Run Store2Diff StoreWall.
From Coq Require Import QArith ZArith Reals Lia Permutation.
Local Close Scope Q_scope.
Local Close Scope R_scope.
Local Open Scope list_scope.

(* ---- the halos of the block ---- *)
Definition small_halos (sizes : list Z) (bh : halo_ranges) : Prop :=
  List.length bh = List.length sizes /\
  forall i, (i < List.length sizes)%nat -> (-5 <= BCSpec.lower_halo bh i <= 0)%Z /\ (0 <= BCSpec.upper_halo bh i <= 5)%Z.
Lemma central_halos_small : forall k sizes, (k <= 5)%nat -> small_halos sizes (block_halos k (List.length sizes)).
Proof.
  intros k sizes Hk. split; [apply repeat_length|]. intros i Hi. unfold BCSpec.lower_halo, BCSpec.upper_halo, block_halos.
  rewrite (nth_indep _ _ ([(- Z.of_nat k, Z.of_nat k)%Z], [(- Z.of_nat k, Z.of_nat k)%Z])) by (rewrite repeat_length; auto).
  rewrite nth_repeat. cbn. lia.
Qed.
Lemma capturing_halos_small : forall k sh central sizes, (k <= 5)%nat -> (reach sh <= 4)%nat -> small_halos sizes (capturing_halos k sh central sizes).
Proof.
  intros k sh central sizes Hk Hr. unfold capturing_halos. set (hs := if central then _ else _). split; [apply repeat_length|].
  intros i Hi. unfold BCSpec.lower_halo, BCSpec.upper_halo.
  rewrite (nth_indep _ _ (hs, hs)) by (rewrite repeat_length; auto). rewrite nth_repeat. cbn [fst snd]. unfold hs.
  destruct central; unfold shock_halo, central_halo; cbn [halo_min halo_max map fst snd]; unfold minl, maxl; cbn [fold_left]; lia.
Qed.

(* ---- the kernels of the boundaries ---- *)
Section bnd.
Variables (k : nat) (sizes : list Z) (sch : scheme) (solution : list string).
Notation INSIDE := (fun x => inside_storage k sizes sch solution x /\ proper sch x).
Lemma conditions_stored : forall shock ord bh fs g, BCSpec.good_order ord -> small_halos sizes bh ->
  (forall i, (i < List.length sizes)%nat -> (1 <= nth i sizes 0)%Z) -> (forall b, In b (BCSpec.field_names fs) -> plain b) ->
  forall types d bcs, (d + List.length types <= List.length sizes)%nat ->
  (forall i l r, nth_error types i = Some (l, r) -> admissible (List.length sizes) fs g (d + i) l /\ admissible (List.length sizes) fs g (d + i) r) ->
  (forall l r, In (l, r) types -> (uses_gas l \/ uses_gas r -> forall b, In b (gas_names g) -> plain b) /\ forall b, In b (data_arrays l ++ data_arrays r) -> plain b) ->
  apply_conditions shock ord sizes bh (BCSpec.arrays_of (List.length sizes) fs) g d types = Ok bcs -> forall x, In x bcs -> INSIDE (Ordinary x).
Proof.
  intros shock ord bh fs g Ho [Lb Hb] Hs Hfs.
  assert (A : forall d side c x, (d < List.length sizes)%nat -> admissible (List.length sizes) fs g d c ->
    (uses_gas c -> forall b, In b (gas_names g) -> plain b) -> (forall b, In b (data_arrays c) -> plain b) ->
    apply_condition shock ord sizes bh (BCSpec.arrays_of (List.length sizes) fs) g d side c = Ok x -> INSIDE (Ordinary x)).
  { intros d side c x Hd Adm Hg Hdat H. pose proof (condition_stored k shock ord sizes bh fs g d side c x Ho Lb Hd Hs Hb Hfs Hg Hdat Adm H) as X.
    destruct x as [[bk | pk] | s]; [| |destruct X].
    - split; [|exact I]. intros b y (z & l & r & Hz & Hin & D). exact (X z l r b y Hz Hin D).
    - destruct pk as [kn | | | | ex]; try (destruct X; fail). destruct X as (X & L1 & L2). split; [exact X|]. split; auto. }
  induction types as [|[l r] types IH]; intros d bcs Hl Adm Hd H x Hx; cbn [apply_conditions] in H.
  - injection H as <-. contradiction.
  - destruct (apply_condition shock ord sizes bh _ g d false l) as [kl|] eqn:El in H; [|discriminate]. cbn [bind] in H.
    destruct (apply_condition shock ord sizes bh _ g d true r) as [kr|] eqn:Er in H; [|discriminate]. cbn [bind] in H.
    destruct (apply_conditions shock ord sizes bh _ g (S d) types) as [ks|] eqn:Ek in H; [|discriminate]. cbn [bind] in H. injection H as <-.
    cbn [List.length] in Hl. destruct (Adm 0%nat l r eq_refl) as [Al Ar]. rewrite Nat.add_0_r in Al, Ar.
    destruct (Hd l r (or_introl eq_refl)) as [G D].
    destruct Hx as [<- | [<- | Hx]].
    + apply (A d false l kl ltac:(lia) Al); [intros U; apply G; auto | intros b Hin; apply D; apply in_app_iff; auto | exact El].
    + apply (A d true r kr ltac:(lia) Ar); [intros U; apply G; auto | intros b Hin; apply D; apply in_app_iff; auto | exact Er].
    + apply (IH (S d) ks); auto; [lia | |].
      * intros i l' r' Hi. replace (S d + i)%nat with (d + S i)%nat by lia. apply Adm. exact Hi.
      * intros l' r' Hin. apply Hd. right. auto.
Qed.
Lemma exchanges_stored : forall bh arrays ex, small_halos sizes bh -> (forall i, (i < List.length sizes)%nat -> (1 <= nth i sizes 0)%Z) ->
  (forall b, In b arrays -> plain b) -> In ex (BCModel.periodic_all sizes bh arrays) -> INSIDE (Ordinary (Other (Inner (Exchange ex)))).
Proof.
  intros bh arrays ex [Lb Hb] Hs Ha Hex. unfold BCModel.periodic_all in Hex. apply in_flat_map in Hex. destruct Hex as (d & Hd & Hex). apply in_seq in Hd.
  assert (exists side, ex = BCModel.periodic_apply sizes bh d side arrays) as (side & ->) by (destruct Hex as [<- | [<- | []]]; eauto).
  split.
  - intros b y H. apply (exchange_near k sizes bh d side arrays b y); auto. lia.
  - pose proof (PerProps.halo_vals_length sizes bh Lb) as L.
    cbn [proper proper_exchange BCModel.periodic_apply BCModel.get_transfers BCModel.ex_to BCModel.ex_from BCModel.ex_size].
    rewrite !BCKern.set_nth_length, map_length, BCMirror.map2_length by auto. auto.
Qed.
Lemma stepping_stored : forall l pk, pk = LowStorage l \/ pk = SaveOld l \/ pk = SbliUpdate l -> INSIDE (Ordinary (Other (Inner pk))).
Proof. intros l pk [-> | [-> | ->]]; (split; [intros b y [Hy _]; apply (stored_grid k); auto | exact I]). Qed.
End bnd.

(* ---- programs of FaceModel ---- *)
Section face.
Variables (k : nat) (dirof : string -> nat) (inv : nat -> nat -> expr) (dord : expr -> list dset) (sord : list (expr * string) -> list (expr * string))
  (num : string -> OrdModel.key) (kord : list string -> list string) (sizes : list Z) (sd : sides)
  (sys crs : list (string * expr)) (known : list string) (ccds vcds : list expr) (register : string -> string).
Notation ndim := (List.length sizes).
Hypothesis Hsz : forall d, (d < ndim)%nat -> (1 <= nth d sizes 0)%Z.
Hypothesis Hinv : forall d m, dsets (inv d m) = [].
Hypothesis Hdord : forall e, enumerates (dord e) e.
Hypothesis Hnum : forall a b, num a = num b -> a = b.
Hypothesis Hkord : forall l, Permutation l (kord l).
Hypothesis PP : periodic_problem ndim dirof register sys crs known.
Hypothesis Names : forall a rhs, In (a, rhs) (sys ++ crs) -> ~ own_name a /\ forall b ix, In (b, ix) (dsets rhs) -> ~ own_name b.
Hypothesis HC : lists_derivatives (disc_eqs sys) (fun t => ~ viscous_term t) ccds.
Hypothesis HV : lists_derivatives (disc_eqs sys) viscous_term vcds.
Lemma face_stored : forall sp, all_spatial_kernels1 k ndim dirof inv dord sord num kord sizes sd crs (map fst sys ++ known) ccds vcds (disc_eqs sys) = Ok sp ->
  forall s, In s sp -> skernel_ok k ndim sizes s.
Proof.
  intros sp Esp s Hs. unfold all_spatial_kernels1 in Esp.
  destruct (sbli_rhs_discretisation1 k ndim dirof inv dord sord sizes sd ccds vcds (disc_eqs sys)) as [ks|] eqn:Eks; [|discriminate]. cbn [bind] in Esp.
  destruct (OrdModel.sort_constituents kernel OrdModel.max_passes _ _) as [cs|] eqn:Ecs in Esp; [|discriminate].
  cbn [bind] in Esp. injection Esp as <-. apply in_app_iff in Hs. destruct Hs as [Hs | Hs].
  - apply in_map_iff in Hs. destruct Hs as (kn & <- & Hkn). apply plain_kernel_ok.
    destruct (OrdProps.C20_kernels kernel _ _ cs (ProgProofs.crk_nodup dirof num kord sizes sys crs ccds vcds Hnum Hkord) Ecs) as (cl & -> & _ & Hcl).
    apply in_map_iff in Hkn. destruct Hkn as (c & <- & Hc). apply Hcl in Hc. destruct Hc as [Hc _].
    apply (ProgProofs.crk_in dirof num kord sizes sys crs known ccds vcds register PP) in Hc. destruct Hc as (b & e & _ & Hin & ->).
    intros r e' [E | []]. cbn [ProgProofs.crk OrdModel.ck_kernel k_ext] in *. injection E as <- <-.
    destruct (Names b e) as [N1 N2]; [apply in_app_iff; auto|]. split; [right; apply plain_spec; auto|].
    intros c ix Hc. left. split; [eapply (pp_local _ _ _ _ _ _ PP); eauto|]. right. apply plain_spec. eapply N2; eauto.
  - unfold sbli_rhs_discretisation1 in Eks. cbv zeta in Eks.
    destruct (convective_kernels1 _ _ _ _ _ _ _ _ _ _) as [kc|] eqn:Ec in Eks; [|discriminate]. cbn [bind] in Eks.
    destruct (viscous_kernels1 _ _ _ _ _ _ _ _ _ _) as [kv|] eqn:Ev in Eks; [|discriminate]. cbn [bind] in Eks. injection Eks as <-.
    apply in_app_iff in Hs. destruct Hs as [Hs | Hs].
    + eapply (convective_store1 k ndim dirof inv dord sord sizes sd eq_refl Hsz Hinv Hdord); [exact Ec | | | exact Hs].
      * intros v Hv. apply (listed_arg dirof sizes sys crs known register ccds vcds PP Names HC HV). auto.
      * apply (part_arrays dirof sizes sys crs known register PP (fun rhs => snd (classify rhs))). auto.
    + eapply (viscous_store1 k ndim dirof inv dord sord sizes sd eq_refl Hsz Hinv Hdord); [exact Ev | | | exact Hs].
      * intros v Hv.
        destruct (vcds_ok ndim dirof sizes eq_refl (disc_eqs sys) (wf_weaken _ _ _ reserved _ (fun b H => or_introl H) (pp_form _ _ _ _ _ _ PP)) vcds HV v Hv) as (A & B).
        split; auto. split; auto. split; [apply (listed_arg dirof sizes sys crs known register ccds vcds PP Names HC HV); auto | apply (own_direction dirof sizes sys crs known register ccds vcds PP HC HV); auto].
      * apply (part_arrays dirof sizes sys crs known register PP (fun rhs => fst (classify rhs))). auto.
Qed.
End face.

(* ---- programs with shock capturing ---- *)
Section shock.
Variables (k : nat) (sh : shock) (central : bool) (dirof : string -> nat) (inv : nat -> nat -> expr) (dord : expr -> list dset)
  (sord : list (expr * string) -> list (expr * string)) (worder : list expr -> list expr) (num : string -> OrdModel.key) (kord : list string -> list string)
  (sizes : list Z) (coordinate : nat -> string) (fluxes : nat -> list expr)
  (sys crs : list (string * expr)) (known : list string) (vcds : list expr) (register : string -> string).
Notation ndim := (List.length sizes).
Hypothesis Hk : (k <= 5)%nat.
Hypothesis Hr : (reach sh <= 4)%nat.
Hypothesis Hus : usable_scheme sh.
Hypothesis Hsz : forall d, (d < ndim)%nat -> (1 <= nth d sizes 0)%Z.
Hypothesis Hinv : forall d m, dsets (inv d m) = [].
Hypothesis Hdord : forall e, enumerates (dord e) e.
Hypothesis Hw : forall l, Permutation l (worder l).
Hypothesis Hnum : forall a b, num a = num b -> a = b.
Hypothesis Hkord : forall l, Permutation l (kord l).
Hypothesis Hdim : ndim <> 0%nat.
Hypothesis PP : shock_problem ndim (reach sh) k dirof register coordinate fluxes sys crs known.
Hypothesis Names : forall a rhs, In (a, rhs) (sys ++ crs) -> ~ own_name a /\ forall b ix, In (b, ix) (dsets rhs) -> ~ own_name b.
Hypothesis HV : lists_derivatives (disc_eqs sys) viscous_term vcds.
Hypothesis Hcen : central = false -> vcds = [].
Notation INSIDE := (fun x => inside_storage k sizes (recon sh) (map fst sys) x /\ proper (recon sh) x).
Notation eqs := (disc_eqs sys).
Lemma HSr : hybrid_system ndim dirof reserved coordinate fluxes eqs.
Proof. exact (wf_hweaken ndim dirof _ reserved coordinate fluxes (disc_eqs sys) (fun b H => or_introl H) (cp_form _ _ _ _ _ _ _ _ _ _ PP)). Qed.
Notation SS := (hs_shock _ _ _ _ _ _ HSr).
Lemma eq_names : forall r rhs b ix, In (r, rhs) eqs -> In (b, ix) (dsets rhs) -> ix = repeat 0%Z ndim /\ plain b.
Proof.
  intros r rhs b ix Hin Hb. split; [apply (ss_arrays _ _ _ _ _ _ SS r rhs b ix Hin Hb)|].
  destruct (disc_in _ _ _ Hin) as (w & Hw'). apply plain_spec. apply (proj2 (Names w rhs (in_or_app _ _ _ (or_introl Hw'))) b ix Hb).
Qed.
(* the relations *)
Lemma range_small : forall b z, within (total_range (map (fun n => (0, n)%Z) sizes) (relation_halos k sh central sizes dirof worder vcds eqs b)) z = true ->
  List.length z = ndim /\ forall d, (d < ndim)%nat -> (-5 <= nth d z 0 < nth d sizes 0 + 5)%Z.
Proof.
  intros b z H. apply within_iff in H. rewrite range_len in H by auto. destruct H as [L H]. split; auto. intros d Hd.
  destruct (halos_spec k sh central dirof worder sizes sys vcds Hcen b d Hd) as (hl & hh & Eh & _ & _ & C).
  assert (Er : nth_error (map (fun n => (0, n)%Z) sizes) d = Some (0, nth d sizes 0)%Z).
  { rewrite nth_error_map. rewrite (nth_error_nth' sizes 0%Z Hd). reflexivity. }
  destruct (KernelProps.C55_total_range _ _ d 0%Z (nth d sizes 0%Z) hl hh Er Eh) as (a & c & Et & T1 & T2 & T3 & T4 & T5 & T6).
  specialize (H d a c Et).
  assert (Lo : (-5 <= a)%Z).
  { destruct hl as [|x hl]; [rewrite T3; auto; lia|]. destruct T5 as (q & Hq & ->); [discriminate|]. destruct (C q (or_introl Hq)) as [-> | ->]; cbn; lia. }
  assert (Hi : (c <= nth d sizes 0 + 5)%Z).
  { destruct hh as [|x hh]; [rewrite T4; auto; lia|]. destruct T6 as (q & Hq & ->); [discriminate|]. destruct (C q (or_intror Hq)) as [-> | ->]; cbn; lia. }
  lia.
Qed.
Lemma relations_stored : forall start cs, OrdModel.sort_constituents rkernel OrdModel.max_passes start
    (relation_kernels k sh central sizes dirof worder num kord (map fst sys) crs vcds eqs) = Ok cs ->
  forall r, In r cs -> INSIDE (Constituent r).
Proof.
  intros start cs Ecs r Hrr.
  destruct (OrdProps.C20_kernels rkernel _ _ cs (CapProofs.crk_nodup k sh central dirof worder num kord sizes sys crs vcds Hnum Hkord) Ecs) as (cl & -> & _ & Hcl).
  apply in_map_iff in Hrr. destruct Hrr as (c & <- & Hc). apply Hcl in Hc. destruct Hc as [Hc _].
  apply (CapProofs.crk_in k sh central dirof worder num kord sizes coordinate fluxes sys crs known vcds register PP) in Hc. destruct Hc as (b & e & _ & Hin & ->).
  cbn [CapProofs.crk OrdModel.ck_kernel]. split; [|exact I].
  destruct (Names b e) as [N1 N2]; [apply in_app_iff; auto|].
  intros c y (z & Hz & D). destruct (range_small b z Hz) as [L B].
  assert (S : forall c, plain c -> stored sizes c z = true) by (intros q Hq; apply (stored_near 5 sizes (le_n _)); auto).
  destruct D as [(-> & ->) | (ix & Hb & ->)].
  - apply S. apply plain_spec. auto.
  - destruct (cp_local _ _ _ _ _ _ _ _ _ _ PP b e c ix Hin Hb) as (-> & _). rewrite vadd_0_r by auto. apply S. apply plain_spec. eapply N2; eauto.
Qed.
(* the central scheme *)
Lemma shock_own_direction : forall v, In v vcds -> ~ In (cd_dir dirof v) (extended dirof vcds v).
Proof.
  assert (LO : forall v, In v vcds -> exists w rhs, In (w, rhs) sys /\ inside v rhs /\ derivative v).
  { intros v H. apply (proj2 HV) in H. destruct H as (Hd & r & rhs & t & Hrr & Ht & _ & Hi). destruct (disc_in _ _ _ Hrr) as (w & Hw').
    exists w, rhs. split; auto. split; auto. eapply inside_trans; [exact Hi | apply terms_inside; auto]. }
  intros v Hv Hin. unfold extended in Hin. apply in_flat_map in Hin. destruct Hin as ([u ds] & Hu & Hn). cbn [fst snd] in Hn.
  destruct (expr_eq_dec u v); [subst u | destruct Hn].
  apply in_flat_map in Hu. destruct Hu as (o & Ho & Hu).
  destruct (visc_ok ndim dirof sizes eq_refl coordinate fluxes eqs SS HSr vcds HV o Ho) as (_ & [Eo | (c & Eo & _)]); rewrite Eo in Hu; [destruct Hu|].
  destruct Hu as [E | []]. injection E as -> <-.
  destruct (LO o Ho) as (w & rhs & Hin & Hi & Hd).
  destruct (CapProofs.deriv_shape k sh dirof sizes coordinate fluxes sys crs known vcds register PP HV w rhs o Hin Hi Hd) as (_ & a & n & m & -> & _ & _ & X).
  destruct (LO v Hv) as (w' & rhs' & Hin' & Hi' & Hd').
  destruct (CapProofs.deriv_shape k sh dirof sizes coordinate fluxes sys crs known vcds register PP HV w' rhs' v Hin' Hi' Hd') as (_ & a' & n' & m' & Ev & _).
  rewrite cds_cd in Eo. change [v; EApp HCD (a :: repeat (ESym KCoord n) (S m))] with ([v] ++ [EApp HCD (a :: repeat (ESym KCoord n) (S m))]) in Eo.
  apply app_inj_tail in Eo. destruct Eo as [Eo _].
  assert (Iv : inside v a) by (apply in_cds; rewrite Eo; left; auto).
  apply (X v a' n' m' Iv Ev). rewrite Ev in Hn. unfold cd_dirs, cd_dir in Hn. cbn [cd_coords] in Hn.
  change (cd_dirs dirof (EApp HCD (a' :: repeat (ESym KCoord n') (S m')))) with (map (fun c => match c with ESym KCoord n => dirof n | _ => 0%nat end) (repeat (ESym KCoord n') (S m'))) in Hn.
  cbn [repeat map hd] in Hn. clear - Hn. change (dirof n :: map (fun c : expr => match c with ESym KCoord n0 => dirof n0 | _ => 0%nat end) (repeat (ESym KCoord n) m)) with
    (map (fun c : expr => match c with ESym KCoord n0 => dirof n0 | _ => 0%nat end) (repeat (ESym KCoord n) (S m))) in Hn.
  apply in_map_iff in Hn. destruct Hn as (c & E & Hc). apply repeat_spec in Hc. subst c. auto.
Qed.
Lemma shock_arg : forall v, In v vcds -> arg_ok ndim dirof v.
Proof.
  intros v Hv. destruct (visc_ok ndim dirof sizes eq_refl coordinate fluxes eqs SS HSr vcds HV v Hv) as (((a & n & m & Ev & Hn & _) & _) & _).
  apply (proj2 HV) in Hv. destruct Hv as (Hd & r & rhs & t & Hrr & Ht & _ & Hi). split; [rewrite Ev; exact Hn|].
  intros b ix Hb. apply (eq_names r rhs b ix Hrr).
  eapply inside_dsets; [eapply inside_trans; [exact Hi | apply terms_inside; exact Ht]|]. rewrite Ev in *. rewrite dsets_cd. exact Hb.
Qed.
Lemma central_stored : forall sd ks, sbli_rhs_discretisation1 k ndim dirof inv dord sord sizes sd [] vcds eqs = Ok ks -> forall s, In s ks -> skernel_ok k ndim sizes s.
Proof.
  intros sd ks Eks s Hs. unfold sbli_rhs_discretisation1 in Eks. cbv zeta in Eks.
  destruct (convective_kernels1 _ _ _ _ _ _ _ _ _ _) as [kc|] eqn:Ec in Eks; [|discriminate]. cbn [bind] in Eks.
  destruct (viscous_kernels1 _ _ _ _ _ _ _ _ _ _) as [kv|] eqn:Ev in Eks; [|discriminate]. cbn [bind] in Eks. injection Eks as <-.
  cbn in Ec. injection Ec as <-. cbn [app] in Hs.
  eapply (viscous_store1 k ndim dirof inv dord sord sizes sd eq_refl Hsz Hinv Hdord); [exact Ev | | | exact Hs].
  - intros v Hv. destruct (visc_ok ndim dirof sizes eq_refl coordinate fluxes eqs SS HSr vcds HV v Hv) as (A & B).
    split; auto. split; auto. split; [apply shock_arg | apply shock_own_direction]; auto.
  - intros r e b ix Hin Hb. apply in_map_iff in Hin. destruct Hin as ([r0 rhs] & E & Hin). cbn [fst snd] in E. injection E as -> <-.
    rewrite (fv_classify ndim dirof coordinate fluxes _ HSr r rhs Hin) in Hb.
    apply (fv_dsets ndim dirof coordinate fluxes _ HSr r rhs _ Hin) in Hb. apply (eq_names r rhs b ix Hin Hb).
Qed.
(* reconstructions and residuals *)
Lemma vadd_move : forall d i n x, List.length x = n -> vadd x (move d i (repeat 0%Z n)) = move d i x.
Proof.
  induction d; intros i n x L; destruct n as [|n]; destruct x as [|a x]; cbn in *; try lia; auto.
  - f_equal. apply vadd_0_r. lia.
  - f_equal; [lia|]. apply IHd. lia.
Qed.
Lemma replace_dsets : forall works e b ix, (forall v w, In (v, w) works -> plain w /\ (wd_dir dirof v < ndim)%nat) ->
  In (b, ix) (dsets (replace ndim dirof inv works e)) -> In (b, ix) (dsets e) \/ plain b /\ (ix = repeat 0%Z ndim \/ exists d, (d < ndim)%nat /\ ix = move d (-1) (repeat 0%Z ndim)).
Proof.
  intros works e b ix Hwk. induction e as [q|kd m|c iy|hd args IH] using expr_ind'; auto.
  cbn [replace]. destruct (is_wd (EApp hd args)) eqn:W.
  - destruct (work_of (EApp hd args) works) as [w|] eqn:E; [|intros []].
    unfold work_of in E. destruct (find _ works) as [(v & w')|] eqn:Ef; [|discriminate]. cbn in E. injection E as ->.
    apply find_some in Ef. destruct Ef as [Hin Ev]. cbn [fst] in Ev. destruct (expr_eq_dec (EApp hd args) v) as [<- | ]; [|discriminate].
    destruct (Hwk _ _ Hin) as [P D]. unfold wd_form. rewrite dsets_app. cbn [flat_map]. rewrite dsets_app, Hinv. cbn [flat_map]. rewrite dsets_app. cbn.
    intros [E | [E | []]]; injection E as <- <-; right; split; auto. right. exists (wd_dir dirof (EApp hd args)). auto.
  - assert (A : forall hd', In (b, ix) (dsets (EApp hd' (map (replace ndim dirof inv works) args))) ->
      In (b, ix) (dsets (EApp hd args)) \/ plain b /\ (ix = repeat 0%Z ndim \/ exists d, (d < ndim)%nat /\ ix = move d (-1) (repeat 0%Z ndim))).
    { intros hd' H. rewrite dsets_app in H. apply in_flat_map in H. destruct H as (t & Ht & H). apply in_map_iff in Ht. destruct Ht as (u & <- & Hu).
      rewrite Forall_forall in IH. destruct (IH u Hu H) as [X | X]; auto. left. rewrite dsets_app. apply in_flat_map. exists u. auto. }
    destruct hd; try (intros []); apply A.
Qed.
Lemma capture_stored : forall ks, shock_discretise ndim dirof inv worder eqs = Ok ks -> forall kn, In kn ks -> INSIDE (Capture kn).
Proof.
  intros ks H kn Hkn. rewrite (shock_ok ndim dirof inv worder sizes eq_refl Hw coordinate fluxes eqs SS Hdim) in H. injection H as <-.
  apply in_app_iff in Hkn. destruct Hkn as [Hkn | [<- | []]].
  - apply in_map_iff in Hkn. destruct Hkn as (d & <- & Hd). apply in_seq in Hd. split; [|apply scheme_supported; auto].
    intros b y (z & Hz & D). apply in_range_iff in Hz. destruct Hz as [L Hz].
    assert (ED : forall e, (e < ndim)%nat -> ((if Nat.eq_dec e d then -1 else 0) <= nth e z 0 < nth e sizes 0 + (if Nat.eq_dec e d then 1 else 0))%Z).
    { intros e He. specialize (Hz e He). destruct (Nat.eq_dec e d) as [-> | N].
      - pose proof (ex_bound 1 [d] d). lia.
      - rewrite ex_notin in Hz by (intros [E | []]; congruence). lia. }
    destruct D as [(Hb & ->) | (j & Hj & D)].
    + apply (stored_near 5 sizes (le_n _)); auto; [unfold wks in Hb; apply in_map_iff in Hb; destruct Hb as (i & <- & _); apply wk_plain|].
      intros e He. specialize (ED e He). destruct (Nat.eq_dec e d); lia.
    + apply LLFProofs.in_stencil in Hj. pose proof (stencil_reach sh j Hus Hj) as B.
      assert (S : forall c, plain c -> stored sizes c (move d j z) = true).
      { intros c Hc. apply (stored_near 5 sizes (le_n _)); auto; [rewrite move_len; auto|]. intros e He. specialize (ED e He).
        rewrite nth_move by lia. destruct (Nat.eq_dec e d); lia. }
      destruct D as [(Hb & ->) | (f & Hf & ix & Hb & ->)].
      * apply S. apply in_app_iff in Hb. destruct Hb as [Hb | Hb].
        -- apply in_map_iff in Hb. destruct Hb as ([q rhs] & E & Hin). cbn in E. subst q. apply plain_spec. apply (Names b rhs). apply in_app_iff. auto.
        -- assert (G : forall m, In b (flux_names m) -> plain b).
           { intros m Hm. unfold flux_names in Hm. apply in_app_iff in Hm.
             assert (In b ["rho"; "a"; "p"; "u0"; "u1"; "u2"]%string).
             { destruct Hm as [Hm | Hm]; [cbn in *; tauto|]. apply (In_nth _ _ ""%string) in Hm. destruct Hm as (i & Hi & <-). 
               destruct m as [|[|[|m]]]; cbn in *; destruct i as [|[|[|i]]]; cbn in *; try lia; auto 10.
               rewrite firstn_nil in Hi. cbn in Hi. lia. }
             repeat (destruct H as [<- | H]; [reflexivity|]). destruct H. }
           apply (G _ Hb).
      * destruct (ss_fluxes _ _ _ _ _ _ SS d ltac:(lia)) as (Lf & _). apply In_nth with (d := ENum 0) in Hf. destruct Hf as (i & Hi & <-).
        destruct (nth_error eqs i) as [(r & rhs)|] eqn:E; [|apply nth_error_None in E; lia].
        assert (X : inside (WD (nth i (fluxes d) (ENum 0)) (coordinate d)) rhs) by (apply (ss_one _ _ _ _ _ _ SS i r rhs E); exists d; split; [lia | auto]).
        destruct (eq_names r rhs b ix) as [-> P]; [eapply nth_error_In; eauto | |].
        -- eapply inside_dsets; [exact X|]. unfold WD. rewrite dsets_app. apply in_flat_map. exists (nth i (fluxes d) (ENum 0)). split; [left|]; auto.
        -- rewrite vadd_0_r by (rewrite move_len; auto). apply S. auto.
  - split; [|exact I]. intros b y (r & e & z & Hin & Hz & D). cbn [k_eqs k_ext] in *. apply in_map_iff in Hin. destruct Hin as ([r0 rhs] & E & Hin). cbn [fst snd] in E. injection E as -> <-.
    destruct D as [(-> & ->) | (ix & Hb & ->)]; [apply (stored_grid k); auto|].
    assert (L : List.length z = ndim) by (apply in_range_iff in Hz; tauto).
    apply replace_dsets in Hb.
    + destruct Hb as [Hb | (P & [-> | (d & Hd & ->)])].
      * destruct (eq_names r rhs b ix Hin Hb) as [-> P]. rewrite vadd_0_r by auto. apply (stored_grid k); auto.
      * rewrite vadd_0_r by auto. apply (stored_grid k); auto.
      * rewrite vadd_move by auto. apply in_range_iff in Hz. destruct Hz as [_ Hz].
        apply (stored_near 5 sizes (le_n _)); auto; [rewrite move_len; auto|]. intros e He. specialize (Hz e He). rewrite ex_notin in Hz by auto.
        rewrite nth_move by lia. destruct (Nat.eq_dec e d); lia.
    + intros v w Hvw. apply (in_works ndim sizes eq_refl coordinate fluxes eqs) in Hvw. destruct Hvw as (d & i & Hd & Hi & -> & ->). split; [apply wk_plain|].
      rewrite (dir_WD ndim dirof coordinate fluxes eqs SS) by auto. auto.
Qed.
Lemma hybrid_stored : forall ks, hybrid_discretise k ndim dirof inv dord sord worder [] vcds (spatial_schemes central) eqs = Ok ks ->
  forall kn, In kn ks -> INSIDE (Capture kn).
Proof.
  intros ks H kn Hkn. unfold hybrid_discretise in H.
  destruct central; cbn [spatial_schemes mapM discretise_scheme] in H;
    destruct (shock_discretise ndim dirof inv worder eqs) as [k1|] eqn:E1; try discriminate; cbn [bind] in H.
  - destruct (sbli_rhs_discretisation k ndim dirof inv dord sord [] vcds eqs) as [k2|] eqn:E2; [|discriminate]. cbn [bind List.concat] in H.
    injection H as <-. rewrite app_nil_r in Hkn. apply in_app_iff in Hkn. destruct Hkn as [Hkn | Hkn]; [apply (capture_stored k1 E1); auto|].
    apply in_map_iff in Hkn. destruct Hkn as (kn0 & <- & Hkn). split; [|exact I].
    destruct (C79_unmodified k ndim dirof inv dord sord sizes eqs [] vcds) as [U _]. rewrite E2 in U. cbn [all_plain] in U.
    pose proof (central_stored _ _ U (plain_kernel kn0) (in_map _ _ _ Hkn)) as X.
    intros b y (r & e & z & Hin & Hz & D). apply (difference_stored k sizes (recon sh) (map fst sys) (plain_kernel kn0) Hk X b y).
    exists r, (Plain e), z. split; [apply in_map_iff; exists (r, e); auto|]. split; [exact Hz|]. exact D.
  - cbn [List.concat] in H. injection H as <-. rewrite app_nil_r in Hkn. apply (capture_stored k1 E1); auto.
Qed.
End shock.
