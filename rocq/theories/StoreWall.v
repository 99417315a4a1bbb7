(* The kernels of the boundary conditions access stored elements only (C86). *)
From Verif Require Import Base Expr ExprProofs KernelModel ShiftModel ShiftSpec ShiftProofs BCModel BCSpec BCProofs BCKern BCMirror BCGas BC2Model BCOrder.
From Verif Require Import ProgModel BndModel BndSpec FaceModel FaceSpec StoreModel StoreSpec StoreProofs Store2Spec.
From Verif Require BCWallProps Loop2Wall StoreShock ProgProofs PerProps.
From Coq Require Import QArith ZArith Reals Lia Permutation.
Local Close Scope Q_scope.
Local Open Scope list_scope.

Section line.
Variables (n d : nat).
Hypothesis Hd : (d < n)%nat.
(* arrays with halos, at most five points away along direction d *)
Definition near (e : expr) : Prop := forall b ix, In (b, ix) (dsets e) -> plain b /\ exists j, (-5 <= j <= 5)%Z /\ ix = move d j (here n).
Definition nearby (q : keq) : Prop := match q with KEq l r => near l /\ near r | _ => True end.
(* arrays with halos, at the point *)
Definition named (e : expr) : Prop := forall b ix, In (b, ix) (dsets e) -> plain b.
Definition good (e : expr) : Prop := placed n e /\ named e.
Lemma near_app : forall h args, Forall near args -> near (EApp h args).
Proof. intros h args H b ix Hb. rewrite dsets_app in Hb. apply in_flat_map in Hb. destruct Hb as (a & Ha & Hb). rewrite Forall_forall in H. apply (H a Ha b ix Hb). Qed.
Lemma named_app : forall h args, Forall named args -> named (EApp h args).
Proof. intros h args H b ix Hb. rewrite dsets_app in Hb. apply in_flat_map in Hb. destruct Hb as (a & Ha & Hb). rewrite Forall_forall in H. apply (H a Ha b ix Hb). Qed.
Lemma near_none : forall e, dsets e = [] -> near e.
Proof. intros e E b ix Hb. rewrite E in Hb. destruct Hb. Qed.
Lemma named_none : forall e, dsets e = [] -> named e.
Proof. intros e E b ix Hb. rewrite E in Hb. destruct Hb. Qed.
Lemma near_good : forall e, good e -> near e.
Proof. intros e [[H _] N] b ix Hb. split; [apply (N b ix Hb)|]. exists 0%Z. split; [lia|]. rewrite (H b ix Hb), move_0. reflexivity. Qed.
Lemma good_dat : forall b, plain b -> good (EDat b (here n)).
Proof. intros b P. split; [apply placed_dat|]. intros b' ix [E | []]. injection E as <- _. auto. Qed.
Variable ord : order_of.
Hypothesis Hord : good_order ord.
Lemma inc_near : forall k e e', good e -> (-5 <= k <= 5)%Z -> inc ord d k e = Ok e' -> near e'.
Proof.
  intros k e e' [[Lo [_ Ko]] N] Hk H. rewrite (inc_local ord n) in H by auto. injection H as <-. intros b ix Hb. apply dsets_put in Hb. destruct Hb as [-> Hb].
  split; [|eauto]. apply in_map_iff in Hb. destruct Hb as ([b' ix] & E & Hb). cbn in E. subst b'. apply (N b ix Hb).
Qed.
Lemma boundary_near : forall lefts rights ids qs, Forall good lefts -> Forall named rights -> (forall i, In i ids -> (-5 <= fst i <= 5)%Z /\ (-5 <= snd i <= 5)%Z) ->
  create_boundary_equations ord d lefts rights ids = Ok qs -> Forall nearby qs.
Proof.
  intros lefts rights ids qs HL HR HI H. unfold create_boundary_equations in H. destruct lefts as [|e0 ls]; [discriminate|].
  destruct e0 as [z|kd g|b0 loc|h args]; try discriminate. injection H as <-.
  assert (E : loc = here n). { inversion HL as [|? ? [[Lo _] _] _]; subst. apply (Lo b0 loc). cbn. auto. } subst loc.
  apply Forall_forall. intros q Hq. apply in_flat_map in Hq. destruct Hq as (i & Hi & Hq). destruct (HI i Hi) as [H1 H2]. unfold boundary_equations_at in Hq.
  apply in_map_iff in Hq. destruct Hq as (p & <- & Hp). cbn [nearby]. rewrite !relocate_any by auto.
  destruct p as [pl pr]. pose proof (in_combine_l _ _ _ _ Hp) as Pl. pose proof (in_combine_r _ _ _ _ Hp) as Pr. rewrite Forall_forall in HL, HR. destruct (HL pl Pl) as [_ Nl]. specialize (HR pr Pr). cbn [fst snd].
  split; intros b ix Hb; rewrite dsets_map_dsets in Hb; apply in_map_iff in Hb; destruct Hb as ([b1 ix1] & E & Hb); cbn [fst] in E; injection E as <- <-; rewrite shift_move.
  - split; [apply (Nl b1 ix1 Hb) | eauto].
  - split; [apply (HR b1 ix1 Hb) | eauto].
Qed.
Lemma arrays_good : forall fs, (forall b, In b (field_names fs) -> plain b) -> Forall good (flat_arrays (arrays_of n fs)).
Proof.
  intros fs H. apply Forall_forall. intros e He. unfold flat_arrays, arrays_of in He. apply in_flat_map in He. destruct He as (a & Ha & He).
  apply in_map_iff in Ha. destruct Ha as ([s|vs] & <- & Hf).
  - destruct He as [<- | []]. apply good_dat. apply H. unfold field_names. apply in_flat_map. exists (FScalar s). cbn. auto.
  - apply in_map_iff in He. destruct He as (v & <- & Hv). apply good_dat. apply H. unfold field_names. apply in_flat_map. exists (FVector vs). auto.
Qed.
(* the right-hand sides of symmetry conditions and inviscid walls *)
Lemma in_map2 : forall A B C (f : A -> B -> C) l m c, In c (map2 f l m) -> exists a b, In a l /\ In b m /\ c = f a b.
Proof. induction l as [|a l IH]; intros [|b m] c H; cbn in H; try tauto. destruct H as [<- | H]; [exists a, b; cbn; auto|]. destruct (IH _ _ H) as (a' & b' & A1 & B1 & E). exists a', b'. cbn. auto. Qed.
Lemma normals_named : forall row, Forall named row -> Forall named (unit_normals row).
Proof.
  intros row H. apply Forall_forall. intros e He. unfold unit_normals in He. apply in_map_iff in He. destruct He as (a & <- & Ha). rewrite Forall_forall in H.
  apply named_app. repeat constructor; [apply H; auto|]. apply named_app. repeat constructor; [|apply named_none; reflexivity].
  apply named_app. repeat constructor; [|apply named_none; reflexivity]. apply named_app. apply Forall_forall. intros e He. apply in_map_iff in He. destruct He as (c & <- & Hc).
  apply named_app. repeat constructor; [apply H; auto | apply named_none; reflexivity].
Qed.
Lemma transformed_named : forall f row l r, Forall named row -> Forall named (flat_arrays l) -> transformed f row l = Ok r -> Forall named r.
Proof.
  intros f row. induction l as [|a l IH]; intros r Hr Hl H; cbn [transformed] in H; [injection H as <-; auto|].
  unfold flat_arrays in Hl. cbn [flat_map] in Hl. apply Forall_app in Hl. destruct Hl as [H1 H2]. destruct a as [e|es].
  - destruct (transformed f row l) as [r'|] eqn:E; [|discriminate]. cbn [bind] in H. injection H as <-. inversion H1; subst. constructor; auto.
  - destruct (remove_normal f row es) as [v|] eqn:Ev; [|discriminate]. cbn [bind] in H. destruct (transformed f row l) as [r'|] eqn:E; [|discriminate]. cbn [bind] in H. injection H as <-.
    apply Forall_app. split; [|apply IH; auto]. unfold remove_normal in Ev. destruct (_ =? _)%nat; [|discriminate]. injection Ev as <-.
    pose proof (normals_named row Hr) as HN. rewrite Forall_forall in H1, HN.
    apply Forall_forall. intros q Hq. apply in_map2 in Hq. destruct Hq as (v & u & Hv & Hu & ->).
    apply named_app. repeat constructor; [apply H1; auto|]. apply named_app. repeat constructor; [apply named_none; reflexivity|].
    apply named_app. repeat constructor; [apply named_none; reflexivity | | apply HN; auto].
    apply named_app. apply Forall_forall. intros q Hq. apply in_map2 in Hq. destruct Hq as (u' & v' & Hu' & Hv' & ->). apply named_app. repeat constructor; auto.
Qed.
End line.

(* ---- the kernels of the conditions ---- *)
Section conditions.
Variables (ord : order_of) (np : list Z) (bh : halo_ranges) (d : nat).
Notation n := (List.length np).
Hypothesis Hord : good_order ord.
Hypothesis Lb : List.length bh = n.
Hypothesis Hd : (d < n)%nat.
Hypothesis Hnp : forall i, (i < n)%nat -> (1 <= nth i np 0)%Z.
Hypothesis Hbh : forall i, (i < n)%nat -> (-5 <= lower_halo bh i <= 0)%Z /\ (0 <= upper_halo bh i <= 5)%Z.
Definition wall_stored (bk : bkernel) : Prop := forall z l r b y, bk_points bk z = true -> In (KEq l r) (bk_eqs bk) ->
  expr_reads l z b y \/ expr_reads r z b y -> stored np b y = true.
Notation NEAR := (near n d).
Notation NBY := (nearby n d).
Notation GOOD := (good n).
Lemma plane_stored : forall side k eqs, bc_plane_kernel np bh d side = Ok k -> Forall NBY eqs ->
  wall_stored {| bk_ranges := fst k; bk_halos := snd k; bk_eqs := eqs |}.
Proof.
  intros side k eqs Ek H z l r b y Hz Hin Hr. unfold bc_plane_kernel in Ek. rewrite set_kernel_range_ok in Ek by auto. cbn [bind] in Ek. injection Ek as <-.
  cbn [fst snd bk_eqs] in *. apply bk_points_face in Hz; auto. destruct Hz as (Lz & Cz & Oz). rewrite Forall_forall in H. destruct (H _ Hin) as [Nl Nr].
  assert (X : exists ix, plain b /\ (exists j, (-5 <= j <= 5)%Z /\ ix = move d j (here n)) /\ y = vadd z ix).
  { destruct Hr as [(ix & Hb & ->) | (ix & Hb & ->)]; exists ix; [destruct (Nl b ix Hb) | destruct (Nr b ix Hb)]; auto. }
  destruct X as (ix & P & (j & Hj & ->) & ->). rewrite <- shift_move. unfold here. rewrite (shift_zero_move 5 (le_n _) d j n z Lz).
  apply (stored_near 5 np (le_n _)); [rewrite ProgProofs.move_len; auto | auto |]. intros e He. destruct (Nat.eq_dec e d) as [-> | N].
  - rewrite ProgProofs.move_nth_at by lia. rewrite Cz. specialize (Hnp d Hd). destruct side; lia.
  - rewrite ProgProofs.move_nth_off by auto. specialize (Oz e He N). specialize (Hbh e He). lia.
Qed.
Lemma halos_5 : forall i side, (i < n)%nat -> (n_halos bh i side <= 5)%nat.
Proof.
  intros i side Hi. rewrite n_halos_width by lia. specialize (Hbh 0%nat ltac:(lia)). unfold halo_width, lower_halo, upper_halo in *. destruct side; lia.
Qed.

(* the bounds of the indices *)
Lemma upto_5 : forall side i, In i (upto (n_halos bh d side)) -> (1 <= i <= 5)%Z.
Proof. intros side i H. apply in_upto in H. pose proof (halos_5 d side Hd). lia. Qed.
Lemma upto0_5 : forall side i, In i (0%Z :: upto (n_halos bh d side)) -> (0 <= i <= 5)%Z.
Proof. intros side i [<- | H]; [lia|]. apply upto_5 in H. lia. Qed.
Lemma upto_first : forall i, In i (upto (n_halos bh 0 false)) -> (1 <= i <= 5)%Z.
Proof. intros i H. apply in_upto in H. pose proof (halos_5 0 false ltac:(lia)). lia. Qed.
Lemma seq_5 : forall side i, In i (seq 1 (n_halos bh d side)) -> (1 <= Z.of_nat i <= 5)%Z.
Proof. intros side i H. apply in_seq in H. pose proof (halos_5 d side Hd). lia. Qed.
Lemma mirror_5 : forall side p, In p (mirror_indices side (n_halos bh d side)) -> (-5 <= fst p <= 5)%Z /\ (-5 <= snd p <= 5)%Z.
Proof.
  intros side p H. unfold mirror_indices in H. destruct side; cbn [set_side_factor] in H; apply in_map_iff in H; destruct H as (t & <- & H); apply upto_5 in H; cbn [fst snd]; lia.
Qed.

Section arrays.
Variables (fs : list field) (g : gas).
Hypothesis Hfs : forall b, In b (field_names fs) -> plain b.
Lemma fields_named : Forall named (flat_arrays (arrays_of n fs)).
Proof. pose proof (arrays_good n fs Hfs) as H. rewrite Forall_forall in *. intros e He. apply (H e He). Qed.
Section gas.
Hypothesis Hg : forall b, In b (gas_names g) -> plain b.
Lemma gas_rho_good : GOOD (ns_rho (gas_vars n g)).
Proof. apply good_dat. apply Hg. cbn. auto. Qed.
Lemma gas_E_good : GOOD (ns_rhoE (gas_vars n g)).
Proof. apply good_dat. apply Hg. unfold gas_names. cbn. right. apply in_app_iff. cbn. auto. Qed.
Lemma gas_mom_good : forall m, In m (ns_mom (gas_vars n g)) -> GOOD m.
Proof. intros m H. apply in_map_iff in H. destruct H as (v & <- & Hv). apply good_dat. apply Hg. unfold gas_names. cbn. right. apply in_app_iff. auto. Qed.
Lemma gas_enum_good : forall c, In c (enum (ns_mom (gas_vars n g))) -> GOOD (snd c).
Proof. intros [i m] H. apply in_combine_r in H. apply gas_mom_good. auto. Qed.
Lemma internal_named : named (internal (gas_vars n g)).
Proof.
  destruct gas_rho_good as [_ R]. destruct gas_E_good as [_ E]. unfold internal. apply named_app. repeat constructor; [exact E|].
  apply named_app. repeat constructor; [apply named_none; reflexivity|]. apply named_app. repeat constructor.
  - apply named_app. repeat constructor; [apply named_none; reflexivity|]. apply named_app. apply Forall_forall. intros e He. apply in_map_iff in He. destruct He as (m & <- & Hm).
    apply gas_mom_good in Hm. apply named_app. repeat constructor; apply Hm.
  - apply named_app. repeat constructor; [exact R | apply named_none; reflexivity].
Qed.
Lemma gas_p_good : GOOD (pressure_cons (gas_vars n g)).
Proof.
  split; [apply placed_pressure|]. unfold pressure_cons. apply named_app. repeat constructor; [apply named_none; reflexivity | apply internal_named].
Qed.
Lemma gas_T_good : GOOD (temperature_cons (gas_vars n g)).
Proof.
  split; [apply placed_temperature|]. destruct gas_rho_good as [_ R]. unfold temperature_cons. apply named_app. repeat constructor.
  - apply named_app. repeat constructor; [apply internal_named | apply named_none; reflexivity].
  - apply named_app. repeat constructor; [exact R | apply named_none; reflexivity].
Qed.
Lemma near_map : forall A h (f : A -> expr) l, (forall a, In a l -> NEAR (f a)) -> NEAR (EApp h (map f l)).
Proof. intros A h f l H. apply near_app. apply Forall_forall. intros e He. apply in_map_iff in He. destruct He as (a & <- & Ha). auto. Qed.
Lemma nearby_map : forall A (f : A -> keq) l, (forall a, In a l -> NBY (f a)) -> Forall NBY (map f l).
Proof. intros A f l H. apply Forall_forall. intros e He. apply in_map_iff in He. destruct He as (a & <- & Ha). auto. Qed.
Lemma nearby_flat : forall A (f : A -> list keq) l, (forall a, In a l -> Forall NBY (f a)) -> Forall NBY (flat_map f l).
Proof. intros A f l H. apply Forall_forall. intros e He. apply in_flat_map in He. destruct He as (a & Ha & He). specialize (H a Ha). rewrite Forall_forall in H. auto. Qed.
Lemma nearby_concat : forall ls, Forall (Forall NBY) ls -> Forall NBY (List.concat ls).
Proof. induction 1; cbn; auto. apply Forall_app. auto. Qed.
Lemma nearby_firstn : forall i ls, Forall (Forall NBY) ls -> Forall NBY (List.concat (firstn i ls)).
Proof. intros i ls H. apply nearby_concat. rewrite <- (firstn_skipn i ls) in H. apply Forall_app in H. tauto. Qed.
Lemma inc_near' : forall k e e', GOOD e -> (-5 <= k <= 5)%Z -> inc ord d k e = Ok e' -> NEAR e'.
Proof. intros k e e'. exact (inc_near n d Hd ord Hord k e e'). Qed.

Ltac binds := repeat match goal with
  | H : bind ?r _ = Ok _ |- _ => let E := fresh "E" in destruct r eqn:E; [cbn [bind] in H | discriminate H]
  | H : Ok _ = Ok _ |- _ => apply Loop2Wall.ok_inj in H
  end.
Ltac goods := first [ apply gas_rho_good | apply gas_E_good | apply gas_p_good | apply gas_T_good | (eapply gas_mom_good; eassumption) | (eapply gas_enum_good; eassumption) | assumption ].
Ltac bounds := repeat match goal with
  | H : In _ (upto (n_halos bh d _)) |- _ => apply upto_5 in H
  | H : In _ (0%Z :: upto (n_halos bh d _)) |- _ => apply upto0_5 in H
  | H : In _ (upto (n_halos bh 0 false)) |- _ => apply upto_first in H
  | H : In _ (seq 1 (n_halos bh d _)) |- _ => apply seq_5 in H
  | H : In _ (seq 1 5) |- _ => apply in_seq in H
  end; lia.
Ltac onl := cbv beta; match goal with
  | |- NEAR (evar _) => apply near_none; reflexivity
  | |- NEAR (econst _) => apply near_none; reflexivity
  | |- NEAR gama => apply near_none; reflexivity
  | |- NEAR Minf => apply near_none; reflexivity
  | |- NEAR (ENum _) => apply near_none; reflexivity
  | |- NEAR (eint _) => apply near_none; reflexivity
  | H : inc _ _ _ ?e = Ok ?x |- NEAR ?x => refine (inc_near' _ _ _ _ _ H); [goods | bounds]
  | |- NEAR (eadd (map _ _)) => apply near_map; intros; onl
  | |- NEAR (eadd _) => apply near_app; repeat (constructor; [onl|]); constructor
  | |- NEAR (emul _) => apply near_app; repeat (constructor; [onl|]); constructor
  | |- NEAR (epow _ _) => apply near_app; repeat (constructor; [onl|]); constructor
  | |- NEAR (ediv _ _) => apply near_app; repeat (constructor; [onl|]); constructor
  | |- NEAR (esub _ _) => apply near_app; repeat (constructor; [onl|]); constructor
  | |- NEAR (edot _) => apply near_map; intros; onl
  | |- NEAR (carp_coeff ?s _) => apply near_none; unfold carp_coeff; destruct s; reflexivity
  | |- NEAR (EApp _ _) => apply near_app; repeat (constructor; [onl|]); constructor
  | |- NEAR _ => apply near_good; goods
  end.
Ltac lin := cbv beta; match goal with
  | |- NBY (KEq _ _) => split; onl
  | |- Forall NBY (_ ++ _) => apply Forall_app; split; lin
  | |- Forall NBY (_ :: _) => constructor; [lin | lin]
  | |- Forall NBY [] => constructor
  | |- Forall NBY (List.concat (firstn _ ?x)) => apply nearby_firstn; lin
  | |- Forall NBY (List.concat ?x) => apply nearby_concat; lin
  | |- Forall NBY (map _ _) => apply nearby_map; intros; lin
  | |- Forall NBY (flat_map _ _) => apply nearby_flat; intros; lin
  | H : map_result _ _ = Ok ?x |- Forall _ ?x => let H' := fresh "R" in pose proof H as H'; clear H; eapply Loop2Wall.each_result; [exact H'|]; clear H'; cbv beta; intros; binds; subst; lin
  end.
Ltac starting := match goal with H : bc_plane_kernel np bh d _ = Ok ?k |- wall_stored {| bk_ranges := fst ?k; bk_halos := snd ?k; bk_eqs := _ |} => apply (plane_stored _ k _ H) end.
Ltac made H := eapply (boundary_near n d ord Hord); [apply arrays_good; exact Hfs | | | exact H].

Lemma symmetry_stored : forall side row bk, Forall named row -> symmetry_apply ord np bh d side row (arrays_of n fs) = Ok bk -> wall_stored bk.
Proof.
  intros side row bk Hr H. unfold symmetry_apply in H. binds. subst bk. starting. made E1; [|apply mirror_5].
  eapply transformed_named; [exact Hr | apply fields_named | exact E].
Qed.
Lemma inviscid_stored : forall side row bk, Forall named row -> inviscid_wall_apply ord np bh d side row (arrays_of n fs) = Ok bk -> wall_stored bk.
Proof.
  intros side row bk Hr H. unfold inviscid_wall_apply in H. binds. subst bk. starting. apply Forall_app. split.
  - made E2; [|apply mirror_5]. eapply transformed_named; [exact Hr | apply fields_named | exact E].
  - made E3; [eapply transformed_named; [exact Hr | apply fields_named | exact E0]|]. intros i [<- | []]. destruct side; cbn; lia.
Qed.
Lemma zero_gradient_stored : forall side bk, zero_gradient_apply ord np bh d side (arrays_of n fs) = Ok bk -> wall_stored bk.
Proof.
  intros side bk H. unfold zero_gradient_apply in H. binds. subst bk. starting. apply Forall_app. split.
  - made E0; [apply fields_named|]. intros i [<- | []]. destruct side; cbn; lia.
  - made E1; [apply fields_named | apply mirror_5].
Qed.
Lemma transfer_stored : forall side bk, inlet_transfer_apply ord np bh d side (arrays_of n fs) = Ok bk -> wall_stored bk.
Proof.
  intros side bk H. unfold inlet_transfer_apply in H. destruct side; [discriminate|]. binds. subst bk. starting.
  made E0; [apply fields_named|]. intros i [<- | []]. cbn; lia.
Qed.
Lemma extrapolation_stored : forall side order bk, extrapolation_apply ord np bh d side order (arrays_of n fs) = Ok bk -> wall_stored bk.
Proof.
  intros side order bk H. unfold extrapolation_apply in H. binds. destruct (set_side_factor side) as [from to] eqn:Ef.
  assert (EF : (from = 1 /\ to = -1 /\ side = true \/ from = -1 /\ to = 1 /\ side = false)%Z) by (destruct side; injection Ef as <- <-; auto). clear Ef. binds. subst bk. starting.
  pose proof (arrays_good n fs Hfs) as AP. rewrite Forall_forall in AP.
  destruct (order =? 0)%Z; [|destruct (order =? 1)%Z; [|discriminate]]; binds; subst; apply nearby_concat.
  - eapply Loop2Wall.each_result; [exact E1|]. cbv beta. intros i qs Hi Hq. apply upto0_5 in Hi. made Hq; [apply fields_named|]. intros p [<- | []]. cbn [fst snd]. destruct EF as [(-> & -> & _) | (-> & -> & _)]; lia.
  - eapply Loop2Wall.each_result; [exact E1|]. cbv beta. intros x y Hx Hy. apply in_map_iff in Hx. destruct Hx as (t & <- & Ht). apply upto_5 in Ht.
    eapply Loop2Wall.each_result; [exact Hy|]. cbv beta. intros term q Hterm Hq. specialize (AP term Hterm). binds. subst q.
    destruct EF as [(-> & -> & ->) | (-> & -> & ->)]; lin.
Qed.
Lemma dirichlet_stored : forall side (ps : list (string * expr)) bk, (forall b e, In (b, e) ps -> GOOD e) -> incl (map fst ps) (field_names fs) ->
  dirichlet_apply np bh d side (map (fun p => KEq (EDat (fst p) (repeat 0%Z n)) (snd p)) ps) = Ok bk -> wall_stored bk.
Proof.
  intros side ps bk Hp Hi H. destruct (BCWallProps.dirichlet_points np bh d side (map (fun p => KEq (EDat (fst p) (repeat 0%Z n)) (snd p)) ps) Lb Hd) as (k & E & Eq & P).
  rewrite E in H. injection H as <-. intros z l r b y Hz Hin Hr. rewrite Eq in Hin. apply P in Hz. destruct Hz as (Lz & Cz & Oz).
  apply in_map_iff in Hin. destruct Hin as ([b' e] & E1 & Hin). cbn [fst snd] in E1. injection E1 as <- <-. destruct (Hp b' e Hin) as [[Lo _] Nm].
  assert (X : plain b /\ y = z).
  { destruct Hr as [(ix & [E1 | []] & ->) | (ix & Hb & ->)].
    - injection E1 as -> <-. split; [apply Hfs, Hi; apply in_map_iff; exists (b, e); auto | apply vadd_here; auto].
    - split; [apply (Nm b ix Hb)|]. rewrite (Lo b ix Hb). apply vadd_here; auto. }
  destruct X as [Pb ->]. apply (stored_near 5 np (le_n _)); auto. intros i Hi'. destruct (Nat.eq_dec i d) as [-> | N].
  - specialize (Hbh d Hd). specialize (Hnp d Hd). destruct side; lia.
  - specialize (Oz i Hi' N). specialize (Hbh i Hi'). lia.
Qed.
Lemma outlet_stored : forall side bk, pressure_outlet_apply ord np bh d side (gas_vars n g) = Ok bk -> wall_stored bk.
Proof.
  intros side bk H. unfold pressure_outlet_apply in H. destruct side; [|discriminate]. binds. subst bk. starting. constructor; [lin|]. apply nearby_concat.
  assert (GV : Forall GOOD (ns_rho (gas_vars n g) :: ns_mom (gas_vars n g) ++ [ns_rhoE (gas_vars n g)])).
  { constructor; [apply gas_rho_good|]. apply Forall_app. split; [|repeat constructor; apply gas_E_good]. apply Forall_forall. apply gas_mom_good. }
  eapply Loop2Wall.each_result; [exact E0|]. cbv beta. intros i qs Hi Hq. apply upto0_5 in Hi.
  eapply (boundary_near n d ord Hord); [exact GV | | | exact Hq]; [|intros p [<- | []]; cbn [fst snd]; lia].
  inversion GV as [|? ? G1 G2]; subst. apply Forall_app in G2. destruct G2 as [G2 _].
  constructor; [apply G1|]. apply Forall_app. split; [rewrite Forall_forall in *; intros m Hm; apply (G2 m Hm)|]. constructor; [|constructor].
  apply named_app. repeat constructor; [apply named_none; reflexivity|]. apply named_app. repeat constructor.
  - apply named_app. repeat constructor; [apply named_none; reflexivity|]. apply named_app. apply Forall_forall. intros e He. apply in_map_iff in He. destruct He as (m & <- & Hm).
    apply gas_mom_good in Hm. apply named_app. repeat constructor; apply Hm.
  - apply named_app. repeat constructor; [apply G1 | apply named_none; reflexivity].
Qed.
Ltac sides side := destruct side; cbn [set_side_factor] in *; cbv zeta in *.
Lemma adiabatic_stored : forall side bk, adiabatic_apply ord np bh d side (gas_vars n g) = Ok bk -> wall_stored bk.
Proof. intros side bk H. unfold adiabatic_apply in H. binds. sides side; binds; subst bk; starting; lin. Qed.
Lemma isothermal_stored : forall side x0 e bk, GOOD x0 -> GOOD e ->
  isothermal_apply ord np bh d side (gas_vars n g) x0 [KEq (EDat (g_energy g) (repeat 0%Z n)) e] = Ok bk -> wall_stored bk.
Proof.
  intros side x0 e bk Px Pe H. pose proof gas_E_good as GE. cbn [gas_vars ns_rhoE] in GE. unfold isothermal_apply in H. binds. sides side; binds; subst bk; starting; lin.
Qed.
Lemma carpenter_stored : forall side bk, carpenter_wall_apply ord np bh d side (arrays_of n fs) (gas_vars n g) = Ok bk -> wall_stored bk.
Proof.
  intros side bk H. unfold carpenter_wall_apply in H. binds.
  assert (T : forall j, NEAR (Tvar j)) by (intros; apply near_none; reflexivity).
  sides side; binds; subst bk; starting.
  all: apply Forall_app; split; [|apply Forall_app; split].
  all: try (apply nearby_flat; intros a7 Ha; unfold arrays_of in Ha; apply in_map_iff in Ha; destruct Ha as ([s|vs] & <- & Hvs); [constructor|];
    apply nearby_map; intros x Hx; apply in_map_iff in Hx; destruct Hx as (v & <- & Hv); split; [|onl]; apply near_good; [exact Hd|]; apply good_dat; apply Hfs; unfold field_names; apply in_flat_map; exists (FVector vs); split; [exact Hvs | exact Hv]).
  all: try (eapply Loop2Wall.each_result; [eassumption|]; cbv beta; intros; binds; subst; split; [apply T | onl]).
  all: unfold Tvar in *; lin.
Qed.
Lemma strip_stored : forall shock side md e1 e2 bk, In md (g_momentum g) -> GOOD e1 -> GOOD e2 ->
  forcing_strip_apply ord np bh d side shock (gas_vars n g) (KEq (EDat md (repeat 0%Z n)) e1) [KEq (EDat (g_energy g) (repeat 0%Z n)) e2] = Ok bk -> wall_stored bk.
Proof.
  intros shock side md e1 e2 bk Hmd P1 P2 H. unfold forcing_strip_apply in H. binds. destruct (set_side_factor side) as [from to] eqn:Ef. cbv zeta in H.
  assert (EF : (from = 1 /\ to = -1 \/ from = -1 /\ to = 1)%Z) by (destruct side; injection Ef as <- <-; auto). clear Ef.
  destruct (d <? List.length (ns_mom (gas_vars n g)))%nat; [|discriminate].
  assert (W : Forall NBY (KEq (EDat md (repeat 0%Z n)) e1 :: drop_nth d (map (fun m : expr => KEq m (ENum 0)) (ns_mom (gas_vars n g))) ++ [KEq (EDat (g_energy g) (repeat 0%Z n)) e2])).
  { pose proof gas_E_good as GE. cbn [gas_vars ns_rhoE] in GE.
    assert (GM : GOOD (EDat md (repeat 0%Z n))). { apply good_dat. apply Hg. unfold gas_names. right. apply in_app_iff. auto. }
    constructor; [lin|]. apply Forall_app. split; [|lin].
    assert (F : Forall NBY (map (fun m : expr => KEq m (ENum 0)) (ns_mom (gas_vars n g)))) by lin.
    rewrite Forall_forall in *. intros q Hq. apply F. unfold drop_nth in Hq. apply in_app_iff in Hq.
    destruct Hq as [Hq | Hq]; [rewrite <- (firstn_skipn d) | rewrite <- (firstn_skipn (S d))]; apply in_app_iff; auto. }
  destruct shock; binds; subst bk; starting; [|exact W].
  apply Forall_app. split; [exact W|]. clear W. unfold Tvar, rho_halo, uvar in *. destruct EF as [[-> ->] | [-> ->]]; lin.
Qed.
Lemma lawal_stored : forall side bk, lawal_apply ord np bh d side (gas_vars n g) = Ok bk -> wall_stored bk.
Proof.
  intros side bk H. unfold lawal_apply in H. destruct side; [discriminate|]. binds. cbn [set_side_factor] in H. cbv zeta in H. binds. subst bk. starting.
  unfold u1var, epow2 in *. lin.
Qed.
Lemma inlet_stored : forall side bk, pressure_inlet_apply ord np bh d side (arrays_of n fs) (gas_vars n g) = Ok bk -> wall_stored bk.
Proof.
  intros side bk H. unfold pressure_inlet_apply in H. destruct side; [discriminate|]. binds.
  destruct (rev (flat_arrays (arrays_of n fs))) as [|last r] eqn:Er; [discriminate|]. cbv zeta in H. binds. subst bk. starting.
  assert (PL : GOOD last). { pose proof (arrays_good n fs Hfs) as X. rewrite Forall_forall in X. apply X. apply in_rev. rewrite Er. left. auto. }
  assert (V : forall x, In x (ns_rho (gas_vars n g) :: ns_mom (gas_vars n g) ++ [ns_rhoE (gas_vars n g)]) -> GOOD x).
  { intros x [<- | Hx]; [apply gas_rho_good|]. apply in_app_iff in Hx. destruct Hx as [Hx | [<- | []]]; [apply gas_mom_good; auto | apply gas_E_good]. }
  unfold ubvar, epiece, ege, etrue in *. apply Forall_app. split; [lin|]. apply Forall_app. split; [|lin].
  eapply Loop2Wall.each_result; [exact E0|]. cbv beta. intros x q Hx Hq. specialize (V x Hx). binds. subst q. lin.
Qed.
End gas.
End arrays.
End conditions.

(* ---- periodic exchange ---- *)
Lemma exchange_near : forall k np bh d side arrays b y, List.length bh = List.length np -> (d < List.length np)%nat ->
  (forall i, (i < List.length np)%nat -> (1 <= nth i np 0)%Z) ->
  (forall i, (i < List.length np)%nat -> (-5 <= lower_halo bh i <= 0)%Z /\ (0 <= upper_halo bh i <= 5)%Z) ->
  (forall b, In b arrays -> plain b) ->
  touches k np (Exchange (periodic_apply np bh d side arrays)) b y -> stored np b y = true.
Proof.
  intros k np bh d side arrays b y Lb Hd Hn Hb Ha (Hin & Hy). unfold periodic_apply, get_transfers in *. cbn [ex_arrays ex_to ex_from ex_size] in *.
  pose proof (PerProps.halo_vals_length np bh Lb) as LH. destruct (Hb 0%nat ltac:(lia)) as [B1 B2].
  set (a := lower_halo bh 0) in *. set (u := upper_halo bh 0) in *.
  assert (HV : forall i, (i < List.length np)%nat -> nth i (get_halo_values bh) (0, 0)%Z = (a, u)%Z).
  { intros i Hi. rewrite (PerProps.halo_vals np bh Lb i Hi). fold a u. f_equal. lia. }
  assert (HF : forall i, (i < List.length np)%nat -> nth i (map fst (get_halo_values bh)) 0%Z = a).
  { intros i Hi. change 0%Z with (fst (0, 0)%Z). rewrite map_nth, HV by auto. reflexivity. }
  rewrite (HV d) in Hy by lia. cbn [fst snd] in Hy.
  assert (SZ : forall i, (i < List.length np)%nat -> nth i (map2 (fun n h => n + 0 + (Z.abs (fst h) + Z.abs (snd h)))%Z np (get_halo_values bh)) 0%Z = (nth i np 0 - a + u)%Z).
  { intros i Hi. rewrite (PerProps.map2_nth _ _ _ _ _ _ _ 0%Z (0, 0)%Z) by (auto; lia). rewrite HV by auto. cbn [fst snd]. lia. }
  assert (LS : List.length (map2 (fun n h => n + 0 + (Z.abs (fst h) + Z.abs (snd h)))%Z np (get_halo_values bh)) = List.length np).
  { rewrite BCMirror.map2_length; auto; lia. }
  assert (SN : forall l d v i, (d < List.length l)%nat -> nth i (set_nth d v l) 0%Z = if Nat.eqb i d then v else nth i l 0%Z).
  { clear. induction l as [|a l IH]; intros [|d] v [|i] H; cbn in *; try lia; auto. apply IH. lia. }
  assert (P : plain b) by auto. clearbody a u.
  destruct Hy as [Hy | Hy]; apply PerProps.in_box_iff in Hy; try (rewrite !BCKern.set_nth_length, map_length; lia);
    destruct Hy as [L Hy]; rewrite !BCKern.set_nth_length, LS in L; apply (stored_near 5 np (le_n _)); auto;
    intros e He; specialize (Hy e ltac:(lia)); rewrite !SN in Hy by (rewrite ?map_length; lia);
    rewrite HF, SZ in Hy by auto; specialize (Hn e He); destruct (Nat.eqb_spec e d) as [-> | N]; destruct side; lia.
Qed.

(* ---- all conditions ---- *)
Lemma row_named : forall (row : list expr) (l : list (list expr)), In row l -> (forall b, In b (flat_map (fun row => map fst (flat_map dsets row)) l) -> plain b) -> Forall named row.
Proof.
  intros row l Hr H. apply Forall_forall. intros e He b ix Hb. apply H. apply in_flat_map. exists row. split; auto. apply in_map_iff. exists (b, ix). split; auto.
  apply in_flat_map. exists e. auto.
Qed.
Lemma condition_stored : forall k shock ord np bh fs g d side c x, good_order ord -> List.length bh = List.length np -> (d < List.length np)%nat ->
  (forall i, (i < List.length np)%nat -> (1 <= nth i np 0)%Z) ->
  (forall i, (i < List.length np)%nat -> (-5 <= lower_halo bh i <= 0)%Z /\ (0 <= upper_halo bh i <= 5)%Z) ->
  (forall b, In b (field_names fs) -> plain b) -> (uses_gas c -> forall b, In b (gas_names g) -> plain b) -> (forall b, In b (data_arrays c) -> plain b) ->
  admissible (List.length np) fs g d c ->
  apply_condition shock ord np bh (arrays_of (List.length np) fs) g d side c = Ok x ->
  match x with
  | Other (Wall bk) => wall_stored np bk
  | Other (Inner (Exchange ex)) => (forall b y, touches k np (Exchange ex) b y -> stored np b y = true) /\
      List.length (ex_to ex) = List.length (ex_size ex) /\ List.length (ex_from ex) = List.length (ex_size ex)
  | _ => False
  end.
Proof.
  intros k shock ord np bh fs g d side c x Ho Lb Hd Hnp Hbh Hfs Hg Hdat Adm H.
  destruct c as [b | ps s | order s | s | s | s | x0 e s | s | md e1 e2 s | s | s]; cbn [apply_condition uses_gas data_arrays] in H, Hg, Hdat; cbv zeta in H.
  all: try specialize (Hg I).
  - destruct b as [| row | row |]; cbn [apply_bc_direction bind] in H; [injection H as <-| | |];
      try match type of H with bind (bind ?r _) _ = _ => destruct r as [bk|] eqn:E; cbn [bind] in H; [injection H as <- | discriminate] end.
    + split.
      * intros b y. apply exchange_near; auto. intros b0 Hb0. apply in_map_iff in Hb0. destruct Hb0 as ((b1 & ix) & <- & Hb). apply in_flat_map in Hb. destruct Hb as (e & He & Hb).
        pose proof (arrays_good (List.length np) fs Hfs) as G. rewrite Forall_forall in G. apply (proj2 (G e He) b1 ix Hb).
      * pose proof (PerProps.halo_vals_length np bh Lb) as L. cbn [periodic_apply get_transfers ex_to ex_from ex_size].
        rewrite !BCKern.set_nth_length, map_length, BCMirror.map2_length by auto; auto.
    + refine (symmetry_stored ord np bh d Ho Lb Hd Hnp Hbh fs Hfs side row bk _ E). exact (row_named row [row] (or_introl eq_refl) Hdat).
    + refine (inviscid_stored ord np bh d Ho Lb Hd Hnp Hbh fs Hfs side row bk _ E). exact (row_named row [row] (or_introl eq_refl) Hdat).
    + exact (zero_gradient_stored ord np bh d Ho Lb Hd Hnp Hbh fs Hfs side bk E).
  - destruct (dirichlet_apply _ _ _ _ _) as [bk|] eqn:E in H; [cbn [bind] in H; injection H as <- | discriminate].
    refine (dirichlet_stored np bh d Lb Hd Hnp Hbh fs Hfs side ps bk _ _ E); [|apply Adm]. intros b e He. split; [apply (proj1 (proj2 (proj2 Adm)) b e He)|].
    intros b' ix Hb'. apply Hdat. apply in_flat_map. exists (b, e). split; auto. apply in_map_iff. exists (b', ix). auto.
  - destruct (extrapolation_apply _ _ _ _ _ _ _) as [bk|] eqn:E in H; [cbn [bind] in H; injection H as <- | discriminate].
    exact (extrapolation_stored ord np bh d Ho Lb Hd Hnp Hbh fs Hfs side order bk E).
  - destruct (inlet_transfer_apply _ _ _ _ _ _) as [bk|] eqn:E in H; [cbn [bind] in H; injection H as <- | discriminate].
    exact (transfer_stored ord np bh d Ho Lb Hd Hnp Hbh fs Hfs side bk E).
  - destruct (pressure_outlet_apply _ _ _ _ _ _) as [bk|] eqn:E in H; [cbn [bind] in H; injection H as <- | discriminate].
    exact (outlet_stored ord np bh d Ho Lb Hd Hnp Hbh g Hg side bk E).
  - destruct (adiabatic_apply _ _ _ _ _ _) as [bk|] eqn:E in H; [cbn [bind] in H; injection H as <- | discriminate].
    exact (adiabatic_stored ord np bh d Ho Lb Hd Hnp Hbh g Hg side bk E).
  - destruct (isothermal_apply _ _ _ _ _ _ _ _) as [bk|] eqn:E in H; [cbn [bind] in H; injection H as <- | discriminate].
    refine (isothermal_stored ord np bh d Ho Lb Hd Hnp Hbh g Hg side x0 e bk _ _ E); (split; [apply Adm; auto|]); intros b ix Hb; apply Hdat; apply in_map_iff; exists (b, ix); split; auto; apply in_app_iff; auto.
  - destruct (carpenter_wall_apply _ _ _ _ _ _ _) as [bk|] eqn:E in H; [cbn [bind] in H; injection H as <- | discriminate].
    exact (carpenter_stored ord np bh d Ho Lb Hd Hnp Hbh fs g Hfs Hg side bk E).
  - destruct (forcing_strip_apply _ _ _ _ _ _ _ _ _) as [bk|] eqn:E in H; [cbn [bind] in H; injection H as <- | discriminate].
    refine (strip_stored ord np bh d Ho Lb Hd Hnp Hbh g Hg shock side md e1 e2 bk _ _ _ E).
    + eapply nth_error_In. apply (proj1 Adm).
    + split; [apply (proj2 Adm e1); auto|]. intros b ix Hb; apply Hdat; apply in_map_iff; exists (b, ix); split; auto; apply in_app_iff; auto.
    + split; [apply (proj2 Adm e2); auto|]. intros b ix Hb; apply Hdat; apply in_map_iff; exists (b, ix); split; auto; apply in_app_iff; auto.
  - destruct (lawal_apply _ _ _ _ _ _) as [bk|] eqn:E in H; [cbn [bind] in H; injection H as <- | discriminate].
    exact (lawal_stored ord np bh d Ho Lb Hd Hnp Hbh g Hg side bk E).
  - destruct (pressure_inlet_apply _ _ _ _ _ _ _) as [bk|] eqn:E in H; [cbn [bind] in H; injection H as <- | discriminate].
    exact (inlet_stored ord np bh d Ho Lb Hd Hnp Hbh fs g Hfs Hg side bk E).
Qed.
