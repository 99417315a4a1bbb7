(* The accessors of the Navier-Stokes physics object. *)
From Verif Require Import Base Expr KernelModel ShiftModel ShiftSpec BCModel BCSpec BCKern BCMirror BCOrder BCStm BCVec BCGasSpec BCGas NSModel NSAnsSpec NSProps.
From Coq Require Import QArith ZArith Reals Lia Lra.
Local Close Scope Q_scope.
Local Open Scope R_scope.

Lemma answers_value : forall J n rho moms E p T a vels M x, reals J -> List.length x = n -> M rho x <> 0 ->
  map (fun u => M u x) vels = map (fun m => M m x / M rho x) moms ->
  M p x = pressure_of (const J "gama") (M rho x) (map (fun m => M m x) moms) (M E x) ->
  M T x = temperature_of (const J "gama") (const J "Minf") (M rho x) (map (fun m => M m x) moms) (M E x) ->
  forall q relation conservative l, q <> QSound -> q <> QViscosity ->
    answer (ns_block n rho moms E p T a vels) q relation conservative = Ok l ->
    map (value J M x) l = quantity (const J "gama") (const J "Minf") (M rho x) (map (fun m => M m x) moms) (M E x) q.
Proof.
  intros J n rho moms E p T a vels M x HJ Lx Hr V HP HT. set (v := ns_block n rho moms E p T a vels).
  assert (D : forall b, value J M x (EDat b (here n)) = M b x).
  { intros b. rewrite (val_ap J M x) by reflexivity. apply dat. auto. }
  assert (Vr : map (value J M x) (velocity_rel v) = map (fun m => M m x / M rho x) moms).
  { unfold velocity_rel, v, ns_block, rho_of. cbn [nv_cons ns_arrays ns_mom ns_rho]. rewrite !map_map. apply map_ext. intros m.
    rewrite (val_ap J M x) by reflexivity. rewrite (ap_div J HJ). rewrite !dat by auto. reflexivity. }
  assert (Va : map (value J M x) (nv_vel v) = map (fun m => M m x / M rho x) moms).
  { rewrite <- V. unfold v, ns_block. cbn [nv_vel]. rewrite map_map. apply map_ext. auto. }
  assert (Ma : map (value J M x) (ns_mom (nv_cons v)) = map (fun m => M m x) moms).
  { unfold v, ns_block, ns_arrays. cbn [nv_cons ns_mom]. rewrite map_map. apply map_ext. auto. }
  destruct (C51_relations_agree_partial J n rho moms E p T a vels M x HJ Lx Hr) as (A1 & A2 & A3 & A4 & A5).
  { unfold velocities_set. fold v. rewrite Va, Vr. reflexivity. }
  fold v in A1, A2, A3, A4, A5.
  intros q relation conservative l N1 N2 H. destruct q; cbn [answer quantity] in *; try contradiction.
  - injection H as <-. cbn [map]. f_equal. apply D.
  - destruct relation; injection H as <-; [exact A3|exact Ma].
  - destruct relation; [discriminate|]. injection H as <-. cbn [map]. f_equal. apply D.
  - injection H as <-. cbn [map]. f_equal. destruct relation; [destruct conservative|]; [exact (eq_trans (eq_sym A1) A4)|exact A4|].
    rewrite <- HP. apply D.
  - destruct relation; injection H as <-; [exact (eq_trans Vr (eq_sym (map_map _ _ moms)))|exact (eq_trans Va (eq_sym (map_map _ _ moms)))].
  - injection H as <-. cbn [map]. f_equal. destruct relation; [destruct conservative|]; [exact (eq_trans (eq_sym A2) A5)|exact A5|].
    rewrite <- HT. apply D.
Qed.

Lemma bases_edot : forall n us d, In d (bases (edot (map (fun u => EDat u (here n)) us))) -> In d us.
Proof.
  intros n us d. unfold bases, edot, eadd. induction us as [|u us IH]; cbn; [auto|]. intros [H|[H|H]]; auto.
Qed.

Lemma answers_bases : forall n rho moms E p T a vels q conservative l e d,
  q = QPressure \/ q = QTemperature ->
  answer (ns_block n rho moms E p T a vels) q true conservative = Ok l -> In e l -> In d (bases e) ->
  d = rho \/ d = E \/ In d (if conservative then moms else vels).
Proof.
  intros n rho moms E p T a vels q c l e d Hq H He Hd.
  assert (B := fun us => bases_edot n us d).
  destruct Hq as [-> | ->]; cbn [answer] in H; injection H as <-; destruct He as [<-|[]]; destruct c;
    unfold pressure_cons, pressure_rel, temperature_cons, temperature_rel, internal, internal_prim, esub, ediv, emul, eadd, epow, rho_of in Hd;
    cbn [ns_block nv_cons nv_vel ns_arrays ns_rho ns_mom ns_rhoE] in Hd;
    [specialize (B moms)|specialize (B vels)|specialize (B moms)|specialize (B vels)];
    unfold bases in *; cbn [dsets gama Minf econst eint] in Hd;
    match type of B with In _ (map fst (dsets ?x)) -> _ => set (dd := dsets x) in * end; clearbody dd;
    cbn [app map] in Hd; rewrite ?app_nil_r, ?map_app in Hd; cbn [map fst app] in Hd;
    repeat (apply in_app_or in Hd as [Hd|Hd] || destruct Hd as [Hd|Hd]); auto;
    try (rewrite ?app_nil_r, ?map_app in Hd; repeat (apply in_app_or in Hd as [Hd|Hd]); cbn in Hd; tauto).
Qed.
