(* C51: the relations of the Navier-Stokes physics object. *)
From Verif Require Import Base Expr ExprProofs KernelModel ShiftModel ShiftSpec ShiftProofs AlgProofs BCModel BCSpec BCProofs BCKern BCMirror BCOrder BCStm BCVec BCGasSpec BCGas BCIsoProps NSModel.
From Coq Require Import QArith ZArith Reals Qreals Lia Lra.
Local Close Scope Q_scope.
Local Open Scope R_scope.

(* the physics object on an n-dimensional block *)
Definition ns_block (n : nat) (rho : string) (moms : list string) (E p T a : string) (vels : list string) : nsphys :=
  {| nv_cons := ns_arrays n rho moms E; nv_p := EDat p (here n); nv_T := EDat T (here n); nv_a := EDat a (here n);
     nv_vel := map (fun u => EDat u (here n)) vels |}.

Section c51.
  Variable J : interp R.
  Hypothesis HJ : reals J.
  Variables (n : nat) (rho : string) (moms : list string) (E p T a : string) (vels : list string).
  Local Notation v := (ns_block n rho moms E p T a vels).
  Variables (M : string -> list Z -> R) (x : list Z).
  Hypothesis Lx : List.length x = n.
  Local Notation val := (value J M x).
  Let ap := at_point J M (isym J KGridVar) x.
  Lemma val_ap : forall e, syms KGridVar e = [] -> val e = ap e.
  Proof. intros. symmetry. apply at_point_value. auto. Qed.
  Lemma dat : forall b, ap (EDat b (here n)) = M b x.
  Proof. intros. apply ap_dat. auto. Qed.
  Lemma vel_norm : forall us, ap (edot (map (fun u => EDat u (here n)) us)) = norm2 (map (fun u => M u x) us).
  Proof.
    intros us. unfold ap, edot. rewrite (ap_add J HJ). unfold norm2. induction us as [|m l IH]; auto.
    cbn [map fold_right vdot]. rewrite IH. f_equal. rewrite (ap_mul J HJ). cbn [map fold_right]. fold ap. rewrite dat. ring.
  Qed.
  Lemma prim : ap (internal_prim v) = M E x - M rho x * norm2 (map (fun u => M u x) vels) / 2.
  Proof.
    unfold ap, internal_prim. rewrite (ap_sub J HJ), (ap_mul J HJ). cbn [map fold_right ns_block nv_cons ns_arrays ns_rhoE nv_vel rho_of ns_rho].
    fold ap. rewrite vel_norm, !dat. unfold ap. rewrite (ap_num J HJ). unfold Q2R. cbn [Qnum Qden]. lra.
  Qed.
  Lemma ap_pressure_rel : ap (pressure_rel v) = (const J "gama" - 1) * (M E x - M rho x * norm2 (map (fun u => M u x) vels) / 2).
  Proof. unfold ap, pressure_rel. rewrite (ap_mul J HJ). cbn [map fold_right]. rewrite (ap_sub J HJ), (ap_int J HJ). fold ap. rewrite prim. unfold gama. change (ap (econst "gama")) with (const J "gama"). ring. Qed.
  Lemma ap_temperature_rel : ap (temperature_rel v) =
    const J "gama" * (const J "Minf" * const J "Minf") * ((const J "gama" - 1) * (M E x - M rho x * norm2 (map (fun u => M u x) vels) / 2)) / M rho x.
  Proof.
    unfold ap, temperature_rel. rewrite (ap_div J HJ), !(ap_mul J HJ). cbn [map fold_right]. rewrite (ap_mul J HJ). cbn [map fold_right].
    rewrite (ap_sub J HJ), (ap_int J HJ), (ap_sqr J HJ). fold ap. rewrite prim. unfold gama, Minf.
    change (ap (econst "gama")) with (const J "gama"). change (ap (econst "Minf")) with (const J "Minf").
    unfold rho_of. cbn [ns_block nv_cons ns_arrays ns_rho]. rewrite dat. unfold Rdiv. ring.
  Qed.
  Lemma ap_sound : ap (sound_rel v) = const J "gama" * M p x / M rho x.
  Proof.
    unfold ap, sound_rel. rewrite (ap_div J HJ), !(ap_mul J HJ). cbn [map fold_right]. fold ap.
    unfold rho_of. cbn [ns_block nv_cons ns_arrays ns_rho nv_p]. rewrite !dat. unfold gama. change (ap (econst "gama")) with (const J "gama"). unfold Rdiv. ring.
  Qed.
End c51.

(* the velocity arrays hold what the velocity relation computes *)
Definition velocities_set (J : interp R) (v : nsphys) (M : string -> list Z -> R) (x : list Z) : Prop :=
  map (value J M x) (nv_vel v) = map (value J M x) (velocity_rel v).

Lemma gridvar_free : forall n rho moms E p T a vels, let v := ns_block n rho moms E p T a vels in
  syms KGridVar (pressure_rel v) = [] /\ syms KGridVar (temperature_rel v) = [] /\ syms KGridVar (sound_rel v) = [] /\
  syms KGridVar (pressure_cons (nv_cons v)) = [] /\ syms KGridVar (temperature_cons (nv_cons v)) = [].
Proof.
  intros n rho moms E p T a vels v.
  assert (F : forall l, syms KGridVar (edot (map (fun u => EDat u (here n)) l)) = []).
  { intros l. destruct (placed_edot n (map (fun u => EDat u (here n)) l) (placed_dats n l)) as (_ & G & _). auto. }
  destruct (placed_pressure n rho moms E) as (_ & G1 & _). destruct (placed_temperature n rho moms E) as (_ & G2 & _).
  repeat split; auto; unfold pressure_rel, temperature_rel, sound_rel, internal_prim, v, ns_block, rho_of, ediv, esub, eadd, emul, epow;
    cbn [nv_cons ns_arrays ns_rho ns_rhoE nv_vel nv_p]; unfold syms in *; cbn [gama Minf econst eint flat_map app] in *; rewrite ?F; reflexivity.
Qed.

(* C51.  Where the velocity arrays hold momentum over density and the density is not zero,
   the primitive and the conservative forms of pressure and temperature agree, the momentum
   relation gives the momentum back, and all are the pressure and the temperature of an ideal
   gas; for every number of directions.  Missing (_partial): the relation supplied for the
   speed of sound is its square, see below. *)
Theorem C51_relations_agree_partial :
  forall J n rho moms E p T a vels M x, reals J -> List.length x = n -> M rho x <> 0 ->
    let v := ns_block n rho moms E p T a vels in
    velocities_set J v M x ->
    value J M x (pressure_rel v) = value J M x (pressure_cons (nv_cons v)) /\
    value J M x (temperature_rel v) = value J M x (temperature_cons (nv_cons v)) /\
    map (value J M x) (momentum_rel v) = map (fun m => M m x) moms /\
    value J M x (pressure_rel v) = pressure_of (const J "gama") (M rho x) (map (fun m => M m x) moms) (M E x) /\
    value J M x (temperature_rel v) = temperature_of (const J "gama") (const J "Minf") (M rho x) (map (fun m => M m x) moms) (M E x).
Proof.
  intros J n rho moms E p T a vels M x HJ Lx Hr v Hv.
  destruct (gridvar_free n rho moms E p T a vels) as (G1 & G2 & _ & G4 & G5). fold v in G1, G2, G4, G5.
  assert (D : forall b, value J M x (EDat b (here n)) = M b x).
  { intros b. rewrite (val_ap J M x) by reflexivity. apply dat. auto. }
  assert (V : map (fun u => M u x) vels = map (fun m => M m x / M rho x) moms).
  { transitivity (map (value J M x) (nv_vel v)).
    - unfold v, ns_block. cbn [nv_vel]. rewrite map_map. apply map_ext. intros. symmetry. apply D.
    - rewrite Hv. unfold velocity_rel, v, ns_block, rho_of. cbn [nv_cons ns_arrays ns_mom ns_rho]. rewrite !map_map. apply map_ext. intros m.
      rewrite (val_ap J M x) by reflexivity. rewrite (ap_div J HJ). rewrite !dat by auto. reflexivity. }
  assert (N : M rho x * norm2 (map (fun u => M u x) vels) / 2 = norm2 (map (fun m => M m x) moms) / (2 * M rho x)).
  { rewrite V. unfold norm2. assert (S : vdot (map (fun m => M m x / M rho x) moms) (map (fun m => M m x / M rho x) moms) =
       vdot (map (fun m => M m x) moms) (map (fun m => M m x) moms) / (M rho x * M rho x)).
    { clear -Hr. induction moms as [|m l IH]; cbn [map vdot]; [field; auto|]. rewrite IH. field. auto. }
    rewrite S. field. auto. }
  assert (P : value J M x (pressure_rel v) = pressure_of (const J "gama") (M rho x) (map (fun m => M m x) moms) (M E x)).
  { rewrite (val_ap J M x) by auto. unfold v. rewrite ap_pressure_rel by auto. unfold pressure_of. rewrite N. reflexivity. }
  assert (Q : value J M x (temperature_rel v) = temperature_of (const J "gama") (const J "Minf") (M rho x) (map (fun m => M m x) moms) (M E x)).
  { rewrite (val_ap J M x) by auto. unfold v. rewrite ap_temperature_rel by auto. unfold temperature_of, pressure_of. rewrite N. reflexivity. }
  split; [|split; [|split; [|split; auto]]].
  - rewrite P. rewrite (val_ap J M x) by auto. unfold v. cbn [ns_block nv_cons]. rewrite ap_pressure by auto. reflexivity.
  - rewrite Q. rewrite (val_ap J M x) by auto. unfold v. cbn [ns_block nv_cons]. rewrite ap_temperature by auto. reflexivity.
  - unfold momentum_rel, v, ns_block, rho_of. cbn [nv_cons ns_arrays nv_vel ns_rho]. rewrite !map_map.
    transitivity (map (fun w => w * M rho x) (map (fun u => M u x) vels)).
    + rewrite map_map. apply map_ext. intros u. rewrite (val_ap J M x) by reflexivity. rewrite (ap_mul J HJ). cbn [map fold_right].
      rewrite !dat by auto. ring.
    + rewrite V, map_map. apply map_ext. intros m. field. auto.
Qed.
Print Assumptions C51_relations_agree_partial.

(* p = rho T / (gama Minf^2), and pressure and temperature are positive together. *)
Theorem C51_gas_law :
  forall J n rho moms E p T a vels M x, reals J -> List.length x = n -> 0 < M rho x -> 1 < const J "gama" -> const J "Minf" <> 0 ->
    let v := ns_block n rho moms E p T a vels in
    value J M x (pressure_cons (nv_cons v)) =
      M rho x * value J M x (temperature_cons (nv_cons v)) / (const J "gama" * (const J "Minf") ^ 2) /\
    (0 < value J M x (pressure_cons (nv_cons v)) <-> 0 < value J M x (temperature_cons (nv_cons v))) /\
    (0 < value J M x (pressure_cons (nv_cons v)) <-> norm2 (map (fun m => M m x) moms) / (2 * M rho x) < M E x).
Proof.
  intros J n rho moms E p T a vels M x HJ Lx Hr Hg Hm v.
  destruct (gridvar_free n rho moms E p T a vels) as (_ & _ & _ & G4 & G5). fold v in G4, G5.
  rewrite !(val_ap J M x) by auto. unfold v. cbn [ns_block nv_cons]. rewrite ap_pressure, ap_temperature by auto.
  unfold p_at, T_at, temperature_of, pressure_of.
  generalize dependent (const J "gama"). generalize dependent (const J "Minf"). intros ma Hm g Hg.
  set (K := M E x - norm2 (map (fun m => M m x) moms) / (2 * M rho x)).
  assert (Hma : 0 < ma * ma) by (destruct (Rtotal_order ma 0) as [|[|]]; [nra | lra | nra]).
  split; [|split].
  - field. repeat split; lra.
  - assert (H0 : 0 < g * (ma * ma) / M rho x). { apply Rdiv_lt_0_compat; auto. apply Rmult_lt_0_compat; lra. }
    replace (g * (ma * ma) * ((g - 1) * K) / M rho x) with (g * (ma * ma) / M rho x * ((g - 1) * K)) by (field; lra).
    split; intros H.
    + apply Rmult_lt_0_compat; auto.
    + apply Rmult_lt_reg_l with (1 := H0). rewrite Rmult_0_r. auto.
  - split; intros H.
    + assert (0 < K). { apply Rmult_lt_reg_l with (r := g - 1); [lra|]. rewrite Rmult_0_r. auto. } unfold K in *. lra.
    + apply Rmult_lt_0_compat; unfold K; lra.
Qed.
Print Assumptions C51_gas_law.

(* a state meeting the hypotheses of both theorems: gama = 2, Minf = 1, rho = 2, m = 4, E = 6 *)
Definition mem51 (b : string) (x : list Z) : R :=
  if String.eqb b "rho" then 2 else if String.eqb b "rhou0" then 4 else if String.eqb b "u0" then 2 else if String.eqb b "rhoE" then 6 else 1.
Example C51_nonvacuous : forall J, reals J ->
  let v := ns_block 1 "rho" ["rhou0"%string] "rhoE" "p" "T" "a" ["u0"%string] in
  velocities_set J v mem51 [0%Z] /\ mem51 "rho" [0%Z] <> 0 /\
  pressure_of 2 (mem51 "rho" [0%Z]) [mem51 "rhou0" [0%Z]] (mem51 "rhoE" [0%Z]) = 2.
Proof.
  intros J HJ v. split; [|split].
  - unfold velocities_set, v, ns_block, velocity_rel. cbn [nv_vel map nv_cons ns_arrays ns_mom rho_of ns_rho]. f_equal.
    rewrite !(val_ap J mem51 [0%Z]) by reflexivity. rewrite (ap_div J HJ), !dat by auto. cbn. field.
  - cbn. lra.
  - unfold pressure_of, norm2. cbn. field.
Qed.

(* The relation supplied for the speed of sound a is its square. *)
Theorem C51_speed_of_sound_square :
  forall J n rho moms E p T a vels M x, reals J -> List.length x = n ->
    0 <= const J "gama" * M p x / M rho x ->
    value J M x (sound_rel (ns_block n rho moms E p T a vels)) = (sqrt (const J "gama" * M p x / M rho x)) ^ 2.
Proof.
  intros J n rho moms E p T a vels M x HJ Lx H0. destruct (gridvar_free n rho moms E p T a vels) as (_ & _ & G & _).
  rewrite (val_ap J M x) by auto. rewrite ap_sound by auto. rewrite <- Rsqr_pow2, Rsqr_sqrt; auto.
Qed.
Print Assumptions C51_speed_of_sound_square.
Theorem C51_speed_of_sound_refuted : exists J n rho moms E p T a vels M x,
  reals J /\ List.length x = n /\ 0 < M rho x /\ 0 < M p x /\ 1 < const J "gama" /\
  value J M x (sound_rel (ns_block n rho moms E p T a vels)) <> sqrt (const J "gama" * M p x / M rho x).
Proof.
  exists gasJ, 1%nat, "rho"%string, ["rhou0"%string], "rhoE"%string, "p"%string, "T"%string, "a"%string, ["u0"%string],
    (fun b _ => if String.eqb b "p" then 2 else 1), [0%Z].
  split; [apply gasJ_reals|]. split; auto. split; [cbn; lra|]. split; [cbn; lra|].
  assert (G : const gasJ "gama" = 2) by reflexivity. split; [rewrite G; lra|].
  destruct (gridvar_free 1 "rho" ["rhou0"%string] "rhoE" "p" "T" "a" ["u0"%string]) as (_ & _ & Gf & _).
  rewrite (val_ap gasJ _ [0%Z]) by auto. rewrite ap_sound; [|apply gasJ_reals|reflexivity]. rewrite G. 
  match goal with |- ?a <> _ => replace a with 4 by (cbn; field) end.
  match goal with |- _ <> sqrt ?a => replace a with 4 by (cbn; field) end.
  replace 4 with (2 * 2) at 2 by ring. rewrite sqrt_square by lra. lra.
Qed.
Print Assumptions C51_speed_of_sound_refuted.

(* Asking for the viscosity gives the momentum arrays; relations for the total energy and the
   viscosity do not exist. *)
Theorem C51_viscosity_refuted : exists v, answer v QViscosity false false = answer v QMomentum false false /\
  answer v QMomentum false false <> Ok [] /\ answer v QViscosity true false = Err NotImplemented /\ answer v QEnergy true false = Err NotImplemented.
Proof. exists (ns_block 1 "rho" ["rhou0"%string] "rhoE" "p" "T" "a" ["u0"%string]). repeat split; discriminate. Qed.
Print Assumptions C51_viscosity_refuted.
