(* C76: split boundaries, what the further boundary conditions do not do, and examples. *)
From Verif Require Import Base BaseProofs Expr ExprProofs KernelModel ShiftModel ShiftSpec ShiftProofs BCModel BCSpec BCGasSpec BCProofs BCKern BCMirror BCOrder BCVec BCStm BCGas BCIso BCIsoProps BCWallProps OneModel BC2Model BC2Spec BC2Proofs BC2WallProps BC2LawalProps BC2StripProps BC2InletProps BC2SlipProps.
From Coq Require Import QArith ZArith Reals Qreals Lia Lra.
Local Close Scope Q_scope.

(* ---- split boundaries ---- *)
Lemma split_inj : forall p d s no d' s' no', (d < 10)%nat -> (d' < 10)%nat ->
  (p ++ dec d ++ dec (side_digit s) ++ dec no)%string = (p ++ dec d' ++ dec (side_digit s') ++ dec no')%string -> d = d' /\ s = s' /\ no = no'.
Proof.
  intros p d s no d' s' no' Hd Hd' H. apply append_cancel in H.
  assert (K : d = d' /\ (dec (side_digit s) ++ dec no = dec (side_digit s') ++ dec no')%string).
  { do 10 (destruct d as [|d]; [do 10 (destruct d' as [|d']; [first [apply append_cancel in H; auto | discriminate]|]); lia|]). lia. }
  destruct K as [-> K]. split; auto. destruct s, s'; cbn [side_digit] in K; try discriminate K; apply append_cancel in K; apply dec_inj in K; auto.
Qed.
(* On one block every part of every split boundary runs its own equations, and the run-time
   constants can give every part its own range. *)
Theorem C76_split :
  forall block (parts : nat -> bool -> list kernel_eqs) (want : nat -> bool -> nat -> list Z),
    (forall d side no, List.length (want d side no) = 2%nat) ->
  (forall d side no eqs, nth_error (parts d side) no = Some eqs ->
     exists k, nth_error (split_apply block d side (parts d side)) no = Some k /\ sk_eqs k = eqs) /\
  forall ndim, (ndim <= 10)%nat -> exists env, forall d side no k, (d < ndim)%nat ->
    nth_error (split_apply block d side (parts d side)) no = Some k -> sk_total env k = want d side no.
Proof.
  intros block parts want W.
  assert (A : forall (ps : list kernel_eqs) (f : nat * kernel_eqs -> skernel) s no, nth_error (map f (combine (seq s (List.length ps)) ps)) no = option_map (fun e => f ((s + no)%nat, e)) (nth_error ps no)).
  { induction ps as [|p ps IH]; intros f s [|no]; cbn; auto; [rewrite Nat.add_0_r; auto|]. rewrite IH. destruct (nth_error ps no); cbn; auto. do 3 f_equal. lia. }
  split.
  - intros d side no eqs H. unfold split_apply, enum. rewrite A, H. cbn. eexists. split; reflexivity.
  - intros ndim Nd.
    set (len := fun d s => List.length (parts d s)).
    set (all := flat_map (fun d => flat_map (fun s => map (fun no => (d, s, no)) (seq 0 (len d s))) [false; true]) (seq 0 ndim)).
    assert (Al : forall d s no, In (d, s, no) all <-> (d < ndim)%nat /\ (no < len d s)%nat).
    { intros d s no. unfold all. rewrite in_flat_map. split.
      - intros (d' & Hd & H). apply in_flat_map in H. destruct H as (s' & _ & H). apply in_map_iff in H. destruct H as (n' & E & H). injection E as -> -> ->. apply in_seq in Hd, H. lia.
      - intros [Hd Hn]. exists d. split; [apply in_seq; lia|]. apply in_flat_map. exists s. split; [destruct s; cbn; auto|]. apply in_map. apply in_seq. lia. }
    set (name := fun q : nat * bool * nat => let '(d, s, no) := q in ("split_range_" ++ dec d ++ dec (side_digit s) ++ dec no)%string).
    exists (fun c => match find (fun q => if string_dec (name q) c then true else false) all with Some (d, s, no) => want d s no | None => [0; 0]%Z end).
    intros d s no k Hd Hk. unfold split_apply, enum in Hk. rewrite A in Hk. destruct (nth_error (parts d s) no) as [e|] eqn:Ee; [|discriminate]. cbn in Hk. injection Hk as <-.
    assert (Hn : (no < len d s)%nat) by (unfold len; apply nth_error_Some; congruence).
    unfold sk_total, split_kernel. cbn [sk_ranges sk_halos].
    assert (F1 : find (fun q => if string_dec (name q) ("split_range_" ++ dec d ++ dec (side_digit s) ++ dec no)%string then true else false) all = Some (d, s, no)).
    { destruct (find _ all) as [q|] eqn:F.
      - apply find_some in F. destruct F as [Fi Fe]. destruct q as [[d' s'] no']. apply Al in Fi. destruct string_dec as [e'|]; [|discriminate].
        unfold name in e'. apply split_inj in e'; [|lia | lia]. destruct e' as (-> & -> & ->). auto.
      - exfalso. pose proof (find_none _ _ F (d, s, no) (proj2 (Al d s no) (conj Hd Hn))) as Fn. cbn beta in Fn. destruct string_dec as [|n0]; [discriminate|]. apply n0. reflexivity. }
    rewrite F1.
    destruct (find (fun q => if string_dec (name q) ("split_halo_range_" ++ dec d ++ dec (side_digit s) ++ dec no)%string then true else false) all) as [q|] eqn:F2.
    + exfalso. apply find_some in F2. destruct F2 as [_ F2]. destruct q as [[d' s'] no']. destruct string_dec as [e'|]; [discriminate e' | discriminate].
    + pose proof (W d s no) as L. destruct (want d s no) as [|a [|b [|c l]]]; try discriminate L. cbn. rewrite !Z.add_0_r. reflexivity.
Qed.
Print Assumptions C76_split.
(* Refuted: the parts of different blocks can have ranges of their own; the constants of two
   blocks have the same names. *)
Theorem C76_split_blocks_refuted :
  exists (parts : list kernel_eqs) (want : nat -> list Z), (forall block, List.length (want block) = 2%nat) /\
    ~ exists env, forall block k, nth_error (split_apply block 0 false parts) 0 = Some k -> sk_total env k = want block.
Proof.
  exists [[]], (fun block => [0; Z.of_nat block]%Z). split; [auto|]. intros [env H].
  pose proof (H 1%nat _ eq_refl) as H1. pose proof (H 2%nat _ eq_refl) as H2. unfold sk_total, split_kernel in *. cbn [sk_ranges sk_halos] in *. rewrite H1 in H2. discriminate H2.
Qed.
Print Assumptions C76_split_blocks_refuted.

Local Open Scope R_scope.
(* ---- an interpretation with all functions ---- *)
Definition angle (y x : R) : R := let t := acos (x / sqrt (x * x + y * y)) in if Rle_dec 0 y then t else - t.
Definition fullJ : interp R := {|
  inum := Q2R;
  isym := fun k s => if string_dec s "gama" then 2 else 1;
  iapp := fun h l => match h with
    | HAdd => fold_right Rplus 0 l
    | HMul => fold_right Rmult 1 l
    | HPow => match l with
              | [a; b] => if Req_EM_T b (Q2R 2) then a * a else if Req_EM_T b (Q2R (1 # 2)) then sqrt a else if Req_EM_T b (Q2R (-1 # 1)) then / a else Rpower a b
              | _ => 0 end
    | HFun f =>
      if string_dec f "true" then 1 else
      if string_dec f "Abs" then Rabs (nth 0 l 0) else
      if string_dec f ">=" then (if Rle_dec (nth 1 l 0) (nth 0 l 0) then 1 else 0) else
      if string_dec f "Piecewise" then (if Req_EM_T (nth 1 l 0) 1 then nth 0 l 0 else nth 2 l 0) else
      if string_dec f "cos" then cos (nth 0 l 0) else
      if string_dec f "sin" then sin (nth 0 l 0) else
      if string_dec f "atan2" then angle (nth 0 l 0) (nth 1 l 0) else
      entry bc4 0 (Z.to_nat (Int_part (nth 0 l 0)))
    | _ => 0 end |}.
Lemma fullJ_reals : reals fullJ.
Proof.
  split; auto; intros; cbn [iapp fullJ].
  - destruct (Req_EM_T (Q2R (-1 # 1)) (Q2R 2)) as [E | _]; [apply eqR_Qeq in E; discriminate E|].
    destruct (Req_EM_T (Q2R (-1 # 1)) (Q2R (1 # 2))) as [E | _]; [apply eqR_Qeq in E; discriminate E|].
    destruct (Req_EM_T (Q2R (-1 # 1)) (Q2R (-1 # 1))); congruence.
  - destruct (Req_EM_T (Q2R 2) (Q2R 2)); congruence.
  - destruct (Req_EM_T (Q2R (1 # 2)) (Q2R 2)) as [E | _]; [apply eqR_Qeq in E; discriminate E|].
    destruct (Req_EM_T (Q2R (1 # 2)) (Q2R (1 # 2))); congruence.
Qed.
Lemma angle_ok : forall y x, x * x + y * y <> 0 -> let t := angle y x in
  - PI < t <= PI /\ x = sqrt (x * x + y * y) * cos t /\ y = sqrt (x * x + y * y) * sin t.
Proof.
  intros y x N t. set (r := sqrt (x * x + y * y)). pose proof (Rle_0_sqr x) as X. pose proof (Rle_0_sqr y) as Y. unfold Rsqr in X, Y.
  assert (R0 : 0 < r) by (apply sqrt_lt_R0; lra). assert (Rr : r * r = x * x + y * y) by (apply sqrt_sqrt; lra).
  assert (U1 : x / r * (x / r) + y / r * (y / r) = 1).
  { transitivity ((x * x + y * y) / (r * r)); [field; lra|]. rewrite Rr. field. auto. }
  assert (U : -1 <= x / r <= 1) by (pose proof (Rle_0_sqr (y / r)) as Q; unfold Rsqr in Q; split; nra).
  pose proof (cos_acos _ U) as C. pose proof (sin_acos _ U) as S. pose proof (acos_bound (x / r)) as B. pose proof PI_RGT_0 as P.
  assert (S' : sin (acos (x / r)) = Rabs (y / r)).
  { rewrite S. replace (1 - Rsqr (x / r)) with (Rsqr (y / r)) by (unfold Rsqr; lra). apply sqrt_Rsqr_abs. }
  unfold t, angle. fold r. destruct (Rle_dec 0 y) as [H | H].
  - rewrite C, S', Rabs_right. 2:{ apply Rle_ge. unfold Rdiv. apply Rmult_le_pos; auto. left. apply Rinv_0_lt_compat; auto. }
    split; [lra|]. split; field; lra.
  - assert (Yn : y / r < 0) by (unfold Rdiv; apply Rmult_lt_reg_r with r; [auto|]; rewrite Rmult_assoc, Rinv_l, Rmult_0_l, Rmult_1_r; lra).
    rewrite cos_neg, sin_neg, C, S', Rabs_left by auto. split; [|split; field; lra]. split; [|lra].
    destruct (Req_dec (acos (x / r)) PI) as [E | E]; [|lra]. exfalso. rewrite E, sin_PI in S'. rewrite Rabs_left in S' by auto. lra.
Qed.
Lemma fullJ_functions : functions fullJ.
Proof.
  split.
  - apply fullJ_reals.
  - intros a b Ha. cbn [iapp fullJ]. destruct (Req_EM_T b (Q2R 2)) as [-> | _]; [|destruct (Req_EM_T b (Q2R (1 # 2))) as [-> | _]; [|destruct (Req_EM_T b (Q2R (-1 # 1))) as [-> | _]]]; auto.
    + replace (Q2R 2) with (INR 2) by (unfold Q2R; cbn; lra). rewrite Rpower_pow by auto. cbn. ring.
    + replace (Q2R (1 # 2)) with (/ 2) by (unfold Q2R; cbn; lra). rewrite Rpower_sqrt by auto. reflexivity.
    + replace (Q2R (-1 # 1)) with (Ropp 1) by (unfold Q2R; cbn; lra). rewrite Rpower_Ropp, Rpower_1 by auto. reflexivity.
  - reflexivity.
  - reflexivity.
  - reflexivity.
  - intros. cbn. destruct (Req_EM_T 1 1); congruence.
  - intros. cbn. destruct (Req_EM_T 0 1); [lra | auto].
  - reflexivity.
  - reflexivity.
  - intros y x N. apply angle_ok. auto.
  - intros j Hj. change (entry bc4 0 (Z.to_nat (Int_part (INR j))) = entry bc4 0 j). rewrite Int_part_INR, Nat2Z.id. reflexivity.
Qed.

(* The hypotheses of the theorems of C76: an interpretation, a sweep of a face (BCWallProps),
   a stream for the Lawal inlet, a subsonic state for the pressure inlet, wall equations of the
   forcing strip and the coordinates of an inclined wall. *)
Example C76_nonvacuous :
  functions fullJ /\ good_order std_order /\ 1 < const fullJ "gama" /\ const fullJ "Minf" <> 0 /\
  sweeps [[1; -1]; [1; 0]; [1; 1]; [1; 2]; [1; 3]]%Z (on_face [2; 2]%Z wall_example_halos 0 true) /\
  NoDup ["rho"; "rhou0"; "rhou1"; "rhoE"; "x0"; "x1"]%string /\
  (let M := fun (b : string) (y : list Z) => if string_dec b "rhou0" then / 2 else if string_dec b "rhou1" then 0 else 1 in
   let speed2 := norm2 (map (fun m => velocity_at M "rho" m [0; 0]%Z) ["rhou0"; "rhou1"]%string) in
   0 < speed2 /\ (const fullJ "gama" - 1) / 2 * speed2 < 1 /\
   0 < p_at fullJ M "rho" ["rhou0"; "rhou1"]%string "rhoE" [0; 0]%Z /\ Rabs (velocity_at M "rho" "rhou0" [0; 0]%Z) < sound_at fullJ M "rho" ["rhou0"; "rhou1"]%string "rhoE" [0; 0]%Z) /\
  (placed 2 (emul [ENum (1 # 2); EDat "rho" (here 2)]) /\ placed 2 (wall_energy 2 "rho")) /\
  (let M := fun (b : string) (y : list Z) => if string_dec b "x0" then IZR (nth 0 y 0%Z) else IZR (nth 0 y 0%Z) + IZR (nth 1 y 0%Z) in
   (forall j, (-1 <= j <= 1)%Z -> span_norm M "x0" "x1" 0 (move 0 j [1; 1]%Z) <> 0) /\
   (forall q : Z, (q = -1 \/ q = 1)%Z -> distance M "x0" "x1" [1; 2]%Z (move 0 q [1; 2]%Z) <> 0)).
Proof.
  split; [apply fullJ_functions|]. split; [apply std_order_good|]. split; [unfold const; cbn; lra|]. split; [unfold const; cbn; lra|].
  split; [apply C46_C68_C69_nonvacuous|]. split; [repeat constructor; cbn; intuition discriminate|]. split; [|split; [split|split]].
  - cbv zeta. unfold velocity_at, norm2, p_at, pressure_of, sound_at, const. cbn [map vdot isym fullJ]. unfold norm2. cbn [map vdot].
    repeat match goal with |- context [string_dec ?a ?b] => let t := eval vm_compute in (if string_dec a b then true else false) in
      match t with true => destruct (string_dec a b) as [_ | N]; [|exfalso; apply N; reflexivity] | false => destruct (string_dec a b) as [N | _]; [discriminate N|] end end.
    split; [lra|]. split; [lra|]. split; [unfold p_at, pressure_of, norm2; cbn; lra|].
    rewrite Rabs_right by lra. apply Rsqr_incrst_0; [|lra|apply sqrt_pos]. rewrite Rsqr_sqrt; unfold Rsqr, p_at, pressure_of, norm2, const; cbn; lra.
  - apply placed_mul. constructor; [apply placed_num|]. constructor; [apply placed_dat|]. constructor.
  - apply placed_div; apply placed_mul; repeat (constructor; [first [apply placed_dat | apply placed_const | apply placed_g1]|]); auto.
  - intros j Hj. unfold span_norm, span. assert (C : (j = -1 \/ j = 0 \/ j = 1)%Z) by lia.
    intros E0. apply sqrt_eq_0 in E0; destruct C as [-> | [-> | ->]]; cbn in *; lra.
  - intros q C. unfold distance. intros E0. apply sqrt_eq_0 in E0; destruct C as [-> | ->]; cbn in *; lra.
Qed.

(* ---- what is not so ---- *)
Definition line_np : list Z := [4%Z].
Definition line_halos : halo_ranges := [([(-2, 2)%Z], [(-2, 2)%Z])].
Lemma line_sweep : sweeps [[0%Z]] (on_face line_np line_halos 0 false).
Proof.
  split; [constructor; [intros [] | constructor]|]. intros x. split.
  - intros [<- | []]. split; [reflexivity|]. split; [reflexivity|]. intros [|i] Hi N; [congruence | cbn in Hi; lia].
  - intros (L & X & _). destruct x as [|a [|b x]]; try discriminate. cbn in X. subst. left; auto.
Qed.
(* Refuted: with shock capturing, the halos of the forcing strip continue the flow through the
   prescribed wall velocity, that is, the wall velocity is the mean of the velocities on its
   two sides; the velocities are mirrored as at a wall at rest. *)
Theorem C76_strip_halo_velocity_refuted :
  exists J ord np bh d side rho md E e1 e2 k pts M x,
    reals J /\ good_order ord /\ sweeps pts (on_face np bh d side) /\ on_face np bh d side x /\
    forcing_strip_apply ord np bh d side true (ns_arrays (List.length np) rho [md] E)
      (KEq (EDat md (here (List.length np))) e1) [KEq (EDat E (here (List.length np))) e2] = Ok k /\
    let M' := run_kernel J (bk_eqs k) pts M in
    M' rho x <> 0 /\ M' rho (inwards d side 1 x) <> 0 /\ M' rho (outwards d side 1 x) <> 0 /\
    velocity_at M' rho md x <> (velocity_at M' rho md (inwards d side 1 x) + velocity_at M' rho md (outwards d side 1 x)) / 2.
Proof.
  set (M := fun (b : string) (y : list Z) => if string_dec b "rho" then 1%R else if string_dec b "rhou0" then 0%R else (1 / 2)%R).
  assert (Hx : on_face line_np line_halos 0 false [0%Z]) by (apply line_sweep; left; auto).
  assert (ND : NoDup ("rho" :: ["rhou0"] ++ ["rhoE"])%string) by (repeat constructor; cbn; intuition discriminate).
  set (e1 := emul [ENum (1 # 2); EDat "rho" (here 1)]).
  assert (P1 : placed 1 e1) by (apply placed_mul; constructor; [apply placed_num|]; constructor; [apply placed_dat|]; constructor).
  assert (P2 : placed 1 (wall_energy 1 "rho")) by (apply placed_div; apply placed_mul; repeat (constructor; [first [apply placed_dat | apply placed_const | apply placed_g1]|]); auto).
  destruct (C76_forcing_strip gasJ std_order line_np line_halos 0 false true "rho" ["rhou0"%string] "rhoE" "rhou0" e1 (wall_energy 1 "rho")) as (k & Ek & _ & H);
    auto using gasJ_reals, std_order_good.
  { cbn. lia. }
  { intros b ix0 Hb. cbn in Hb. destruct Hb as [Hb | []]. injection Hb as <- <-. cbn. intuition discriminate. }
  { intros b ix0 Hb. cbn in Hb. destruct Hb as [Hb | []]. injection Hb as <- <-. cbn. intuition discriminate. }
  exists gasJ, std_order, line_np, line_halos, 0%nat, false, "rho"%string, "rhou0"%string, "rhoE"%string, e1, (wall_energy 1 "rho"), k, [[0%Z]], M, [0%Z].
  split; [apply gasJ_reals|]. split; [apply std_order_good|]. split; [exact line_sweep|]. split; [exact Hx|]. split; [exact Ek|].
  destruct (H [[0%Z]] M line_sweep) as (Hf & Fr & _). destruct (Hf [0%Z] Hx) as (MW & _ & RW & EW & Ht). destruct (Ht eq_refl 1%Z) as (RY & MY & _); [unfold halo_width; cbn; lia|].
  specialize (MY "rhou0"%string (or_introl eq_refl)). cbv zeta. set (M' := run_kernel gasJ (bk_eqs k) [[0%Z]] M) in *.
  assert (In1 : forall b, M' b (inwards 0 false 1 [0%Z]) = M b [1%Z]).
  { intros b. apply (Fr eq_refl). intros [_ Hf']. destruct Hf' as [Hh | Hh].
    - destruct Hh as (x & t & (Lx & Xx & _) & Ht' & E0). destruct x as [|a [|b' x]]; try discriminate. cbn in Xx. subst a. cbn in E0. injection E0 as E0. lia.
    - destruct Hh as (_ & X & _). discriminate X. }
  rewrite value_at in MW by auto. rewrite value_at in EW by auto.
  unfold e1 in MW. rewrite (ap_mul gasJ gasJ_reals) in MW. cbn [map fold_right] in MW. rewrite (ap_num gasJ gasJ_reals), ap_dat in MW by auto.
  unfold wall_energy in EW. rewrite (ap_div gasJ gasJ_reals), !(ap_mul gasJ gasJ_reals) in EW. cbn [map fold_right] in EW.
  rewrite (ap_sub gasJ gasJ_reals), (ap_int gasJ gasJ_reals), ap_dat in EW by auto. unfold gama, Minf in EW. rewrite !ap_const in EW.
  assert (MW' : M' "rhou0"%string [0%Z] = / 2) by (rewrite MW; unfold M, Q2R; cbn; lra).
  assert (RW' : M' "rho"%string [0%Z] = 1) by (rewrite RW; reflexivity).
  assert (EW' : M' "rhoE"%string [0%Z] = / 2) by (rewrite EW; unfold const, M; cbn; lra).
  assert (RY' : M' "rho"%string (outwards 0 false 1 [0%Z]) = 3 / 4).
  { rewrite RY. unfold p_at, T_at, temperature_of, pressure_of, norm2. cbn [map vdot]. rewrite RW', MW', EW'. unfold M, const. cbn. field. }
  rewrite RY' in MY. unfold velocity_at. rewrite !In1, RW', RY', MY, MW'. unfold M, inwards. cbn. repeat split; lra.
Qed.
Print Assumptions C76_strip_halo_velocity_refuted.
(* Refuted: with subsonic inflow the pressure of the face is continued into the halos; the
   energy is, and the pressure only if the halos also have the density and momentum of the face. *)
Theorem C76_inlet_pressure_refuted :
  exists J ord np bh d rho md E k pts M x,
    functions J /\ good_order ord /\ sweeps pts (on_face np bh d false) /\ on_face np bh d false x /\
    pressure_inlet_apply ord np bh d false (arrays_of (List.length np) [FScalar rho; FVector [md]; FScalar E]) (ns_arrays (List.length np) rho [md] E) = Ok k /\
    Rabs (velocity_at M rho md x) < sound_at J M rho [md] E x /\ (forall y, 0 < M rho y /\ 0 < p_at J M rho [md] E y) /\
    p_at J (run_kernel J (bk_eqs k) pts M) rho [md] E (outwards d false 1 x) <> p_at J (run_kernel J (bk_eqs k) pts M) rho [md] E x.
Proof.
  set (M := fun (b : string) (y : list Z) => if string_dec b "rhou0" then (if (nth 0 y 0 <? 0)%Z then 1 else 0)%R else 1%R).
  assert (Hx : on_face line_np line_halos 0 false [0%Z]) by (apply line_sweep; left; auto).
  assert (ND : NoDup ("rho" :: ["rhou0"] ++ ["rhoE"])%string) by (repeat constructor; cbn; intuition discriminate).
  destruct (C76_pressure_inlet fullJ std_order line_np line_halos 0 (arrays_of 1 [FScalar "rho"; FVector ["rhou0"%string]; FScalar "rhoE"]) [EDat "rho" (here 1); EDat "rhou0" (here 1)]
              "rho" ["rhou0"%string] "rhoE" "rhou0") as (_ & k & Ek & _ & H);
    auto using fullJ_functions, std_order_good.
  exists fullJ, std_order, line_np, line_halos, 0%nat, "rho"%string, "rhou0"%string, "rhoE"%string, k, [[0%Z]], M, [0%Z].
  split; [apply fullJ_functions|]. split; [apply std_order_good|]. split; [exact line_sweep|]. split; [exact Hx|]. split; [exact Ek|].
  assert (Sub : Rabs (velocity_at M "rho" "rhou0" [0%Z]) < sound_at fullJ M "rho" ["rhou0"%string] "rhoE" [0%Z]).
  { unfold velocity_at, sound_at, p_at, pressure_of, norm2, const, M. cbn. replace (0 / 1) with 0 by lra. rewrite Rabs_R0. apply sqrt_lt_R0. lra. }
  assert (Pos : forall y, 0 < M "rho"%string y /\ 0 < p_at fullJ M "rho" ["rhou0"%string] "rhoE" y).
  { intros y. unfold p_at, pressure_of, norm2, const, M. cbn. destruct (nth 0 y 0 <? 0)%Z; lra. }
  split; [exact Sub|]. split; [exact Pos|].
  destruct (H [[0%Z]] M line_sweep) as (Hf & _). destruct (Hf [0%Z] Hx) as [_ S]; [unfold const; cbn; lra | apply Pos | apply Pos |].
  destruct (S Sub) as [F Ha]. destruct (Ha 1%Z) as [E1 O1]; [unfold halo_width; cbn; lia|].
  set (M' := run_kernel fullJ (bk_eqs k) [[0%Z]] M) in *. unfold p_at. cbn [map].
  rewrite E1, (O1 "rho"%string), (O1 "rhou0"%string), (F "rho"%string), (F "rhou0"%string), (F "rhoE"%string) by (cbn; auto).
  unfold pressure_of, norm2, const, M. cbn. lra.
Qed.
Print Assumptions C76_inlet_pressure_refuted.

(* Refuted: the slip wall is determined by the values on the grid and its halos.  At the ends
   of the face the wall tangent is taken with coordinates beyond the halos. *)
Theorem C76_slip_reads_refuted :
  exists J ord np bh d side rho m0 m1 E cx cy k pts M1 M2 x,
    functions J /\ good_order ord /\ sweeps pts (on_face np bh d side) /\ with_halos np bh x /\
    slip2d_apply ord np bh d side (ns_arrays (List.length np) rho [m0; m1] E) (EDat cx (here (List.length np))) (EDat cy (here (List.length np))) = Ok k /\
    (forall b y, with_halos np bh y -> M1 b y = M2 b y) /\
    run_kernel J (bk_eqs k) pts M1 rho x <> run_kernel J (bk_eqs k) pts M2 rho x.
Proof.
  set (np := [2; 2]%Z). set (pts := [[-2; 0]; [-1; 0]; [0; 0]; [1; 0]; [2; 0]; [3; 0]]%Z).
  assert (Sw : sweeps pts (on_face np wall_example_halos 1 false)).
  { split; [repeat constructor; cbn; intuition discriminate|]. intros x. split.
    + intros H. cbn in H.
      repeat (destruct H as [<- | H]; [split; [reflexivity|]; split; [reflexivity|]; intros [|[|i]] Hi N; cbn in *; lia|]). destruct H.
    + intros (L & X & H). destruct x as [|a [|b [|c x]]]; try discriminate. cbn in X. subst b. specialize (H 0%nat ltac:(cbn; lia) ltac:(discriminate)).
      cbn in H. assert (C : (a = -2 \/ a = -1 \/ a = 0 \/ a = 1 \/ a = 2 \/ a = 3)%Z) by lia. cbn.
      destruct C as [-> | [-> | [-> | [-> | [-> | ->]]]]]; auto 8. }
  set (x := [3; 0]%Z). assert (Hx : on_face np wall_example_halos 1 false x) by (apply Sw; cbn; auto 8).
  set (M := fun (far : R) (b : string) (y : list Z) =>
    if string_dec b "x0" then 3 / 2 * IZR (nth 0 y 0%Z) else
    if string_dec b "x1" then (if (3 <? nth 0 y 0)%Z then far else 2 * IZR (nth 0 y 0%Z) + IZR (nth 1 y 0%Z)) else
    if string_dec b "rho" then 10 + IZR (nth 0 y 0%Z) else 0).
  destruct (C76_slip_wall fullJ std_order np wall_example_halos 1 false "rho" "rhou0" "rhou1" "rhoE" "x0" "x1") as (k & Ek & _ & H);
    auto using fullJ_functions, std_order_good; try (repeat constructor; cbn; intuition discriminate).
  exists fullJ, std_order, np, wall_example_halos, 1%nat, false, "rho"%string, "rhou0"%string, "rhou1"%string, "rhoE"%string, "x0"%string, "x1"%string, k, pts, (M 8), (M 4), x.
  split; [apply fullJ_functions|]. split; [apply std_order_good|]. split; [exact Sw|].
  split; [split; [reflexivity|]; intros [|[|i]] Hi; cbn in *; lia|]. split; [exact Ek|]. split.
  { intros b y (L & B). unfold M. destruct (string_dec b "x0"); auto. destruct (string_dec b "x1"); auto.
    specialize (B 0%nat ltac:(cbn; lia)). cbn in B. replace (3 <? nth 0 y 0)%Z with false; auto. symmetry. apply Z.ltb_ge. lia. }
  assert (Sx0 : forall f y, List.length y = 2%nat -> span (M f) "x0" 0 y = 3).
  { intros f y L. destruct y as [|a [|b [|c y]]]; try discriminate. unfold span, M. cbn [string_dec]. destruct (string_dec "x0" "x0") as [_ | N]; [|congruence].
    cbn [move nth]. rewrite !plus_IZR. lra. }
  assert (Nn : forall f y, List.length y = 2%nat -> span_norm (M f) "x0" "x1" 0 y <> 0).
  { intros f y L E0. unfold span_norm in E0. rewrite Sx0 in E0 by auto. set (c := span (M f) "x1" 0 y) in *. apply sqrt_eq_0 in E0; nra. }
  assert (Res : forall f (v : R), span (M f) "x1" 0 x = v -> 0 <= v ->
     run_kernel fullJ (bk_eqs k) pts (M f) "rho" x = 13 - 1 * (v / sqrt (3 * 3 + v * v)) / (5 / 2)).
  { intros f v Sv V0. destruct (H pts (M f) Sw) as [Hf _]. specialize (Hf x Hx). cbv zeta in Hf. cbn [Nat.sub] in Hf. rewrite Sv in Hf.
    destruct (Rle_dec 0 v) as [_ | N]; [|lra].
    assert (Di : distance (M f) "x0" "x1" (inwards 1 false 1 x) (move 0 (-1) (inwards 1 false 1 x)) = 5 / 2).
    { unfold distance, M, x, inwards. cbn. replace (_ + _) with ((5 / 2) * (5 / 2)) by field. apply sqrt_square. lra. }
    rewrite Di in Hf. destruct Hf as (Hr & _); [intros; apply Nn; rewrite move_length; reflexivity | lra |].
    rewrite Hr. unfold span_norm. rewrite Sx0, Sv by reflexivity. unfold M, x, inwards. cbn. lra. }
  rewrite (Res 8 4), (Res 4 0); try (unfold span, M, x; cbn; lra).
  replace (3 * 3 + 4 * 4) with (5 * 5) by ring. rewrite sqrt_square by lra. lra.
Qed.
Print Assumptions C76_slip_reads_refuted.
