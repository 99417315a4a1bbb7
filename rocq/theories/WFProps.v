(* C72, C73: the shock-capturing filter and the sensors that control it. *)
From Verif Require Import Base FDModel FDSpec FDProofs WenoModel WenoSpec WenoPoly WenoProofs EulerSpec EulerModel LLFModel LLFProofs ShiftSpec ShiftProofs WFModel WFSpec WFProofs.
From Coq Require Import QArith Reals Qreals List ZArith Lia Lra FunctionalExtensionality.
Import ListNotations.
Local Open Scope R_scope.

(* A filter is generated for WENO orders 3, 5 and 7 and for no other order. *)
Theorem C72_supported :
  forall order theta eps g line i, (exists w, filter_flux order theta eps g line i = Ok w) <-> In order [3; 5; 7]%nat.
Proof.
  intros order theta eps g line i. split.
  - intros (w & E). unfold filter_flux in E. destruct (central_weights order) as [ws|] eqn:H; [|discriminate].
    destruct (orders order ws H) as [-> | [-> | ->]]; cbn; auto.
  - intros [<- | [<- | [<- | []]]]; eapply filter_flux_ok; reflexivity.
Qed.
Print Assumptions C72_supported.

(* The flux that is subtracted from the WENO reconstruction is the interface form of the
   central scheme of order (order + 1): the difference of two neighbouring interface values
   is the central first-derivative formula that the central scheme generates. *)
Theorem C72_central_flux :
  forall order ws eps f i, central_weights order = Ok ws ->
  let pts := stencil_points (weno_scheme JS (Nat.div (order + 1) 2) eps) in
  central_flux ws pts (fun p => f (i + p)%Z) - central_flux ws pts (fun p => f (i - 1 + p)%Z)
  = grid_formula (Z.of_nat (order + 1)) 1 1 f i.
Proof. intros. apply central_difference. auto. Qed.
Print Assumptions C72_central_flux.
Example C72_central_flux_nonvacuous : exists ws, central_weights 5 = Ok ws.
Proof. eexists. reflexivity. Qed.

(* The nonlinearity sensor of a reconstruction lies between 0 and 1; it is 0 exactly when
   the nonlinear weights are the ideal ones, and 1 when all the weight is on a candidate
   whose ideal weight is the least. *)
Theorem C72_sensor :
  forall s k theta eps f, (2 <= k)%nat -> (1 <= theta)%nat -> 0 < eps ->
  (exists om, weno_weights s k eps f = Ok om /\ 0 <= sensor s k theta om <= 1 /\
     (sensor s k theta om = 0 <-> forall r, (r < k)%nat -> nth r om 0 = Q2R (nth r (opt_weights s k) 0%Q))) /\
  (forall r0, (r0 < k)%nat -> (forall r, (r < k)%nat -> Q2R (nth r0 (opt_weights s k) 0%Q) <= Q2R (nth r (opt_weights s k) 0%Q)) ->
     sensor s k theta (map (fun r => if Nat.eqb r r0 then 1 else 0) (seq 0 k)) = 1).
Proof.
  intros s k theta eps f Hk Ht He. split.
  - destruct (weno_weights_ok s k eps f Hk He) as (om & W & C & _). exists om. split; auto. split; [split; [apply sensor_nonneg; auto|apply sensor_le_1; auto]|].
    apply sensor_zero; auto.
  - intros r0 Hr Hm. apply sensor_one; auto.
Qed.
Print Assumptions C72_sensor.
Example C72_sensor_nonvacuous :
  (2 <= 3)%nat /\ (1 <= 4)%nat /\ 0 < 1 / 1000000 /\ forall r, (r < 3)%nat -> Q2R (nth 2 (opt_weights SRight 3) 0%Q) <= Q2R (nth r (opt_weights SRight 3) 0%Q).
Proof.
  repeat split; try lia; try lra. intros r Hr. apply Qle_Rle. destruct r as [|[|[|]]]; [| | |lia]; apply Qle_bool_iff; vm_compute; reflexivity.
Qed.

(* Where the weights of both reconstructions are ideal, what is left of the WENO flux after
   the central flux is subtracted is a multiple of an odd difference of the conserved
   characteristic variable: pure dissipation, with no part of the physical flux. *)
Theorem C72_pure_dissipation :
  forall order ws eps lam CF CS v, central_weights order = Ok ws ->
  let k := Nat.div (order + 1) 2 in
  let ideal s f := exists om, weno_weights s k eps f = Ok om /\ forall r, (r < k)%nat -> nth r om 0 = Q2R (nth r (opt_weights s k) 0%Q) in
  ideal SRight (positive_flux lam CF CS) -> ideal SLeft (negative_flux lam CF CS) ->
  combined (weno_scheme JS k eps) (positive_flux lam CF CS) (negative_flux lam CF CS) = Ok v ->
  v - central_flux ws (stencil_points (weno_scheme JS k eps)) CF
  = - Q2R (nth 0 ws 0%Q) * lam * difference order CS (1 - Z.of_nat k).
Proof.
  intros order ws eps lam CF CS v H k ideal IR IL E.
  assert (K : (2 <= k)%nat) by (unfold k; destruct (orders order ws H) as [-> | [-> | ->]]; cbn; lia).
  unfold combined in E. cbn [weno_scheme sch_rec] in E.
  rewrite (recon_ideal SRight k eps _ K IR), (recon_ideal SLeft k eps _ K IL) in E. cbn [bind] in E. injection E as <-.
  exact (dissipation order ws lam CF CS H).
Qed.
Print Assumptions C72_pure_dissipation.
Example C72_pure_dissipation_nonvacuous :
  exists ws, central_weights 5 = Ok ws /\
  let CF := fun j => 1 + 3 * IZR j in let CS := fun j => 2 - IZR j in
  (exists om, weno_weights SRight 3 (1 / 1000000) (positive_flux 2 CF CS) = Ok om /\ forall r, (r < 3)%nat -> nth r om 0 = Q2R (nth r (opt_weights SRight 3) 0%Q)) /\
  (exists om, weno_weights SLeft 3 (1 / 1000000) (negative_flux 2 CF CS) = Ok om /\ forall r, (r < 3)%nat -> nth r om 0 = Q2R (nth r (opt_weights SLeft 3) 0%Q)).
Proof.
  eexists. split; [reflexivity|]. cbv zeta. split; apply affine_ideal; try lia; try lra; apply affine_split.
  all: try (exists 1, 3; intros; reflexivity); exists 2, (-1); intros; ring.
Qed.

(* What the filter stores for an interface: with a number kap between 0 and 1 for each wave,
   the characteristic flux of the central scheme plus the filter flux is the mean
   (1 - kap) central + kap WENO; kap is 0 exactly where both reconstructions use the ideal
   weights. *)
Theorem C72_blend :
  forall order theta eps g line i w, (1 <= theta)%nat -> 0 < eps -> filter_flux order theta eps g line i = Ok w ->
  let k := Nat.div (order + 1) 2 in let sch := weno_scheme JS k eps in
  let st := average g Simple (line i) (line (i + 1)%Z) in
  let Lm := left_matrix g (s_k st) (s_rho st) (s_u st) (s_a st) in
  let Rm := right_matrix g (s_k st) (s_rho st) (s_u st) (s_a st) in
  let CF m := characteristic Lm m (fun p => c_F (line (i + p)%Z)) in
  let CS m := characteristic Lm m (fun p => c_U (line (i + p)%Z)) in
  let lam m := wave_speed (stencil_points sch) (speeds sch line i m) in
  let ideal s f := exists om, weno_weights s k eps f = Ok om /\ forall r, (r < k)%nat -> nth r om 0 = Q2R (nth r (opt_weights s k) 0%Q) in
  exists ws waves, central_weights order = Ok ws /\ w = mulvec Rm waves /\ List.length waves = List.length Lm /\
  forall m, (m < List.length Lm)%nat -> exists kap v,
    combined sch (positive_flux (lam m) (CF m) (CS m)) (negative_flux (lam m) (CF m) (CS m)) = Ok v /\ 0 <= kap <= 1 /\
    (kap = 0 <-> ideal SRight (positive_flux (lam m) (CF m) (CS m)) /\ ideal SLeft (negative_flux (lam m) (CF m) (CS m))) /\
    let central := central_flux ws (stencil_points sch) (CF m) in
    central + nth m waves 0 = (1 - kap) * central + kap * v.
Proof.
  intros order theta eps g line i w Ht He E. cbv zeta. unfold filter_flux in E. destruct (central_weights order) as [ws|] eqn:H; [|discriminate]. cbn [bind] in E.
  match type of E with context [collect ?l] => destruct (collect l) as [vs|] eqn:C; [|discriminate] end. cbn [bind] in E. injection E as <-.
  set (Lm := left_matrix _ _ _ _ _) in *. exists ws, vs. split; auto. split; auto.
  assert (G : forall A (l : list (result A)) xs, collect l = Ok xs -> map Ok xs = l).
  { induction l as [|r l IH]; intros xs D; cbn [collect] in D; [injection D as <-; reflexivity|]. destruct r; [|discriminate]. cbn [bind] in D.
    destruct (collect l) as [t|]; [|discriminate]. cbn [bind] in D. injection D as <-. cbn. rewrite (IH t); auto. }
  apply G in C. assert (Lv : List.length vs = List.length Lm) by (rewrite <- (map_length (@Ok R)), C, map_length, seq_length; auto).
  split; auto. intros m Hm.
  assert (Cm : Ok (nth m vs 0) = nth m (map (@Ok R) vs) (Ok 0)) by (rewrite map_nth; auto). rewrite C in Cm.
  match type of Cm with _ = nth m (map ?f _) _ => rewrite (nth_indep _ _ (f 0%nat)) in Cm by (rewrite map_length, seq_length; auto); rewrite (map_nth f), seq_nth in Cm by auto end. cbn [Nat.add] in Cm. symmetry in Cm.
  set (CF := characteristic Lm m (fun p => c_F (line (i + p)%Z))) in *. set (CS := characteristic Lm m (fun p => c_U (line (i + p)%Z))) in *.
  assert (K : (2 <= Nat.div (order + 1) 2)%nat) by (destruct (orders order ws H) as [-> | [-> | ->]]; cbn; lia).
  unfold filter_wave in Cm. set (k := Nat.div (order + 1) 2) in *. set (lam := wave_speed _ _) in *.
  destruct (combined (weno_scheme JS k eps) (positive_flux lam CF CS) (negative_flux lam CF CS)) as [v|]; [|discriminate]. cbn [bind] in Cm.
  unfold wave_sensor in Cm.
  destruct (weno_weights_ok SRight k eps (positive_flux lam CF CS) K He) as (r & WR & CR & _).
  destruct (weno_weights_ok SLeft k eps (negative_flux lam CF CS) K He) as (l & WL & CL & _).
  rewrite WR in Cm. cbn [bind] in Cm. rewrite WL in Cm. cbn [bind] in Cm. injection Cm as Cm.
  pose proof (sensor_nonneg SRight k theta K r) as R0. pose proof (sensor_nonneg SLeft k theta K l) as L0.
  pose proof (sensor_le_1 SRight k theta K Ht r CR) as R1. pose proof (sensor_le_1 SLeft k theta K Ht l CL) as L1.
  exists (Rmax (sensor SRight k theta r) (sensor SLeft k theta l)), v. split; auto.
  split; [split; [eapply Rle_trans; [exact R0 | apply Rmax_l] | apply Rmax_lub; auto]|].
  split; [|rewrite <- Cm; ring].
  rewrite WR, WL. split.
  - intros Z. pose proof (Rmax_l (sensor SRight k theta r) (sensor SLeft k theta l)). pose proof (Rmax_r (sensor SRight k theta r) (sensor SLeft k theta l)).
    split; [exists r | exists l]; (split; [reflexivity|]); apply (sensor_zero _ k theta K Ht); lra.
  - intros [(r' & Er & Ir) (l' & El & Il)]. injection Er as <-. injection El as <-.
    rewrite (proj2 (sensor_zero SRight k theta K Ht r) Ir), (proj2 (sensor_zero SLeft k theta K Ht l) Il). apply Rmax_left. lra.
Qed.
Print Assumptions C72_blend.
Example C72_blend_nonvacuous : forall line i, exists w, filter_flux 5 4 (1 / 1000000) (14 / 10) line i = Ok w.
Proof. intros. eapply filter_flux_ok. reflexivity. Qed.

(* A point whose fluxes and conserved variables are linear along every grid line, as far as
   the stencil of the two adjacent interfaces reaches, is left unchanged. *)
Theorem C72_linear :
  forall order theta eps g ndim (cells : nat -> list Z -> cell) (work : nat -> list Z -> list R) walls sizes delta FC dt kmax m q x,
  (1 <= theta)%nat -> 0 < eps ->
  (forall d y, (d < ndim)%nat -> filter_flux order theta eps g (fun j => cells d (move d j y)) 0 = Ok (work d y)) ->
  let k := Z.of_nat (Nat.div (order + 1) 2) in
  (forall d, (d < ndim)%nat ->
     (exists n, forall j, (- k <= j <= k)%Z -> List.length (c_F (cells d (move d j x))) = n /\ List.length (c_U (cells d (move d j x))) = n) /\
     (forall c, affine (- k) k (fun j => nth c (c_F (cells d (move d j x))) 0) /\ affine (- k) k (fun j => nth c (c_U (cells d (move d j x))) 0))) ->
  filtered ndim walls sizes delta FC dt kmax work m q x = q x.
Proof.
  intros order theta eps g ndim cells work walls sizes delta FC dt kmax m q x Ht He W k H. unfold filtered, filter_rhs.
  rewrite rsumR_map_0; [ring|]. intros d Hd. apply in_seq in Hd. unfold wd_derivative.
  destruct (H d ltac:(lia)) as [(n & L) A].
  assert (Z0 : forall v, (v = 0 \/ v = -1)%Z -> nth m (work d (move d v x)) 0 = 0).
  { intros v Hv. refine (filter_flux_affine order theta eps g _ 0 _ n Ht He _ _ (W d (move d v x) ltac:(lia)) m).
    - intros j Hj. rewrite move_move. apply L. fold k in Hj. lia.
    - intros c. fold k. destruct (A c) as [(a & b & T) (a' & b' & T')]. split.
      + exists (a + b * IZR v), b. intros j Hj. rewrite move_move, T by lia. rewrite plus_IZR. ring.
      + exists (a' + b' * IZR v), b'. intros j Hj. rewrite move_move, T' by lia. rewrite plus_IZR. ring. }
  replace (0 - 1)%Z with (-1)%Z by lia. rewrite !Z0 by auto. unfold Rdiv. ring.
Qed.
Print Assumptions C72_linear.
(* density and energy that vary linearly in a gas at rest, order 5, every direction *)
Definition ramp (d : nat) (x : list Z) : cell :=
  let r := 2 + IZR (nth 0 x 0%Z) in 
  let e := if Nat.eqb d 0 then [1; 0] else [0; 1] in mkcell [r; 0; 0; 5 / 2] ([0] ++ e ++ [0]) r [0; 0] (sqrt (7 / 5 / r)) 1 e.
Example C72_linear_nonvacuous :
  (exists work, forall d y, (d < 2)%nat -> filter_flux 5 4 (1 / 1000000) (7/5) (fun j => ramp d (move d j y)) 0 = Ok (work d y)) /\
  (forall d c, affine (-3) 3 (fun j => nth c (c_F (ramp d (move d j [4%Z; 5%Z]))) 0) /\ affine (-3) 3 (fun j => nth c (c_U (ramp d (move d j [4%Z; 5%Z]))) 0)).
Proof.
  split.
  - exists (fun d y => match filter_flux 5 4 (1 / 1000000) (7/5) (fun j => ramp d (move d j y)) 0 with Ok w => w | Err _ => [] end). intros d y _.
    destruct (proj2 (C72_supported 5 4 (1 / 1000000) (7/5) (fun j => ramp d (move d j y)) 0)) as (w & ->); [cbn; auto|reflexivity].
  - intros d c. split.
    + exists (nth c ([0] ++ (if Nat.eqb d 0 then [1; 0] else [0; 1]) ++ [0]) 0), 0. intros j _. cbn [ramp c_F]. ring.
    + destruct d as [|d].
      * exists (nth c [6; 0; 0; 5 / 2] 0), (nth c [1; 0; 0; 0] 0). intros j _. cbn [ramp c_U move nth]. rewrite plus_IZR.
        destruct c as [|[|[|[|[|]]]]]; cbn [nth]; ring.
      * exists (nth c [6; 0; 0; 5 / 2] 0), 0. intros j _. cbn [ramp c_U move nth]. destruct c as [|[|[|[|[|]]]]]; cbn [nth]; ring.
Qed.

(* The filter leaves the six points next to every wall unchanged and is switched on at every
   other point. *)
Theorem C72_near_walls :
  forall ndim walls sizes delta FC dt kmax work m q x,
  let near := exists d side, In (d, side) walls /\ (if side : bool then (nth d sizes 0 - 6 <= nth d x 0)%Z else (nth d x 0 <= 5)%Z) in
  (near -> filtered ndim walls sizes delta FC dt kmax work m q x = q x) /\
  (~ near -> filtered ndim walls sizes delta FC dt kmax work m q x = q x + FC * kmax x * dt * filter_rhs ndim delta work m x).
Proof.
  intros. unfold filtered, wall_variable. destruct (existsb _ walls) eqn:E; split; intros N.
  - ring.
  - exfalso. apply N. apply existsb_exists in E. destruct E as ((d, side) & I & C). exists d, side. split; auto. cbn [fst snd] in C. destruct side; apply Z.leb_le in C; auto.
  - exfalso. destruct N as (d & side & I & C). match type of E with ?X = false => assert (T : X = true) end.
    { apply existsb_exists. exists (d, side). split; auto. cbn [fst snd]. destruct side; apply Z.leb_le; auto. }
    rewrite T in E. discriminate.
  - ring.
Qed.
Print Assumptions C72_near_walls.
Example C72_near_walls_nonvacuous :
  let walls := [(1%nat, false)] in
  (exists d side, In (d, side) walls /\ if side : bool then (nth d [64; 64] 0 - 6 <= nth d [30; 5] 0)%Z else (nth d [30; 5] 0 <= 5)%Z) /\
  ~ (exists d side, In (d, side) walls /\ if side : bool then (nth d [64; 64] 0 - 6 <= nth d [30; 6] 0)%Z else (nth d [30; 6] 0 <= 5)%Z).
Proof.
  split; [exists 1%nat, false; split; [left; auto|cbn; lia]|]. intros (d & side & [E | []] & C). injection E as <- <-. cbn in C. lia.
Qed.

(* On a periodic block without walls the change of the total of a conserved variable is
   exactly the correlation of the filter fluxes with the jumps of the control kappa; so the
   filter conserves when kappa is constant. *)
Theorem C72_conservation :
  forall order theta eps g sizes (cells : nat -> list Z -> cell) (work : nat -> list Z -> list R) delta FC dt kmax m q,
  (forall d x, (d < List.length sizes)%nat -> filter_flux order theta eps g (fun j => cells d (move d j x)) 0 = Ok (work d x)) ->
  (forall d, (d < List.length sizes)%nat -> block_periodic sizes (cells d)) -> block_periodic sizes kmax ->
  let ndim := List.length sizes in
  let change := block_total sizes (filtered ndim [] (map Z.of_nat sizes) delta FC dt kmax work m q) - block_total sizes q in
  change = FC * dt * fold_right Rplus 0 (map (fun d => block_total sizes (fun x => (kmax (move d 1 x) - kmax x) * nth m (work d x) 0) / delta d) (seq 0 ndim)) /\
  ((exists c, forall x, kmax x = c) -> change = 0).
Proof.
  intros order theta eps g sizes cells work delta FC dt kmax m q W P Pk ndim change.
  assert (Pw : forall d, In d (seq 0 ndim) -> block_periodic sizes (fun x => nth m (work d x) 0)).
  { intros d Hd e x He L. apply in_seq in Hd. f_equal. assert (E : Ok (work d (move e (Z.of_nat (nth e sizes 0%nat)) x)) = Ok (work d x)); [|congruence].
    rewrite <- !W by lia. set (w := Z.of_nat (nth e sizes 0%nat)) in *.
    assert (G : forall line line', (forall j, line j = line' j) -> filter_flux order theta eps g line 0 = filter_flux order theta eps g line' 0).
    { intros l l' G. apply functional_extensionality in G. rewrite G. auto. }
    apply G. intros j. assert (C : move d j (move e w x) = move e w (move d j x)).
    { clearbody w. clear. revert e x. induction d as [|d IH]; intros [|e] [|i x]; cbn [move]; auto; [f_equal; lia|f_equal; apply IH]. }
    rewrite C. apply P; [lia|auto|]. rewrite move_length. auto. }
  assert (F : change = FC * dt * rsumR (map (fun d => block_total sizes (fun x => (kmax (move d 1 x) - kmax x) * nth m (work d x) 0) / delta d) (seq 0 ndim))).
  { rewrite <- (filtered_total sizes (seq 0 ndim) kmax (fun d x => nth m (work d x) 0) delta (FC * dt)); auto; [|intros d Hd; apply in_seq in Hd; lia].
    unfold change, filtered. rewrite bt_plus. unfold Rminus. rewrite (Rplus_comm (block_total sizes q)), Rplus_assoc, Rplus_opp_r, Rplus_0_r.
    apply bt_ext. intros x L. unfold wall_variable. cbn [existsb]. unfold filter_rhs, wd_derivative.
    rewrite (rsumR_map_ext _ (fun d => - ((nth m (work d x) 0 - nth m (work d (move d (-1) x)) 0) / delta d)) (fun d => - ((nth m (work d (move d 0 x)) 0 - nth m (work d (move d (0 - 1) x)) 0) / delta d))); [ring|].
    intros d _. replace (0 - 1)%Z with (-1)%Z by lia. do 5 f_equal. clear. revert x. induction d as [|d IH]; intros [|i x]; cbn [move]; auto; [f_equal; lia|f_equal; apply IH]. }
  split; [exact F|]. intros (c & Hc). rewrite F, rsumR_map_0; [ring|]. intros d _.
  rewrite (bt_ext sizes _ (fun x => 0 * 0)) by (intros; rewrite !Hc; ring). rewrite bt_scale. unfold Rdiv. ring.
Qed.
Print Assumptions C72_conservation.
(* a density wave on a periodic 2 x 3 block *)
Definition checker (d : nat) (x : list Z) : cell :=
  let r := if Z.even (nth 0 x 0%Z) then 1 else 2 in 
  let e := if Nat.eqb d 0 then [1; 0] else [0; 1] in mkcell [r; 0; 0; 5 / 2] ([0] ++ e ++ [0]) r [0; 0] (sqrt (7 / 5 / r)) 1 e.
Example C72_conservation_nonvacuous :
  (exists work, forall d x, (d < 2)%nat -> filter_flux 3 4 (1 / 1000000) (7/5) (fun j => checker d (move d j x)) 0 = Ok (work d x)) /\
  (forall d, block_periodic [2; 3]%nat (checker d)) /\ block_periodic [2; 3]%nat (fun x => if Z.even (nth 0 x 0%Z) then 1 else 0).
Proof.
  assert (P : forall d (x : list Z), (d < 2)%nat -> List.length x = 2%nat -> Z.even (nth 0 (move d (Z.of_nat (nth d [2; 3]%nat 0%nat)) x) 0%Z) = Z.even (nth 0 x 0%Z)).
  { intros d x Hd L. destruct x as [|a [|b [|]]]; try discriminate. destruct d as [|[|]]; [| |lia]; cbn [nth move]; auto. rewrite Z.even_add. cbn. destruct (Z.even a); auto. }
  split; [|split].
  - exists (fun d y => match filter_flux 3 4 (1 / 1000000) (7/5) (fun j => checker d (move d j y)) 0 with Ok w => w | Err _ => [] end). intros d y _.
    destruct (proj2 (C72_supported 3 4 (1 / 1000000) (7/5) (fun j => checker d (move d j y)) 0)) as (w & ->); [cbn; auto|reflexivity].
  - intros d e x He L. unfold checker. rewrite P; auto.
  - intros e x He L. rewrite P; auto.
Qed.

(* C73: the sensors *)
(* The Ducros sensor exists in two and three dimensions only, lies in [0, 1), vanishes
   exactly where the computed divergence does, and is at least as large in a compression as
   in the expansion with the opposite velocity gradient. *)
Theorem C73_ducros :
  forall eps ndim grad, 0 < eps ->
  ((exists v, ducros eps ndim grad = Ok v) <-> (ndim = 2 \/ ndim = 3)%nat) /\
  (forall v, ducros eps ndim grad = Ok v -> 0 <= v < 1 /\ (v = 0 <-> divergence ndim grad = 0)) /\
  (forall v v', 0 <= divergence ndim grad -> ducros eps ndim grad = Ok v -> ducros eps ndim (fun i j => - grad i j) = Ok v' -> v <= v').
Proof.
  intros eps ndim grad He.
  assert (S1 : (exists v, ducros eps ndim grad = Ok v) <-> (ndim = 2 \/ ndim = 3)%nat).
  { split; [|intros H; destruct (ducros_range eps ndim grad He H) as (v & E & _); eauto].
    intros (v & E). unfold ducros in E. destruct ndim as [|[|[|[|n]]]]; cbn [vorticity_sq bind] in E; try discriminate; auto. }
  split; [exact S1|]. split.
  - intros v E. destruct (ducros_range eps ndim grad He) as (v' & E' & R' & Z'); [apply S1; eauto|]. rewrite E in E'. injection E' as <-. auto.
  - intros v v' D E E'. eapply ducros_compression; eauto.
Qed.
Print Assumptions C73_ducros.
Example C73_ducros_nonvacuous : 0 < 1 / 1000000000000 /\ 0 <= divergence 2 (fun i j => if Nat.eqb i j then 1 else 0) /\ divergence 2 (fun i j => if Nat.eqb i j then 1 else 0) = 2.
Proof. unfold divergence. cbn. repeat split; lra. Qed.

(* The control kappa at a point is the largest value of the sensor at the point and at the
   two neighbours on each side in every direction. *)
Theorem C73_kappa_max :
  forall ndim kappa x, (1 <= ndim)%nat -> (0 < List.length x)%nat ->
  (forall d l, (d < ndim)%nat -> (-2 <= l <= 2)%Z -> kappa (move d l x) <= kappa_max ndim kappa x) /\
  (exists d l, (d < ndim)%nat /\ (-2 <= l <= 2)%Z /\ kappa_max ndim kappa x = kappa (move d l x)).
Proof.
  intros ndim kappa x Hn Hx. destruct (kappa_max_ok ndim kappa x) as (A & _ & C). split; auto.
  destruct C as [E|C]; auto. exists 0%nat, 0%Z. split; [lia|]. split; [lia|]. destruct x as [|i x]; [cbn in Hx; lia|]. cbn [move]. rewrite Z.add_0_r. auto.
Qed.
Print Assumptions C73_kappa_max.
Example C73_kappa_max_nonvacuous : (1 <= 3)%nat /\ (0 < List.length [4; 5; 6]%Z)%nat.
Proof. cbn. lia. Qed.

(* The Mach-number sensor lies in [0, 1] and vanishes exactly in a gas at rest. *)
Theorem C73_yee :
  forall g rho rhoE mom, 0 < g -> 0 < rho ->
  0 < (g - 1) * (rhoE - 1/2 * fold_right Rplus 0 (map (fun y => y ^ 2) mom) * (1 / rho)) ->
  0 <= yee_sensor g rho rhoE mom <= 1 /\ (yee_sensor g rho rhoE mom = 0 <-> Forall (fun y => y = 0) mom).
Proof. intros. apply yee_ok; auto. Qed.
Print Assumptions C73_yee.
Example C73_yee_nonvacuous : 0 < (14/10 - 1) * (5 - 1/2 * fold_right Rplus 0 (map (fun y => y ^ 2) [1; 2]) * (1 / 1)) /\ ~ Forall (fun y => y = 0) [1; 2].
Proof. cbn. split; [lra|]. intros F. inversion F. lra. Qed.
