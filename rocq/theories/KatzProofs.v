(* Proofs about the boundary-layer initial conditions (C83). *)
From Verif Require Import Base BaseProofs Expr ExprProofs KernelModel ShiftSpec ShiftProofs BCModel BCSpec BCGasSpec BC2Model StoreModel DiscModel DiscRun InitModel InitSpec InitProofs.
From Verif Require Import KatzModel KatzSpec.
From Verif Require UserProofs BCKern KernelProofs StoreShock.
From Coq Require Import QArith ZArith Reals Qreals Lia Lra.
Local Close Scope Q_scope.
Local Open Scope list_scope.
Open Scope R_scope.

(* ---- values ---- *)
Section vals.
Variables (J : interp R) (n : nat) (x : list Z).
Hypothesis F : initial_functions J.
Hypothesis Lx : List.length x = n.
Notation mem := (string -> list Z -> R).
Notation locals := (string -> R).
Variables (M : mem) (L : locals).
Notation val e := (BCModel.at_point (with_index J x) M L x e).
Lemma v_app : forall h l, val (EApp h l) = iapp J h (map (fun e => val e) l).
Proof. reflexivity. Qed.
Lemma v_num : forall q, val (ENum q) = Q2R q.
Proof. intros q. cbn. apply (r_num J (i_reals J F)). Qed.
Lemma v_var : forall g, val (evar g) = L g.
Proof. reflexivity. Qed.
Lemma v_const : forall s, val (econst s) = const J s.
Proof. reflexivity. Qed.
Lemma v_dat : forall b, val (EDat b (repeat 0%Z n)) = M b x.
Proof. intros b. cbn. subst n. rewrite vadd_0_r; auto. Qed.
Lemma v_add : forall l, val (eadd l) = fold_right Rplus 0 (map (fun e => val e) l).
Proof. intros. unfold eadd. rewrite v_app. apply (r_add J (i_reals J F)). Qed.
Lemma v_mul : forall l, val (emul l) = fold_right Rmult 1 (map (fun e => val e) l).
Proof. intros. unfold emul. rewrite v_app. apply (r_mul J (i_reals J F)). Qed.
Lemma v_int : forall z, val (eint z) = IZR z.
Proof. intros z. unfold eint. rewrite v_num. unfold Q2R. cbn. lra. Qed.
Lemma v_inv : forall a, val (epow a (-1 # 1)) = / val a.
Proof. intros a. unfold epow. rewrite v_app. cbn [map]. rewrite v_num. apply (r_inv J (i_reals J F)). Qed.
Lemma v_div : forall a b, val (ediv a b) = val a / val b.
Proof. intros a b. unfold ediv. rewrite v_mul. cbn [map fold_right]. rewrite v_inv. unfold Rdiv. ring. Qed.
Lemma v_sub : forall a b, val (esub a b) = val a - val b.
Proof. intros a b. unfold esub. rewrite v_add. cbn [map fold_right]. rewrite v_mul. cbn [map fold_right]. rewrite v_int. ring. Qed.
Lemma v_sqr : forall a, val (epow a 2) = val a * val a.
Proof. intros a. unfold epow. rewrite v_app. cbn [map]. rewrite v_num. apply (r_sqr J (i_reals J F)). Qed.
Lemma v_pow : forall a p, val (epow a (Z.of_nat p # 1)) = val a ^ p.
Proof. intros a p. unfold epow. rewrite v_app. cbn [map]. rewrite v_num. apply (i_power J F). Qed.
Lemma v_lt : forall a b c d, val (epiece c (elt a b) d) = below (val a) (val b) (val c) (val d).
Proof.
  intros a b c d. unfold epiece, elt, etrue, below. rewrite !v_app. cbn [map]. rewrite !v_app. cbn [map]. rewrite (i_lt J F), (i_true J F).
  destruct (Rlt_dec (val a) (val b)); [apply (i_first J F) | apply (i_second J F)].
Qed.
Lemma v_le : forall a b c d, val (epiece c (ele a b) d) = if Rle_dec (val a) (val b) then val c else val d.
Proof.
  intros a b c d. unfold epiece, ele, etrue. rewrite !v_app. cbn [map]. rewrite !v_app. cbn [map]. rewrite (i_le J F), (i_true J F).
  destruct (Rle_dec (val a) (val b)); [apply (i_first J F) | apply (i_second J F)].
Qed.
Lemma horner_snoc : forall cs c y, horner (cs ++ [c]) y = horner cs y * y + Q2R c.
Proof. intros. unfold horner. rewrite fold_left_app. reflexivity. Qed.
Lemma horner_from : forall cs y v, fold_left (fun v c => v * y + Q2R c) cs v = v * y ^ List.length cs + horner cs y.
Proof.
  induction cs as [|c cs IH]; intros y v; [cbn; ring|]. unfold horner. cbn [fold_left List.length]. rewrite (IH y (v * y + Q2R c)), (IH y (0 * y + Q2R c)). cbn [pow]. ring.
Qed.
Lemma v_poly : forall c cs, val (polynomial c cs (powers cs)) = horner cs (val c).
Proof.
  intros c cs. unfold polynomial, powers. rewrite v_add. set (y := val c).
  induction cs as [|q cs IH]; [reflexivity|]. cbn [List.length]. rewrite seq_S, rev_app_distr. cbn [rev app map2 map fold_right Nat.add].
  rewrite IH, v_mul. cbn [map fold_right]. rewrite v_num, v_pow. fold y. unfold horner at 2. cbn [fold_left]. rewrite horner_from. ring.
Qed.
Lemma v_poly_len : forall c cs (ds : list Q), List.length cs = List.length ds -> val (polynomial c cs (powers ds)) = horner cs (val c).
Proof. intros c cs ds E. rewrite <- v_poly. unfold powers. rewrite E. reflexivity. Qed.
Lemma v_half : forall e, val (half e) = val e / 2.
Proof. intros e. unfold half. rewrite v_div, v_int. reflexivity. Qed.
Lemma v_length : forall b, val (domain_length b) = width J b.
Proof. intros b. unfold domain_length, width. rewrite v_mul. cbn [map fold_right]. rewrite v_sub, v_int, !v_const. ring. Qed.
End vals.

(* ---- one assignment after the other ---- *)
Section steps.
Variables (J : interp R) (truth : R -> bool) (n : nat) (x : list Z).
Hypothesis Lx : List.length x = n.
Notation st := ((string -> list Z -> R) * (string -> R))%type.
Notation RL := (run_list J truth x).
Lemma step_loc : forall g r qs (s : st), RL (KEq (evar g) r :: qs) s = RL qs (fst s, BCModel.updl (snd s) g (BCModel.at_point (with_index J x) (fst s) (snd s) x r)).
Proof. reflexivity. Qed.
Lemma step_arr : forall b r qs (s : st), RL (KEq (edat n b) r :: qs) s = RL qs (BCModel.upd (fst s) b x (BCModel.at_point (with_index J x) (fst s) (snd s) x r), snd s).
Proof. intros b r qs s. unfold run_list. cbn [fold_left]. f_equal. apply (exec1_arr J n x Lx). Qed.
End steps.

(* reading what was written *)
Ltac lookup := unfold BCModel.updl, BCModel.upd; cbn [string_dec string_rec string_rect sumbool_rec sumbool_rect
  Ascii.ascii_dec Ascii.ascii_rec Ascii.ascii_rect Bool.bool_dec bool_rec bool_rect].
Ltac names := repeat match goal with
  | |- context [string_dec ?a ?b] => let d := eval vm_compute in (match string_dec a b with left _ => true | right _ => false end) in
      match d with
      | true => destruct (string_dec a b) as [_ | N]; [|exfalso; apply N; reflexivity]
      | false => destruct (string_dec a b) as [N | _]; [discriminate N|]
      end
  end.

Section point.
Variables (J : interp R) (truth : R -> bool) (n : nat) (x : list Z).
Hypothesis F : initial_functions J.
Hypothesis Lx : List.length x = n.
Notation st := ((string -> list Z -> R) * (string -> R))%type.
Notation RL := (run_list J truth x).
Notation g_ := (const J "gama").
Notation ma := (const J "Minf").

(* the stores at the end of both lists *)
Notation energy := (KatzSpec.energy J).
Lemma energy_val : forall M (L : string -> R) moms, 
  BCModel.at_point (with_index J x) M L x (total_energy moms) = energy (map L moms) (L "rho"%string) (L "T"%string).
Proof.
  intros M L moms. unfold total_energy. rewrite (v_add J x F). cbn [map fold_right]. rewrite !(v_div J x F), !(v_mul J x F). cbn [map fold_right].
  rewrite (v_sub J x F), (v_int J x F), (v_sqr J x F), !(v_add J x F), (v_num J x F), !v_var, !v_const. unfold KatzSpec.energy.
  assert (S : fold_right Rplus 0 (map (fun e => BCModel.at_point (with_index J x) M L x e) (map (fun m => epow (evar m) 2) moms)) = norm2 (map L moms)).
  { unfold norm2. induction moms as [|m ms IH]; [reflexivity|]. cbn [map fold_right vdot]. rewrite IH, (v_sqr J x F), v_var. reflexivity. }
  rewrite S. replace (Q2R (1 # 2)) with (/ 2) by (unfold Q2R; cbn; lra).
  replace (g_ * ((g_ - 1) * (ma * ma * 1))) with (g_ * (g_ - 1) * (ma * ma)) by ring.
  unfold Rdiv. rewrite (Rinv_mult 2). generalize (/ (g_ * (g_ - 1) * (ma * ma))). intros w. ring.
Qed.

Notation P f y := (profile f y).
Lemma one_wall_point : forall c fu fv fT (s : st), ~ In c conserved ->
  let s' := RL (one_wall_equations n (EDat c (repeat 0%Z n)) fu fv fT) s in
  let y := fst s c x in
  let T := P fT y in
  fst s' "rho"%string x = 1 / T /\ fst s' "rhou0"%string x = P fu y /\ fst s' "rhou1"%string x = P fv y /\
  fst s' "rhoE"%string x = energy [P fu y; P fv y] (1 / T) T /\
  (n = 3%nat -> fst s' "rhou2"%string x = 0) /\
  (forall b z, ~ In b conserved \/ z <> x -> fst s' b z = fst s b z).
Proof.
  intros c fu fv fT s Hc s' y T. unfold s', one_wall_equations, fit_equation, form_equation, store_eq. cbn [app]. clear s'.
  assert (V : forall f L, BCModel.at_point (with_index J x) (fst s) L x (epiece (polynomial (EDat c (repeat 0%Z n)) (fit_coeffs f) (powers (fit_coeffs f))) (elt (EDat c (repeat 0%Z n)) (ENum (fit_edge f))) (ENum (fit_free f))) = P f y).
  { intros f L. rewrite (v_lt J x F), (v_poly J x F), !(v_num J x F), (v_dat J n x Lx). reflexivity. }
  rewrite !step_loc. cbn [fst snd]. rewrite !V. set (L3 := BCModel.updl _ "T"%string _). rewrite (v_div J x F), (v_int J x F), v_var.
  assert (E0 : L3 "T"%string = T) by (unfold L3, BCModel.updl; names; reflexivity). rewrite E0.
  set (L4 := BCModel.updl L3 _ _).
  assert (Er : L4 "rho"%string = 1 / T) by (unfold L4, BCModel.updl; names; reflexivity).
  assert (Eu : L4 "rhou0"%string = P fu y) by (unfold L4, L3, BCModel.updl; names; reflexivity).
  assert (Ev : L4 "rhou1"%string = P fv y) by (unfold L4, L3, BCModel.updl; names; reflexivity).
  assert (ET : L4 "T"%string = T) by (unfold L4, L3, BCModel.updl; names; reflexivity).
  clearbody L4. rewrite !(step_arr J truth n x Lx). cbn [fst snd]. rewrite !v_var, energy_val. cbn [map]. rewrite Er, Eu, Ev, ET.
  assert (X : forall (B : Type) (a b : B), (if list_eq_dec Z.eq_dec x x then a else b) = a) by (intros; destruct (list_eq_dec Z.eq_dec x x); congruence).
  assert (N : forall M' : string -> list Z -> R, M' = BCModel.upd (BCModel.upd (BCModel.upd (BCModel.upd (fst s) "rho" x (1 / T)) "rhou0" x (P fu y)) "rhou1" x (P fv y)) "rhoE" x (energy [P fu y; P fv y] (1 / T) T) ->
    M' "rho"%string x = 1 / T /\ M' "rhou0"%string x = P fu y /\ M' "rhou1"%string x = P fv y /\ M' "rhoE"%string x = energy [P fu y; P fv y] (1 / T) T /\
    (forall b z, ~ In b conserved \/ z <> x -> M' b z = fst s b z)).
  { intros M' ->. unfold BCModel.upd. names. rewrite !X. repeat (split; [reflexivity|]).
    intros b z H. repeat match goal with |- context [string_dec ?a b] => destruct (string_dec a b) as [<- | ?] end; auto;
      destruct (list_eq_dec Z.eq_dec x z) as [-> | ?]; auto; exfalso; destruct H as [H | H]; (apply H; cbn; tauto) || congruence. }
  match goal with |- context [BCModel.upd ?m "rhoE"%string x ?v] => set (M4 := BCModel.upd m "rhoE"%string x v) end.
  destruct (N M4 eq_refl) as (A1 & A2 & A3 & A4 & A5). clearbody M4. clear N.
  destruct (Nat.eqb_spec n 3) as [N3 | N3].
  - rewrite (step_arr J truth n x Lx). cbn [fst snd run_list fold_left]. rewrite (v_int J x F). unfold BCModel.upd. names.
    repeat (split; [assumption|]). split; [intros _; apply X|]. intros b z H. destruct (string_dec "rhou2" b) as [<- | ?]; [|auto].
    destruct (list_eq_dec Z.eq_dec x z) as [-> | ?]; [|auto]. exfalso. destruct H as [H | H]; [apply H; cbn; tauto | congruence].
  - cbn [run_list fold_left fst]. repeat (split; [assumption|]). split; [congruence | assumption].
Qed.

(* two walls *)
Lemma two_wall_point : forall b c1 c2 w1 w2 (s : st), same_lengths w1 w2 ->
  let s' := RL (two_wall_equations n b (EDat c1 (repeat 0%Z n)) (EDat c2 (repeat 0%Z n)) w1 w2) s in
  let f := two_layers w1 w2 (const J "Twall") (width J b) (fst s c1 x) (fst s c2 x) in
  fst s' "rho"%string x = 1 / f_T f /\ fst s' "rhou0"%string x = f_rhou f /\ fst s' "rhou1"%string x = f_rhov f /\ fst s' "rhou2"%string x = f_rhow f /\
  fst s' "rhoE"%string x = energy [f_rhou f; f_rhov f; f_rhow f] (1 / f_T f) (f_T f) /\
  (forall a z, ~ In a conserved \/ z <> x -> fst s' a z = fst s a z).
Proof.
  intros b c1 c2 w1 w2 s SL s' f. unfold s', two_wall_equations, local_coordinate_eq, side_factor_eq, mixed_equations, store_eq. cbn [app]. clear s'.
  assert (V1 : forall L, BCModel.at_point (with_index J x) (fst s) L x (EDat c1 (repeat 0%Z n)) = fst s c1 x) by (intros; apply (v_dat J n x Lx)).
  assert (V2 : forall L, BCModel.at_point (with_index J x) (fst s) L x (EDat c2 (repeat 0%Z n)) = fst s c2 x) by (intros; apply (v_dat J n x Lx)).
  set (y := fst s c1 x) in *. set (z := fst s c2 x) in *. set (Lz := width J b) in *.
  assert (SLp : forall cs, cs = w_rhou w1 \/ In cs [w_g w1; w_normal w1; w_rhou w2; w_g w2; w_normal w2] -> List.length cs = List.length (w_rhou w1)) by (intros cs [-> | H]; auto).
  assert (VP : forall L e cs, cs = w_rhou w1 \/ In cs [w_g w1; w_normal w1; w_rhou w2; w_g w2; w_normal w2] ->
    BCModel.at_point (with_index J x) (fst s) L x (polynomial e cs (powers (w_rhou w1))) = horner cs (BCModel.at_point (with_index J x) (fst s) L x e)).
  { intros L e cs H. apply (v_poly_len J x F). auto. }
  rewrite (step_loc J truth x "local_coord"). cbn [fst snd]. rewrite (v_le J x F), (v_sub J x F). rewrite (v_half J x F), !(v_length J x F), V2.
  fold Lz. fold (fold_over Lz z). set (L1 := BCModel.updl (snd s) _ _).
  assert (E1 : L1 "local_coord"%string = fold_over Lz z) by (unfold L1, BCModel.updl; names; reflexivity). clearbody L1.
  rewrite (step_loc J truth x "side_fact"). cbn [fst snd]. rewrite (v_le J x F). rewrite (v_half J x F), !(v_length J x F), !(v_int J x F), V2.
  fold Lz. change (if Rle_dec z (Lz / 2) then 1 else -1) with (facing Lz z). set (sg := fold_over Lz z) in *.
  set (L2 := BCModel.updl L1 _ _).
  assert (E2 : L2 "local_coord"%string = sg /\ L2 "side_fact"%string = facing Lz z) by (unfold L2, BCModel.updl; names; auto). clearbody L2. clear E1 L1.
  rewrite (step_loc J truth x "rhou0_1"). cbn [fst snd]. rewrite (v_lt J x F), VP by auto. rewrite V1, (v_num J x F), (v_int J x F).
  change (below y (Q2R (w_edge w1)) (horner (w_rhou w1) y) 1) with (ramp w1 (w_rhou w1) y). set (U1 := ramp w1 (w_rhou w1) y) in *.
  set (L3 := BCModel.updl L2 _ _).
  assert (E3 : L3 "local_coord"%string = sg /\ L3 "side_fact"%string = facing Lz z /\ L3 "rhou0_1"%string = U1) by (unfold L3, BCModel.updl; names; tauto). clearbody L3. clear E2 L2.
  rewrite (step_loc J truth x "rhou0_2"). cbn [fst snd]. rewrite (v_lt J x F), VP by (cbn; auto). rewrite v_var, (v_num J x F), (v_int J x F), (proj1 E3).
  change (below sg (Q2R (w_edge w2)) (horner (w_rhou w2) sg) 1) with (ramp w2 (w_rhou w2) sg). set (U2 := ramp w2 (w_rhou w2) sg) in *.
  set (L4 := BCModel.updl L3 _ _).
  assert (E4 : L4 "local_coord"%string = sg /\ L4 "side_fact"%string = facing Lz z /\ L4 "rhou0_1"%string = U1 /\ L4 "rhou0_2"%string = U2) by (unfold L4, BCModel.updl; names; tauto). clearbody L4. clear E3 L3.
  rewrite (step_loc J truth x "rhou0"). cbn [fst snd]. rewrite (v_mul J x F). cbn [map fold_right]. rewrite !v_var. destruct E4 as (E41 & E42 & E43 & E44). rewrite E43, E44, Rmult_1_r.
  set (L5 := BCModel.updl L4 _ _).
  assert (E5 : L5 "local_coord"%string = sg /\ L5 "side_fact"%string = facing Lz z /\ L5 "rhou0_1"%string = U1 /\ L5 "rhou0_2"%string = U2 /\ L5 "rhou0"%string = U1 * U2) by (unfold L5, BCModel.updl; names; tauto). clearbody L5. clear E41 E42 E43 E44 L4.
  rewrite (step_loc J truth x "T_1"). cbn [fst snd]. rewrite (v_lt J x F), VP by (cbn; auto). rewrite V1, (v_num J x F), (v_int J x F).
  change (below y (Q2R (w_edge w1)) (horner (w_g w1) y) 1) with (ramp w1 (w_g w1) y). set (G1 := ramp w1 (w_g w1) y) in *.
  set (L6 := BCModel.updl L5 _ _).
  assert (E6 : L6 "local_coord"%string = sg /\ L6 "side_fact"%string = facing Lz z /\ L6 "rhou0_1"%string = U1 /\ L6 "rhou0_2"%string = U2 /\ L6 "rhou0"%string = U1 * U2 /\ L6 "T_1"%string = G1) by (unfold L6, BCModel.updl; names; tauto). clearbody L6. clear E5 L5.
  rewrite (step_loc J truth x "T_2"). cbn [fst snd]. rewrite (v_lt J x F), VP by (cbn; auto 10). rewrite v_var, (v_num J x F), (v_int J x F), (proj1 E6).
  change (below sg (Q2R (w_edge w2)) (horner (w_g w2) sg) 1) with (ramp w2 (w_g w2) sg). set (G2 := ramp w2 (w_g w2) sg) in *.
  set (L7 := BCModel.updl L6 _ _).
  assert (E7 : L7 "local_coord"%string = sg /\ L7 "side_fact"%string = facing Lz z /\ L7 "rhou0_1"%string = U1 /\ L7 "rhou0_2"%string = U2 /\ L7 "rhou0"%string = U1 * U2 /\ L7 "T_1"%string = G1 /\ L7 "T_2"%string = G2) by (unfold L7, BCModel.updl; names; tauto). clearbody L7. clear E6 L6.
  rewrite (step_loc J truth x "T"). cbn [fst snd]. rewrite (v_add J x F). cbn [map fold_right]. rewrite (v_mul J x F). cbn [map fold_right]. rewrite (v_sub J x F), !v_var, v_const, (v_int J x F).
  destruct E7 as (E71 & E72 & E73 & E74 & E75 & E76 & E77). rewrite E76, E77. set (Tw := const J "Twall") in *.
  replace (G1 * (G2 * ((1 - Tw) * 1)) + (Tw + 0)) with (f_T f) by (unfold f, two_layers; cbn [f_T]; fold sg G1 G2; ring).
  set (L8 := BCModel.updl L7 _ _).
  assert (E8 : L8 "local_coord"%string = sg /\ L8 "side_fact"%string = facing Lz z /\ L8 "rhou0_1"%string = U1 /\ L8 "rhou0_2"%string = U2 /\ L8 "rhou0"%string = U1 * U2 /\ L8 "T"%string = f_T f) by (unfold L8, BCModel.updl; names; tauto). clearbody L8. clear E71 E72 E73 E74 E75 E76 E77 L7.
  rewrite (step_loc J truth x "rhou1"). cbn [fst snd]. rewrite (v_lt J x F), !(v_mul J x F). cbn [map fold_right]. rewrite VP by (cbn; auto 10). rewrite V1, !v_var, !(v_num J x F).
  destruct E8 as (E81 & E82 & E83 & E84 & E85 & E86). rewrite E84.
  replace (below y (Q2R (w_edge w1)) (horner (w_normal w1) y * (U2 * 1)) (Q2R (w_normal_free w1) * (U2 * 1))) with (f_rhov f)
    by (unfold f, two_layers, below; cbn [f_rhov]; fold sg U2; destruct (Rlt_dec y (Q2R (w_edge w1))); ring).
  set (L9 := BCModel.updl L8 _ _).
  assert (E9 : L9 "local_coord"%string = sg /\ L9 "side_fact"%string = facing Lz z /\ L9 "rhou0_1"%string = U1 /\ L9 "rhou0"%string = U1 * U2 /\ L9 "T"%string = f_T f /\ L9 "rhou1"%string = f_rhov f) by (unfold L9, BCModel.updl; names; tauto). clearbody L9. clear E81 E82 E83 E84 E85 E86 L8.
  rewrite (step_loc J truth x "rhou2"). cbn [fst snd]. rewrite (v_mul J x F). cbn [map fold_right]. rewrite (v_lt J x F), !(v_mul J x F). cbn [map fold_right]. rewrite VP by (cbn; auto 10).
  rewrite !(v_sub J x F), (v_div J x F), !(v_sub J x F), !(v_mul J x F). cbn [map fold_right]. rewrite (v_length J x F), !v_var, !(v_num J x F), (v_int J x F).
  destruct E9 as (E91 & E92 & E93 & E94 & E95 & E96). rewrite E91, E92, E93. replace (Q2R (1 # 2) * (width J b * 1)) with (Lz / 2) by (unfold Q2R, Lz; cbn; lra).
  match goal with |- context [BCModel.updl L9 "rhou2"%string ?v] => replace v with (f_rhow f)
    by (unfold f, two_layers, below; cbn [f_rhow]; fold sg U1; destruct (Rlt_dec sg (Q2R (w_edge w2))); ring) end.
  set (L10 := BCModel.updl L9 _ _).
  assert (E10 : L10 "rhou0"%string = f_rhou f /\ L10 "T"%string = f_T f /\ L10 "rhou1"%string = f_rhov f /\ L10 "rhou2"%string = f_rhow f) by (unfold L10, BCModel.updl; names; tauto). clearbody L10. clear E91 E92 E93 E94 E95 E96 L9.
  rewrite (step_loc J truth x "rho"). cbn [fst snd]. rewrite (v_div J x F), (v_int J x F), v_var, (proj1 (proj2 E10)).
  set (L11 := BCModel.updl L10 _ _).
  assert (E11 : L11 "rho"%string = 1 / f_T f /\ L11 "rhou0"%string = f_rhou f /\ L11 "T"%string = f_T f /\ L11 "rhou1"%string = f_rhov f /\ L11 "rhou2"%string = f_rhow f) by (unfold L11, BCModel.updl; names; tauto). clearbody L11. clear E10 L10.
  destruct E11 as (Er & Eu & ET & Ev & Ew).
  rewrite !(step_arr J truth n x Lx). cbn [fst snd run_list fold_left]. rewrite !v_var, energy_val. cbn [map]. rewrite Er, Eu, Ev, Ew, ET.
  assert (X : forall (B : Type) (a b : B), (if list_eq_dec Z.eq_dec x x then a else b) = a) by (intros; destruct (list_eq_dec Z.eq_dec x x); congruence).
  clearbody f. unfold BCModel.upd. names. rewrite !X. repeat (split; [reflexivity|]).
  intros a q H. repeat match goal with |- context [string_dec ?a' a] => destruct (string_dec a' a) as [<- | ?] end; auto;
      destruct (list_eq_dec Z.eq_dec x q) as [-> | ?]; auto; exfalso; destruct H as [H | H]; (apply H; cbn; tauto) || congruence.
Qed.
End point.

(* ---- the points of the kernel ---- *)
Lemma halos_inner : forall hs hr d, List.length (fold_left (fun hr h => set_halo_range (set_halo_range hr d false h) d true h) hs hr) = List.length hr /\
  forall i hl hh, nth_error hr i = Some (hl, hh) ->
  exists hl' hh', nth_error (fold_left (fun hr h => set_halo_range (set_halo_range hr d false h) d true h) hs hr) i = Some (hl', hh') /\
    (forall t, In t hl' <-> In t hl \/ (i = d /\ In t hs)) /\ (forall t, In t hh' <-> In t hh \/ (i = d /\ In t hs)).
Proof.
  induction hs as [|h hs IH]; intros hr d; cbn [fold_left].
  - split; auto. intros i hl hh H. exists hl, hh. split; auto. split; intros t; cbn [In]; tauto.
  - destruct (IH (set_halo_range (set_halo_range hr d false h) d true h) d) as [L X]. split; [rewrite L, !StoreShock.set_halo_length; auto|].
    intros i hl hh H. destruct (KernelProofs.set_halo_spec _ d false h _ _ _ H) as (l1 & h1 & N1 & A1 & B1).
    destruct (KernelProofs.set_halo_spec _ d true h _ _ _ N1) as (l2 & h2 & N2 & A2 & B2).
    destruct (X i l2 h2 N2) as (l3 & h3 & N3 & A3 & B3). exists l3, h3. split; auto. cbn [In].
    split; intros t; [rewrite A3, A2, A1 | rewrite B3, B2, B1]; intuition congruence.
Qed.
Lemma halos_outer : forall hs ds hr, let hr' := fold_left (fun hr d => fold_left (fun hr h => set_halo_range (set_halo_range hr d false h) d true h) hs hr) ds hr in
  List.length hr' = List.length hr /\
  forall i hl hh, nth_error hr i = Some (hl, hh) -> exists hl' hh', nth_error hr' i = Some (hl', hh') /\
    (forall t, In t hl' <-> In t hl \/ (In i ds /\ In t hs)) /\ (forall t, In t hh' <-> In t hh \/ (In i ds /\ In t hs)).
Proof.
  intros hs. induction ds as [|d ds IH]; intros hr; cbn [fold_left].
  - split; auto. intros i hl hh H. exists hl, hh. split; auto. split; intros t; cbn [In]; tauto.
  - destruct (halos_inner hs hr d) as [L0 X0]. specialize (IH (fold_left (fun hr h => set_halo_range (set_halo_range hr d false h) d true h) hs hr)).
    destruct IH as [L X]. split; [congruence|]. intros i hl hh H. destruct (X0 i hl hh H) as (l1 & h1 & N1 & A1 & B1).
    destruct (X i l1 h1 N1) as (l2 & h2 & N2 & A2 & B2). exists l2, h2. split; auto. cbn [In].
    split; intros t; [rewrite A2, A1 | rewrite B2, B1]; intuition congruence.
Qed.
Lemma katzer_points : forall sizes hs x, proper_halos hs ->
  in_ranges (total_range (block_ranges sizes) (scheme_halos (List.length sizes) hs)) x = true <-> covered sizes hs x.
Proof.
  intros sizes hs x PH. unfold scheme_halos, block_ranges.
  destruct (halos_outer hs (seq 0 (List.length sizes)) (repeat ([], []) (List.length sizes))) as [L X]. cbv zeta in L, X. rewrite repeat_length in L.
  set (hr := fold_left _ (seq 0 (List.length sizes)) _) in *.
  assert (H : forall i, (i < List.length sizes)%nat -> (forall t, In t (fst (nth i hr ([], []))) <-> In t hs) /\ (forall t, In t (snd (nth i hr ([], []))) <-> In t hs)).
  { intros i Hi. destruct (X i [] []) as (hl & hh & N & A & B).
    { rewrite (nth_error_nth' _ ([], [])) by (rewrite repeat_length; auto). rewrite nth_repeat. reflexivity. }
    rewrite (nth_error_nth _ _ _ N). cbn [fst snd]. assert (I : In i (seq 0 (List.length sizes))) by (apply in_seq; lia).
    split; intros t; [rewrite A | rewrite B]; cbn [In]; tauto. }
  clearbody hr. clear X.
  assert (Lr : List.length (map (fun n => (0, n)%Z) sizes) = List.length hr) by (rewrite map_length; auto).
  unfold in_ranges, covered. rewrite andb_true_iff, Nat.eqb_eq, BCKern.total_range_length, map_length by auto.
  assert (D : List.length x = List.length sizes -> forall d, (d < List.length sizes)%nat ->
    (let '(lo, hi) := nth d (total_range (map (fun s => (0, s)%Z) sizes) hr) (0, 0)%Z in ((lo <=? nth d x 0) && (nth d x 0 <? hi))%Z) = true <->
    ((0 <= nth d x 0) \/ exists h, In h hs /\ fst h <= nth d x 0)%Z /\
    ((nth d x 0 < nth d sizes 0) \/ exists h, In h hs /\ nth d x 0 < nth d sizes 0 + snd h)%Z).
  { intros Lx d Hd. rewrite BCKern.total_range_nth by (try rewrite map_length; auto).
    change (0, 0)%Z with ((fun n => (0, n)%Z) 0%Z). rewrite map_nth. cbn [fst snd]. rewrite andb_true_iff, Z.leb_le, Z.ltb_lt, Z.add_0_l.
    rewrite UserProofs.halo_min_le, UserProofs.halo_max_gt. destruct (H d Hd) as [A B].
    assert (E1 : forall l : list halo, (forall t, In t l <-> In t hs) -> l = [] \/ exists t, In t l /\ In t hs).
    { intros [|t l] Hl; auto. right. exists t. split; [left; auto | apply Hl; left; auto]. }
    split.
    - intros [[[Q1 Q2] | (t & Ht & Q)] [[Q3 Q4] | (t' & Ht' & Q')]]; split; auto;
        [right; exists t'; rewrite <- B; auto | right; exists t; rewrite <- A; auto | right; exists t; rewrite <- A; auto | right; exists t'; rewrite <- B; auto].
    - intros [Q1 Q2]. split.
      + destruct (E1 _ A) as [E | (t & Ht & Ht')].
        * left. split; auto. destruct Q1 as [Q1 | (h & Hh & _)]; auto. exfalso. apply A in Hh. rewrite E in Hh. destruct Hh.
        * destruct Q1 as [Q1 | (h & Hh & Q)]; [right; exists t; split; auto; specialize (PH t Ht'); lia | right; exists h; split; auto; apply A; auto].
      + destruct (E1 _ B) as [E | (t & Ht & Ht')].
        * left. split; auto. destruct Q2 as [Q1' | (h & Hh & _)]; auto. exfalso. apply B in Hh. rewrite E in Hh. destruct Hh.
        * destruct Q2 as [Q2 | (h & Hh & Q)]; [right; exists t; split; auto; specialize (PH t Ht'); lia | right; exists h; split; auto; apply B; auto]. }
  split; intros [Lx Q]; split; auto.
  - intros d Hd. apply (D Lx d Hd). rewrite (BCKern.forallb_combine _ _ _ _ _ 0%Z (0, 0)%Z) in Q by (rewrite BCKern.total_range_length, map_length; auto).
    apply (Q d). lia.
  - rewrite (BCKern.forallb_combine _ _ _ _ _ 0%Z (0, 0)%Z) by (rewrite BCKern.total_range_length, map_length; auto).
    intros d Hd. rewrite Lx in Hd. apply (D Lx d Hd). auto.
Qed.

(* ---- all points ---- *)
Definition good_tail (n : nat) (tail : kernel_eqs) : Prop := forall q, In q tail -> exists l r, q = KEq l r /\
  ((exists g, l = evar g) \/ exists b, In b conserved /\ l = edat n b) /\ forall b ix, In (b, ix) (dsets r) -> ix = repeat 0%Z n.
Lemma dsets_app : forall h l p, In p (dsets (EApp h l)) <-> exists e, In e l /\ In p (dsets e).
Proof.
  intros h l p. cbn [dsets]. induction l as [|e l IH]; [split; [intros [] | intros (e & [] & _)]|].
  rewrite in_app_iff, IH. split.
  - intros [H | (e' & H1 & H2)]; [exists e; split; [left|]; auto | exists e'; split; [right|]; auto].
  - intros (e' & [<- | H1] & H2); [auto | right; eauto].
Qed.
Lemma dsets_poly : forall c cs ps p, In p (dsets (polynomial c cs ps)) -> In p (dsets c).
Proof.
  intros c cs ps p. unfold polynomial, eadd. rewrite dsets_app. intros (e & He & H). revert ps He. induction cs as [|q cs IH]; intros [|k ps] He; [destruct He..|].
  cbn [map2 In] in He. destruct He as [<- | He]; [|eauto]. unfold emul, epow in H. cbn in H. rewrite !app_nil_r in H. exact H.
Qed.
Lemma good_local : forall n evals tail, independent n evals -> good_tail n tail -> local_uses n (evals ++ tail).
Proof.
  intros n evals tail [[LU1 LU2] NC] GT. split.
  - intros q Hq. apply in_app_iff in Hq. destruct Hq as [Hq | Hq]; [apply (LU1 q Hq)|]. destruct (GT q Hq) as (l & r & -> & [[g ->] | (b & _ & ->)] & _); [exists (Local g) | exists (Array b)]; reflexivity.
  - intros q q' e b ix Hq He Hd Hq' Hs. apply in_app_iff in Hq. apply in_app_iff in Hq'. destruct Hq as [Hq | Hq].
    + destruct Hq' as [Hq' | Hq']; [exact (LU2 q q' e b ix Hq He Hd Hq' Hs)|]. exfalso. destruct (GT q' Hq') as (l & r & -> & [[g ->] | (b' & Hb & ->)] & _); [discriminate Hs|].
      cbn [sets is_target] in Hs. unfold edat in Hs. injection Hs as ->. apply (proj2 (NC q b Hq Hb) e He). cbn. change b with (fst (b, ix)). apply in_map. auto.
    + destruct (GT q Hq) as (l & r & -> & _ & D). cbn [evaluates] in He. subst e. apply (D b ix Hd).
Qed.
Lemma run_points : forall J truth n evals tail pts M, independent n evals -> good_tail n tail -> NoDup pts -> (forall p, In p pts -> List.length p = n) ->
  let M' := run_ikernel J truth (evals ++ tail) pts M in
  (forall x, In x pts -> exists s : (string -> list Z -> R) * (string -> R), (forall b, fst s b x = run_ikernel J truth evals pts M b x) /\
     forall b, M' b x = fst (run_list J truth x tail s) b x) /\
  (forall b x, ~ In x pts -> M' b x = M b x).
Proof.
  intros J truth n evals tail pts M IE GT ND HL M'. pose proof (good_local n evals tail IE GT) as LU.
  pose proof (loop_points J truth n _ LU pts M ND HL) as A. pose proof (loop_points J truth n _ (proj1 IE) pts M ND HL) as B.
  split; [|intros b x Hx; apply (A b x); auto]. intros x Hx. exists (run_list J truth x evals (M, fun _ => 0%R)). split.
  - intros b. symmetry. apply (B b x); auto.
  - intros b. unfold M'. rewrite (proj1 (A b x) Hx). unfold exec_point. rewrite fold_left_app. reflexivity.
Qed.

Definition lc (n : nat) (e : expr) : Prop := forall b ix, In (b, ix) (dsets e) -> ix = repeat 0%Z n.
Lemma lc_num : forall n q, lc n (ENum q). Proof. intros n q b ix []. Qed.
Lemma lc_sym : forall n k s, lc n (ESym k s). Proof. intros n k s b ix []. Qed.
Lemma lc_dat : forall n c, lc n (EDat c (repeat 0%Z n)). Proof. intros n c b ix [H | []]. congruence. Qed.
Lemma lc_app : forall n h l, Forall (lc n) l -> lc n (EApp h l).
Proof. intros n h l H b ix D. apply dsets_app in D. destruct D as (e & He & D). rewrite Forall_forall in H. apply (H e He b ix D). Qed.
Lemma lc_poly : forall n c cs ps, lc n c -> lc n (polynomial c cs ps).
Proof. intros n c cs ps H b ix D. apply dsets_poly in D. apply (H b ix D). Qed.
Ltac lctac := repeat match goal with
  | |- lc _ (polynomial _ _ _) => apply lc_poly
  | |- lc _ (ENum _) => apply lc_num
  | |- lc _ (ESym _ _) => apply lc_sym
  | |- lc _ (EDat _ _) => apply lc_dat
  | |- lc _ (EApp _ _) => apply lc_app
  | |- Forall _ [] => apply Forall_nil
  | |- Forall _ (_ :: _) => apply Forall_cons
  | |- Forall _ (map _ _) => cbn [map]
  | |- lc _ ?e => first [progress unfold eadd | progress unfold emul | progress unfold epow | progress unfold ediv | progress unfold esub | progress unfold epiece | progress unfold elt | progress unfold ele | progress unfold etrue | progress unfold half
                        | progress unfold domain_length | progress unfold total_energy | progress unfold evar | progress unfold econst | progress unfold eint | progress unfold edat]; cbv zeta
  end.
Lemma good_cons : forall n l r tail, (exists g, l = evar g) \/ (exists b, In b conserved /\ l = edat n b) -> lc n r -> good_tail n tail -> good_tail n (KEq l r :: tail).
Proof. intros n l r tail H1 H2 H q [<- | Hq]; [exists l, r; auto | apply H; auto]. Qed.
Lemma good_nil : forall n, good_tail n []. Proof. intros n q []. Qed.
Ltac goodtac := repeat (apply good_cons; [first [left; eexists; reflexivity | right; eexists; split; [|reflexivity]; cbn; tauto] | lctac |]).
Lemma one_wall_good : forall n c fu fv fT, good_tail n (one_wall_equations n (EDat c (repeat 0%Z n)) fu fv fT).
Proof.
  intros n c fu fv fT. unfold one_wall_equations, fit_equation, form_equation, store_eq. cbn [app]. goodtac. destruct (n =? 3)%nat; goodtac; apply good_nil.
Qed.
Lemma two_wall_good : forall n b c1 c2 w1 w2, good_tail n (two_wall_equations n b (EDat c1 (repeat 0%Z n)) (EDat c2 (repeat 0%Z n)) w1 w2).
Proof.
  intros n b c1 c2 w1 w2. unfold two_wall_equations, mixed_equations, local_coordinate_eq, side_factor_eq, store_eq. cbn [app]. goodtac. apply good_nil.
Qed.
