(* Theorems about the boundary-layer initial conditions (C83). *)
From Verif Require Import Base BaseProofs Expr KernelModel ShiftSpec BCModel BCSpec BCGasSpec BC2Model StoreModel DiscModel InitModel InitSpec InitProofs.
From Verif Require Import KatzModel KatzSpec KatzProofs KatzPoly.
From Verif Require BCKern.
From Coq Require Import QArith ZArith Reals Qreals Lia Lra.
From Coq Require FinFun.
Local Close Scope Q_scope.
Local Open Scope list_scope.
Open Scope R_scope.

(* ---- which directions have walls ---- *)
Lemma walls_from : forall (l : list (bool * expr)) s,
  map fst (filter (fun p : nat * (bool * expr) => fst (snd p)) (combine (seq s (List.length l)) l)) =
  filter (fun i => fst (nth (i - s) l (false, eint 0))) (seq s (List.length l)).
Proof.
  induction l as [|[t e] l IH]; intros s; [reflexivity|]. cbn [List.length seq combine filter snd fst]. rewrite Nat.sub_diag. change (fst (nth 0 ((t, e) :: l) (false, eint 0))) with t.
  assert (E : filter (fun i => fst (nth (i - s) ((t, e) :: l) (false, eint 0))) (seq (S s) (List.length l)) =
              filter (fun i => fst (nth (i - S s) l (false, eint 0))) (seq (S s) (List.length l))).
  { apply filter_ext_in. intros i Hi. apply in_seq in Hi. replace (i - s)%nat with (S (i - S s)) by lia. reflexivity. }
  destruct t; cbn [map fst]; rewrite IH, E; reflexivity.
Qed.
Lemma walls_eq : forall k, wall_directions k = filter (fun i => fst (nth i (kz_directions k) (false, eint 0))) (seq 0 (List.length (kz_directions k))).
Proof. intros k. unfold wall_directions. rewrite walls_from. apply filter_ext. intros i. rewrite Nat.sub_0_r. reflexivity. Qed.
Lemma walls_count : forall k, List.length (wall_directions k) = number_of_walls k.
Proof.
  intros k. unfold wall_directions, number_of_walls. rewrite map_length. generalize 0%nat. induction (kz_directions k) as [|[t e] l IH]; intros s; [reflexivity|].
  cbn [List.length seq combine filter snd fst]. destruct t; cbn [List.length]; rewrite IH; reflexivity.
Qed.
Lemma walls_in : forall k i, In i (wall_directions k) <-> exists e, nth_error (kz_directions k) i = Some (true, e).
Proof.
  intros k i. rewrite walls_eq, filter_In, in_seq. split.
  - intros [Hi H]. destruct (nth_error (kz_directions k) i) as [[t e]|] eqn:E; [|apply nth_error_None in E; lia].
    rewrite (nth_error_nth _ _ _ E) in H. cbn in H. subst t. eauto.
  - intros [e E]. assert (nth_error (kz_directions k) i <> None) by congruence. apply nth_error_Some in H. split; [lia|]. rewrite (nth_error_nth _ _ _ E). reflexivity.
Qed.
Lemma walls_nodup : forall k, NoDup (wall_directions k).
Proof. intros k. rewrite walls_eq. apply NoDup_filter, seq_NoDup. Qed.
Lemma walls_one : forall n k d c, only_wall n k d c -> wall_directions k = [d] /\ coordinate k d = Ok (EDat c (repeat 0%Z n)).
Proof.
  intros n k d c (H & _ & U). split.
  - pose proof (walls_nodup k) as ND. assert (D : In d (wall_directions k)) by (apply walls_in; eauto).
    assert (A : forall i, In i (wall_directions k) -> i = d) by (intros i Hi; apply walls_in in Hi; destruct Hi as [e He]; exact (U i e He)).
    destruct (wall_directions k) as [|a [|b l]]; [destruct D | rewrite (A a (or_introl eq_refl)); reflexivity |].
    exfalso. inversion ND as [|? ? N]. apply N. rewrite (A a (or_introl eq_refl)), (A b (or_intror (or_introl eq_refl))). left. reflexivity.
  - unfold coordinate. erewrite map_nth_error by exact H. reflexivity.
Qed.
Lemma coordinates_app : forall k eqs, with_coordinates k eqs = coordinate_eqs k ++ eqs.
Proof. intros k eqs. unfold with_coordinates, coordinate_eqs. destruct (kz_coordinates k); reflexivity. Qed.
Lemma kernel_of : forall sizes hs k eqs kern, katzer_kernel_of sizes hs k (Ok eqs) = Ok kern ->
  ik_eqs kern = coordinate_eqs k ++ eqs /\ ik_range kern = total_range (block_ranges sizes) (scheme_halos (List.length sizes) hs).
Proof.
  intros sizes hs k eqs kern H. unfold katzer_kernel_of in H. destruct (check_inputs _ k); cbn [bind] in H; [|discriminate]. injection H as <-. cbn. rewrite coordinates_app. auto.
Qed.
Lemma swept : forall sizes hs kern pts, proper_halos hs -> ik_range kern = total_range (block_ranges sizes) (scheme_halos (List.length sizes) hs) ->
  sweeps pts (fun x => in_ranges (ik_range kern) x = true) -> sweeps pts (covered sizes hs).
Proof. intros sizes hs kern pts P E [N H]. split; auto. intros x. rewrite H, E. apply katzer_points. exact P. Qed.

Lemma one_wall_run : forall J truth sizes hs k d c fu fv fT kern pts M,
  initial_functions J -> only_wall (List.length sizes) k d c -> independent (List.length sizes) (coordinate_eqs k) -> proper_halos hs ->
  katzer_kernel_of sizes hs k (Ok (one_wall_equations (List.length sizes) (EDat c (repeat 0%Z (List.length sizes))) fu fv fT)) = Ok kern ->
  sweeps pts (fun x => in_ranges (ik_range kern) x = true) ->
  one_wall_state J truth sizes hs k c fu fv fT kern pts M.
Proof.
  intros J truth sizes hs k d c fu fv fT kern pts M F W I P K S. destruct W as (_ & NC & _). apply kernel_of in K. destruct K as [E1 E2].
  pose proof (swept _ _ _ _ P E2 S) as [ND SW]. unfold one_wall_state. rewrite E1.
  assert (LP : forall p, In p pts -> List.length p = List.length sizes) by (intros p Hp; apply SW in Hp; apply Hp).
  destruct (run_points J truth (List.length sizes) (coordinate_eqs k) _ pts M I (one_wall_good (List.length sizes) c fu fv fT) ND LP) as [A B].
  split.
  - intros x Hx. apply SW in Hx. destruct (A x Hx) as (s & S0 & S1).
    destruct (one_wall_point J truth (List.length sizes) x F (LP x Hx) c fu fv fT s NC) as (R1 & R2 & R3 & R4 & R5 & R6).
    rewrite S0 in R1, R2, R3, R4. cbv zeta. rewrite !S1.
    split; [exact R1|]. split; [exact R2|]. split; [exact R3|]. split; [exact R5|]. split; [exact R4|].
    intros b Hb. rewrite S1, R6 by auto. apply S0.
  - intros b x Hx. apply B. rewrite SW. exact Hx.
Qed.

(* one wall *)
Theorem C83_one_wall : forall J truth sizes b hs k d c fu fv fT walls kern pts M,
  initial_functions J -> only_wall (List.length sizes) k d c -> independent (List.length sizes) (coordinate_eqs k) -> proper_halos hs ->
  katzer_kernel sizes b hs k (fu, fv, fT) walls = Ok kern -> sweeps pts (fun x => in_ranges (ik_range kern) x = true) ->
  one_wall_state J truth sizes hs k c fu fv fT kern pts M.
Proof.
  intros J truth sizes b hs k d c fu fv fT walls kern pts M F W I P K S. unfold katzer_kernel, katzer_equations in K.
  destruct (walls_one _ _ _ _ W) as [W1 W2]. rewrite W1, W2 in K. cbn [bind] in K. exact (one_wall_run _ _ _ _ _ d _ _ _ _ _ _ _ F W I P K S).
Qed.
Print Assumptions C83_one_wall.

(* the pressure of the state is uniform and its temperature is T *)
Lemma state_pressure : forall J (M : memory) moms x T ms, T <> 0 -> const J "gama" <> 0 -> const J "gama" <> 1 -> const J "Minf" <> 0 ->
  M "rho"%string x = 1 / T -> map (fun m => M m x) moms = ms -> M "rhoE"%string x = energy J ms (1 / T) T ->
  p_at J M "rho" moms "rhoE" x = 1 / (const J "gama" * (const J "Minf" * const J "Minf")) /\ T_at J M "rho" moms "rhoE" x = T.
Proof.
  intros J M moms x T ms HT Hg H1 Hm Er Em EE. assert (const J "gama" - 1 <> 0) by lra. unfold p_at, T_at, temperature_of, pressure_of. rewrite Er, Em, EE. unfold energy.
  split; field; auto.
Qed.
Lemma one_wall_moms : forall (M : memory) n x a b, (n = 2 \/ n = 3)%nat -> M "rhou0"%string x = a -> M "rhou1"%string x = b ->
  (n = 3%nat -> M "rhou2"%string x = 0) -> norm2 (map (fun m => M m x) (momenta n)) = norm2 [a; b].
Proof.
  intros M n x a b [-> | ->] Ha Hb Hc; cbn [momenta Nat.eqb map]; rewrite Ha, Hb; [reflexivity|]. rewrite (Hc eq_refl). unfold norm2. cbn [vdot]. ring.
Qed.
Theorem C83_uniform_pressure : forall J truth sizes b hs k d c fu fv fT walls kern pts M,
  initial_functions J -> only_wall (List.length sizes) k d c -> independent (List.length sizes) (coordinate_eqs k) -> proper_halos hs ->
  katzer_kernel sizes b hs k (fu, fv, fT) walls = Ok kern -> sweeps pts (fun x => in_ranges (ik_range kern) x = true) ->
  (List.length sizes = 2 \/ List.length sizes = 3)%nat -> const J "gama" <> 0 -> const J "gama" <> 1 -> const J "Minf" <> 0 ->
  let M' := run_ikernel J truth (ik_eqs kern) pts M in
  forall x, covered sizes hs x -> profile fT (run_ikernel J truth (coordinate_eqs k) pts M c x) <> 0 ->
    p_at J M' "rho" (momenta (List.length sizes)) "rhoE" x = 1 / (const J "gama" * (const J "Minf" * const J "Minf")) /\
    T_at J M' "rho" (momenta (List.length sizes)) "rhoE" x = profile fT (run_ikernel J truth (coordinate_eqs k) pts M c x).
Proof.
  intros J truth sizes b hs k d c fu fv fT walls kern pts M F W I P K S HN Hg H1 Hm M' x Hx HT.
  destruct (C83_one_wall _ truth _ _ _ _ _ _ _ _ _ _ _ _ M F W I P K S) as [A _]. destruct (A x Hx) as (R1 & R2 & R3 & R4 & R5 & _).
  fold M' in R1, R2, R3, R4, R5. pose proof (one_wall_moms M' _ x _ _ HN R2 R3 R4) as Q.
  apply (state_pressure J M' _ x _ _ HT Hg H1 Hm R1 eq_refl). rewrite R5. unfold energy. rewrite Q. reflexivity.
Qed.
Print Assumptions C83_uniform_pressure.

(* ---- two walls ---- *)
Theorem C83_two_walls : forall J truth sizes b hs k c1 c2 fits w1 w2 kern pts M,
  initial_functions J -> List.length sizes = 3%nat -> side_walls k c1 c2 -> same_lengths w1 w2 ->
  independent 3 (coordinate_eqs k) -> proper_halos hs ->
  katzer_kernel sizes b hs k fits (w1, w2) = Ok kern -> sweeps pts (fun x => in_ranges (ik_range kern) x = true) ->
  two_wall_state J truth sizes b hs k c1 c2 w1 w2 kern pts M.
Proof.
  intros J truth sizes b hs k c1 c2 fits w1 w2 kern pts M F HN [e HK] SL I P K S. unfold katzer_kernel, katzer_equations in K.
  assert (W1 : wall_directions k = [1; 2]%nat) by (unfold wall_directions; rewrite HK; reflexivity).
  assert (W2 : coordinate k 2 = Ok (EDat c2 [0; 0; 0]%Z)) by (unfold coordinate; rewrite HK; reflexivity).
  assert (W3 : coordinate k 1 = Ok (EDat c1 [0; 0; 0]%Z)) by (unfold coordinate; rewrite HK; reflexivity).
  rewrite W1, W2, W3 in K. cbn [bind fst snd] in K. apply kernel_of in K. destruct K as [E1 E2].
  pose proof (swept _ _ _ _ P E2 S) as [ND SW]. unfold two_wall_state. rewrite E1. rewrite HN.
  assert (LP : forall p, In p pts -> List.length p = 3%nat) by (intros p Hp; apply SW in Hp; rewrite <- HN; apply Hp).
  destruct (run_points J truth 3 (coordinate_eqs k) _ pts M I (two_wall_good 3 b c1 c2 w1 w2) ND LP) as [A B]. change (repeat 0%Z 3) with [0; 0; 0]%Z in A, B.
  split.
  - intros x Hx. apply SW in Hx. destruct (A x Hx) as (s & S0 & S1).
    destruct (two_wall_point J truth 3 x F (LP x Hx) b c1 c2 w1 w2 s SL) as (R1 & R2 & R3 & R4 & R5 & R6). change (repeat 0%Z 3) with [0; 0; 0]%Z in *.
    rewrite !S0 in R1, R2, R3, R4, R5. cbv zeta. rewrite !S1.
    split; [exact R1|]. split; [exact R2|]. split; [exact R3|]. split; [exact R4|]. split; [exact R5|].
    intros a Ha. rewrite S1, R6 by auto. apply S0.
  - intros a x Hx. apply B. rewrite SW. exact Hx.
Qed.
Print Assumptions C83_two_walls.
Theorem C83_two_walls_pressure : forall J truth sizes b hs k c1 c2 fits w1 w2 kern pts M,
  initial_functions J -> List.length sizes = 3%nat -> side_walls k c1 c2 -> same_lengths w1 w2 ->
  independent 3 (coordinate_eqs k) -> proper_halos hs ->
  katzer_kernel sizes b hs k fits (w1, w2) = Ok kern -> sweeps pts (fun x => in_ranges (ik_range kern) x = true) ->
  const J "gama" <> 0 -> const J "gama" <> 1 -> const J "Minf" <> 0 ->
  let M' := run_ikernel J truth (ik_eqs kern) pts M in
  let M0 := run_ikernel J truth (coordinate_eqs k) pts M in
  forall x, covered sizes hs x ->
    let T := f_T (two_layers w1 w2 (const J "Twall") (width J b) (M0 c1 x) (M0 c2 x)) in T <> 0 ->
    p_at J M' "rho" (momenta 3) "rhoE" x = 1 / (const J "gama" * (const J "Minf" * const J "Minf")) /\ T_at J M' "rho" (momenta 3) "rhoE" x = T.
Proof.
  intros J truth sizes b hs k c1 c2 fits w1 w2 kern pts M F HN HK SL I P K S Hg H1 Hm M' M0 x Hx T HT.
  destruct (C83_two_walls _ truth _ _ _ _ _ _ _ _ _ _ _ M F HN HK SL I P K S) as [A _]. destruct (A x Hx) as (R1 & R2 & R3 & R4 & R5 & _).
  fold M' in R1, R2, R3, R4, R5. apply (state_pressure J M' (momenta 3) x T _ HT Hg H1 Hm R1 eq_refl). cbn [momenta Nat.eqb map]. rewrite R2, R3, R4. exact R5.
Qed.
Print Assumptions C83_two_walls_pressure.
(* the flow between the side walls is symmetric about the plane in the middle *)
Lemma fold_mirror : forall L z, fold_over L (L - z) = fold_over L z.
Proof. intros L z. unfold fold_over. destruct (Rle_dec z (L / 2)), (Rle_dec (L - z) (L / 2)); lra. Qed.
Lemma facing_mirror : forall L z, z <> L / 2 -> facing L (L - z) = - facing L z.
Proof. intros L z H. unfold facing. destruct (Rle_dec z (L / 2)), (Rle_dec (L - z) (L / 2)); try lra; exfalso; lra. Qed.
Lemma layers_mirror : forall w1 w2 Tw L y z, Q2R (w_edge w2) < L / 2 ->
  let f := two_layers w1 w2 Tw L y z in let g := two_layers w1 w2 Tw L y (L - z) in
  f_rhou g = f_rhou f /\ f_T g = f_T f /\ f_rhov g = f_rhov f /\ f_rhow g = - f_rhow f.
Proof.
  intros w1 w2 Tw L y z He. unfold two_layers. cbn [f_rhou f_T f_rhov f_rhow]. rewrite fold_mirror. repeat (split; [reflexivity|]).
  destruct (Req_EM_T z (L / 2)) as [-> | N]; [|rewrite facing_mirror by exact N; ring].
  assert (Ef : fold_over L (L / 2) = L / 2) by (unfold fold_over; destruct (Rle_dec _ _); lra). rewrite Ef. unfold below. destruct (Rlt_dec (L / 2) (Q2R (w_edge w2))); [lra|].
  replace (1 - (L / 2 - Q2R (w_edge w2)) / (L / 2 - Q2R (w_edge w2))) with 0 by (field; lra). ring.
Qed.
Theorem C83_symmetric : forall J truth sizes b hs k c1 c2 fits w1 w2 kern pts M,
  initial_functions J -> List.length sizes = 3%nat -> side_walls k c1 c2 -> same_lengths w1 w2 ->
  independent 3 (coordinate_eqs k) -> proper_halos hs ->
  katzer_kernel sizes b hs k fits (w1, w2) = Ok kern -> sweeps pts (fun x => in_ranges (ik_range kern) x = true) ->
  Q2R (w_edge w2) < width J b / 2 ->
  let M' := run_ikernel J truth (ik_eqs kern) pts M in
  let M0 := run_ikernel J truth (coordinate_eqs k) pts M in
  forall x x', covered sizes hs x -> covered sizes hs x' -> M0 c1 x' = M0 c1 x -> M0 c2 x' = width J b - M0 c2 x ->
    M' "rho"%string x' = M' "rho"%string x /\ M' "rhou0"%string x' = M' "rhou0"%string x /\ M' "rhou1"%string x' = M' "rhou1"%string x /\
    M' "rhou2"%string x' = - M' "rhou2"%string x /\ M' "rhoE"%string x' = M' "rhoE"%string x.
Proof.
  intros J truth sizes b hs k c1 c2 fits w1 w2 kern pts M F HN HK SL I P K S He M' M0 x x' Hx Hx' E1 E2.
  destruct (C83_two_walls _ truth _ _ _ _ _ _ _ _ _ _ _ M F HN HK SL I P K S) as [A _].
  destruct (A x Hx) as (R1 & R2 & R3 & R4 & R5 & _). destruct (A x' Hx') as (Q1 & Q2 & Q3 & Q4 & Q5 & _).
  fold M' in R1, R2, R3, R4, R5, Q1, Q2, Q3, Q4, Q5. fold M0 in R1, R2, R3, R4, R5, Q1, Q2, Q3, Q4, Q5. rewrite E1, E2 in Q1, Q2, Q3, Q4, Q5.
  destruct (layers_mirror w1 w2 (const J "Twall") (width J b) (M0 c1 x) (M0 c2 x) He) as (L1 & L2 & L3 & L4).
  rewrite Q1, Q2, Q3, Q4, Q5, L1, L2, L3, L4, R1, R2, R3, R4, R5. repeat (split; [reflexivity|]). unfold energy, norm2. cbn [vdot]. f_equal. f_equal. ring.
Qed.
Print Assumptions C83_symmetric.

(* ---- inputs ---- *)
Lemma coordinate_ok : forall k d, (exists e, coordinate k d = Ok e) <-> (d < List.length (kz_directions k))%nat.
Proof.
  intros k d. unfold coordinate. rewrite <- (map_length snd), <- nth_error_Some. destruct (nth_error _ _); split; [discriminate | eauto | intros [e E]; discriminate E | congruence].
Qed.
Lemma coordinate_err : forall k d, (List.length (kz_directions k) <= d)%nat -> coordinate k d = Err IndexErr.
Proof. intros k d H. unfold coordinate. rewrite <- (map_length snd) in H. apply nth_error_None in H. rewrite H. reflexivity. Qed.
Lemma wall_coordinate : forall k d l, wall_directions k = l -> In d l -> exists e, coordinate k d = Ok e.
Proof. intros k d l <- H. apply coordinate_ok. apply walls_in in H. destruct H as [e E]. apply nth_error_Some. congruence. Qed.
Theorem C83_inputs : forall sizes b hs k fits walls,
  let r := katzer_kernel sizes b hs k fits walls in
  let few := exists c, kz_ncoeffs k = Some c /\ (c < 10)%Z in
  ((exists kern, r = Ok kern) <->
     List.length (kz_directions k) = List.length sizes /\ ~ few /\
     (number_of_walls k = 1 \/ number_of_walls k = 2 /\ 3 <= List.length sizes)%nat) /\
  (r = Err ValueError <-> number_of_walls k = 0%nat \/ List.length (kz_directions k) <> List.length sizes \/ few) /\
  (r = Err NotImplemented -> (3 <= number_of_walls k)%nat) /\
  (r = Err IndexErr -> number_of_walls k = 2%nat /\ (List.length sizes < 3)%nat).
Proof.
  intros sizes b hs k fits walls r few. unfold r, katzer_kernel, katzer_kernel_of, check_inputs. rewrite walls_count.
  destruct (Nat.ltb_spec (number_of_walls k) 1) as [H0 | H0]; cbn [bind].
  { split; [split; [intros [? H]; discriminate H | intros (_ & _ & [H | [H _]]); lia]|]. split; [split; auto; intros _; left; lia|]. split; discriminate. }
  destruct (Nat.eqb_spec (List.length (kz_directions k)) (List.length sizes)) as [H1 | H1]; cbn [negb bind].
  2: { split; [split; [intros [? H]; discriminate H | intros (H & _); contradiction]|]. split; [split; auto|]. split; discriminate. }
  assert (NF : forall c, kz_ncoeffs k = Some c -> (c <? 10)%Z = true -> few) by (intros c E L; exists c; apply Z.ltb_lt in L; auto).
  assert (D : few \/ ~ few /\ match kz_ncoeffs k with Some c => if (c <? 10)%Z then Err ValueError else Ok tt | None => Ok tt end = Ok tt).
  { unfold few. destruct (kz_ncoeffs k) as [c|]; [|right; split; auto; intros (c & E & _); discriminate].
    destruct (Z.ltb_spec c 10); [left; eauto | right; split; auto]. intros (c' & E & L). injection E as <-. lia. }
  destruct D as [Hf | [Hf ->]].
  { assert (E : match kz_ncoeffs k with Some c => if (c <? 10)%Z then Err ValueError else Ok tt | None => Ok tt end = @Err unit ValueError).
    { destruct Hf as (c & -> & L). apply Z.ltb_lt in L. rewrite L. reflexivity. }
    rewrite E. cbn [bind]. split; [split; [intros [? H]; discriminate H | intros (_ & H & _); contradiction]|]. split; [split; auto|]. split; discriminate. }
  cbn [bind]. unfold katzer_equations. rewrite <- walls_count in H0 |- *. destruct (wall_directions k) as [|d1 [|d2 [|d3 l]]] eqn:EW; cbn [List.length] in *; [lia| | |].
  - destruct (wall_coordinate k d1 _ EW (or_introl eq_refl)) as [e ->]. destruct fits as [[f0 f1] f2]. cbn [bind].
    split; [split; [auto | eauto]|]. split; [split; [discriminate | intros [H | [H | H]]; [discriminate H | contradiction | contradiction]]|]. split; discriminate.
  - destruct (le_lt_dec 3 (List.length sizes)) as [L | L].
    + destruct (proj2 (coordinate_ok k 2) ltac:(lia)) as [z ->]. destruct (wall_coordinate k d1 _ EW (or_introl eq_refl)) as [e ->]. cbn [bind].
      split; [split; [auto | eauto]|]. split; [split; [discriminate | intros [H | [H | H]]; [discriminate H | contradiction | contradiction]]|]. split; discriminate.
    + rewrite coordinate_err by lia. cbn [bind]. split; [split; [intros [? H]; discriminate H | intros (_ & _ & [H | [_ H]]); [discriminate H | lia]]|].
      split; [split; [discriminate | intros [H | [H | H]]; [discriminate H | contradiction | contradiction]]|]. split; [discriminate | auto].
  - cbn [bind]. split; [split; [intros [? H]; discriminate H | intros (_ & _ & [H | [H _]]); discriminate H]|].
    split; [split; [discriminate | intros [H | [H | H]]; [discriminate H | contradiction | contradiction]]|]. split; [lia | discriminate].
Qed.
Print Assumptions C83_inputs.
(* the side wall is always in direction 2, also if the user names directions 0 and 1 *)
Theorem C83_side_wall_refuted : exists n b k k' fits walls,
  nth_error (map fst (kz_directions k)) 1 = Some true /\ nth_error (map fst (kz_directions k)) 2 = Some false /\
  nth_error (map fst (kz_directions k')) 1 = Some false /\ nth_error (map fst (kz_directions k')) 2 = Some true /\
  map snd (kz_directions k) = map snd (kz_directions k') /\
  katzer_equations n b k fits walls = katzer_equations n b k' fits walls /\ exists eqs, katzer_equations n b k fits walls = Ok eqs.
Proof.
  set (x i := EDat i [0; 0; 0]%Z).
  exists 3%nat, 0%nat, {| kz_directions := [(true, x "x0"); (true, x "x1"); (false, x "x2")]%string; kz_ncoeffs := Some 50%Z; kz_coordinates := None |},
    {| kz_directions := [(true, x "x0"); (false, x "x1"); (true, x "x2")]%string; kz_ncoeffs := Some 50%Z; kz_coordinates := None |}, simple_fits.
  set (w := {| w_rhou := simple_rhou; w_g := simple_T; w_normal := simple_rhov; w_edge := simple_edge; w_normal_free := 0 |}). exists (w, w).
  repeat (split; [reflexivity|]). eexists. reflexivity.
Qed.
Print Assumptions C83_side_wall_refuted.

(* ---- the simple variant, with built-in profiles ---- *)
Definition sfu : fit := fst (fst simple_fits).
Definition sfv : fit := snd (fst simple_fits).
Definition sfT : fit := snd simple_fits.
Lemma simple_edge_val : Q2R simple_edge = 2316 / 1000. Proof. unfold simple_edge, Q2R. cbn [Qnum Qden]. lra. Qed.
Lemma simple_T_bounds : forall y, - (1 / 5) <= y -> 1 <= profile sfT y <= 168 / 100.
Proof.
  intros y Hy. unfold profile, below. cbn [sfT simple_fits snd fit_edge fit_coeffs fit_free]. rewrite simple_edge_val. destruct (Rlt_dec y (2316 / 1000)); [apply T_range; lra|].
  unfold Q2R. cbn [Qnum Qden]. lra.
Qed.
Lemma simple_u_bounds : forall y, - (1 / 5) <= y -> - (14 / 100) <= profile sfu y <= 1 /\ (0 <= y -> - (1 / 1000) <= profile sfu y).
Proof.
  intros y Hy. unfold profile, below. cbn [sfu simple_fits fst snd fit_edge fit_coeffs fit_free]. rewrite simple_edge_val. destruct (Rlt_dec y (2316 / 1000)).
  - split; [apply rhou_range; lra|]. intros H0. pose proof (rhou_inside y ltac:(lra)). lra.
  - unfold Q2R. cbn [Qnum Qden]. lra.
Qed.
Lemma simple_v_bounds : forall y, - (1 / 5) <= y -> - (1 / 1000) <= profile sfv y <= 6 / 1000.
Proof.
  intros y Hy. unfold profile, below. cbn [sfv simple_fits fst snd fit_edge fit_coeffs fit_free]. rewrite simple_edge_val. destruct (Rlt_dec y (2316 / 1000)).
  - pose proof (rhov_range y ltac:(lra)). lra.
  - unfold Q2R. cbn [Qnum Qden]. lra.
Qed.
Theorem C83_simple : forall J truth sizes hs k d c kern pts M,
  initial_functions J -> only_wall (List.length sizes) k d c -> independent (List.length sizes) (coordinate_eqs k) -> proper_halos hs ->
  simple_kernel sizes hs k = Ok kern -> sweeps pts (fun x => in_ranges (ik_range kern) x = true) ->
  let M' := run_ikernel J truth (ik_eqs kern) pts M in
  let M0 := run_ikernel J truth (coordinate_eqs k) pts M in
  one_wall_state J truth sizes hs k c (fst (fst simple_fits)) (snd (fst simple_fits)) (snd simple_fits) kern pts M /\
  (* physical values at the wall, outside of it and in halos behind it up to 1/5 *)
  forall x, covered sizes hs x -> - (1 / 5) <= M0 c x ->
    100 / 168 <= M' "rho"%string x <= 1 /\ - (14 / 100) <= M' "rhou0"%string x <= 1 /\ (0 <= M0 c x -> - (1 / 1000) <= M' "rhou0"%string x) /\
    - (1 / 1000) <= M' "rhou1"%string x <= 6 / 1000 /\
    (const J "gama" <> 0 -> const J "gama" <> 1 -> const J "Minf" <> 0 -> (List.length sizes = 2 \/ List.length sizes = 3)%nat ->
     p_at J M' "rho" (momenta (List.length sizes)) "rhoE" x = 1 / (const J "gama" * (const J "Minf" * const J "Minf")) /\
     1 <= T_at J M' "rho" (momenta (List.length sizes)) "rhoE" x <= 168 / 100).
Proof.
  intros J truth sizes hs k d c kern pts M F W I P K S M' M0. unfold simple_kernel, simple_equations in K.
  destruct (walls_one _ _ _ _ W) as [W1 W2]. rewrite W1, W2 in K. cbn [bind] in K.
  pose proof (one_wall_run J truth sizes hs k d c sfu sfv sfT kern pts M F W I P K S) as ST. split; [exact ST|].
  destruct ST as [A _]. intros x Hx Hy. destruct (A x Hx) as (R1 & R2 & R3 & R4 & R5 & _). fold M' in R1, R2, R3, R4, R5. fold M0 in R1, R2, R3, R4, R5.
  pose proof (simple_T_bounds _ Hy) as BT. destruct (simple_u_bounds _ Hy) as [BU BU0]. pose proof (simple_v_bounds _ Hy) as BV.
  rewrite R1, R2, R3. split; [|split; [exact BU|split; [exact BU0|split; [exact BV|]]]].
  - set (T := profile sfT (M0 c x)) in *. assert (H : 1 / T * T = 1) by (field; lra). set (rr := 1 / T) in *. clearbody rr T. nra.
  - intros Hg H1 Hm HN. pose proof (one_wall_moms M' _ x _ _ HN R2 R3 R4) as Q.
    destruct (state_pressure J M' (momenta (List.length sizes)) x (profile sfT (M0 c x)) _ ltac:(lra) Hg H1 Hm R1 eq_refl) as [P1 P2].
    { rewrite R5. unfold energy. rewrite Q. reflexivity. }
    split; [exact P1|]. rewrite P2. exact BT.
Qed.
Print Assumptions C83_simple.
Theorem C83_simple_inputs : forall sizes hs k, kz_ncoeffs k = None ->
  let r := simple_kernel sizes hs k in
  ((exists kern, r = Ok kern) <-> List.length (kz_directions k) = List.length sizes /\ number_of_walls k = 1%nat) /\
  (r = Err ValueError <-> number_of_walls k = 0%nat \/ List.length (kz_directions k) <> List.length sizes) /\
  (r = Err NotImplemented -> (2 <= number_of_walls k)%nat).
Proof.
  intros sizes hs k HC r. unfold r, simple_kernel, katzer_kernel_of, check_inputs. rewrite HC, walls_count.
  destruct (Nat.ltb_spec (number_of_walls k) 1) as [H0 | H0]; cbn [bind].
  { split; [split; [intros [? H]; discriminate H | intros (_ & H); lia]|]. split; [split; auto; intros _; left; lia|]. discriminate. }
  destruct (Nat.eqb_spec (List.length (kz_directions k)) (List.length sizes)) as [H1 | H1]; cbn [negb bind].
  2: { split; [split; [intros [? H]; discriminate H | intros (H & _); contradiction]|]. split; [split; auto|]. discriminate. }
  unfold simple_equations. rewrite <- walls_count in H0 |- *. destruct (wall_directions k) as [|d1 [|d2 l]] eqn:EW; cbn [List.length] in *; [lia| |].
  - destruct (wall_coordinate k d1 _ EW (or_introl eq_refl)) as [e ->]. cbn [bind simple_fits].
    split; [split; [auto | eauto]|]. split; [split; [discriminate | intros [H | H]; [discriminate H | contradiction]]|]. discriminate.
  - cbn [bind]. split; [split; [intros [? H]; discriminate H | intros (_ & H); discriminate H]|].
    split; [split; [discriminate | intros [H | H]; [discriminate H | contradiction]]|]. lia.
Qed.
Print Assumptions C83_simple_inputs.
(* the wall-normal momentum of the built-in profile jumps by a third at the edge of the
   boundary layer, and the velocity at the wall is not zero *)
Theorem C83_simple_profile_refuted :
  let fu := fst (fst simple_fits) in let fv := snd (fst simple_fits) in
  (forall y, 2286 / 1000 <= y < 2316 / 1000 -> 0 < profile fv y < 3 / 4 * profile fv (2316 / 1000)) /\ profile fu 0 < 0.
Proof.
  cbv zeta. change (fst (fst simple_fits)) with sfu. change (snd (fst simple_fits)) with sfv. split.
  - intros y Hy. unfold profile, below. cbn [sfv simple_fits fst snd fit_edge fit_coeffs fit_free]. rewrite simple_edge_val.
    destruct (Rlt_dec y (2316 / 1000)); [|lra]. destruct (Rlt_dec (2316 / 1000) (2316 / 1000)); [lra|].
    change simple_rhov with (rev (map micro rhov_coeffs)). bound 4%nat 1000%Z 4200%Z 1%Z 2302%Z rhov_coeffs.
    intros X. specialize (X y ltac:(apply near; lra)). unfold Q2R at 1. cbn [Qnum Qden]. lra.
  - unfold profile, below. cbn [sfu simple_fits fst snd fit_edge fit_coeffs fit_free]. rewrite simple_edge_val. destruct (Rlt_dec 0 (2316 / 1000)); [|lra].
    change simple_rhou with (rev (map micro rhou_coeffs)). bound 0%nat (-700)%Z (-600)%Z 0%Z 0%Z rhou_coeffs. intros X. specialize (X 0 ltac:(apply near; lra)). lra.
Qed.
Print Assumptions C83_simple_profile_refuted.

(* ---- examples ---- *)
Definition katzJ : interp R := {|
  inum := Q2R;
  isym := fun k s => if string_dec s "gama" then 7 / 5 else if string_dec s "Minf" then 2 else if string_dec s "Twall" then 3 / 2
                     else if string_dec s "block0np2" then 9 else 1;
  iapp := fun h l => match h with
    | HAdd => fold_right Rplus 0 l
    | HMul => fold_right Rmult 1 l
    | HPow => match l with
              | [a; b] => if Req_EM_T b (Q2R (1 # 2)) then sqrt a else if Req_EM_T b (Q2R (-1 # 1)) then / a else a ^ Z.to_nat (Int_part b)
              | _ => 0 end
    | HFun f =>
      if string_dec f "true" then 1 else
      if string_dec f "<" then (if Rlt_dec (nth 0 l 0) (nth 1 l 0) then 1 else 0) else
      if string_dec f "<=" then (if Rle_dec (nth 0 l 0) (nth 1 l 0) then 1 else 0) else
      if Req_EM_T (nth 1 l 0) 1 then nth 0 l 0 else nth 2 l 0
    | _ => 0 end |}.
Lemma whole : forall p, Q2R (Z.of_nat p # 1) = INR p.
Proof. intros p. unfold Q2R. cbn [Qnum Qden]. rewrite <- INR_IZR_INZ. field. Qed.
Lemma katzJ_power : forall a p, iapp katzJ HPow [a; Q2R (Z.of_nat p # 1)] = a ^ p.
Proof.
  intros a p. cbn [iapp katzJ].
  destruct (Req_EM_T (Q2R (Z.of_nat p # 1)) (Q2R (1 # 2))) as [E | _]; [apply eqR_Qeq in E; unfold Qeq in E; cbn in E; lia|].
  destruct (Req_EM_T (Q2R (Z.of_nat p # 1)) (Q2R (-1 # 1))) as [E | _]; [apply eqR_Qeq in E; unfold Qeq in E; cbn in E; lia|].
  rewrite whole, Int_part_INR, Nat2Z.id. reflexivity.
Qed.
Lemma katzJ_ok : initial_functions katzJ.
Proof.
  split.
  - split; auto; intros.
    + cbn [iapp katzJ]. destruct (Req_EM_T (Q2R (-1 # 1)) (Q2R (1 # 2))) as [E | _]; [apply eqR_Qeq in E; discriminate E|]. destruct (Req_EM_T (Q2R (-1 # 1)) (Q2R (-1 # 1))); congruence.
    + change (Q2R 2) with (Q2R (Z.of_nat 2 # 1)). rewrite katzJ_power. cbn [pow]. ring.
    + cbn [iapp katzJ]. destruct (Req_EM_T (Q2R (1 # 2)) (Q2R (1 # 2))); congruence.
  - exact katzJ_power.
  - reflexivity.
  - reflexivity.
  - reflexivity.
  - intros. cbn. destruct (Req_EM_T 1 1); congruence.
  - intros. cbn. destruct (Req_EM_T 0 1); [lra | reflexivity].
Qed.
Fixpoint box (r : list (Z * Z)) : list (list Z) :=
  match r with
  | [] => [[]]
  | (a, b) :: r => flat_map (fun i => map (cons i) (box r)) (map (fun j => a + Z.of_nat j)%Z (seq 0 (Z.to_nat (b - a))))
  end.
Lemma box_in : forall r x, In x (box r) <-> in_ranges r x = true.
Proof.
  induction r as [|[a b] r IH]; intros x.
  - cbn. split; [intros [<- | []]; reflexivity|]. destruct x; [auto | discriminate].
  - cbn [box]. rewrite in_flat_map. split.
    + intros (i & Hi & Hx). apply in_map_iff in Hi. destruct Hi as (j & <- & Hj). apply in_seq in Hj. apply in_map_iff in Hx. destruct Hx as (y & <- & Hy).
      apply IH in Hy. unfold in_ranges in *. cbn [List.length combine forallb Nat.eqb]. apply andb_true_iff in Hy. destruct Hy as [-> ->].
      rewrite andb_true_r. cbn. apply andb_true_iff. split; [apply Z.leb_le | apply Z.ltb_lt]; lia.
    + destruct x as [|i y]; [discriminate|]. unfold in_ranges. cbn [List.length combine forallb Nat.eqb]. intros H. apply andb_true_iff in H. destruct H as [H1 H].
      apply andb_true_iff in H. destruct H as [H2 H3]. apply andb_true_iff in H2. destruct H2 as [H4 H5]. apply Z.leb_le in H4. apply Z.ltb_lt in H5.
      exists i. split; [apply in_map_iff; exists (Z.to_nat (i - a)); rewrite in_seq; lia|]. apply in_map. apply IH. unfold in_ranges. rewrite H1, H3. reflexivity.
Qed.
Lemma box_nodup : forall r, NoDup (box r).
Proof.
  induction r as [|[a b] r IH]; cbn [box]; [repeat constructor; auto|]. generalize (Z.to_nat (b - a)) as c. intros c. generalize 0%nat as s. induction c as [|c IC]; intros s; cbn [seq map flat_map]; [constructor|].
  apply BCKern.nodup_app; [|apply IC|].
  - apply FinFun.Injective_map_NoDup; auto. intros u v E. congruence.
  - intros u Hu Hv. apply in_map_iff in Hu. destruct Hu as (v & <- & _). apply in_flat_map in Hv. destruct Hv as (i & Hi & Hv). apply in_map_iff in Hi. destruct Hi as (j & <- & Hj). apply in_seq in Hj.
    apply in_map_iff in Hv. destruct Hv as (w & E & _). injection E as E _. lia.
Qed.
Lemma box_sweeps : forall r, sweeps (box r) (fun x => in_ranges r x = true).
Proof. intros r. split; [apply box_nodup | intros x; apply box_in]. Qed.

Definition coordinate_x (n d : nat) (b : string) : keq := KEq (edat n b) (emul [ESym KGridIdx ("idx[" ++ dec d ++ "]")%string; econst ("Delta" ++ dec d ++ "block0")%string]).
Lemma coordinate_independent : forall n (l : list (nat * string)), (forall p, In p l -> ~ In (snd p) conserved) ->
  independent n (map (fun p => coordinate_x n (fst p) (snd p)) l).
Proof.
  intros n l H. split; [split|].
  - intros q Hq. apply in_map_iff in Hq. destruct Hq as (p & <- & _). exists (Array (snd p)). reflexivity.
  - intros q q' e b ix Hq He Hb _ _. apply in_map_iff in Hq. destruct Hq as (p & <- & _). cbn in He. subst e. destruct Hb.
  - intros q b Hq Hb. apply in_map_iff in Hq. destruct Hq as (p & <- & Hp). split.
    + intros E. cbn in E. injection E as E. apply (H p Hp). rewrite E. exact Hb.
    + intros e He. cbn in He. subst e. intros [].
Qed.
(* a wall in direction d of a block with n = 2 or 3 directions *)
Definition flat_plate (n d : nat) : katzer :=
  {| kz_directions := map (fun i => ((i =? d)%nat, edat n ("x" ++ dec i)%string)) (seq 0 n); kz_ncoeffs := Some 50%Z;
     kz_coordinates := Some (map (fun p => coordinate_x n (fst p) (snd p)) (map (fun i => (i, ("x" ++ dec i)%string)) (seq 0 n))) |}.
Lemma plate_coordinates : forall n d, independent n (coordinate_eqs (flat_plate n d)).
Proof.
  intros n d. unfold flat_plate, coordinate_eqs. cbn [kz_coordinates]. apply coordinate_independent. intros p Hp. apply in_map_iff in Hp. destruct Hp as (i & <- & _).
  cbn [snd]. intros H. repeat (destruct H as [H | H]; [discriminate H|]). exact H.
Qed.
Lemma plate_wall : forall n d, (d < n)%nat -> only_wall n (flat_plate n d) d ("x" ++ dec d)%string.
Proof.
  intros n d Hd. unfold only_wall, flat_plate. cbn [kz_directions].
  assert (E : forall i, (i < n)%nat -> nth_error (map (fun i => ((i =? d)%nat, edat n ("x" ++ dec i)%string)) (seq 0 n)) i = Some ((i =? d)%nat, edat n ("x" ++ dec i)%string)).
  { intros i Hi. apply (map_nth_error (fun i => ((i =? d)%nat, edat n ("x" ++ dec i)%string))). rewrite (nth_error_nth' _ 0%nat) by (rewrite seq_length; exact Hi). rewrite seq_nth by exact Hi. reflexivity. }
  split; [|split].
  - rewrite E by exact Hd. rewrite Nat.eqb_refl. reflexivity.
  - intros H. repeat (destruct H as [H | H]; [discriminate H|]). exact H.
  - intros i e H. destruct (lt_dec i n) as [L | L].
    + rewrite E in H by exact L. injection H as H _. apply Nat.eqb_eq. exact H.
    + assert (N : nth_error (map (fun i => ((i =? d)%nat, edat n ("x" ++ dec i)%string)) (seq 0 n)) i = None) by (apply nth_error_None; rewrite map_length, seq_length; lia). rewrite N in H. discriminate.
Qed.
Definition side_wall : wall := {| w_rhou := simple_rhou; w_g := simple_T; w_normal := simple_rhov; w_edge := simple_edge; w_normal_free := 5650016 # 1000000000 |}.
Definition duct : katzer :=
  {| kz_directions := [(false, edat 3 "x0"); (true, edat 3 "x1"); (true, edat 3 "x2")]; kz_ncoeffs := Some 50%Z;
     kz_coordinates := Some (map (fun p => coordinate_x 3 (fst p) (snd p)) [(1%nat, "x1"%string); (2%nat, "x2"%string)]) |}.
Definition wide : list halo := [(-2, 2); (-1, 3)]%Z.
Lemma wide_proper : proper_halos wide.
Proof. intros h [<- | [<- | []]]; cbn; lia. Qed.
(* one wall in direction d of three *)
Example C83_nonvacuous : forall d, (d < 3)%nat ->
  exists kern, katzer_kernel [4; 5; 9]%Z 0 wide (flat_plate 3 d) simple_fits (side_wall, side_wall) = Ok kern /\
  initial_functions katzJ /\ only_wall 3 (flat_plate 3 d) d ("x" ++ dec d)%string /\ independent 3 (coordinate_eqs (flat_plate 3 d)) /\ proper_halos wide /\
  sweeps (box (ik_range kern)) (fun x => in_ranges (ik_range kern) x = true) /\
  covered [4; 5; 9]%Z wide [-2; 7; 0]%Z /\ ~ covered [4; 5; 9]%Z wide [-2; 8; 0]%Z /\ const katzJ "gama" = 7 / 5 /\ const katzJ "Minf" = 2 /\
  (forall truth M, let M' := run_ikernel katzJ truth (ik_eqs kern) (box (ik_range kern)) M in
     p_at katzJ M' "rho" (momenta 3) "rhoE" [3; 4; 8]%Z = 1 / (7 / 5 * (2 * 2)) \/
     profile (snd simple_fits) (run_ikernel katzJ truth (coordinate_eqs (flat_plate 3 d)) (box (ik_range kern)) M ("x" ++ dec d)%string [3; 4; 8]%Z) = 0).
Proof.
  intros d Hd. destruct (katzer_kernel [4; 5; 9]%Z 0 wide (flat_plate 3 d) simple_fits (side_wall, side_wall)) as [kern|e] eqn:K.
  2: { exfalso. destruct (C83_inputs [4; 5; 9]%Z 0 wide (flat_plate 3 d) simple_fits (side_wall, side_wall)) as [[_ C] _]. rewrite K in C.
       destruct C as [kern C]; [|discriminate C]. split; [reflexivity|]. split; [intros (c & E & L); injection E as <-; lia|]. left. destruct d as [|[|[|d]]]; [reflexivity| reflexivity | reflexivity | lia]. }
  exists kern. split; [reflexivity|]. split; [exact katzJ_ok|]. split; [exact (plate_wall 3 d Hd)|]. split; [apply plate_coordinates|]. split; [exact wide_proper|]. split; [apply box_sweeps|].
  split; [|split; [|split; [reflexivity|split; [reflexivity|]]]].
  - apply katzer_points; [exact wide_proper | reflexivity].
  - intros C. apply katzer_points in C; [vm_compute in C; discriminate C | exact wide_proper].
  - intros truth M M'. destruct (Req_EM_T (profile (snd simple_fits) (run_ikernel katzJ truth (coordinate_eqs (flat_plate 3 d)) (box (ik_range kern)) M ("x" ++ dec d)%string [3; 4; 8]%Z)) 0) as [E | N]; [right; exact E | left].
    destruct simple_fits as [[a b] c] eqn:ES in K, N. cbn [snd] in N.
    apply (C83_uniform_pressure katzJ truth [4; 5; 9]%Z 0 wide (flat_plate 3 d) d _ _ _ _ _ kern _ M katzJ_ok (plate_wall 3 d Hd) (plate_coordinates 3 d) wide_proper K (box_sweeps _)); auto;
      try (cbn; lra). apply katzer_points; [exact wide_proper | reflexivity].
Qed.
(* walls below and on both sides *)
Example C83_two_walls_nonvacuous : exists kern, katzer_kernel [4; 5; 9]%Z 0 wide duct simple_fits (side_wall, side_wall) = Ok kern /\
  side_walls duct "x1" "x2" /\ same_lengths side_wall side_wall /\ independent 3 (coordinate_eqs duct) /\
  sweeps (box (ik_range kern)) (fun x => in_ranges (ik_range kern) x = true) /\
  width katzJ 0 = 8 /\ Q2R (w_edge side_wall) < width katzJ 0 / 2 /\ covered [4; 5; 9]%Z wide [0; 3; 1]%Z /\ covered [4; 5; 9]%Z wide [0; 3; 7]%Z.
Proof.
  eexists. split; [reflexivity|]. split; [exists (edat 3 "x0"); reflexivity|]. split; [intros cs H; repeat (destruct H as [<- | H]; [reflexivity|]); destruct H|].
  split; [apply coordinate_independent; intros p [<- | [<- | []]] H; repeat (destruct H as [H | H]; [discriminate H|]); exact H|]. split; [apply box_sweeps|].
  assert (W : width katzJ 0 = 8) by (change (width katzJ 0) with (1 * (9 - 1)); lra). split; [exact W|]. rewrite W. cbn [w_edge side_wall]. rewrite simple_edge_val. split; [lra|].
  split; apply katzer_points; try exact wide_proper; reflexivity.
Qed.
(* the simple variant *)
Definition simple_plate : katzer := {| kz_directions := kz_directions (flat_plate 2 1); kz_ncoeffs := None; kz_coordinates := kz_coordinates (flat_plate 2 1) |}.
Example C83_simple_nonvacuous : exists kern, simple_kernel [6; 7]%Z wide simple_plate = Ok kern /\ only_wall 2 simple_plate 1 "x1" /\
  independent 2 (coordinate_eqs simple_plate) /\ sweeps (box (ik_range kern)) (fun x => in_ranges (ik_range kern) x = true) /\ covered [6; 7]%Z wide [8; 0]%Z.
Proof.
  eexists. split; [reflexivity|]. split; [exact (plate_wall 2 1 ltac:(lia))|]. split; [exact (plate_coordinates 2 1)|]. split; [apply box_sweeps|].
  apply katzer_points; [exact wide_proper | reflexivity].
Qed.

(* with the wall normal to direction 2 (or 0) the wall-normal momentum of the profile is
   in rhou1, parallel to the wall, and the momentum normal to the wall is zero *)
Theorem C83_wall_normal_refuted :
  ~ forall J truth sizes b hs k d c fu fv fT walls kern pts M, 
    initial_functions J -> only_wall (List.length sizes) k d c -> independent (List.length sizes) (coordinate_eqs k) -> proper_halos hs ->
    katzer_kernel sizes b hs k (fu, fv, fT) walls = Ok kern -> sweeps pts (fun x => in_ranges (ik_range kern) x = true) ->
    forall x, covered sizes hs x ->
      run_ikernel J truth (ik_eqs kern) pts M ("rhou" ++ dec d)%string x = profile fv (run_ikernel J truth (coordinate_eqs k) pts M c x).
Proof.
  intros H. destruct (C83_nonvacuous 2 ltac:(lia)) as (kern & K & F & W & I & P & S & CV & _).
  set (f := {| fit_coeffs := []; fit_edge := 0; fit_free := 1 |}). set (g := {| fit_coeffs := [1%Q]; fit_edge := 0; fit_free := 1 |}).
  assert (exists kern, katzer_kernel [4; 5; 9]%Z 0 wide (flat_plate 3 2) (f, g, g) (side_wall, side_wall) = Ok kern) as [kn K'] by (eexists; reflexivity).
  pose proof (H katzJ (fun _ => true) [4; 5; 9]%Z 0%nat wide (flat_plate 3 2) 2%nat _ _ _ _ _ kn _ (fun _ _ => 0) F W I P K' (box_sweeps _) _ CV) as E.
  destruct (C83_one_wall katzJ (fun _ => true) [4; 5; 9]%Z 0%nat wide (flat_plate 3 2) 2%nat _ _ _ _ _ kn _ (fun _ _ => 0) F W I P K' (box_sweeps _)) as [A _].
  destruct (A _ CV) as (_ & _ & _ & R & _). specialize (R eq_refl). change ("rhou" ++ dec 2)%string with "rhou2"%string in E. rewrite R in E.
  set (y := run_ikernel _ _ _ _ _ _ _) in E. clearbody y. unfold profile, below, horner in E. cbn in E.
  replace (Q2R 1) with 1 in E by (unfold Q2R; cbn; lra). destruct (Rlt_dec _ _); lra.
Qed.
Print Assumptions C83_wall_normal_refuted.
