(* Proofs about the Runge-Kutta programs. *)
From Coq Require Import Reals List Lra Lia FunctionalExtensionality.
From Verif Require Import Base RKModel RKSpec.
Open Scope R_scope.
Open Scope list_scope.

Fixpoint vadd (x y : list R) : list R :=
  match x, y with
  | a :: x, b :: y => (a + b) :: vadd x y
  | _, _ => []
  end.

(* Tableau of a two-register (Williamson) method. *)
Fixpoint ls_rows (ab : list (R * R)) (w acc : list R) : list (list R) * list R :=
  match ab with
  | [] => ([], acc)
  | (a, b) :: ab =>
      let w' := map (Rmult a) w ++ [1] in
      let acc' := vadd (acc ++ [0]) (map (Rmult b) w') in
      let '(rows, bb) := ls_rows ab w' acc' in (acc :: rows, bb)
  end.

(* Tableau of the SBLI form. *)
Fixpoint sbli_rows (on : list (R * R)) (last olds : list R) : list (list R) * list R :=
  match on with
  | [] => ([], last)
  | (o, n) :: on =>
      let '(rows, bb) := sbli_rows on (olds ++ [n]) (olds ++ [o]) in (last :: rows, bb)
  end.

Section generic.
  Variable I : Type.
  Notation st := (state I).

  Lemma comb_snoc : forall x (ks : list st) a k i, List.length x = List.length ks ->
    comb (x ++ [a]) (ks ++ [k]) i = comb x ks i + a * k i.
  Proof.
    induction x as [|b x IH]; intros [|k0 ks] a k i H; cbn in H; try discriminate; cbn.
    - lra.
    - injection H as H. rewrite IH by auto. lra.
  Qed.
  Lemma comb_scale : forall x (ks : list st) a i, comb (map (Rmult a) x) ks i = a * comb x ks i.
  Proof. induction x; intros [|k ks] b i; cbn; try lra. rewrite IHx. lra. Qed.
  Lemma comb_vadd : forall x y (ks : list st) i, List.length x = List.length y ->
    comb (vadd x y) ks i = comb x ks i + comb y ks i.
  Proof.
    induction x as [|a x IH]; intros [|b y] [|k ks] i H; cbn in *; try discriminate; try lra.
    injection H as H. rewrite IH by auto. lra.
  Qed.
  Lemma vadd_length : forall x y, List.length x = List.length y -> List.length (vadd x y) = List.length x.
  Proof. induction x; intros [|b y] H; cbn in *; try discriminate; auto. Qed.

  Variable dt : R.
  Variable f : st -> st.

  Lemma ls_generic : forall ab w acc ks (u um tm : st),
    List.length w = List.length ks -> List.length acc = List.length ks ->
    um = (fun i => u i + dt * comb acc ks i) -> tm = (fun i => dt * comb w ks i) ->
    fst (fold_left (ls_stage I dt f) ab (um, tm)) =
    (fun i => u i + dt * comb (snd (ls_rows ab w acc)) (stages (fst (ls_rows ab w acc)) dt f u ks) i).
  Proof.
    induction ab as [|[a b] ab IH]; intros w acc ks u um tm Hw Ha Hu Ht.
    - cbn. exact Hu.
    - cbn [fold_left ls_rows]. unfold ls_stage at 2.
      set (w' := map (Rmult a) w ++ [1]). set (acc' := vadd (acc ++ [0]) (map (Rmult b) w')).
      assert (Lw : List.length w' = S (List.length ks))
        by (unfold w'; rewrite app_length, map_length; cbn; lia).
      assert (La : List.length acc' = S (List.length ks)).
      { unfold acc'. rewrite vadd_length; rewrite app_length; cbn; [lia|]. rewrite map_length. lia. }
      rewrite (IH w' acc' (ks ++ [f um]) u).
      + destruct (ls_rows ab w' acc') as [rows bb]. cbn [fst snd stages]. rewrite <- Hu. reflexivity.
      + rewrite app_length. cbn. lia.
      + rewrite app_length. cbn. lia.
      + apply functional_extensionality. intros i. subst um tm. unfold acc'.
        rewrite comb_vadd by (rewrite map_length, Lw, app_length; cbn; lia).
        rewrite comb_scale. unfold w'. rewrite !comb_snoc by (rewrite ?map_length; lia).
        rewrite comb_scale. lra.
      + apply functional_extensionality. intros i. subst um tm. unfold w'.
        rewrite comb_snoc by (rewrite ?map_length; lia). rewrite comb_scale. lra.
  Qed.

  Lemma ls_is_rk : forall A B (u tmp : st),
    fst (ls_step I dt f (0 :: A, B) (u, tmp)) =
    runge_kutta (fst (ls_rows (combine (0 :: A) B) [] [])) (snd (ls_rows (combine (0 :: A) B) [] [])) dt f u.
  Proof.
    intros A B u tmp. unfold ls_step. cbn [fst snd].
    destruct B as [|b B].
    - cbn. unfold runge_kutta. cbn. apply functional_extensionality. intros. lra.
    - cbn [combine]. unfold runge_kutta. rewrite <- (ls_generic ((0, b) :: combine A B) [] [] [] u u (fun _ => 0)).
      + cbn [fold_left]. f_equal. f_equal. unfold ls_stage. f_equal; apply functional_extensionality; intros; lra.
      + reflexivity.
      + reflexivity.
      + apply functional_extensionality. intros. cbn. lra.
      + apply functional_extensionality. intros. cbn. lra.
  Qed.

  Lemma sbli_generic : forall on last olds ks (u um om : st),
    List.length olds = List.length ks ->
    um = (fun i => u i + dt * comb last ks i) -> om = (fun i => u i + dt * comb olds ks i) ->
    fst (fold_left (sbli_stage I dt f) on (um, om)) =
    (fun i => u i + dt * comb (snd (sbli_rows on last olds)) (stages (fst (sbli_rows on last olds)) dt f u ks) i).
  Proof.
    induction on as [|[o n] on IH]; intros last olds ks u um om Ho Hu Hold.
    - exact Hu.
    - cbn [fold_left sbli_rows]. unfold sbli_stage at 2.
      rewrite (IH (olds ++ [n]) (olds ++ [o]) (ks ++ [f um]) u).
      + destruct (sbli_rows on (olds ++ [n]) (olds ++ [o])) as [rows bb]. cbn [fst snd stages].
        rewrite <- Hu. reflexivity.
      + rewrite !app_length. cbn. lia.
      + apply functional_extensionality. intros i. rewrite comb_snoc by lia. subst om. lra.
      + apply functional_extensionality. intros i. rewrite comb_snoc by lia. subst om. lra.
  Qed.

  Lemma sbli_is_rk : forall on (u old : st),
    fst (sbli_step I dt f on (u, old)) =
    runge_kutta (fst (sbli_rows (combine (fst on) (snd on)) [] [])) (snd (sbli_rows (combine (fst on) (snd on)) [] [])) dt f u.
  Proof.
    intros on u old. unfold sbli_step. rewrite (sbli_generic _ [] [] [] u); try reflexivity;
      apply functional_extensionality; intros; cbn; lra.
  Qed.

  (* ---- C25 ---- *)
  Lemma ls_stages_steady : forall ab u tmp, (forall i, f u i = 0) -> (forall i, tmp i = 0) ->
    fold_left (ls_stage I dt f) ab (u, tmp) = (u, tmp).
  Proof.
    induction ab as [|[a b] ab IH]; intros u tmp Hf Ht; [reflexivity|].
    cbn [fold_left].
    assert (E : ls_stage I dt f (u, tmp) (a, b) = (u, tmp)).
    { unfold ls_stage. f_equal; apply functional_extensionality; intros i; rewrite Ht, Hf; lra. }
    rewrite E. apply IH; auto.
  Qed.

  Lemma ls_step_steady : forall A B u tmp, (forall i, f u i = 0) ->
    fst (ls_step I dt f (0 :: A, B) (u, tmp)) = u.
  Proof.
    intros A B u tmp Hf. unfold ls_step. cbn [fst snd]. destruct B as [|b B]; [reflexivity|].
    cbn [combine fold_left].
    assert (E : ls_stage I dt f (u, tmp) (0, b) = (u, fun _ => 0)).
    { unfold ls_stage. f_equal; apply functional_extensionality; intros i; rewrite Hf; lra. }
    rewrite E, ls_stages_steady; auto.
  Qed.

  Lemma sbli_step_steady : forall on u old, (forall i, f u i = 0) ->
    fst (sbli_step I dt f on (u, old)) = u.
  Proof.
    intros [os ns] u old Hf. unfold sbli_step. cbn [fst snd].
    assert (E : forall l, fold_left (sbli_stage I dt f) l (u, u) = (u, u)).
    { induction l as [|[o n] l IH]; [reflexivity|]. cbn [fold_left].
      assert (E : sbli_stage I dt f (u, u) (o, n) = (u, u)).
      { unfold sbli_stage. f_equal; apply functional_extensionality; intros i; rewrite Hf; lra. }
      rewrite E. auto. }
    rewrite E. reflexivity.
  Qed.

  Variable L : st -> R.
  Hypothesis HL : linear L.
  Hypothesis HR : forall u, L (f u) = 0.

  Lemma L_comb : forall a x b y, L (fun i => a * x i + b * y i) = a * L x + b * L y.
  Proof. intros. destruct HL as [H1 H2]. rewrite (H1 (fun i => a * x i) (fun i => b * y i)), !H2. lra. Qed.
  Lemma L_axpy : forall x b y, L (fun i => x i + b * y i) = L x + b * L y.
  Proof. intros. destruct HL as [H1 H2]. rewrite (H1 x (fun i => b * y i)), H2. lra. Qed.

  Lemma ls_stages_inv : forall ab u tmp, L tmp = 0 ->
    L (fst (fold_left (ls_stage I dt f) ab (u, tmp))) = L u.
  Proof.
    induction ab as [|[a b] ab IH]; intros u tmp Ht; [reflexivity|].
    cbn [fold_left]. unfold ls_stage at 2. rewrite IH.
    - rewrite L_axpy, L_comb, Ht, HR. lra.
    - rewrite L_comb, Ht, HR. lra.
  Qed.
  Lemma ls_step_inv : forall A B u tmp,
    L (fst (ls_step I dt f (0 :: A, B) (u, tmp))) = L u.
  Proof.
    intros A B u tmp. unfold ls_step. cbn [fst snd]. destruct B as [|b B]; [reflexivity|].
    cbn [combine fold_left]. unfold ls_stage at 2. rewrite ls_stages_inv.
    - rewrite L_axpy, L_comb, HR. lra.
    - rewrite L_comb, HR. lra.
  Qed.

  Lemma sbli_step_inv : forall on u old, L (fst (sbli_step I dt f on (u, old))) = L u.
  Proof.
    intros [os ns] u old. unfold sbli_step. cbn [fst snd].
    assert (E : forall l x, L (snd x) = L u -> L (fst x) = L u ->
              L (fst (fold_left (sbli_stage I dt f) l x)) = L u).
    { induction l as [|[o n] l IH]; intros [x y] H1 H2; [exact H2|]. cbn [fold_left].
      unfold sbli_stage at 2. cbn [fst snd] in *. apply IH; cbn [fst snd]; rewrite L_axpy, HR, H1; lra. }
    apply E; reflexivity.
  Qed.
End generic.

Lemma iterate_inv : forall M (P : M -> Prop) step n m, (forall m, P m -> P (step m)) -> P m -> P (iterate n step m).
Proof. induction n; cbn; intros; auto. Qed.

(* ---- order conditions ---- *)
Ltac tableau := cbn [combine ls_rows sbli_rows fst snd map app vadd].
Ltac conditions :=
  unfold order3, order4_within, close, cs, apply, mul; cbn [sum fold_right dot map combine fst snd].

Lemma explicit_check : forall rows b,
  map (@List.length R) rows = seq 0 (List.length rows) -> List.length b = List.length rows -> explicit rows b.
Proof.
  intros rows b H Hb. split; auto. intros s row Hs.
  assert (E : nth_error (map (@List.length R) rows) s = Some (List.length row)) by (apply map_nth_error; auto).
  rewrite H in E. assert (Ls : (s < List.length rows)%nat) by (apply nth_error_Some; congruence).
  rewrite nth_error_nth' with (d := 0%nat) in E by (rewrite seq_length; auto).
  rewrite seq_nth in E by auto. injection E. lia.
Qed.

Lemma ls3_order : let t := ls_rows (combine [0; -5/9; -153/128] [1/3; 15/16; 8/15]) [] [] in
  explicit (fst t) (snd t) /\ order3 (fst t) (snd t).
Proof.
  cbn zeta. tableau. split; [apply explicit_check; reflexivity|]. conditions.
  split; [lra|]. split; [lra|]. split; lra.
Qed.

Lemma sbli3_order : let t := sbli_rows (combine [1/4; 3/20; 3/5] [2/3; 5/12; 3/5]) [] [] in
  explicit (fst t) (snd t) /\ order3 (fst t) (snd t).
Proof.
  cbn zeta. tableau. split; [apply explicit_check; reflexivity|]. conditions.
  split; [lra|]. split; [lra|]. split; lra.
Qed.

(* The SSP coefficients lie in Q(z) with z*z rational. *)
Lemma div_eq : forall n d q, d <> 0 -> n = q * d -> n / d = q.
Proof. intros n d q Hd ->. field. exact Hd. Qed.

Lemma ssp_values : exists z : R,
  z * z = 78453855056248136065449/15625000000000000000000 /\
  ssp_coeffs ssp_c =
  ([0; -234951755189971709/125000000000000000 - 462287/1000000 * z;
    -2175478189272067094849110069/623425763988720456720138 + 350021459187500000000/224761444726155129 * z],
   [462287/500000; -1275722505125000/73055233563767 + 15625000000000000/1972491306221709 * z;
    275556061107/886861000000 + 125000/886861 * z]).
Proof.
  unfold ssp_coeffs, ssp_c. cbn zeta.
  match goal with |- context [sqrt ?e] => set (P := e) end.
  assert (HP : P = 78453855056248136065449/15625000000000000000000) by (unfold P; field).
  assert (H0 : 0 <= P) by (rewrite HP; lra).
  pose proof (sqrt_sqrt P H0) as Hz. pose proof (sqrt_pos P) as Hp.
  generalize dependent (sqrt P). intros z Hz Hp. exists z. rewrite HP in Hz. split; [exact Hz|].
  clearbody P. clear HP H0 P.
  assert (Lo : 2240769 / 1000000 < z) by nra. assert (Hi : z < 2240770 / 1000000) by nra.
  apply f_equal2.
  - apply f_equal2; [reflexivity|]. apply f_equal2; [|apply f_equal2; [|reflexivity]].
    + apply div_eq; lra.
    + apply div_eq; lra.
  - apply f_equal2; [lra|]. apply f_equal2; [|apply f_equal2; [|reflexivity]].
    + apply div_eq; lra.
    + apply div_eq; [|nra]. intro E. ring_simplify in E. lra.
Qed.

Lemma ssp_order : let t := ls_rows (combine (fst (ssp_coeffs ssp_c)) (snd (ssp_coeffs ssp_c))) [] [] in
  explicit (fst t) (snd t) /\ order3 (fst t) (snd t).
Proof.
  cbn zeta. destruct ssp_values as [z [Hz ->]].
  set (A2 := -234951755189971709/125000000000000000 - 462287/1000000 * z).
  set (A3 := -2175478189272067094849110069/623425763988720456720138 + 350021459187500000000/224761444726155129 * z).
  set (B1 := 462287/500000).
  set (B2 := -1275722505125000/73055233563767 + 15625000000000000/1972491306221709 * z).
  set (B3 := 275556061107/886861000000 + 125000/886861 * z).
  (* products, reduced with z*z *)
  assert (V : B2 * A2 = ((3163798101992996284613/219165700691301000000) + (-13445721296125000/1972491306221709) * z)) by (unfold A2, B2; lra).
  assert (U : B3 * A3 = ((2314813366384760155129/129579674987191930774) + (-13946095023062500000000/1749325612327091065449) * z)) by (unfold A3, B3; lra).
  assert (W : B3 * (B1 + B2 + ((3163798101992996284613/219165700691301000000) + (-13445721296125000/1972491306221709) * z)) = ((114149479631/886861000000) + (125000/2660583) * z)) by (unfold B1, B2, B3; lra).
  assert (T : ((2314813366384760155129/129579674987191930774) + (-13946095023062500000000/1749325612327091065449) * z) * A2 = ((-1651688094650479465387/109582850345650500000) + (13267937500000000/1972491306221709) * z)) by (unfold A2; lra).
  assert (B32 : B3 * B2 = 250000/1386861) by (unfold B2, B3; lra).
  assert (WW : ((114149479631/886861000000) + (125000/2660583) * z) * (B1 + B2 + ((3163798101992996284613/219165700691301000000) + (-13445721296125000/1972491306221709) * z)) = ((-13236505189971709/1330291500000000000) + (462287/10642332) * z)) by (unfold B1, B2; lra).
  clearbody A3. tableau.
  split; [apply explicit_check; reflexivity|]. conditions.
  split; [|split; [|split]].
  - transitivity (B1 + B2 * A2 + (B3 * A3) * A2 + B2 + B3 * A3 + B3); [ring|].
    rewrite V, U, T. unfold B1, B2, B3. lra.
  - transitivity (B2 * B1 + (B3 * A3) * B1 + B3 * (B1 + B2 + B2 * A2)); [ring|].
    rewrite V, U, W. unfold B1, B2. lra.
  - transitivity (B1 * B1 * (B2 + (B3 * A3)) + (B3 * (B1 + B2 + B2 * A2)) * (B1 + B2 + B2 * A2)); [ring|].
    rewrite V, U, W, WW. unfold B1, B2. lra.
  - transitivity (B3 * B2 * B1); [ring|]. rewrite B32. unfold B1. lra.
Qed.

(* The five-stage coefficients: integers over powers of D = 10^13. *)
Definition D : Z := 10000000000000.
Definition sc (k : nat) (n : Z) : R := IZR n / IZR D ^ k.
Fixpoint zadd (x y : list Z) : list Z :=
  match x, y with a :: x, b :: y => (a + b)%Z :: zadd x y | _, _ => [] end.
(* entering stage s: w has scale s-1 and acc scale s; rows are emitted with scale K *)
Fixpoint zrows (K : nat) (ab : list (Z * Z)) (s : nat) (w acc : list Z) : list (list Z) * list Z :=
  match ab with
  | [] => ([], acc)
  | (a, b) :: ab =>
      let w' := map (Z.mul a) w ++ [(D ^ Z.of_nat s)%Z] in
      let acc' := zadd (map (Z.mul D) acc ++ [0%Z]) (map (Z.mul b) w') in
      let '(rows, bb) := zrows K ab (S s) w' acc' in
      (map (Z.mul (D ^ Z.of_nat (K - s))) acc :: rows, bb)
  end.
Definition zsum (l : list Z) : Z := fold_right Z.add 0%Z l.
Fixpoint zdot (x y : list Z) : Z :=
  match x, y with a :: x, b :: y => (a * b + zdot x y)%Z | _, _ => 0%Z end.
Definition zapply (rows : list (list Z)) (x : list Z) : list Z := map (fun row => zdot row x) rows.
Definition zmul (x y : list Z) : list Z := map (fun p => (fst p * snd p)%Z) (combine x y).

Lemma Dpos : IZR D <> 0.
Proof. unfold D. apply not_0_IZR. discriminate. Qed.
Lemma Dk : forall k, IZR D ^ k <> 0.
Proof. intros. apply pow_nonzero, Dpos. Qed.
Lemma sc_D : forall k j n, (k <= j)%nat -> sc j (D ^ Z.of_nat (j - k) * n) = sc k n.
Proof.
  intros k j n H. unfold sc. rewrite mult_IZR, <- pow_IZR.
  replace (IZR D ^ j) with (IZR D ^ (j - k) * IZR D ^ k) by (rewrite <- pow_add; f_equal; lia).
  field. split; apply Dk.
Qed.
Lemma sc_mul : forall k j a b, sc k a * sc j b = sc (k + j) (a * b).
Proof. intros. unfold sc. rewrite mult_IZR, pow_add. field. split; apply Dk. Qed.
Lemma sc_add : forall k a b, sc k a + sc k b = sc k (a + b).
Proof. intros. unfold sc. rewrite plus_IZR. field. apply Dk. Qed.
Lemma sc_0 : forall k, sc k 0 = 0.
Proof. intros. unfold sc. field. apply Dk. Qed.
Lemma sc_1 : forall k, sc k (D ^ Z.of_nat k) = 1.
Proof. intros. unfold sc. rewrite <- pow_IZR. field. apply Dk. Qed.

Lemma vadd_sc : forall k x y, vadd (map (sc k) x) (map (sc k) y) = map (sc k) (zadd x y).
Proof. induction x; intros [|b y]; cbn; auto. rewrite sc_add, IHx. reflexivity. Qed.
Lemma sum_sc : forall k l, sum (map (sc k) l) = sc k (zsum l).
Proof. induction l; cbn; [symmetry; apply sc_0|]. unfold sum, zsum in *. rewrite IHl, sc_add. reflexivity. Qed.
Lemma dot_sc : forall k j x y, dot (map (sc k) x) (map (sc j) y) = sc (k + j) (zdot x y).
Proof. induction x; intros [|b y]; cbn; try (symmetry; apply sc_0). rewrite IHx, sc_mul, sc_add. reflexivity. Qed.
Lemma apply_sc : forall k j rows x, apply (map (map (sc k)) rows) (map (sc j) x) = map (sc (k + j)) (zapply rows x).
Proof. unfold apply, zapply. induction rows; intros; cbn [map]; [reflexivity|]. rewrite dot_sc, IHrows. reflexivity. Qed.
Lemma mul_sc : forall k j x y, mul (map (sc k) x) (map (sc j) y) = map (sc (k + j)) (zmul x y).
Proof. unfold mul, zmul. induction x; intros [|b y]; cbn; auto. rewrite IHx, sc_mul. reflexivity. Qed.
Lemma cs_sc : forall k rows, cs (map (map (sc k)) rows) = map (sc k) (map zsum rows).
Proof. unfold cs. induction rows; cbn; [reflexivity|]. rewrite sum_sc, IHrows. reflexivity. Qed.

Definition toR (ab : Z * Z) : R * R := (sc 1 (fst ab), sc 1 (snd ab)).
Lemma zrows_ok : forall K ab s w acc, (s + List.length ab <= K)%nat -> (s = 0%nat -> w = []) ->
  ls_rows (map toR ab) (map (sc (pred s)) w) (map (sc s) acc) =
  (map (map (sc K)) (fst (zrows K ab s w acc)), map (sc (s + List.length ab)) (snd (zrows K ab s w acc))).
Proof.
  intros K ab. induction ab as [|[a b] ab IH]; intros s w acc Hs Hw.
  - cbn. rewrite Nat.add_0_r. reflexivity.
  - cbn [map toR fst snd ls_rows zrows List.length] in *.
    set (w' := map (Z.mul a) w ++ [(D ^ Z.of_nat s)%Z]).
    set (acc' := zadd (map (Z.mul D) acc ++ [0%Z]) (map (Z.mul b) w')).
    assert (Ew : map (Rmult (sc 1 a)) (map (sc (pred s)) w) ++ [1] = map (sc s) w').
    { unfold w'. rewrite map_app. cbn [map]. rewrite sc_1. f_equal. rewrite !map_map.
      destruct s as [|s].
      - rewrite Hw by auto. reflexivity.
      - apply map_ext. intros n. rewrite sc_mul. reflexivity. }
    rewrite Ew.
    assert (Ea : vadd (map (sc s) acc ++ [0]) (map (Rmult (sc 1 b)) (map (sc s) w')) = map (sc (S s)) acc').
    { unfold acc'. rewrite <- vadd_sc. f_equal.
      - rewrite map_app. cbn [map]. rewrite sc_0. f_equal. rewrite map_map. apply map_ext. intros n.
        rewrite <- (sc_D s (S s)) by lia. replace (S s - s)%nat with 1%nat by lia. rewrite Z.pow_1_r. reflexivity.
      - rewrite !map_map. apply map_ext. intros n. rewrite sc_mul. reflexivity. }
    rewrite Ea. change (map (sc s) w') with (map (sc (pred (S s))) w').
    rewrite (IH (S s)) by (auto; lia || discriminate).
    destruct (zrows K ab (S s) w' acc') as [rows bb]. cbn [fst snd map]. f_equal; [f_equal|].
    + rewrite map_map. apply map_ext. intros n. rewrite sc_D by lia. reflexivity.
    + f_equal. f_equal. lia.
Qed.

(* |sc k X - 1/q| <= 10^-12, as integers *)
Lemma close_sc : forall k X q, (0 < q)%Z ->
  (Z.abs (q * X - D ^ Z.of_nat k) * 1000000000000 <=? q * D ^ Z.of_nat k)%Z = true ->
  close (1/1000000000000) (sc k X) (1 / IZR q).
Proof.
  intros k X q Hq H. apply Z.leb_le in H. unfold close, sc.
  assert (HD : 0 < IZR D ^ k) by (apply pow_lt, IZR_lt; reflexivity).
  assert (Hq' : 0 < IZR q) by (apply IZR_lt; auto).
  apply IZR_le in H. rewrite !mult_IZR, abs_IZR, minus_IZR, mult_IZR, <- pow_IZR in H.
  replace (IZR X / IZR D ^ k - 1 / IZR q) with ((IZR q * IZR X - IZR D ^ k) / (IZR q * IZR D ^ k)) by (field; lra).
  unfold Rdiv at 1. rewrite Rabs_mult, (Rabs_right (/ _)).
  - apply (Rmult_le_reg_r (IZR q * IZR D ^ k * 1000000000000)).
    + apply Rmult_lt_0_compat; [apply Rmult_lt_0_compat; auto | lra].
    + replace (Rabs (IZR q * IZR X - IZR D ^ k) * / (IZR q * IZR D ^ k) * (IZR q * IZR D ^ k * 1000000000000))
        with (Rabs (IZR q * IZR X - IZR D ^ k) * 1000000000000) by (field; lra).
      lra.
  - apply Rle_ge, Rlt_le, Rinv_0_lt_compat, Rmult_lt_0_compat; auto.
Qed.

Definition z4 : list (Z * Z) :=
  [(0, 1496590219993); (-4178904745000, 3792103129999); (-11921516946430, 8229550293869);
   (-16977846924710, 6994504559488); (-15141834442570, 1530572479681)]%Z.
Definition z4rows := fst (zrows 5 z4 0 [] []).
Definition z4b := snd (zrows 5 z4 0 [] []).

Lemma ls4_order : forall a b, ls_coefficients 4 Standard = Ok (a, b) ->
  let t := ls_rows (combine a b) [] [] in
  explicit (fst t) (snd t) /\ order4_within (1/1000000000000) (fst t) (snd t).
Proof.
  intros a b E. injection E as <- <-.
  set (ab := combine _ _).
  assert (Eab : ab = map toR z4).
  { unfold ab, z4, toR, sc, dec13, D. cbn [combine map fst snd]. rewrite !pow_1.
    repeat (apply f_equal2; [apply f_equal2; [|reflexivity]|]); try reflexivity. field. }
  rewrite Eab. pose proof (zrows_ok 5 z4 0 [] [] ltac:(cbn; lia) (fun _ => eq_refl)) as H. cbn [map] in H.
  rewrite H. clear H. cbn [fst snd List.length z4 Nat.add]. fold z4. fold z4rows z4b. split.
  - apply explicit_check; [rewrite map_map, map_length|rewrite !map_length].
    + erewrite map_ext; [|intros; apply map_length]. vm_compute. reflexivity.
    + vm_compute. reflexivity.
  - unfold order4_within. rewrite !cs_sc, !mul_sc, !apply_sc, !mul_sc, !dot_sc, sum_sc.
    change (1/1000000000000) with (1/1000000000000).
    replace 1 with (1 / IZR 1) at 2 by lra.
    split; [apply close_sc; vm_compute; reflexivity|]. split; [apply close_sc; vm_compute; reflexivity|].
    split; [apply close_sc; vm_compute; reflexivity|]. split; [apply close_sc; vm_compute; reflexivity|].
    split; [apply close_sc; vm_compute; reflexivity|]. split; [apply close_sc; vm_compute; reflexivity|].
    split; apply close_sc; vm_compute; reflexivity.
Qed.
