(* Execution of the binomial filter kernel and properties of its weights. *)
From Verif Require Import Base Expr ExprProofs KernelModel ShiftModel ShiftSpec ShiftProofs BCModel BCSpec BCProofs BCKern BCMirror BCPoint FiltModel FiltSpec FiltProofs.
From Coq Require Import QArith ZArith Reals Qreals Lia Lra.
Local Close Scope Q_scope.
Open Scope R_scope.

Definition wsum (N : Z) (g : Z -> R) : R :=
  fold_right Rplus 0 (map2 (fun w l => Q2R w * g l) (filter_weights N) (filter_locations N)).
Definition accepted (N : Z) : Prop := (0 <= N <= 10)%Z /\ (N mod 2 = 0)%Z.
Lemma accepted_cases : forall N, accepted N -> (N = 0 \/ N = 2 \/ N = 4 \/ N = 6 \/ N = 8 \/ N = 10)%Z.
Proof. intros N [H E]. assert (K : (N = 2 * (N / 2))%Z) by (apply Z.div_exact; lia). lia. Qed.
Ltac weights :=
  unfold wsum; repeat match goal with |- context [filter_weights ?N] => let w := eval vm_compute in (filter_weights N) in change (filter_weights N) with w end;
  repeat match goal with |- context [filter_locations ?N] => let w := eval vm_compute in (filter_locations N) in change (filter_locations N) with w end;
  cbn [map2 fold_right]; unfold Q2R; cbn [Qnum Qden].
Lemma w_one : forall N, accepted N -> wsum N (fun _ => 1) = 1.
Proof. intros N H. destruct (accepted_cases N H) as [-> | [-> | [-> | [-> | [-> | ->]]]]]; weights; lra. Qed.
Lemma w_moment : forall N, accepted N -> wsum N IZR = 0.
Proof. intros N H. destruct (accepted_cases N H) as [-> | [-> | [-> | [-> | [-> | ->]]]]]; weights; lra. Qed.
Lemma w_alt : forall N, accepted N -> (2 <= N)%Z -> wsum N (fun l => if Z.even l then 1 else -1) = 0.
Proof. intros N H H2. destruct (accepted_cases N H) as [-> | [-> | [-> | [-> | [-> | ->]]]]]; try lia; weights; cbn [Z.even]; lra. Qed.
Lemma w_pos : forall N, accepted N -> Forall (fun w => 0 <= Q2R w) (filter_weights N).
Proof. intros N H. destruct (accepted_cases N H) as [-> | [-> | [-> | [-> | [-> | ->]]]]]; weights; repeat (apply Forall_cons; [cbn; lra|]); apply Forall_nil. Qed.

Lemma wsum_ext : forall N g h, (forall l, g l = h l) -> wsum N g = wsum N h.
Proof.
  intros N g h E. unfold wsum. generalize (filter_locations N). induction (filter_weights N) as [|w ws IH]; intros [|l ls]; cbn; auto.
  rewrite E, IH. reflexivity.
Qed.
Lemma wsum_lin : forall N a b g h, wsum N (fun l => a * g l + b * h l) = a * wsum N g + b * wsum N h.
Proof.
  intros N a b g h. unfold wsum. generalize (filter_locations N). induction (filter_weights N) as [|w ws IH]; intros [|l ls]; cbn; try ring.
  rewrite IH. ring.
Qed.
Lemma wsum_affine : forall N a b, accepted N -> wsum N (fun l => a + b * IZR l) = a.
Proof.
  intros N a b H. rewrite (wsum_ext N _ (fun l => a * 1 + b * IZR l)) by (intros; ring). rewrite wsum_lin, w_one, w_moment by auto. ring.
Qed.
Lemma wsum_bound : forall N g lo hi, accepted N -> (forall l, lo <= g l <= hi) -> lo <= wsum N g <= hi.
Proof.
  intros N g lo hi H Hg.
  assert (G : forall f, (forall l, 0 <= f l) -> 0 <= wsum N f).
  { intros f Hf. unfold wsum. generalize (filter_locations N). pose proof (w_pos N H) as P. induction P as [|w ws Pw P IH]; intros [|l ls]; cbn; try lra.
    specialize (IH ls). pose proof (Hf l). nra. }
  pose proof (w_one N H) as W1. split.
  - assert (K : 0 <= wsum N (fun l => 1 * g l + (- lo) * 1)) by (apply G; intros l; specialize (Hg l); lra).
    rewrite wsum_lin, W1 in K. lra.
  - assert (K : 0 <= wsum N (fun l => (-1) * g l + hi * 1)) by (apply G; intros l; specialize (Hg l); lra).
    rewrite wsum_lin, W1 in K. lra.
Qed.

(* the weights are the binomial coefficients over 2^N *)
Lemma binomial_C : forall n k, (k <= n)%nat -> IZR (FiltModel.binomial n k) = C n k.
Proof.
  assert (Z0 : forall n k, (n < k)%nat -> FiltModel.binomial n k = 0%Z).
  { induction n as [|n IH]; intros [|k] H; try lia; cbn [FiltModel.binomial]; auto. rewrite !IH by lia. reflexivity. }
  induction n as [|n IH]; intros [|k] H; try lia.
  - cbn. unfold C. cbn. field.
  - cbn [FiltModel.binomial]. unfold C. rewrite Nat.sub_0_r. replace (INR (fact 0)) with 1 by reflexivity. field. apply INR_fact_neq_0.
  - cbn [FiltModel.binomial]. rewrite plus_IZR. destruct (Nat.eq_dec k n) as [-> | Nk].
    + rewrite (Z0 n (S n)) by lia. rewrite IH by lia. unfold C. rewrite !Nat.sub_diag. replace (INR (fact 0)) with 1 by reflexivity.
      field. split; apply INR_fact_neq_0.
    + rewrite !IH by lia. apply pascal. lia.
Qed.

(* ---- the kernel at one point ---- *)
Definition filtered (n : nat) (N : Z) (u : list Z -> R) (x : list Z) : R :=
  fold_right Rplus 0 (map (fun d => wsum N (fun l => u (move d l x))) (seq 0 n)) / INR n.

Section point.
  Context (J : interp R) (HJ : reals J) (N : Z).
  Let s := isym J KConst "sigma_filt".
  Lemma ap_filter_sum : forall M L x n d v, List.length x = n ->
    at_point J M L x (filter_sum n d N v) = wsum N (fun l => M v (move d l x)).
  Proof.
    intros M L x n d v Lx. unfold filter_sum, wsum. rewrite ap_add by auto. f_equal. generalize (filter_locations N).
    induction (filter_weights N) as [|w ws IH]; intros [|l ls]; cbn [map2 map]; auto. f_equal; auto.
    rewrite ap_mul by auto. cbn [map fold_right]. rewrite ap_num by auto. unfold at_point. cbn. rewrite shift_move, vadd_along by auto. ring.
  Qed.
  Lemma filter_sum_locals : forall n d v, syms KGridVar (filter_sum n d N v) = [].
  Proof.
    intros n d v. unfold filter_sum, eadd. rewrite syms_app. generalize (filter_locations N).
    induction (filter_weights N) as [|w ws IH]; intros [|l ls]; cbn [map2 flat_map]; auto. rewrite IH. reflexivity.
  Qed.
  Lemma names_bin : forall n, n = 2%nat \/ n = 3%nat ->
    NoDup (map (fun t => (snd t ++ axis_name (fst t))%string) (flat_map (fun d => map (fun v => (d, v)) (conservative n)) (seq 0 n))) /\
    NoDup (map (fun v => (v ++ "_filtered")%string) (conservative n)) /\
    (forall d u v, (d < n)%nat -> In u (conservative n) -> In v (conservative n) -> (u ++ axis_name d <> v ++ "_filtered")%string).
  Proof.
    intros n [-> | ->]; (split; [vm_compute; nodup|]; split; [vm_compute; nodup|]); intros d u v Hd Hu Hv; cbn in Hu, Hv;
      destruct d as [|[|[|d]]]; try lia; intuition (subst; discriminate).
  Qed.
  Lemma filter_point : forall n M x v, n = 2%nat \/ n = 3%nat -> List.length x = n -> In v (conservative n) ->
    fst (run_point J (filter_eqs n N (conservative n)) M x) v x = (1 - s) * M v x + s * filtered n N (M v) x.
  Proof.
    intros n M x v Hn Lx Hv. destruct (names_bin n Hn) as (N1 & N2 & Ne). unfold run_point, filter_eqs. rewrite !fold_left_app.
    set (L := isym J KGridVar). set (ts := flat_map (fun d => map (fun v => (d, v)) (conservative n)) (seq 0 n)) in *.
    assert (Ed : filter_dirs n N (conservative n) = map (fun t => KEq (evar (snd t ++ axis_name (fst t))) (filter_sum n (fst t) N (snd t))) ts).
    { unfold filter_dirs, ts. generalize (seq 0 n) as ds. induction ds as [|d ds IH]; cbn [flat_map]; auto. rewrite map_app, <- IH, map_map. reflexivity. }
    rewrite Ed.
    destruct (phase_local R J x _ ts (fun t => (snd t ++ axis_name (fst t))%string) (fun t => filter_sum n (fst t) N (snd t)) N1) with (M := M) (L := L) as (A1 & A2 & A3).
    { intros t u _ _ _. rewrite filter_sum_locals. intros []. }
    match type of A1 with fst ?f = _ => destruct f as [M1 L1] end. cbn [fst snd] in A1, A2, A3. subst M1.
    unfold filter_average.
    destruct (phase_local R J x _ (conservative n) (fun v => (v ++ "_filtered")%string) (fun v => ediv (eadd (map (fun d => evar (v ++ axis_name d)) (seq 0 n))) (eint (Z.of_nat n))) N2) with (M := M) (L := L1) as (B1 & B2 & B3).
    { intros t u Ht Hu _ Hi. unfold ediv, emul, epow, eadd, eint in Hi. rewrite syms_app in Hi. apply in_flat_map in Hi. destruct Hi as (c & Hc & Hi).
      destruct Hc as [<- | [<- | []]]; [|destruct Hi]. rewrite syms_app in Hi. apply in_flat_map in Hi. destruct Hi as (a & Ha & Hi). apply in_map_iff in Ha. destruct Ha as (d & <- & Hd).
      apply in_seq in Hd. destruct Hi as [E | []]. apply (Ne d t u); auto. lia. }
    match type of B1 with fst ?f = _ => destruct f as [M2 L2] end. cbn [fst snd] in B1, B2, B3. subst M2.
    unfold filter_blend.
    destruct (phase_data R J n x _ (conservative n) (fun v => v) (fun v => eadd [emul [esub (eint 1) sigma_c; arr_at n v]; emul [sigma_c; evar (v ++ "_filtered")]]) Lx) with (M := M) (L := L2) as (C1 & C2 & C3).
    { rewrite map_id. apply (names_sfd n Hn). }
    { intros t u Ht Hu Nu ix Hi. cbn in Hi. destruct Hi as [E | []]. injection E as E _. auto. }
    rewrite C2 by auto. rewrite ap_add by auto. cbn [map fold_right]. rewrite !ap_mul by auto. cbn [map fold_right].
    rewrite ap_sub, ap_int by auto. unfold sigma_c. rewrite ap_const, ap_arr by auto. fold s.
    change (at_point J M L2 x (evar (v ++ "_filtered"))) with (L2 (v ++ "_filtered")%string). rewrite B2 by auto.
    rewrite ap_div, ap_add, ap_int by auto. rewrite map_map.
    assert (E : map (fun d => at_point J M L1 x (evar (v ++ axis_name d))) (seq 0 n) = map (fun d => wsum N (fun l => M v (move d l x))) (seq 0 n)).
    { apply map_ext_in. intros d Hd. change (at_point J M L1 x (evar (v ++ axis_name d))) with (L1 (snd (d, v) ++ axis_name (fst (d, v)))%string).
      rewrite A2; [apply ap_filter_sum; auto|]. apply in_flat_map. exists d. split; auto. apply in_map. auto. }
    rewrite E. unfold filtered. rewrite INR_IZR_INZ. lra.
  Qed.
  Lemma filter_frame : forall n M x b y, List.length x = n -> (In b (conservative n) -> y <> x) ->
    fst (run_point J (filter_eqs n N (conservative n)) M x) b y = M b y.
  Proof.
    intros n M x b y Lx H. unfold run_point. rewrite run_frame; auto. intros q ix Hq Ht. unfold filter_eqs in Hq. rewrite !in_app_iff in Hq.
    destruct Hq as [Hq | [Hq | Hq]].
    - unfold filter_dirs in Hq. apply in_flat_map in Hq. destruct Hq as (d & _ & Hq). apply in_map_iff in Hq. destruct Hq as (v & <- & _). destruct Ht as [E | []]. discriminate.
    - apply in_map_iff in Hq. destruct Hq as (v & <- & _). destruct Ht as [E | []]. discriminate.
    - apply in_map_iff in Hq. destruct Hq as (v & <- & Hv). destruct Ht as [E | []]. injection E as -> <-. rewrite vadd_here by auto. intros E. apply (H Hv). auto.
  Qed.
  (* an invariant of the values of one array is kept by a sweep in any order *)
  Lemma sweep_invariant : forall n v (P : list Z -> R -> Prop), n = 2%nat \/ n = 3%nat -> In v (conservative n) ->
    (forall M x, List.length x = n -> (forall y, List.length y = n -> P y (M v y)) -> P x ((1 - s) * M v x + s * filtered n N (M v) x)) ->
    forall pts M, (forall x, In x pts -> List.length x = n) -> (forall y, List.length y = n -> P y (M v y)) ->
    forall y, List.length y = n -> P y (run_kernel J (filter_eqs n N (conservative n)) pts M v y).
  Proof.
    intros n v P Hn Hv St pts. induction pts as [|p pts IH]; intros M HL HM y Ly; cbn [run_kernel fold_left]; auto.
    apply IH; auto; [intros; apply HL; right; auto|]. intros z Lz. destruct (list_eq_dec Z.eq_dec z p) as [-> | Nz].
    - rewrite filter_point by auto. apply St; auto.
    - rewrite filter_frame; auto. apply HL. left. auto.
  Qed.
End point.

(* ---- sums over a period ---- *)
Lemma rsum_ext : forall (l : list nat) f g, (forall i, In i l -> f i = g i) -> fold_right Rplus 0 (map f l) = fold_right Rplus 0 (map g l).
Proof. induction l as [|a l IH]; intros f g H; cbn; auto. rewrite (H a) by (left; auto). rewrite (IH f g); auto. intros; apply H; right; auto. Qed.
Lemma rsum_lin : forall A (l : list A) a b f g, fold_right Rplus 0 (map (fun i => a * f i + b * g i) l) =
  a * fold_right Rplus 0 (map f l) + b * fold_right Rplus 0 (map g l).
Proof. induction l as [|i l IH]; intros; cbn; try ring. rewrite IH. ring. Qed.
Lemma grid_sum_ext : forall np u w, (forall x, List.length x = List.length np -> u x = w x) -> grid_sum np u = grid_sum np w.
Proof.
  induction np as [|m np IH]; intros u w H; cbn; [apply H; auto|]. apply rsum_ext. intros i _. apply IH. intros x Lx. apply H. cbn. lia.
Qed.
Lemma grid_sum_lin : forall np a b u w, grid_sum np (fun x => a * u x + b * w x) = a * grid_sum np u + b * grid_sum np w.
Proof.
  induction np as [|m np IH]; intros a b u w; cbn; [ring|]. rewrite <- rsum_lin. apply rsum_ext. intros i _. apply IH.
Qed.
Lemma period_shift1 : forall m (f : Z -> R), (forall i, f (i + Z.of_nat m)%Z = f i) ->
  fold_right Rplus 0 (map (fun i => f (Z.of_nat i + 1)%Z) (seq 0 m)) = fold_right Rplus 0 (map (fun i => f (Z.of_nat i)) (seq 0 m)).
Proof.
  intros m f P. assert (G : forall a k, fold_right Rplus 0 (map (fun i => f (Z.of_nat i + 1)%Z) (seq a k)) + f (Z.of_nat a) = fold_right Rplus 0 (map (fun i => f (Z.of_nat i)) (seq a k)) + f (Z.of_nat (a + k))).
  { intros a k. revert a. induction k as [|k IH]; intros a; cbn [seq map fold_right]; [rewrite Nat.add_0_r; ring|].
    specialize (IH (S a)). rewrite Nat2Z.inj_succ in IH. unfold Z.succ in IH. rewrite Nat.add_succ_r, <- Nat.add_succ_l. lra. }
  specialize (G 0%nat m). cbn [Nat.add] in G. specialize (P 0%Z). rewrite Z.add_0_l in P. rewrite P in G. cbn [Z.of_nat] in *. lra.
Qed.
Lemma period_shift : forall m (f : Z -> R) k, (forall i, f (i + Z.of_nat m)%Z = f i) ->
  fold_right Rplus 0 (map (fun i => f (Z.of_nat i + k)%Z) (seq 0 m)) = fold_right Rplus 0 (map (fun i => f (Z.of_nat i)) (seq 0 m)).
Proof.
  assert (Up : forall m k (f : Z -> R), (forall i, f (i + Z.of_nat m)%Z = f i) ->
    fold_right Rplus 0 (map (fun i => f (Z.of_nat i + Z.of_nat k)%Z) (seq 0 m)) = fold_right Rplus 0 (map (fun i => f (Z.of_nat i)) (seq 0 m))).
  { intros m k. induction k as [|k IH]; intros f P; [apply rsum_ext; intros; f_equal; lia|].
    rewrite <- (IH f P), <- (period_shift1 m (fun i => f (i + Z.of_nat k)%Z)); [|intros i; rewrite <- (P (i + Z.of_nat k)%Z); f_equal; lia].
    apply rsum_ext. intros i _. f_equal. lia. }
  intros m f k P. destruct (Z_le_gt_dec 0 k) as [H | H].
  - replace k with (Z.of_nat (Z.to_nat k)) by lia. apply Up; auto.
  - rewrite <- (Up m (Z.to_nat (- k)) (fun i => f (i + k)%Z)).
    + apply rsum_ext. intros i _. f_equal. lia.
    + intros i. rewrite <- (P (i + k)%Z). f_equal. lia.
Qed.
Lemma grid_sum_shift : forall np u d k, (d < List.length np)%nat -> periodic_field np u ->
  grid_sum np (fun x => u (move d k x)) = grid_sum np u.
Proof.
  induction np as [|m np IH]; intros u d k Hd P; cbn in Hd; [lia|]. cbn [grid_sum]. destruct d as [|d]; cbn [move].
  - apply (period_shift m (fun i => grid_sum np (fun x => u (i :: x))) k). intros i. apply grid_sum_ext. intros x Lx.
    specialize (P 0%nat (i :: x)). cbn in P. apply P; lia.
  - apply rsum_ext. intros i _. apply (IH (fun x => u (Z.of_nat i :: x))); [lia|]. intros e x He Lx.
    specialize (P (S e) (Z.of_nat i :: x)). cbn in P. apply P; lia.
Qed.
Lemma grid_sum_wsum : forall np N (g : Z -> list Z -> R), grid_sum np (fun x => wsum N (fun l => g l x)) = wsum N (fun l => grid_sum np (g l)).
Proof.
  intros np N g. unfold wsum. generalize (filter_locations N). induction (filter_weights N) as [|w ws IH]; intros [|l ls]; cbn [map2 fold_right];
    try (rewrite (grid_sum_ext _ _ (fun x => 0 * 0 + 0 * 0)) by (intros; ring); rewrite grid_sum_lin; ring).
  rewrite (grid_sum_ext _ _ (fun x => Q2R w * g l x + 1 * fold_right Rplus 0 (map2 (fun w l => Q2R w * g l x) ws ls))) by (intros; ring).
  rewrite grid_sum_lin, (IH ls). ring.
Qed.
Lemma grid_sum_rsum : forall np (l : list nat) (g : nat -> list Z -> R),
  grid_sum np (fun x => fold_right Rplus 0 (map (fun d => g d x) l)) = fold_right Rplus 0 (map (fun d => grid_sum np (g d)) l).
Proof.
  intros np l g. induction l as [|d l IH]; cbn [map fold_right].
  - rewrite (grid_sum_ext _ _ (fun x => 0 * 0 + 0 * 0)) by (intros; ring). rewrite grid_sum_lin. ring.
  - rewrite (grid_sum_ext _ _ (fun x => 1 * g d x + 1 * fold_right Rplus 0 (map (fun d => g d x) l))) by (intros; ring). rewrite grid_sum_lin, IH. ring.
Qed.
