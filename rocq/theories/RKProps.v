(* C23-C25: Runge-Kutta time stepping. *)
From Coq Require Import Reals List Lra Lia FunctionalExtensionality.
From Verif Require Import Base RKModel RKSpec RKProofs RKTaylor.
Open Scope R_scope.
Open Scope list_scope.

(* C23.  Both third-order low-storage programs are an explicit Runge-Kutta method
   satisfying the third-order conditions; the result does not depend on the old
   content tmp of the register. *)
Theorem C23_low_storage_third_order :
  forall form ab, ls_coefficients 3 form = Ok ab ->
    exists rows b, List.length rows = 3%nat /\ explicit rows b /\ order3 rows b /\
      forall (I : Type) dt (f : state I -> state I) u tmp,
        fst (ls_step I dt f ab (u, tmp)) = runge_kutta rows b dt f u.
Proof.
  intros form ab E. destruct form; injection E as <-.
  - exists (fst (ls_rows (combine [0; -5/9; -153/128] [1/3; 15/16; 8/15]) [] [])),
           (snd (ls_rows (combine [0; -5/9; -153/128] [1/3; 15/16; 8/15]) [] [])).
    split; [reflexivity|]. split; [apply ls3_order|]. split; [apply ls3_order|].
    intros. apply ls_is_rk.
  - destruct ssp_order as [E O]. cbn zeta in E, O.
    exists (fst (ls_rows (combine (fst (ssp_coeffs ssp_c)) (snd (ssp_coeffs ssp_c))) [] [])),
           (snd (ls_rows (combine (fst (ssp_coeffs ssp_c)) (snd (ssp_coeffs ssp_c))) [] [])).
    split; [reflexivity|]. split; [exact E|]. split; [exact O|].
    intros. unfold ssp_coeffs. cbn zeta. cbn [fst snd]. apply ls_is_rk.
Qed.
Print Assumptions C23_low_storage_third_order.

(* The five-stage program satisfies the fourth-order conditions to twelve decimals:
   its coefficients are thirteen-digit decimals. *)
Theorem C23_low_storage_fourth_order :
  forall ab, ls_coefficients 4 Standard = Ok ab ->
    exists rows b, List.length rows = 5%nat /\ explicit rows b /\
      order4_within (1/1000000000000) rows b /\
      forall (I : Type) dt (f : state I -> state I) u tmp,
        fst (ls_step I dt f ab (u, tmp)) = runge_kutta rows b dt f u.
Proof.
  intros [a b] E. destruct (ls4_order a b E) as [Ex O]. injection E as <- <-.
  match type of Ex with explicit (fst ?t) _ => exists (fst t), (snd t) end.
  split; [reflexivity|]. split; [exact Ex|]. split; [exact O|].
  intros. apply ls_is_rk.
Qed.
Print Assumptions C23_low_storage_fourth_order.

(* No other order or formulation is accepted. *)
Theorem C23_rejected_orders :
  forall order form ab, ls_coefficients order form = Ok ab ->
    (order = 3%nat \/ (order = 4%nat /\ form = Standard)).
Proof.
  intros order form ab H. destruct order as [|[|[|[|[|order]]]]]; destruct form; cbn in H;
    try discriminate; auto.
Qed.
Print Assumptions C23_rejected_orders.

(* What the conditions mean: at every state where the residual has a second-order
   Taylor expansion, one step agrees with the solution of y' = f(y) up to O(dt^4). *)
Theorem C23_local_error :
  forall form ab, ls_coefficients 3 form = Ok ab ->
  forall (I : Type) (N : state I -> R) f u L Q tmp, seminorm N -> taylor2 N f u L Q ->
    third_order_at N (fun dt v => fst (ls_step I dt f ab (v, tmp))) u (taylor_solution f u L Q).
Proof.
  intros form ab E I N f u L Q tmp HN HT.
  destruct (C23_low_storage_third_order form ab E) as (rows & b & _ & Ex & O3 & H).
  destruct (order3_accurate I N HN f u L Q HT rows b Ex O3) as (C & h0 & H0 & Hb).
  exists C, h0. split; [exact H0|]. intros h Hh. rewrite H. apply Hb; auto.
Qed.
Print Assumptions C23_local_error.

(* C24. *)
Theorem C24_sbli_third_order :
  forall on, sbli_coefficients 3 = Ok on ->
    exists rows b, List.length rows = 3%nat /\ explicit rows b /\ order3 rows b /\
      forall (I : Type) dt (f : state I -> state I) u old,
        fst (sbli_step I dt f on (u, old)) = runge_kutta rows b dt f u.
Proof.
  intros on E. injection E as <-.
  exists (fst (sbli_rows (combine [1/4; 3/20; 3/5] [2/3; 5/12; 3/5]) [] [])),
         (snd (sbli_rows (combine [1/4; 3/20; 3/5] [2/3; 5/12; 3/5]) [] [])).
  split; [reflexivity|]. split; [apply sbli3_order|]. split; [apply sbli3_order|].
  intros. apply sbli_is_rk.
Qed.
Print Assumptions C24_sbli_third_order.

Theorem C24_local_error :
  forall on, sbli_coefficients 3 = Ok on ->
  forall (I : Type) (N : state I -> R) f u L Q old, seminorm N -> taylor2 N f u L Q ->
    third_order_at N (fun dt v => fst (sbli_step I dt f on (v, old))) u (taylor_solution f u L Q).
Proof.
  intros on E I N f u L Q old HN HT.
  destruct (C24_sbli_third_order on E) as (rows & b & _ & Ex & O3 & H).
  destruct (order3_accurate I N HN f u L Q HT rows b Ex O3) as (C & h0 & H0 & Hb).
  exists C, h0. split; [exact H0|]. intros h Hh. rewrite H. apply Hb; auto.
Qed.
Print Assumptions C24_local_error.

(* Linear problems u' = lambda u: the stability polynomial. *)
Theorem C24_stability_polynomial :
  forall on, sbli_coefficients 3 = Ok on ->
  forall (I : Type) dt lambda u old i, let z := lambda * dt in
    fst (sbli_step I dt (fun v j => lambda * v j) on (u, old)) i = (1 + z + z^2/2 + z^3/6) * u i.
Proof. intros on E I dt lambda u old i z. injection E as <-. unfold z. cbn. field. Qed.
Print Assumptions C24_stability_polynomial.

Theorem C23_stability_polynomial :
  forall form ab, ls_coefficients 3 form = Ok ab ->
  forall (I : Type) dt lambda u tmp i, let z := lambda * dt in
    fst (ls_step I dt (fun v j => lambda * v j) ab (u, tmp)) i = (1 + z + z^2/2 + z^3/6) * u i.
Proof.
  intros form ab E I dt lambda u tmp i z.
  destruct (C23_low_storage_third_order form ab E) as (rows & b & Lr & Ex & O3 & H).
  rewrite H. clear H. destruct Ex as [Ex Lb].
  destruct rows as [|r1 [|r2 [|r3 [|r4 rows]]]]; try discriminate.
  destruct b as [|b1 [|b2 [|b3 [|b4 b]]]]; try discriminate.
  pose proof (Ex 0%nat r1 eq_refl) as L1. pose proof (Ex 1%nat r2 eq_refl) as L2.
  pose proof (Ex 2%nat r3 eq_refl) as L3.
  destruct r1; try discriminate. destruct r2 as [|a21 [|]]; try discriminate.
  destruct r3 as [|a31 [|a32 [|]]]; try discriminate.
  destruct O3 as (O1 & O2 & _ & O4). unfold cs, apply in *. cbn in O1, O2, O4.
  unfold runge_kutta, z. cbn.
  transitivity (u i * (1 + (lambda * dt) * (b1 + (b2 + (b3 + 0)))
     + (lambda * dt)^2 * (b1 * 0 + (b2 * (a21 + 0) + (b3 * (a31 + (a32 + 0)) + 0)))
     + (lambda * dt)^3 * (b1 * 0 + (b2 * (a21 * 0 + 0) + (b3 * (a31 * 0 + (a32 * (a21 + 0) + 0)) + 0))))).
  - ring.
  - rewrite O1, O2, O4. field.
Qed.
Print Assumptions C23_stability_polynomial.

(* C25.  All coefficient sets the code can produce. *)
Theorem C25_steady_state :
  forall (I : Type) dt (f : state I -> state I) u, (forall i, f u i = 0) ->
  (forall order form ab n tmp, ls_coefficients order form = Ok ab ->
     fst (iterate n (ls_step I dt f ab) (u, tmp)) = u) /\
  (forall order on n old, sbli_coefficients order = Ok on ->
     fst (iterate n (sbli_step I dt f on) (u, old)) = u).
Proof.
  intros I dt f u Hf. split.
  - intros order form ab n tmp E.
    assert (A : exists A B, ab = (0 :: A, B)).
    { destruct order as [|[|[|[|[|order]]]]]; destruct form; cbn in E; try discriminate;
        injection E as <-; unfold ssp_coeffs; cbn zeta; eauto. }
    destruct A as (A & B & ->).
    apply (iterate_inv _ (fun m => fst m = u)); [|reflexivity].
    intros [v t] Hv. cbn [fst] in Hv. subst v. apply ls_step_steady, Hf.
  - intros order on n old E.
    apply (iterate_inv _ (fun m => fst m = u)); [|reflexivity].
    intros [v t] Hv. cbn [fst] in Hv. subst v. apply sbli_step_steady, Hf.
Qed.
Print Assumptions C25_steady_state.

Theorem C25_linear_invariants :
  forall (I : Type) dt (f : state I -> state I) (M : state I -> R), linear M -> (forall u, M (f u) = 0) ->
  forall u,
  (forall order form ab n tmp, ls_coefficients order form = Ok ab ->
     M (fst (iterate n (ls_step I dt f ab) (u, tmp))) = M u) /\
  (forall order on n old, sbli_coefficients order = Ok on ->
     M (fst (iterate n (sbli_step I dt f on) (u, old))) = M u).
Proof.
  intros I dt f M HM Hf u. split.
  - intros order form ab n tmp E.
    assert (A : exists A B, ab = (0 :: A, B)).
    { destruct order as [|[|[|[|[|order]]]]]; destruct form; cbn in E; try discriminate;
        injection E as <-; unfold ssp_coeffs; cbn zeta; eauto. }
    destruct A as (A & B & ->).
    apply (iterate_inv _ (fun m => M (fst m) = M u)); [|reflexivity].
    intros [v t] Hv. cbn [fst] in Hv. rewrite <- Hv. apply ls_step_inv; auto.
  - intros order on n old E.
    apply (iterate_inv _ (fun m => M (fst m) = M u)); [|reflexivity].
    intros [v t] Hv. cbn [fst] in Hv. rewrite <- Hv. apply sbli_step_inv; auto.
Qed.
Print Assumptions C25_linear_invariants.

(* The hypotheses are met: the coefficient sets exist; u' = u^2 has a Taylor
   expansion; an exchange between two cells conserves the sum and is at rest for
   equal cells. *)
Example RK_nonvacuous :
  (exists ab, ls_coefficients 3 Standard = Ok ab) /\ (exists ab, ls_coefficients 3 SSP = Ok ab) /\
  (exists ab, ls_coefficients 4 Standard = Ok ab) /\ (exists on, sbli_coefficients 3 = Ok on) /\
  seminorm (fun x : state unit => Rabs (x tt)) /\
  (forall u : state unit,
     taylor2 (fun x : state unit => Rabs (x tt)) (fun v i => v i * v i) u
             (fun d i => 2 * u i * d i) (fun d e i => d i * e i)) /\
  linear (fun x : state bool => x true + x false) /\
  (let f := fun (v : state bool) (i : bool) => v (negb i) * v (negb i) - v i * v i in
   (forall v, f v true + f v false = 0) /\ forall i, f (fun _ => 7) i = 0).
Proof.
  split; [eexists; reflexivity|]. split; [eexists; reflexivity|]. split; [eexists; reflexivity|].
  split; [eexists; reflexivity|]. split.
  { split; intros; [apply Rabs_triang | apply Rabs_mult]. }
  split.
  { intros u. split; [intros; apply functional_extensionality; intros; ring|].
    split; [intros; apply functional_extensionality; intros; ring|].
    split; [intros; apply functional_extensionality; intros; ring|].
    exists (Rabs (2 * u tt) + 1), 1. split; [lra|]. split; [|split].
    - intros d. rewrite Rabs_mult. pose proof (Rabs_pos (d tt)). lra.
    - intros d e. rewrite Rabs_mult. pose proof (Rabs_pos (2 * u tt)).
      pose proof (Rmult_le_pos _ _ (Rabs_pos (d tt)) (Rabs_pos (e tt))). nra.
    - intros d _. match goal with |- Rabs ?x <= _ => replace x with 0 by ring end. rewrite Rabs_R0.
      apply Rmult_le_pos; [pose proof (Rabs_pos (2 * u tt)); lra | apply pow_le, Rabs_pos]. }
  split; [split; intros; ring|].
  cbn zeta. split; [intros; cbn; ring | intros; ring].
Qed.
