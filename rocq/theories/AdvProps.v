(* C63: every advanced array is updated with the residual of its own equation. *)
From Coq Require Import Reals List String Bool Lra Lia Permutation.
From Verif Require Import Base BaseProofs AdvModel AdvSpec AdvProofs.
Open Scope R_scope.
Local Open Scope list_scope.

(* Low-storage kernel, when each equation has one time derivative. *)
Theorem C63_low_storage_update_partial :
  forall (P : Type) (inside : P -> bool) eqs dt a b m,
    one_derivative_each eqs -> distinct_arrays temp_name eqs ->
    let m' := run P inside (ls_kernel dt a b eqs) m in
    (forall e v p, In e eqs -> advances e v -> inside p = true ->
       m' (temp_name v) p = a * m (temp_name v) p + dt * m (eq_residual e) p /\
       m' v p = m v p + b * m' (temp_name v) p) /\
    (forall w p, inside p = false \/ (forall e v, In e eqs -> advances e v -> w <> v /\ w <> temp_name v) ->
       m' w p = m w p).
Proof.
  intros P inside eqs dt a b m H1 H2 m'. split.
  - intros e v p He Hv Hp.
    pose proof (ls_triples P inside dt a b _ (good_triples _ _ H1 H2) m _ p (in_triples _ _ H1 e v He Hv) Hp) as H.
    cbn beta iota zeta in H. destruct H as [E1 E2].
    change (run P inside _ m) with m' in E1, E2. rewrite E1, E2. split; reflexivity.
  - intros w p [Hp | Hw]; [apply run_outside; auto|].
    apply run_frame. apply ls_writes. intros z Hz. unfold triples in *.
    change (zip3 _ _ _) with (triples temp_name eqs) in Hz. rewrite triples_ones in Hz by auto.
    apply in_flat_map in Hz. destruct Hz as [e [He Hz]]. apply in_map_iff in Hz. destruct Hz as [v [<- Hv]].
    cbn. destruct (H1 e He) as [v' Hv']. rewrite Hv' in Hv. destruct Hv as [-> | []].
    specialize (Hw e v He Hv'). tauto.
Qed.
Print Assumptions C63_low_storage_update_partial.

(* SBLI kernels, when each equation has one time derivative. *)
Theorem C63_sbli_update_partial :
  forall (P : Type) (inside : P -> bool) eqs dt o n m,
    one_derivative_each eqs -> distinct_arrays old_name eqs ->
    let m0 := run P inside (sbli_save eqs) m in
    let m' := run P inside (sbli_kernels dt o n eqs) m in
    (forall e v p, In e eqs -> advances e v -> inside p = true ->
       m0 (old_name v) p = m v p /\ m0 v p = m v p /\
       m' v p = m (old_name v) p + dt * n * m (eq_residual e) p /\
       m' (old_name v) p = m (old_name v) p + dt * o * m (eq_residual e) p) /\
    (forall w p, inside p = false \/ (forall e v, In e eqs -> advances e v -> w <> v /\ w <> old_name v) ->
       m0 w p = m w p /\ m' w p = m w p).
Proof.
  intros P inside eqs dt o n m H1 H2 m0 m'.
  pose proof (good_triples _ _ H1 H2) as G. set (tr := triples old_name eqs) in *.
  assert (Etd : td_fns eqs = map (fun z => snd (fst z)) tr).
  { unfold tr. rewrite triples_ones by auto. unfold td_fns. clear - eqs.
    induction eqs as [|e eqs IH]; [reflexivity|]. cbn. rewrite map_app, map_map, <- IH. cbn. rewrite map_id. reflexivity. }
  assert (Eold : forall z, In z tr -> fst (fst z) = old_name (snd (fst z)) /\
             exists e, In e eqs /\ advances e (snd (fst z))).
  { intros z Hz. unfold tr in Hz. rewrite triples_ones in Hz by auto. apply in_flat_map in Hz.
    destruct Hz as [e [He Hz]]. apply in_map_iff in Hz. destruct Hz as [v [<- Hv]]. cbn. split; [reflexivity|].
    exists e. split; auto. destruct (H1 e He) as [v' Hv']. rewrite Hv' in Hv. destruct Hv as [-> | []]. auto. }
  unfold good in G.
  assert (N1 : NoDup (map (fun z => snd (fst z)) tr)) by (eapply NoDup_app_remove_r; eauto).
  assert (N2 : NoDup (map (fun z => fst (fst z)) tr)).
  { apply NoDup_app_remove_l in G. eapply NoDup_app_remove_r; eauto. }
  assert (D1 : forall x, In x (map (fun z => snd (fst z)) tr) -> ~ In x (map (fun z => fst (fst z)) tr) /\ ~ In x (map snd tr)).
  { intros x Hx. split; intro Hy; apply in_split in Hx; destruct Hx as (l1 & l2 & E); rewrite E in G;
    rewrite <- app_assoc in G; apply NoDup_remove_2 in G; apply G; rewrite !in_app_iff; tauto. }
  assert (D2 : forall x, In x (map (fun z => fst (fst z)) tr) -> ~ In x (map snd tr)).
  { intros x Hx Hy. apply NoDup_app_remove_l in G. apply in_split in Hx; destruct Hx as (l1 & l2 & E).
    rewrite E in G. rewrite <- app_assoc in G; apply NoDup_remove_2 in G; apply G; rewrite !in_app_iff; tauto. }
  assert (Em' : m' = run P inside (map (fun z => (fst (fst z), Axpy (fst (fst z)) (dt * o) (snd z))) tr)
                    (run P inside (map (fun z => (snd (fst z), Axpy (fst (fst z)) (dt * n) (snd z))) tr) m)).
  { unfold m', sbli_kernels. rewrite run_app. unfold tr, triples. f_equal; [|f_equal];
      apply map_ext; intros [[x y] w]; reflexivity. }
  assert (Em0 : m0 = run P inside (map (fun z => (fst (fst z), Copy (snd (fst z)))) tr) m).
  { unfold m0, sbli_save. rewrite Etd, map_map. f_equal. apply map_ext_in. intros z Hz.
    destruct (Eold z Hz) as [-> _]. reflexivity. }
  split.
  - intros e v p He Hv Hp. pose proof (in_triples old_name _ H1 e v He Hv) as Hz. fold tr in Hz.
    set (z := (old_name v, v, eq_residual e)) in *.
    assert (Iv : In v (map (fun z => snd (fst z)) tr)) by (apply in_map_iff; exists z; auto).
    assert (Io : In (old_name v) (map (fun z => fst (fst z)) tr)) by (apply in_map_iff; exists z; auto).
    assert (Ir : In (eq_residual e) (map snd tr)) by (apply in_map_iff; exists z; auto).
    assert (Hro : ~ In (eq_residual e) (map (fun z => fst (fst z)) tr)) by (intro Hx; apply (D2 _ Hx); auto).
    assert (Hrv : ~ In (eq_residual e) (map (fun z => snd (fst z)) tr)) by (intro Hx; exact (proj2 (D1 _ Hx) Ir)).
    assert (Hov : ~ In (old_name v) (map (fun z => snd (fst z)) tr)) by (intro Hx; exact (proj1 (D1 _ Hx) Io)).
    assert (Hvo : ~ In v (map (fun z => fst (fst z)) tr)) by (exact (proj1 (D1 _ Iv))).
    split; [|split; [|split]].
    + rewrite Em0. change (old_name v) with (fst (fst z)).
      rewrite (run_map P inside (fun z => fst (fst z)) (fun z => Copy (snd (fst z)))) ;
        [reflexivity | exact N2 | exact Hz | exact Hp | intros mm Hm; cbn; apply Hm; left; exact Hvo].
    + rewrite Em0. apply run_frame. rewrite map_map. exact Hvo.
    + rewrite Em'. rewrite run_frame by (rewrite map_map; exact Hvo). change v with (snd (fst z)) at 1.
      rewrite (run_map P inside (fun z => snd (fst z)) (fun z => Axpy (fst (fst z)) (dt * n) (snd z)));
        [reflexivity | exact N1 | exact Hz | exact Hp
        | intros mm Hm; cbn; rewrite !Hm by (left; assumption); reflexivity].
    + rewrite Em'. change (old_name v) with (fst (fst z)) at 1.
      rewrite (run_map P inside (fun z => fst (fst z)) (fun z => Axpy (fst (fst z)) (dt * o) (snd z)));
        [| exact N2 | exact Hz | exact Hp
        | intros mm Hm; cbn; rewrite (Hm (eq_residual e)) by (left; assumption);
          rewrite (Hm (old_name v)) by (right; reflexivity); reflexivity].
      cbn [value fst snd]. rewrite !run_frame by (rewrite map_map; auto). reflexivity.
  - intros w p [Hp | Hw].
    { unfold m0, m'. rewrite !run_outside by auto. auto. }
    assert (F : ~ In w (map (fun z => snd (fst z)) tr) /\ ~ In w (map (fun z => fst (fst z)) tr)).
    { split; intro Hx; apply in_map_iff in Hx; destruct Hx as (z & E & Hz); destruct (Eold z Hz) as (E' & e & He & Hv);
        specialize (Hw e _ He Hv); destruct Hw; congruence. }
    rewrite Em0, Em'. split; rewrite !run_frame; rewrite ?map_map; tauto.
Qed.
Print Assumptions C63_sbli_update_partial.

(* In general false: if an equation contains two time derivatives, the second array
   gets the residual of the next equation and the last array is not advanced; if an
   equation contains none, the arrays that follow get the residual of the equation
   before their own. *)
Theorem C63_update_refuted :
  (exists eqs e v, In e eqs /\ In v (eq_advanced e) /\ distinct_arrays temp_name eqs /\
     forall (P : Type) (inside : P -> bool) dt a b m p, run P inside (ls_kernel dt a b eqs) m v p = m v p) /\
  (exists eqs e e' v, In e eqs /\ In e' eqs /\ e <> e' /\ advances e v /\ distinct_arrays temp_name eqs /\
     forall (P : Type) (inside : P -> bool) dt a b m p, inside p = true ->
       run P inside (ls_kernel dt a b eqs) m v p =
       m v p + b * (a * m (temp_name v) p + dt * m (eq_residual e') p)).
Proof.
  split.
  - exists (with_residuals [["rho"; "rhou"]; ["rhoE"]]%string), {| eq_advanced := ["rhoE"%string]; eq_residual := "Residual1"%string |}, "rhoE"%string.
    split; [right; left; reflexivity|]. split; [left; reflexivity|]. split.
    { unfold distinct_arrays. vm_compute. repeat constructor; cbn; intuition discriminate. }
    intros. apply run_frame. vm_compute. intuition discriminate.
  - exists (with_residuals [[]; ["rho"]]%string), {| eq_advanced := ["rho"%string]; eq_residual := "Residual1"%string |},
           {| eq_advanced := []; eq_residual := "Residual0"%string |}, "rho"%string.
    split; [right; left; reflexivity|]. split; [left; reflexivity|]. split; [discriminate|]. split; [reflexivity|]. split.
    { unfold distinct_arrays. vm_compute. repeat constructor; cbn; intuition discriminate. }
    intros P inside dt a b m p Hp. change (ls_kernel dt a b (with_residuals [[]; ["rho"%string]])) with
      [("tempRK_rho"%string, Comb a "tempRK_rho"%string dt "Residual0"%string);
       ("rho"%string, Axpy "rho"%string b "tempRK_rho"%string)].
    rewrite !run_cons. unfold run. cbn [fold_left]. rewrite run_hit by auto. cbn [value].
    rewrite run_miss by discriminate. rewrite run_hit by auto. reflexivity.
Qed.
Print Assumptions C63_update_refuted.

Example C63_nonvacuous :
  let eqs := with_residuals [["rho_B0"]; ["rhou0_B0"]; ["rhoE_B0"]]%string in
  one_derivative_each eqs /\ distinct_arrays temp_name eqs /\ distinct_arrays old_name eqs /\
  map eq_residual eqs = ["Residual0"; "Residual1"; "Residual2"]%string.
Proof.
  cbn zeta. split.
  { intros e He. cbn in He. destruct He as [<- | [<- | [<- | []]]]; eexists; reflexivity. }
  split. { unfold distinct_arrays. vm_compute. repeat constructor; cbn; intuition discriminate. }
  split. { unfold distinct_arrays. vm_compute. repeat constructor; cbn; intuition discriminate. }
  reflexivity.
Qed.
