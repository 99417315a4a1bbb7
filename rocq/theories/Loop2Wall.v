(* The kernels of the boundary conditions can be executed in any order of their points. *)
From Verif Require Import Base Expr ExprProofs KernelModel ShiftModel ShiftSpec ShiftProofs BCModel BCSpec BCProofs BCKern BCMirror BCGas BC2Model BCOrder.
From Verif Require Import ProgModel BndModel FaceModel FaceSpec.
From Verif Require BCWallProps.
From Coq Require Import QArith ZArith Reals Lia Permutation Classical_Prop.
Local Close Scope Q_scope.
Local Open Scope list_scope.

(* ---- points whose accesses do not meet ---- *)
Section apart.
Context {V : Type} (J : interp V) (qs : kernel_eqs) (P : list Z -> Prop).
(* the statements at x touch location z of some array *)
Definition touches (x z : list Z) : Prop := exists q b ix, In q qs /\ In (inl (b, ix)) (target q ++ reads q) /\ z = vadd x ix.
Hypothesis Apart : forall x y z, P x -> P y -> touches x z -> touches y z -> x = y.
Notation data := (string -> list Z -> V).

Lemma point_same : forall x l (s s' : data * (string -> V)), incl l qs ->
  (forall b z, touches x z -> fst s b z = fst s' b z) -> (forall g, snd s g = snd s' g) ->
  (forall b z, touches x z -> fst (fold_left (exec1 J x) l s) b z = fst (fold_left (exec1 J x) l s') b z) /\
  (forall g, snd (fold_left (exec1 J x) l s) g = snd (fold_left (exec1 J x) l s') g).
Proof.
  intros x. induction l as [|q l IH]; intros s s' Hl HM HL; cbn [fold_left]; auto.
  assert (Hq : In q qs) by (apply Hl; left; auto).
  assert (Hv : forall r, (forall b ix, In (b, ix) (dsets r) -> touches x (vadd x ix)) -> at_point J (fst s) (snd s) x r = at_point J (fst s') (snd s') x r).
  { intros r Hr. apply at_point_ext; auto. intros b ix Hb. apply HM. eauto. }
  apply IH; [intros y Hy; apply Hl; right; auto| |].
  - intros b z Hz. destruct q as [l0 r|bs]; [|apply HM; auto]. destruct l0 as [c|kd g|b0 ix|h args]; try (apply HM; auto).
    + destruct kd; apply HM; auto.
    + cbn. rewrite (Hv r).
      * unfold upd. destruct (string_dec b0 b); auto. destruct (list_eq_dec Z.eq_dec (vadd x ix) z); auto.
      * intros b' ix' Hb. exists (KEq (EDat b0 ix) r), b', ix'. split; auto. split; auto. apply in_app_iff. right. apply in_app_iff. left. apply in_map_iff. eauto.
  - intros g. destruct q as [l0 r|bs]; [|apply HL]. destruct l0 as [c|kd g0|b0 ix|h args]; try apply HL.
    destruct kd; try apply HL. cbn. rewrite (Hv r).
    + unfold updl. destruct (string_dec g0 g); auto.
    + intros b' ix' Hb. exists (KEq (ESym KGridVar g0) r), b', ix'. split; auto. split; auto. apply in_app_iff. right. apply in_app_iff. left. apply in_map_iff. eauto.
Qed.
Lemma point_frame : forall x (M : data) b z, ~ touches x z -> fst (run_point J qs M x) b z = M b z.
Proof.
  intros x M b z N. unfold run_point. rewrite run_frame; auto. intros q ix Hq Ht E. apply N. exists q, b, ix. split; auto. split; auto. apply in_app_iff. auto.
Qed.
Lemma sweep_frame : forall pts (M : data) b z, (forall y, In y pts -> ~ touches y z) -> run_kernel J qs pts M b z = M b z.
Proof.
  induction pts as [|y pts IH]; intros M b z H; cbn; auto. unfold run_kernel in IH. rewrite IH by (intros; apply H; right; auto).
  apply point_frame. apply H. left. auto.
Qed.
Lemma sweep_point : forall pts (M : data) x b z, NoDup pts -> (forall y, In y pts -> P y) -> In x pts -> touches x z ->
  run_kernel J qs pts M b z = fst (run_point J qs M x) b z.
Proof.
  intros pts M x b z ND HP Hx Ht. apply in_split in Hx. destruct Hx as (l1 & l2 & ->). apply NoDup_remove in ND. destruct ND as [ND Nx].
  assert (Px : P x) by (apply HP, in_app_iff; right; left; auto).
  assert (O : forall y, In y (l1 ++ l2) -> forall z, touches x z -> ~ touches y z).
  { intros y Hy z' T1 T2. assert (E : x = y). { apply (Apart x y z'); auto. apply HP. rewrite in_app_iff in *. cbn. tauto. } subst y. auto. }
  unfold run_kernel. rewrite fold_left_app. cbn [fold_left].
  change (fold_left (fun M x => fst (run_point J qs M x)) l2 ?a) with (run_kernel J qs l2 a).
  change (fold_left (fun M x => fst (run_point J qs M x)) l1 M) with (run_kernel J qs l1 M).
  rewrite sweep_frame by (intros y Hy; apply O; auto; apply in_app_iff; auto).
  apply point_same; auto; [apply incl_refl|]. intros b' z' Hz. cbn [fst]. apply sweep_frame. intros y Hy. apply O; auto. apply in_app_iff. auto.
Qed.
Lemma sweeps_agree : forall pts pts' (M : data) b z, sweeps pts P -> sweeps pts' P -> run_kernel J qs pts M b z = run_kernel J qs pts' M b z.
Proof.
  intros pts pts' M b z [N H] [N' H']. destruct (classic (exists x, P x /\ touches x z)) as [(x & Px & T) | C].
  - rewrite (sweep_point pts M x b z N) by (auto; apply H; auto). rewrite (sweep_point pts' M x b z N') by (auto; apply H'; auto). reflexivity.
  - rewrite !sweep_frame; auto; intros y Hy T; apply C; exists y; split; auto; [apply H' | apply H]; auto.
Qed.
End apart.

(* ---- accesses along a line ---- *)
Section line.
Variables (n d : nat).
Hypothesis Hd : (d < n)%nat.
Definition online (e : expr) : Prop := forall b ix, In (b, ix) (dsets e) -> exists k, ix = move d k (here n).
Definition lined (q : keq) : Prop := match q with KEq l r => online l /\ online r | _ => True end.
Lemma lined_along : forall qs, Forall lined qs -> along n d qs.
Proof.
  intros qs H q b ix Hq Hb. rewrite Forall_forall in H. specialize (H q Hq). destruct q as [l r|]; [|destruct Hb]. destruct H as [Hl Hr].
  apply in_app_iff in Hb. destruct Hb as [Hb | Hb].
  - apply (Hl b ix). destruct l as [z|kd g|b0 ix0|h args]; cbn in Hb; try (destruct Hb; fail).
    + destruct kd; cbn in Hb; try (destruct Hb; fail); destruct Hb as [Hb | []]; discriminate.
    + destruct Hb as [Hb | []]. injection Hb as -> ->. cbn. auto.
  - cbn in Hb. apply in_app_iff in Hb. destruct Hb as [Hb | Hb]; apply in_map_iff in Hb; destruct Hb as (a & E & Hb); [|discriminate]. injection E as ->. apply (Hr b ix Hb).
Qed.
Lemma online_app : forall h args, Forall online args -> online (EApp h args).
Proof. intros h args H b ix Hb. rewrite dsets_app in Hb. apply in_flat_map in Hb. destruct Hb as (a & Ha & Hb). rewrite Forall_forall in H. apply (H a Ha b ix Hb). Qed.
Lemma online_none : forall e, dsets e = [] -> online e.
Proof. intros e E b ix Hb. rewrite E in Hb. destruct Hb. Qed.
Lemma online_local : forall e, local n e -> online e.
Proof. intros e H b ix Hb. exists 0%Z. rewrite (H b ix Hb), move_0. reflexivity. Qed.
Lemma online_placed : forall e, placed n e -> online e.
Proof. intros e [H _]. apply online_local. auto. Qed.
Lemma online_put : forall k e, online (put n d k e).
Proof. intros k e b ix Hb. apply dsets_put in Hb. destruct Hb as [-> _]. eauto. Qed.
Lemma online_dat : forall b k, online (EDat b (move d k (here n))).
Proof. intros b k b' ix [E | []]. injection E as _ <-. eauto. Qed.
Lemma online_here : forall b, online (EDat b (here n)).
Proof. intros b. apply online_placed, placed_dat. Qed.
Lemma along_sweeps : forall V (J : interp V) qs (P : list Z -> Prop), Forall lined qs -> (exists c, forall x, P x -> List.length x = n /\ nth d x 0%Z = c) ->
  forall pts pts' M b z, sweeps pts P -> sweeps pts' P -> run_kernel J qs pts M b z = run_kernel J qs pts' M b z.
Proof.
  intros V J qs P H (c & HP). apply lined_along in H. apply sweeps_agree.
  intros x y z Px Py (q & b & ix & Hq & Hb & E) (q' & b' & ix' & Hq' & Hb' & E').
  destruct (HP x Px) as [Lx Cx], (HP y Py) as [Ly Cy]. destruct (H q b ix Hq Hb) as [j ->], (H q' b' ix' Hq' Hb') as [j' ->].
  rewrite vadd_along in E, E' by auto. apply (lines_disjoint d j j'); congruence.
Qed.
(* statements that access nothing but the point itself *)
Definition still (q : keq) : Prop := match q with KEq l r => local n l /\ local n r | _ => True end.
Lemma still_sweeps : forall V (J : interp V) qs (P : list Z -> Prop), Forall still qs -> (forall x, P x -> List.length x = n) ->
  forall pts pts' M b z, sweeps pts P -> sweeps pts' P -> run_kernel J qs pts M b z = run_kernel J qs pts' M b z.
Proof.
  intros V J qs P H HP. apply sweeps_agree.
  assert (A : forall x z, P x -> touches qs x z -> z = x).
  { intros x z Px (q & b & ix & Hq & Hb & ->). rewrite Forall_forall in H. specialize (H q Hq). destruct q as [l r|]; [|destruct Hb]. destruct H as [Hl Hr].
    enough (ix = here n) as -> by (apply vadd_here; auto). apply in_app_iff in Hb. destruct Hb as [Hb | Hb].
    - apply (Hl b ix). destruct l as [w|kd g|b0 ix0|h args]; cbn in Hb; try (destruct Hb; fail).
      + destruct kd; cbn in Hb; try (destruct Hb; fail); destruct Hb as [Hb | []]; discriminate.
      + destruct Hb as [Hb | []]. injection Hb as -> ->. cbn. auto.
    - apply in_reads_inl in Hb. apply (Hr b ix Hb). }
  intros x y z Px Py Tx Ty. rewrite <- (A x z Px Tx). apply (A y z Py Ty).
Qed.

(* ---- the parts of the conditions ---- *)
Variable ord : order_of.
Hypothesis Hord : good_order ord.
Lemma inc_online : forall k e e', placed n e -> inc ord d k e = Ok e' -> online e'.
Proof. intros k e e' [Lo [_ Ko]] H. rewrite (inc_local ord n) in H by auto. injection H as <-. apply online_put. Qed.
Lemma each_result : forall A B (f : A -> result B) (Q : B -> Prop) l ys, map_result f l = Ok ys -> (forall x y, In x l -> f x = Ok y -> Q y) -> Forall Q ys.
Proof.
  intros A B f Q. induction l as [|x l IH]; intros ys H HQ; cbn [map_result] in H; [injection H as <-; auto|].
  destruct (f x) as [y|] eqn:Ef; [|discriminate]. cbn [bind] in H. destruct (map_result f l) as [zs|] eqn:El; [|discriminate]. cbn [bind] in H. injection H as <-.
  constructor; [apply (HQ x); cbn; auto | apply IH; auto; intros; apply (HQ x0); cbn; auto].
Qed.
Lemma lined_concat : forall ls, Forall (Forall lined) ls -> Forall lined (List.concat ls).
Proof. induction 1; cbn; auto. apply Forall_app. auto. Qed.
Lemma boundary_lined : forall lefts rights ids qs, Forall (placed n) lefts ->
  create_boundary_equations ord d lefts rights ids = Ok qs -> Forall lined qs.
Proof.
  intros lefts rights ids qs HL H. unfold create_boundary_equations in H. destruct lefts as [|e0 ls]; [discriminate|].
  destruct e0 as [z|kd g|b0 loc|h args]; try discriminate. injection H as <-.
  assert (E : loc = here n). { inversion HL as [|? ? [Lo _] _]; subst. apply (Lo b0 loc). cbn. auto. } subst loc.
  apply Forall_forall. intros q Hq. apply in_flat_map in Hq. destruct Hq as (i & _ & Hq). unfold boundary_equations_at in Hq.
  apply in_map_iff in Hq. destruct Hq as (p & <- & _). cbn [lined]. rewrite !relocate_any by auto. split; intros b ix Hb; rewrite dsets_map_dsets in Hb; apply in_map_iff in Hb;
    destruct Hb as (a & E & _); injection E as _ <-; rewrite shift_move; eauto.
Qed.
Lemma arrays_placed : forall fs, Forall (placed n) (flat_arrays (arrays_of n fs)).
Proof.
  intros fs. apply Forall_forall. intros e He. unfold flat_arrays, arrays_of in He. apply in_flat_map in He. destruct He as (a & Ha & He).
  apply in_map_iff in Ha. destruct Ha as ([s|vs] & <- & _).
  - destruct He as [<- | []]. apply placed_dat.
  - apply in_map_iff in He. destruct He as (v & <- & _). apply placed_dat.
Qed.
End line.

(* ---- the kernels of the conditions ---- *)
Definition sweep_free (bk : bkernel) : Prop := forall (J : interp R) pts pts' M b z,
  sweeps pts (fun x => bk_points bk x = true) -> sweeps pts' (fun x => bk_points bk x = true) ->
  run_kernel J (bk_eqs bk) pts M b z = run_kernel J (bk_eqs bk) pts' M b z.
Section conditions.
Variables (ord : order_of) (np : list Z) (bh : halo_ranges) (d : nat).
Notation n := (List.length np).
Hypothesis Hord : good_order ord.
Hypothesis Lb : List.length bh = n.
Hypothesis Hd : (d < n)%nat.
Lemma plane_free : forall side k eqs, bc_plane_kernel np bh d side = Ok k -> Forall (lined n d) eqs ->
  sweep_free {| bk_ranges := fst k; bk_halos := snd k; bk_eqs := eqs |}.
Proof.
  intros side k eqs Ek H J pts pts' M b z. unfold bc_plane_kernel in Ek. rewrite set_kernel_range_ok in Ek by auto. cbn [bind] in Ek. injection Ek as <-.
  cbn [fst snd bk_eqs]. apply (along_sweeps n d Hd R J eqs); auto. exists (if side then nth d np 0 - 1 else 0)%Z.
  intros x Hx. apply bk_points_face in Hx; auto. destruct Hx as (Lx & Cx & _). split; auto.
Qed.
Lemma gas_rho_placed : forall g, placed n (ns_rho (gas_vars n g)).
Proof. intros. apply placed_dat. Qed.
Lemma gas_E_placed : forall g, placed n (ns_rhoE (gas_vars n g)).
Proof. intros. apply placed_dat. Qed.
Lemma gas_mom_placed : forall g m, In m (ns_mom (gas_vars n g)) -> placed n m.
Proof. intros g m H. apply in_map_iff in H. destruct H as (v & <- & _). apply placed_dat. Qed.
Lemma gas_enum_placed : forall g c, In c (enum (ns_mom (gas_vars n g))) -> placed n (snd c).
Proof. intros g [i m] H. apply in_combine_r in H. apply (gas_mom_placed g). auto. Qed.
Lemma gas_p_placed : forall g, placed n (pressure_cons (gas_vars n g)).
Proof. intros. apply placed_pressure. Qed.
Lemma gas_T_placed : forall g, placed n (temperature_cons (gas_vars n g)).
Proof. intros. apply placed_temperature. Qed.
Notation ONL := (online n d).
Notation LIN := (lined n d).
Lemma online_map : forall A h (f : A -> expr) l, (forall a, In a l -> ONL (f a)) -> ONL (EApp h (map f l)).
Proof. intros A h f l H. apply online_app. apply Forall_forall. intros e He. apply in_map_iff in He. destruct He as (a & <- & Ha). auto. Qed.
Lemma lined_map : forall A (f : A -> keq) l, (forall a, In a l -> LIN (f a)) -> Forall LIN (map f l).
Proof. intros A f l H. apply Forall_forall. intros e He. apply in_map_iff in He. destruct He as (a & <- & Ha). auto. Qed.
Lemma lined_flat : forall A (f : A -> list keq) l, (forall a, In a l -> Forall LIN (f a)) -> Forall LIN (flat_map f l).
Proof. intros A f l H. apply Forall_forall. intros e He. apply in_flat_map in He. destruct He as (a & Ha & He). specialize (H a Ha). rewrite Forall_forall in H. auto. Qed.
Lemma lined_firstn : forall i ls, Forall (Forall LIN) ls -> Forall LIN (List.concat (firstn i ls)).
Proof. intros i ls H. apply lined_concat. rewrite <- (firstn_skipn i ls) in H. apply Forall_app in H. tauto. Qed.
Lemma inc_online' : forall k e e', placed n e -> inc ord d k e = Ok e' -> ONL e'.
Proof. intros k e e'. exact (inc_online n d Hd ord Hord k e e'). Qed.

Lemma ok_inj : forall A (a b : A), Ok a = Ok b -> a = b.
Proof. intros A a b H. injection H as H. exact H. Qed.
Ltac binds := repeat match goal with
  | H : bind ?r _ = Ok _ |- _ => let E := fresh "E" in destruct r eqn:E; [cbn [bind] in H | discriminate H]
  | H : Ok _ = Ok _ |- _ => apply ok_inj in H
  end.
Ltac plain := first [ apply gas_rho_placed | apply gas_E_placed | apply gas_p_placed | apply gas_T_placed | (eapply gas_mom_placed; eassumption) | (eapply gas_enum_placed; eassumption) | assumption ].
Ltac onl := cbv beta; match goal with
  | |- ONL (evar _) => apply online_none; reflexivity
  | |- ONL (econst _) => apply online_none; reflexivity
  | |- ONL gama => apply online_none; reflexivity
  | |- ONL Minf => apply online_none; reflexivity
  | |- ONL (ENum _) => apply online_none; reflexivity
  | |- ONL (eint _) => apply online_none; reflexivity
  | H : inc _ _ _ ?e = Ok ?x |- ONL ?x => refine (inc_online' _ _ _ _ H); plain
  | |- ONL (eadd (map _ _)) => apply online_map; intros; onl
  | |- ONL (eadd _) => apply online_app; repeat (constructor; [onl|]); constructor
  | |- ONL (emul _) => apply online_app; repeat (constructor; [onl|]); constructor
  | |- ONL (epow _ _) => apply online_app; repeat (constructor; [onl|]); constructor
  | |- ONL (ediv _ _) => apply online_app; repeat (constructor; [onl|]); constructor
  | |- ONL (esub _ _) => apply online_app; repeat (constructor; [onl|]); constructor
  | |- ONL (edot _) => apply online_map; intros; onl
  | |- ONL (carp_coeff ?s _) => apply online_none; unfold carp_coeff; destruct s; reflexivity
  | |- ONL (EApp _ _) => apply online_app; repeat (constructor; [onl|]); constructor
  | |- ONL _ => apply online_placed; plain
  end.
Ltac lin := cbv beta; match goal with
  | |- LIN (KEq _ _) => split; onl
  | |- Forall LIN (_ ++ _) => apply Forall_app; split; lin
  | |- Forall LIN (_ :: _) => constructor; [lin | lin]
  | |- Forall LIN [] => constructor
  | |- Forall LIN (List.concat (firstn _ ?x)) => apply lined_firstn; lin
  | |- Forall LIN (List.concat ?x) => apply lined_concat; lin
  | |- Forall LIN (map _ _) => apply lined_map; intros; lin
  | |- Forall LIN (flat_map _ _) => apply lined_flat; intros; lin
  | H : map_result _ _ = Ok ?x |- Forall _ ?x => let H' := fresh "R" in pose proof H as H'; clear H; eapply each_result; [exact H'|]; clear H'; cbv beta; intros; binds; subst; lin
  | H : create_boundary_equations _ _ _ _ _ = Ok ?x |- Forall LIN ?x => eapply boundary_lined; [exact Hord | | exact H]; try apply arrays_placed
  end.
Ltac starting := match goal with H : bc_plane_kernel np bh d _ = Ok ?k |- sweep_free {| bk_ranges := fst ?k; bk_halos := snd ?k; bk_eqs := _ |} => apply (plane_free _ k _ H) end.

Lemma symmetry_free : forall side row fs bk, symmetry_apply ord np bh d side row (arrays_of n fs) = Ok bk -> sweep_free bk.
Proof. intros side row fs bk H. unfold symmetry_apply in H. binds. subst bk. starting. lin. Qed.
Lemma inviscid_free : forall side row fs bk, inviscid_wall_apply ord np bh d side row (arrays_of n fs) = Ok bk -> sweep_free bk.
Proof. intros side row fs bk H. unfold inviscid_wall_apply in H. binds. subst bk. starting. lin. Qed.
Lemma zero_gradient_free : forall side fs bk, zero_gradient_apply ord np bh d side (arrays_of n fs) = Ok bk -> sweep_free bk.
Proof. intros side fs bk H. unfold zero_gradient_apply in H. binds. subst bk. starting. lin. Qed.
Lemma transfer_free : forall side fs bk, inlet_transfer_apply ord np bh d side (arrays_of n fs) = Ok bk -> sweep_free bk.
Proof. intros side fs bk H. unfold inlet_transfer_apply in H. destruct side; [discriminate|]. binds. subst bk. starting. lin. Qed.
Lemma extrapolation_free : forall side order fs bk, extrapolation_apply ord np bh d side order (arrays_of n fs) = Ok bk -> sweep_free bk.
Proof.
  intros side order fs bk H. unfold extrapolation_apply in H. binds. destruct (set_side_factor side) as [from to]. binds. subst bk. starting.
  pose proof (arrays_placed n fs) as AP. rewrite Forall_forall in AP.
  destruct (order =? 0)%Z; [|destruct (order =? 1)%Z; [|discriminate]]; binds; subst; [lin|].
  apply lined_concat. eapply each_result; [exact E1|]. cbv beta. intros x y Hx Hy. eapply each_result; [exact Hy|]. cbv beta. intros t q Ht Hq. specialize (AP t Ht). binds. subst q. lin.
Qed.
Lemma dirichlet_free : forall side (ps : list (string * expr)) bk, (forall b e, In (b, e) ps -> placed n e) ->
  dirichlet_apply np bh d side (map (fun p => KEq (EDat (fst p) (repeat 0%Z n)) (snd p)) ps) = Ok bk -> sweep_free bk.
Proof.
  intros side ps bk Hp H. destruct (BCWallProps.dirichlet_points np bh d side (map (fun p => KEq (EDat (fst p) (repeat 0%Z n)) (snd p)) ps) Lb Hd) as (k & E & Eq & P).
  rewrite E in H. injection H as <-. intros J pts pts' M b z. rewrite Eq. apply (still_sweeps n R J).
  - apply Forall_forall. intros q Hq. apply in_map_iff in Hq. destruct Hq as ([b' e] & <- & Hin). split; [apply placed_dat | apply (Hp b' e Hin)].
  - intros x Hx. apply P in Hx. apply Hx.
Qed.
Lemma outlet_free : forall side g bk, pressure_outlet_apply ord np bh d side (gas_vars n g) = Ok bk -> sweep_free bk.
Proof.
  intros side g bk H. unfold pressure_outlet_apply in H. destruct side; [|discriminate]. binds. subst bk. starting. lin.
  constructor; [apply gas_rho_placed|]. apply Forall_app. split; [|repeat constructor; apply gas_E_placed]. apply Forall_forall. apply gas_mom_placed.
Qed.
Lemma adiabatic_free : forall side g bk, adiabatic_apply ord np bh d side (gas_vars n g) = Ok bk -> sweep_free bk.
Proof. intros side g bk H. unfold adiabatic_apply in H. binds. destruct (set_side_factor side) as [from to]. binds. subst bk. starting. lin. Qed.
Lemma isothermal_free : forall side g x0 e bk, placed n x0 -> placed n e ->
  isothermal_apply ord np bh d side (gas_vars n g) x0 [KEq (EDat (g_energy g) (repeat 0%Z n)) e] = Ok bk -> sweep_free bk.
Proof.
  intros side g x0 e bk Px Pe H. unfold isothermal_apply in H. binds. destruct (set_side_factor side) as [from to]. cbv zeta in H. binds. subst bk. starting.
  pose proof (placed_dat n (g_energy g)). unfold here in *. lin.
Qed.
Lemma carpenter_free : forall side fs g bk, carpenter_wall_apply ord np bh d side (arrays_of n fs) (gas_vars n g) = Ok bk -> sweep_free bk.
Proof.
  intros side fs g bk H. unfold carpenter_wall_apply in H. binds. destruct (set_side_factor side) as [from to]. cbv zeta in H. binds. subst bk. starting.
  assert (T : forall j, ONL (Tvar j)) by (intros; apply online_none; reflexivity).
  apply Forall_app. split; [|apply Forall_app; split].
  - apply lined_flat. intros a7 Ha. unfold arrays_of in Ha. apply in_map_iff in Ha. destruct Ha as ([s|vs] & <- & _); [constructor|].
    apply lined_map. intros x Hx. apply in_map_iff in Hx. destruct Hx as (v & <- & _). split; [apply online_here | onl].
  - eapply each_result; [eassumption|]. cbv beta. intros. binds. subst. split; [apply T | onl].
  - unfold Tvar in *. lin.
Qed.
Lemma strip_free : forall shock side g md e1 e2 bk, placed n e1 -> placed n e2 ->
  forcing_strip_apply ord np bh d side shock (gas_vars n g) (KEq (EDat md (repeat 0%Z n)) e1) [KEq (EDat (g_energy g) (repeat 0%Z n)) e2] = Ok bk -> sweep_free bk.
Proof.
  intros shock side g md e1 e2 bk P1 P2 H. unfold forcing_strip_apply in H. binds. destruct (set_side_factor side) as [from to]. cbv zeta in H.
  destruct (d <? List.length (ns_mom (gas_vars n g)))%nat; [|discriminate].
  assert (W : Forall LIN (KEq (EDat md (repeat 0%Z n)) e1 :: drop_nth d (map (fun m : expr => KEq m (ENum 0)) (ns_mom (gas_vars n g))) ++ [KEq (EDat (g_energy g) (repeat 0%Z n)) e2])).
  { pose proof (placed_dat n (g_energy g)). pose proof (placed_dat n md). unfold here in *. constructor; [lin|]. apply Forall_app. split; [|lin].
    assert (F : Forall LIN (map (fun m : expr => KEq m (ENum 0)) (ns_mom (gas_vars n g)))) by lin.
    rewrite Forall_forall in *. intros q Hq. apply F. unfold drop_nth in Hq. apply in_app_iff in Hq.
    destruct Hq as [Hq | Hq]; [rewrite <- (firstn_skipn d) | rewrite <- (firstn_skipn (S d))]; apply in_app_iff; auto. }
  assert (T : forall j, ONL (Tvar j)) by (intros; apply online_none; reflexivity).
  assert (RH : forall j, ONL (rho_halo j)) by (intros; apply online_none; reflexivity).
  assert (U : forall i j, ONL (uvar i j)) by (intros; apply online_none; reflexivity).
  destruct shock; binds; subst bk; starting; [|exact W].
  apply Forall_app. split; [exact W|]. clear W. unfold Tvar, rho_halo, uvar in *. lin.
Qed.
Lemma lawal_free : forall side g bk, lawal_apply ord np bh d side (gas_vars n g) = Ok bk -> sweep_free bk.
Proof.
  intros side g bk H. unfold lawal_apply in H. destruct side; [discriminate|]. binds. cbn [set_side_factor] in H. cbv zeta in H. binds. subst bk. starting.
  unfold u1var, epow2 in *. lin.
Qed.
Lemma inlet_free : forall side fs g bk, pressure_inlet_apply ord np bh d side (arrays_of n fs) (gas_vars n g) = Ok bk -> sweep_free bk.
Proof.
  intros side fs g bk H. unfold pressure_inlet_apply in H. destruct side; [discriminate|]. binds.
  destruct (rev (flat_arrays (arrays_of n fs))) as [|last r] eqn:Er; [discriminate|]. cbv zeta in H. binds. subst bk. starting.
  assert (PL : placed n last). { pose proof (arrays_placed n fs) as X. rewrite Forall_forall in X. apply X. apply in_rev. rewrite Er. left. auto. }
  assert (V : forall x, In x (ns_rho (gas_vars n g) :: ns_mom (gas_vars n g) ++ [ns_rhoE (gas_vars n g)]) -> placed n x).
  { intros x [<- | Hx]; [apply gas_rho_placed|]. apply in_app_iff in Hx. destruct Hx as [Hx | [<- | []]]; [apply (gas_mom_placed g); auto | apply gas_E_placed]. }
  unfold ubvar, epiece, ege, etrue in *. apply Forall_app. split; [lin|]. apply Forall_app. split; [|lin].
  eapply each_result; [exact E0|]. cbv beta. intros x q Hx Hq. specialize (V x Hx). binds. subst q. lin.
Qed.
End conditions.

(* the kernels of all conditions *)
Lemma condition_free : forall shock ord np bh fs g d side c x, good_order ord -> List.length bh = List.length np -> (d < List.length np)%nat ->
  admissible (List.length np) fs g d c ->
  apply_condition shock ord np bh (arrays_of (List.length np) fs) g d side c = Ok x ->
  match x with Other (Wall bk) => sweep_free bk | Other (Inner (Exchange _)) => True | _ => False end.
Proof.
  intros shock ord np bh fs g d side c x Ho Lb Hd Adm H.
  destruct c as [b | ps s | order s | s | s | s | x0 e s | s | md e1 e2 s | s | s]; cbn [apply_condition] in H; cbv zeta in H.
  - destruct b as [| row | row |]; cbn [apply_bc_direction bind] in H; [injection H as <-; exact I| | |];
      match type of H with bind (bind ?r _) _ = _ => destruct r as [bk|] eqn:E; cbn [bind] in H; [injection H as <- | discriminate] end.
    + apply (symmetry_free ord np bh d Ho Lb Hd side row fs bk E).
    + apply (inviscid_free ord np bh d Ho Lb Hd side row fs bk E).
    + apply (zero_gradient_free ord np bh d Ho Lb Hd side fs bk E).
  - destruct (dirichlet_apply _ _ _ _ _) as [bk|] eqn:E in H; [cbn [bind] in H; injection H as <- | discriminate].
    apply (dirichlet_free np bh d Lb Hd side ps bk); [apply Adm | exact E].
  - destruct (extrapolation_apply _ _ _ _ _ _ _) as [bk|] eqn:E in H; [cbn [bind] in H; injection H as <- | discriminate].
    apply (extrapolation_free ord np bh d Ho Lb Hd side order fs bk E).
  - destruct (inlet_transfer_apply _ _ _ _ _ _) as [bk|] eqn:E in H; [cbn [bind] in H; injection H as <- | discriminate].
    apply (transfer_free ord np bh d Ho Lb Hd side fs bk E).
  - destruct (pressure_outlet_apply _ _ _ _ _ _) as [bk|] eqn:E in H; [cbn [bind] in H; injection H as <- | discriminate].
    apply (outlet_free ord np bh d Ho Lb Hd side g bk E).
  - destruct (adiabatic_apply _ _ _ _ _ _) as [bk|] eqn:E in H; [cbn [bind] in H; injection H as <- | discriminate].
    apply (adiabatic_free ord np bh d Ho Lb Hd side g bk E).
  - destruct (isothermal_apply _ _ _ _ _ _ _ _) as [bk|] eqn:E in H; [cbn [bind] in H; injection H as <- | discriminate].
    apply (isothermal_free ord np bh d Ho Lb Hd side g x0 e bk); [apply (Adm x0); auto | apply (Adm e); auto | exact E].
  - destruct (carpenter_wall_apply _ _ _ _ _ _ _) as [bk|] eqn:E in H; [cbn [bind] in H; injection H as <- | discriminate].
    apply (carpenter_free ord np bh d Ho Lb Hd side fs g bk E).
  - destruct (forcing_strip_apply _ _ _ _ _ _ _ _ _) as [bk|] eqn:E in H; [cbn [bind] in H; injection H as <- | discriminate].
    apply (strip_free ord np bh d Ho Lb Hd shock side g md e1 e2 bk); [apply (proj2 Adm e1); auto | apply (proj2 Adm e2); auto | exact E].
  - destruct (lawal_apply _ _ _ _ _ _) as [bk|] eqn:E in H; [cbn [bind] in H; injection H as <- | discriminate].
    apply (lawal_free ord np bh d Ho Lb Hd side g bk E).
  - destruct (pressure_inlet_apply _ _ _ _ _ _ _) as [bk|] eqn:E in H; [cbn [bind] in H; injection H as <- | discriminate].
    apply (inlet_free ord np bh d Ho Lb Hd side fs g bk E).
Qed.
