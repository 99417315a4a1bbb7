(* C65: where the residual is not the right-hand side. *)
From Verif Require Import Base BaseProofs Expr ExprProofs FDModel FDSpec FDProofs WorkModel WorkProofs ShiftSpec DiscSpec DiscModel DiscProofs DiscRun DiscMain DiscProps
  EulerSpec EulerModel EulerProofs EulerProps WenoModel LLFSpec LLFModel LLFProofs LLFProps WFSpec WFProofs HybModel HybSpec HybProofs HybMore HybProps.
From Coq Require Import QArith ZArith Reals Lia Lra List Permutation FunctionalExtensionality.
Import ListNotations.
Local Close Scope Q_scope.
Local Open Scope list_scope.

(* powers of symbols are 1 *)
Definition J2 : interp R := {| inum := Q2R; isym := fun _ _ => 1%R;
  iapp := fun hd l => match hd with HAdd => fold_right Rplus 0%R l | HMul => fold_right Rmult 1%R l | _ => 1%R end |}.
Lemma J2_real : real_arithmetic J2.
Proof. split; [|split]; reflexivity. Qed.
Lemma inv2_ok : forall M x d m, value J2 M x (inv1 d m) = (/ (fun _ => 1%R) d ^ m)%R.
Proof. intros. unfold value, inv1. cbn [eval J2 inum]. rewrite RMicromega.Q2R_1, pow1. lra. Qed.
Notation flux2 := (flux_at J2 [10%Z] hy_scheme 2 Simple hy_solution 0 (hy_fluxes 0)).
Definition face2 (M : memory) (d : nat) (x : list Z) : list R := flux2 M x.
Lemma face2_ok : forall M d x, (d < 1)%nat -> numerical_flux J2 hy_scheme 2 Simple hy_solution 1 d (hy_fluxes d) M x = Ok (face2 M d x).
Proof.
  intros M d x Hd. assert (d = 0%nat) as -> by lia. unfold face2, flux_at, numerical_flux, cell_at, velocities, unit_row. cbn [List.length].
  match goal with |- interface_flux _ _ _ ?l _ = _ => destruct (flux_total hy_scheme 2 2 Simple l 0 hy_supported) as (w & E); rewrite E end. reflexivity.
Qed.
Lemma flux2_agree : forall M N x, (forall q y, In q ["rho"; "rhou0"; "rhoE"; "u0"; "a"; "p"]%string -> M q y = N q y) -> flux2 M x = flux2 N x.
Proof.
  intros M N x H. unfold flux_at. replace (fun j => cell_at J2 [10%Z] hy_solution 0 (hy_fluxes 0) M (move 0 j x)) with (fun j => cell_at J2 [10%Z] hy_solution 0 (hy_fluxes 0) N (move 0 j x)); auto.
  apply functional_extensionality. intros j. unfold cell_at, hy_solution, hy_fluxes, velocities, value, at1.
  cbn [map firstn List.length eval hy_f0 hy_f1 hy_f2 at1]. rewrite !H by (cbn; tauto). reflexivity.
Qed.
Lemma flux2_uniform : forall M x y, (forall q z, In q ["rho"; "rhou0"; "rhoE"; "u0"; "a"; "p"]%string -> M q z = hy_uniform q) -> flux2 M x = flux2 M y.
Proof.
  intros M x y H. rewrite (flux2_agree M (fun q _ => hy_uniform q) x), (flux2_agree M (fun q _ => hy_uniform q) y) by auto. reflexivity.
Qed.

(* With the central scheme first the viscous terms are lost. *)
Definition hy_heat (b : string) (x : list Z) : R := if String.eqb b "T" then IZR (nth 0 x 0%Z * nth 0 x 0%Z) else hy_uniform b.
Theorem C65_order_refuted :
  exists ks, hybrid_discretise 1 1 dir3 inv1 set_order inner_order (fun l => l) [] [hy_v2; hy_v1] [CentralDiff; Shock] hy_sys = Ok ks /\
    exists M face rhs x, (forall d x, (d < 1)%nat -> numerical_flux J2 hy_scheme 2 Simple hy_solution 1 d (hy_fluxes d) M x = Ok (face d x)) /\
      nth_error hy_sys 2 = Some ("Residual2"%string, rhs) /\ grid_point [10%Z] x /\
      exec_hybrid J2 1 [10%Z] hy_scheme 2 Simple hy_solution ks M "Residual2"%string x = 0%R /\
      hybrid_value J2 1 dir3 (fun _ => 1%R) M (flux_difference dir3 (fun _ => 1%R) face 2) rhs x = 2%R.
Proof.
  destruct hy_ok as (A & B & C). pose proof (hs_shock _ _ _ _ _ _ A) as SS.
  assert (Hsol : forall q, In q hy_solution -> ~ reserved q) by (intros q [<- | [<- | [<- | []]]]; apply not_wk; reflexivity).
  destruct (central_run J2 1 1 dir3 inv1 set_order inner_order (fun _ => 1%R) [10%Z] J2_real inv2_ok eq_refl (fun _ => "x0"%string) hy_fluxes hy_sys SS A set_order_ok inner_order_perm inner_order_inner [] [hy_v2; hy_v1] B C) as (k2 & E2 & X2).
  destruct (shock_run J2 1 1 dir3 inv1 (fun l => l) (fun _ => 1%R) [10%Z] J2_real inv2_ok eq_refl (fun l => Permutation_refl l) (fun _ => "x0"%string) hy_fluxes hy_sys SS hy_scheme 2 Simple hy_solution Hsol ltac:(lia)) as (k1 & E1 & X1).
  unfold hybrid_discretise. cbn [mapM discretise_scheme]. rewrite E1, E2. cbn [bind List.concat]. eexists. split; [reflexivity|]. rewrite app_nil_r.
  exists hy_heat, (face2 hy_heat), (snd (nth 2 hy_sys (""%string, ENum 0))), [3%Z]. split; [apply face2_ok|]. split; [reflexivity|]. split; [repeat constructor; lia|].
  assert (U : forall q z, In q ["rho"; "rhou0"; "rhoE"; "u0"; "a"; "p"]%string -> hy_heat q z = hy_uniform q).
  { intros q z Hq. cbn in Hq. repeat (destruct Hq as [<- | Hq]; [reflexivity|]). destruct Hq. }
  split.
  - rewrite exec_hybrid_app, exec_hybrid_ker. set (M' := exec J2 1 [10%Z] k2 hy_heat).
    assert (U' : forall q z, In q ["rho"; "rhou0"; "rhoE"; "u0"; "a"; "p"]%string -> M' q z = hy_uniform q).
    { intros q z Hq. unfold M'. rewrite (proj1 (X2 hy_heat)); [apply U; auto| |].
      - cbn in Hq. repeat (destruct Hq as [<- | Hq]; [apply not_wk; reflexivity|]). destruct Hq.
      - cbn in *. intuition (subst; discriminate). }
    destruct (X1 M') as (_ & R1). rewrite (R1 2%nat "Residual2"%string (snd (nth 2 hy_sys (""%string, ENum 0))) [3%Z] eq_refl eq_refl).
    cbn [nth hy_sys snd zsem is_wd WD String.eqb Ascii.eqb Bool.eqb map coordinate_of J2 iapp fold_right inum hy_v2 x0]. unfold wd_value, flux_difference. cbn [dir3 String.eqb Ascii.eqb Bool.eqb move].
    rewrite (flux2_uniform M' [3 + -1]%Z [3]%Z) by auto. lra.
  - cbn [nth hy_sys snd hybrid_value WD String.eqb Ascii.eqb Bool.eqb map J2 iapp fold_right inum hy_v2 x0 at1 inv_re]. unfold flux_difference, face2. cbn [dir3 direction String.eqb Ascii.eqb Bool.eqb move].
    rewrite (flux2_uniform hy_heat [3 + -1]%Z [3]%Z) by auto.
    unfold grid_formula. change (2 * Z.of_nat 1)%Z with 2%Z.
    set (cw := combine (central_points 2) (generate_weights 2 2)). vm_compute in cw. subst cw. cbn [fold_right fst snd ShiftSpec.vadd hy_heat String.eqb Ascii.eqb Bool.eqb nth Z.add].
    unfold Q2R. cbn [Qnum Qden]. simpl. lra.
Qed.
Print Assumptions C65_order_refuted.

(* A function of the solution is dropped, from whatever memory. *)
Definition sin_sys : list (string * expr) :=
  ("Residual0"%string, EApp HAdd [EApp HMul [ENum (-1); WD hy_f0 "x0"]; EApp (HFun "sin") [at1 "rho"]]) ::
  map (fun re => (fst re, EApp HAdd [hd (ENum 0) (terms (snd re))])) (tl hy_sys).
Lemma shock_like_hy : forall eqs, map fst eqs = map fst hy_sys ->
  (forall r rhs, In (r, rhs) eqs -> forall b ix, In (b, ix) (dsets rhs) -> ix = [0%Z] /\ In b ["rho"; "rhou0"; "rhoE"; "u0"; "p"; "T"]%string) ->
  (forall i r rhs, nth_error eqs i = Some (r, rhs) -> wds rhs = [WD (nth i (hy_fluxes 0) (ENum 0)) "x0"]) ->
  shock_system 1 dir3 (fun b => exists i, b = wk_name i) (fun _ => "x0"%string) hy_fluxes eqs.
Proof.
  intros eqs HF HD HW. destruct hy_ok as (A & _ & _). pose proof (hs_shock _ _ _ _ _ _ A) as SS. constructor.
  - rewrite <- (map_length fst), HF. reflexivity.
  - apply (ss_coordinate _ _ _ _ _ _ SS).
  - rewrite HF. apply (ss_distinct _ _ _ _ _ _ SS).
  - intros r rhs Hin. apply (in_map fst) in Hin. rewrite HF in Hin. cbn in Hin. destruct Hin as [<- | [<- | [<- | []]]]; apply not_wk; reflexivity.
  - intros r rhs b ix Hin Hb. destruct (HD r rhs Hin b ix Hb) as (-> & Hb'). split; [reflexivity|]. rewrite HF.
    cbn in Hb'. repeat (destruct Hb' as [<- | Hb']; [split; [apply not_wk; reflexivity | cbn; intuition discriminate]|]). destruct Hb'.
  - intros d Hd. rewrite <- (map_length fst), HF. apply (ss_fluxes _ _ _ _ _ _ SS d Hd).
  - intros i r rhs E v. rewrite <- in_wds, (HW i r rhs E). split.
    + intros [<- | []]. exists 0%nat. split; [lia | reflexivity].
    + intros (d & Hd & ->). left. reflexivity.
Qed.
Theorem C65_function_refuted :
  exists ks, shock_system 1 dir3 (fun b => exists i, b = wk_name i) (fun _ => "x0"%string) hy_fluxes sin_sys /\
    hybrid_discretise 1 1 dir3 inv1 set_order inner_order (fun l => l) [] [] [Shock; CentralDiff] sin_sys = Ok ks /\
    forall M face x rhs, (forall d x, (d < 1)%nat -> numerical_flux J2 hy_scheme 2 Simple hy_solution 1 d (hy_fluxes d) M x = Ok (face d x)) ->
      nth_error sin_sys 0 = Some ("Residual0"%string, rhs) -> grid_point [10%Z] x ->
      exec_hybrid J2 1 [10%Z] hy_scheme 2 Simple hy_solution ks M "Residual0"%string x <>
      hybrid_value J2 1 dir3 (fun _ => 1%R) M (flux_difference dir3 (fun _ => 1%R) face 0) rhs x.
Proof.
  assert (SS : shock_system 1 dir3 (fun b => exists i, b = wk_name i) (fun _ => "x0"%string) hy_fluxes sin_sys).
  { apply shock_like_hy; [reflexivity| |].
    - intros r rhs [E | [E | [E | []]]] b ix Hb; injection E as <- <-; vm_compute in Hb;
        repeat (destruct Hb as [Hb | Hb]; [injection Hb as <- <-; split; [reflexivity | cbn; tauto]|]); destruct Hb.
    - intros i r rhs E. destruct i as [|[|[|i]]]; [| | |destruct i; discriminate]; cbn in E; injection E as <- <-; reflexivity. }
  assert (Hsol : forall q, In q hy_solution -> ~ reserved q) by (intros q [<- | [<- | [<- | []]]]; apply not_wk; reflexivity).
  destruct (shock_run J2 1 1 dir3 inv1 (fun l => l) (fun _ => 1%R) [10%Z] J2_real inv2_ok eq_refl (fun l => Permutation_refl l) (fun _ => "x0"%string) hy_fluxes sin_sys SS hy_scheme 2 Simple hy_solution Hsol ltac:(lia)) as (k1 & E1 & X1).
  exists k1. split; [exact SS|]. split.
  - unfold hybrid_discretise. cbn [mapM discretise_scheme]. rewrite E1. change (sbli_rhs_discretisation 1 1 dir3 inv1 set_order inner_order [] [] sin_sys) with (Ok (A := list kernel) []).
    cbn [bind List.concat map]. rewrite app_nil_r. reflexivity.
  - intros M face x rhs HF E Hx. rewrite (proj2 (X1 M) 0%nat "Residual0"%string rhs x E) by (apply grid_point_range; auto). cbn in E. injection E as <-.
    cbn [zsem hybrid_value is_wd WD String.eqb Ascii.eqb Bool.eqb map coordinate_of J2 iapp fold_right inum]. unfold wd_value, flux_difference. cbn [dir3 String.eqb Ascii.eqb Bool.eqb].
    assert (EF : forall y, face 0%nat y = flux2 M y). { intros y. pose proof (HF 0%nat y ltac:(lia)) as Q. rewrite face2_ok in Q by lia. injection Q as Q. auto. }
    rewrite !EF. lra.
Qed.
Print Assumptions C65_function_refuted.

(* A term with the Reynolds number but without derivative is counted twice as soon as some
   equation has a viscous derivative. *)
Definition re_sys : list (string * expr) :=
  ("Residual0"%string, EApp HAdd [EApp HMul [ENum (-1); WD hy_f0 "x0"]; EApp HMul [inv_re; at1 "rho"]]) :: tl hy_sys.
Theorem C65_reynolds_source_refuted :
  exists ks, shock_system 1 dir3 (fun b => exists i, b = wk_name i) (fun _ => "x0"%string) hy_fluxes re_sys /\
    lists_derivatives re_sys (fun t => ~ viscous_term t) [] /\ lists_derivatives re_sys viscous_term [hy_v2; hy_v1] /\
    hybrid_discretise 1 1 dir3 inv1 set_order inner_order (fun l => l) [] [hy_v2; hy_v1] [Shock; CentralDiff] re_sys = Ok ks /\
    forall M face x rhs, (forall d x, (d < 1)%nat -> numerical_flux J2 hy_scheme 2 Simple hy_solution 1 d (hy_fluxes d) M x = Ok (face d x)) ->
      nth_error re_sys 0 = Some ("Residual0"%string, rhs) -> grid_point [10%Z] x ->
      exec_hybrid J2 1 [10%Z] hy_scheme 2 Simple hy_solution ks M "Residual0"%string x =
      (hybrid_value J2 1 dir3 (fun _ => 1%R) M (flux_difference dir3 (fun _ => 1%R) face 0) rhs x + M "rho"%string x)%R.
Proof.
  destruct hy_ok as (A & B & C).
  assert (SS : shock_system 1 dir3 (fun b => exists i, b = wk_name i) (fun _ => "x0"%string) hy_fluxes re_sys).
  { apply shock_like_hy; [reflexivity| |].
    - intros r rhs [E | [E | [E | []]]] b ix Hb; injection E as <- <-; vm_compute in Hb;
        repeat (destruct Hb as [Hb | Hb]; [injection Hb as <- <-; split; [reflexivity | cbn; tauto]|]); destruct Hb.
    - intros i r rhs E. destruct i as [|[|[|i]]]; [| | |destruct i; discriminate]; cbn in E; injection E as <- <-; reflexivity. }
  assert (LC : lists_derivatives re_sys (fun t => ~ viscous_term t) []).
  { split; [constructor|]. intros v. split; [intros []|]. intros (Hd & r & rhs & t & [E | Hin] & Ht & Nv & Hi).
    - injection E as <- <-. cbn [terms] in Ht. destruct Ht as [<- | [<- | []]]; (apply (inside_cds _ _ Hd) in Hi; destruct Hi).
    - apply (proj2 (proj2 B v)). split; auto. exists r, rhs, t. split; [right; exact Hin|]. auto. }
  assert (LV : lists_derivatives re_sys viscous_term [hy_v2; hy_v1]).
  { split; [apply (proj1 C)|]. intros v. split.
    - intros Hv. apply (proj2 C) in Hv. destruct Hv as (Hd & r & rhs & t & [E | Hin] & Ht & Vt & Hi).
      + injection E as <- <-. cbn [terms] in Ht. destruct Ht as [<- | []]. apply (inside_cds _ _ Hd) in Hi. destruct Hi.
      + split; auto. exists r, rhs, t. split; [right; exact Hin|]. auto.
    - intros (Hd & r & rhs & t & [E | Hin] & Ht & Vt & Hi).
      + injection E as <- <-. cbn [terms] in Ht. destruct Ht as [<- | [<- | []]]; (apply (inside_cds _ _ Hd) in Hi; destruct Hi).
      + apply (proj2 C). split; auto. exists r, rhs, t. split; [right; exact Hin|]. auto. }
  assert (Hsol : forall q, In q hy_solution -> ~ reserved q) by (intros q [<- | [<- | [<- | []]]]; apply not_wk; reflexivity).
  destruct (shock_run J2 1 1 dir3 inv1 (fun l => l) (fun _ => 1%R) [10%Z] J2_real inv2_ok eq_refl (fun l => Permutation_refl l) (fun _ => "x0"%string) hy_fluxes re_sys SS hy_scheme 2 Simple hy_solution Hsol ltac:(lia)) as (k1 & E1 & X1).
  set (V := map (fun re : string * expr => (fst re, fst (classify (snd re)))) re_sys).
  destruct (viscous_ok J2 1 1 dir3 inv1 set_order inner_order (fun _ => 1%R) [10%Z] J2_real inv2_ok set_order_ok eq_refl [hy_v2; hy_v1] (proj1 C)
    (visc_ok 1 dir3 [10%Z] eq_refl (fun _ => "x0"%string) hy_fluxes hy_sys (hs_shock _ _ _ _ _ _ A) A [hy_v2; hy_v1] C) V) as (k2 & E2 & X2).
  { discriminate. }
  { split; [repeat constructor; cbn; intuition discriminate|]. intros r e Hin. vm_compute in Hin. destruct Hin as [E | [E | [E | []]]]; injection E as <- <-.
    all: split; [intros i Ei; discriminate|]; split; [intros b ix Hb i Ei; vm_compute in Hb; repeat (destruct Hb as [Hb | Hb]; [injection Hb as <- <-; discriminate|]); destruct Hb|].
    all: split; [intros v Hv; vm_compute in Hv; vm_compute; tauto|].
    all: intros b ix Hb; vm_compute in Hb; repeat (destruct Hb as [Hb | Hb]; [injection Hb as <- <-; cbn; intuition discriminate|]); destruct Hb. }
  { apply inner_order_perm. }
  { eapply inner_order_inner; [reflexivity|]. apply inner_firstb_iff. vm_compute. reflexivity. }
  exists (k1 ++ map HKer k2). split; [exact SS|]. split; [exact LC|]. split; [exact LV|]. split.
  - unfold hybrid_discretise. cbn [mapM discretise_scheme]. rewrite E1. unfold sbli_rhs_discretisation.
    change (convective_kernels 1 1 dir3 inv1 set_order inner_order [] _) with (Ok (A := list kernel) []). fold V.
    cbn [bind]. rewrite E2. cbn [bind List.concat app]. rewrite app_nil_r. reflexivity.
  - intros M face x rhs HF E Hx. rewrite exec_hybrid_app, exec_hybrid_ker.
    rewrite (proj2 (X2 _) "Residual0"%string (EApp HAdd [EApp HMul [inv_re; at1 "rho"]]) x); [|left; reflexivity|apply grid_point_range; auto].
    rewrite (proj2 (X1 M) 0%nat "Residual0"%string rhs x E) by (apply grid_point_range; auto). cbn in E. injection E as <-.
    assert (L : List.length x = 1%nat) by (inversion Hx as [|? ? ? ? ? HX]; inversion HX; reflexivity). destruct x as [|z [|? ?]]; [discriminate | | discriminate].
    cbn [sem zsem hybrid_value is_wd WD String.eqb Ascii.eqb Bool.eqb map coordinate_of J2 iapp fold_right inum inv_re at1 ShiftSpec.vadd]. rewrite Z.add_0_r.
    rewrite (proj1 (X1 M) "rho"%string [z]); [|apply not_wk; reflexivity|cbn; intuition discriminate].
    unfold wd_value, flux_difference. cbn [dir3 String.eqb Ascii.eqb Bool.eqb].
    assert (EF : forall y, face 0%nat y = flux2 M y). { intros y. pose proof (HF 0%nat y ltac:(lia)) as Q. rewrite face2_ok in Q by lia. injection Q as Q. auto. }
    rewrite !EF. lra.
Qed.
Print Assumptions C65_reynolds_source_refuted.

(* A central derivative in a term without the Reynolds number: the kernel of the central
   scheme then assigns all residuals, and what the shock-capturing scheme computed is lost.
   Density wave 1 + x^2 carried along with velocity 1: the mass residual is 0 instead of -2x. *)
Definition ow_cd := EApp HCD [at1 "T"; x0].
Definition ow_sys : list (string * expr) :=
  [("Residual0"%string, EApp HMul [ENum (-1); WD hy_f0 "x0"]);
   ("Residual1"%string, EApp HMul [ENum (-1); WD hy_f1 "x0"]);
   ("Residual2"%string, EApp HAdd [EApp HMul [ENum (-1); WD hy_f2 "x0"]; ow_cd])].
Definition hy_contact (b : string) (x : list Z) : R :=
  let rho := (1 + IZR (nth 0 x 0%Z) * IZR (nth 0 x 0%Z))%R in
  if String.eqb b "rho" then rho else if String.eqb b "rhou0" then rho else if String.eqb b "rhoE" then (1 + rho / 2)%R else
  if String.eqb b "a" then sqrt (2 / rho) else 1%R.
Lemma interface_shift : forall sch g av line i, interface_flux sch g av line i = interface_flux sch g av (fun j => line (i + j)%Z) 0.
Proof. intros. unfold interface_flux, speeds. cbv zeta. rewrite Z.add_0_r. reflexivity. Qed.
Lemma contact_flux : forall i, interface_flux hy_scheme 2 Simple contact i = Ok (flux2 hy_contact [i]).
Proof.
  intros i. destruct (flux_total hy_scheme 2 2 Simple contact i hy_supported) as (w & E). rewrite E. f_equal. unfold flux_at.
  replace (interface_flux _ _ _ _ 0) with (interface_flux hy_scheme 2 Simple contact i); [rewrite E; reflexivity|].
  rewrite interface_shift. f_equal. apply functional_extensionality. intros j. unfold contact, cell_at, hy_solution, hy_fluxes, velocities, unit_row, value, hy_f0, hy_f1, hy_f2, at1.
  cbn [map firstn List.length eval ShiftSpec.vadd move J2 iapp fold_right seq Nat.eqb hy_contact String.eqb Ascii.eqb Bool.eqb nth]. rewrite Z.add_0_r.
  f_equal; try reflexivity. apply cons_eq; [reflexivity|]. apply cons_eq; [ring|]. apply cons_eq; [field|reflexivity].
Qed.
Theorem C65_overwritten_refuted :
  exists ks, shock_system 1 dir3 (fun b => exists i, b = wk_name i) (fun _ => "x0"%string) hy_fluxes ow_sys /\
    lists_derivatives ow_sys (fun t => ~ viscous_term t) [ow_cd] /\ lists_derivatives ow_sys viscous_term [] /\
    hybrid_discretise 1 1 dir3 inv1 set_order inner_order (fun l => l) [ow_cd] [] [Shock; CentralDiff] ow_sys = Ok ks /\
    exists face rhs, (forall d x, (d < 1)%nat -> numerical_flux J2 hy_scheme 2 Simple hy_solution 1 d (hy_fluxes d) hy_contact x = Ok (face d x)) /\
      nth_error ow_sys 0 = Some ("Residual0"%string, rhs) /\
      forall i, grid_point [10%Z] [i] ->
        exec_hybrid J2 1 [10%Z] hy_scheme 2 Simple hy_solution ks hy_contact "Residual0"%string [i] = 0%R /\
        hybrid_value J2 1 dir3 (fun _ => 1%R) hy_contact (flux_difference dir3 (fun _ => 1%R) face 0) rhs [i] = (- 2 * IZR i)%R.
Proof.
  destruct (hybrid_discretise 1 1 dir3 inv1 set_order inner_order (fun l => l) [ow_cd] [] [Shock; CentralDiff] ow_sys) as [ks|er] eqn:E; [|vm_compute in E; discriminate].
  assert (D : derivative ow_cd) by (eexists _, _; reflexivity).
  assert (T : forall r rhs, In (r, rhs) ow_sys -> forall t, In t (terms rhs) -> has_re t = false /\ (cds_post t = [] \/ t = ow_cd)).
  { intros r rhs [F | [F | [F | []]]] t Ht; injection F as <- <-; cbn [terms] in Ht;
      repeat (destruct Ht as [<- | Ht]; [split; [reflexivity|]; first [left; reflexivity | right; reflexivity]|]); destruct Ht. }
  exists ks. split; [|split; [|split; [|split; [reflexivity|]]]].
  - apply shock_like_hy; [reflexivity| |].
    + intros r rhs [F | [F | [F | []]]] b ix Hb; injection F as <- <-; vm_compute in Hb;
        repeat (destruct Hb as [Hb | Hb]; [injection Hb as <- <-; split; [reflexivity | cbn; tauto]|]); destruct Hb.
    + intros i r rhs F. destruct i as [|[|[|i]]]; [| | |destruct i; discriminate]; cbn in F; injection F as <- <-; reflexivity.
  - split; [repeat constructor; intros []|]. intros v. split.
    + intros [<- | []]. split; auto. eexists _, _, _. split; [do 2 right; left; reflexivity|]. split; [right; left; reflexivity|]. split; [rewrite <- has_re_spec; vm_compute; discriminate | constructor].
    + intros (Hd & r & rhs & t & Hin & Ht & _ & Hi). apply (inside_cds _ _ Hd) in Hi. destruct (T r rhs Hin t Ht) as (_ & [F | ->]); [rewrite F in Hi; destruct Hi | exact Hi].
  - split; [constructor|]. intros v. split; [intros []|]. intros (Hd & r & rhs & t & Hin & Ht & Vt & _). apply has_re_spec in Vt. destruct (T r rhs Hin t Ht). congruence.
  - exists (face2 hy_contact), (EApp HMul [ENum (-1); WD hy_f0 "x0"]). split; [apply face2_ok|]. split; [reflexivity|]. intros i Hi. split.
    + vm_compute in E. injection E as <-. unfold exec_hybrid. cbn [fold_left].
      match goal with |- exec_hkernel _ _ _ _ _ _ _ ?m _ _ _ = _ => generalize m end. intros N. cbn [exec_hkernel]. unfold exec_kernel, exec_eq. cbn [fold_left k_eqs k_ext fst snd String.eqb Ascii.eqb Bool.eqb andb].
      assert (Hr : in_range 1 [10%Z] [] [i] = true) by (apply grid_point_range; auto). rewrite Hr. cbn [eval map J2 iapp fold_right inum]. unfold Q2R. cbn [Qnum Qden]. simpl. lra.
    + cbn [hybrid_value WD String.eqb Ascii.eqb Bool.eqb map J2 iapp fold_right inum]. unfold flux_difference, face2. cbn [dir3 String.eqb Ascii.eqb Bool.eqb move].
      destruct C37_nonvacuous as (S & G & _ & PF & PU).
      destruct (C37_exact hy_scheme 2 2 Simple contact 3 (fun m => nth m [[1; 0; 1]; [2; 0; 1]; [5/2; 0; 1/2]]%R []) (fun m => nth m [[1; 0; 1]; [1; 0; 1]; [3/2; 0; 1/2]]%R []) 0 1 S ltac:(lra) ltac:(lra) G PF PU) as (w & Ew & Hw).
      assert (W : forall j, w j = flux2 hy_contact [j]) by (intros j; pose proof (contact_flux j) as Q; rewrite Ew in Q; injection Q as Q; exact Q).
      specialize (Hw i 0%nat ltac:(lia)). unfold wd_derivative in Hw. rewrite !W in Hw. cbn [nth] in Hw.
      assert (DL : derivable_pt_lim (peval [1; 0; 1]%R) (0 + IZR i * 1)%R (2 * IZR i)%R).
      { replace (2 * IZR i)%R with (peval (pderiv [1; 0; 1]%R) (0 + IZR i * 1)%R) by (cbn; ring). apply pderiv_derives. }
      pose proof (uniqueness_limite _ _ _ _ Hw DL) as U. change (i + -1)%Z with (i - 1)%Z. revert U.
      generalize (nth 0 (flux2 hy_contact [i]) 0%R) (nth 0 (flux2 hy_contact [(i - 1)%Z]) 0%R). intros a b U. unfold Q2R. cbn [Qnum Qden]. lra.
Qed.
Print Assumptions C65_overwritten_refuted.

(* A transported scalar in addition to the equations of the gas is not accepted. *)
Example C65_scalar_rejected :
  shock_discretise 1 dir3 inv1 (fun l => l) (hy_sys ++ [("Residual3"%string, EApp HMul [ENum (-1); WD (EApp HMul [at1 "rhoY"; at1 "u0"]) "x0"])]) = Err ValueError.
Proof. reflexivity. Qed.
