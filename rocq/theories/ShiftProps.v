(* C28, C29: moving expressions along the grid; the discretised central derivative. *)
From Verif Require Import Base Expr ExprProofs FDModel FDProofs FDSpec ShiftModel ShiftSpec ShiftProofs.
From Coq Require Import QArith ZArith Reals Qreals Lia Lra.
Local Close Scope Q_scope.

(* C28.  Exactly when the result is the moved expression: for a given iteration
   order of the set of accesses, if and only if no access lands on one treated later. *)
Theorem C28_exact_condition :
  forall n e d v order, on_grid n e -> (d < n)%nat -> enumerates order e -> syms KObj e = [] ->
  exists e', increment_dataset d v order e = Ok e' /\
    ((forall V (J : interp V) M x, List.length x = n -> value J M x e' = value J M (move d v x) e) <->
     no_collision d v order).
Proof.
  intros n e d v order G Hd En Ho. unfold increment_dataset. rewrite Ho. apply shift_loop_iff; auto.
Qed.
Print Assumptions C28_exact_condition.

(* In particular for the expressions the code moves, whose accesses are all at one
   location: the value is the value v points further, in every iteration order. *)
Theorem C28_shift_partial :
  forall n e d v order, on_grid n e -> (d < n)%nat -> enumerates order e -> syms KObj e = [] -> one_location e ->
  exists e', increment_dataset d v order e = Ok e' /\
    forall V (J : interp V) M x, List.length x = n -> value J M x e' = value J M (move d v x) e.
Proof.
  intros n e d v order G Hd En Ho H1.
  destruct (C28_exact_condition n e d v order G Hd En Ho) as (e' & E & H). exists e'. split; auto.
  apply H. eapply one_location_no_collision; eauto.
Qed.
Print Assumptions C28_shift_partial.

(* Expressions with unplaced objects are rejected. *)
Theorem C28_rejects_unplaced :
  forall d v order e, syms KObj e <> [] -> increment_dataset d v order e = Err TypeErr.
Proof. intros d v order e H. unfold increment_dataset. destruct (syms KObj e); congruence. Qed.
Print Assumptions C28_rejects_unplaced.

(* The full claim fails for some expressions and iteration orders. *)
Theorem C28_shift_refuted :
  exists n e d v order e', on_grid n e /\ (d < n)%nat /\ enumerates order e /\ syms KObj e = [] /\
    increment_dataset d v order e = Ok e' /\
    exists (J : interp Z) M x, List.length x = n /\ value J M x e' <> value J M (move d v x) e.
Proof.
  exists 1%nat, (EApp HAdd [EDat "u" [0%Z]; EDat "u" [1%Z]]), 0%nat, 1%Z,
    [("u"%string, [0%Z]); ("u"%string, [1%Z])], (EApp HAdd [EDat "u" [2%Z]; EDat "u" [2%Z]]).
  split. { intros b ix [H | [H | []]]; injection H as <- <-; reflexivity. }
  split; [lia|]. split.
  { split; [|intros; cbn; tauto]. repeat constructor; cbn; intuition congruence. }
  split; [reflexivity|]. split; [reflexivity|].
  exists {| inum := fun _ => 0%Z; isym := fun _ _ => 0%Z; iapp := fun _ l => fold_right Z.add 0%Z l |},
    (fun _ l => nth 0 l 0%Z), [0%Z].
  split; [reflexivity|]. vm_compute. discriminate.
Qed.
Print Assumptions C28_shift_refuted.
Example C28_nonvacuous : let e := EApp HMul [EDat "rho" [0; 0]%Z; EDat "u" [0; 0]%Z] in
  on_grid 2 e /\ one_location e /\ enumerates [("u"%string, [0; 0]%Z); ("rho"%string, [0; 0]%Z)] e /\
  increment_dataset 1 3 [("u"%string, [0; 0]%Z); ("rho"%string, [0; 0]%Z)] e =
    Ok (EApp HMul [EDat "rho" [0; 3]%Z; EDat "u" [0; 3]%Z]).
Proof.
  cbn zeta. split. { intros b ix [H | [H | []]]; injection H as <- <-; reflexivity. }
  split. { intros b ix b' ix' [H | [H | []]] [H' | [H' | []]]; injection H as <- <-; injection H' as <- <-; reflexivity. }
  split; [split; [|intros; cbn; tauto]; repeat constructor; cbn; intuition congruence | reflexivity].
Qed.

(* C29.  The value of the discretised derivative of e is the difference formula
   applied to the values of e along the direction. *)
Theorem C29_formula_partial :
  forall n e d orders N m inv, on_grid n e -> (d < n)%nat -> dsets e <> [] -> one_location e ->
    (forall p, enumerates (orders p) e) ->
  exists r, discretise_derivative N m d orders inv e = Ok r /\
    forall J M x h, real_arithmetic J -> List.length x = n -> value J M x inv = (/ h ^ m)%R ->
      value J M x r = grid_formula N m h (fun i => value J M (move d i x) e) 0.
Proof.
  intros n e d orders N m inv G Hd Hne H1 En. apply discretise_value; auto.
  intros p _. eapply one_location_no_collision; eauto.
Qed.
Print Assumptions C29_formula_partial.

(* Consequently the derivative of an expression whose values along the direction are
   a polynomial of the coordinate, of degree at most the order of the scheme, is exact. *)
Theorem C29_exact_on_polynomials :
  forall n e d orders k m inv, on_grid n e -> (d < n)%nat -> dsets e <> [] -> one_location e ->
    (forall p, enumerates (orders p) e) ->
  exists r, discretise_derivative (2 * Z.of_nat k) m d orders inv e = Ok r /\
    forall J M x h p g x0, real_arithmetic J -> List.length x = n -> value J M x inv = (/ h ^ m)%R -> h <> 0%R ->
      (forall i, value J M (move d i x) e = peval p (x0 + IZR i * h)) ->
      degree_at_most p (2 * k) -> nth_derivative m (peval p) g ->
      value J M x r = g x0.
Proof.
  intros n e d orders k m inv G Hd Hne H1 En.
  destruct (C29_formula_partial n e d orders (2 * Z.of_nat k) m inv G Hd Hne H1 En) as (r & E & H).
  exists r. split; auto. intros J M x h p g x0 HJ Hx Hi Hh Hp Hdeg Hg. rewrite (H J M x h HJ Hx Hi).
  rewrite (grid_ext _ _ _ _ (fun j => peval p (x0 + IZR j * h))%R) by exact Hp.
  change (central_formula (2 * Z.of_nat k) m (peval p) x0 h = g x0).
  rewrite (nth_derivative_unique m (peval p) g (peval (pderivs m p)) Hg (pderivs_spec m p) x0).
  apply (formula_exact_upto k m (2 * k)); auto. intros i Hi'. apply moment. auto.
Qed.
Print Assumptions C29_exact_on_polynomials.

(* A derivative without array accesses is rejected. *)
Theorem C29_rejects_constants :
  forall N m d orders inv e, dsets e = [] -> discretise_derivative N m d orders inv e = Err ValueError.
Proof. intros N m d orders inv e H. unfold discretise_derivative. rewrite H. reflexivity. Qed.
Print Assumptions C29_rejects_constants.

(* The full claim fails when an array is accessed at two stencil points. *)
Theorem C29_formula_refuted :
  exists n e d orders r, on_grid n e /\ (d < n)%nat /\ (forall p, enumerates (orders p) e) /\
    discretise_derivative 2 1 d orders (ENum 1) e = Ok r /\
    exists J M x, real_arithmetic J /\ List.length x = n /\
      value J M x r <> grid_formula 2 1 1 (fun i => value J M (move d i x) e) 0.
Proof.
  exists 1%nat, (EApp HAdd [EDat "u" [0%Z]; EDat "u" [1%Z]]), 0%nat,
    (fun _ => [("u"%string, [0%Z]); ("u"%string, [1%Z])]).
  eexists.
  split. { intros b ix [H | [H | []]]; injection H as <- <-; reflexivity. }
  split; [lia|]. split.
  { intros _. split; [|intros; cbn; tauto]. repeat constructor; cbn; intuition congruence. }
  split; [vm_compute; reflexivity|].
  exists {| inum := Q2R; isym := fun _ _ => 0%R;
            iapp := fun h l => match h with HAdd => fold_right Rplus 0%R l | _ => fold_right Rmult 1%R l end |},
    (fun _ l => if Z.eqb (nth 0 l 0%Z) 2 then 1%R else 0%R), [0%Z].
  split; [split; [|split]; reflexivity|]. split; [reflexivity|].
  unfold grid_formula. change (combine (central_points 2) (generate_weights 2 1)) with
    [((-1)%Z, (-1 # 2)%Q); (0%Z, 0%Q); (1%Z, (1 # 2)%Q)].
  unfold value. cbn -[Q2R Rmult Rplus Rinv]. unfold Q2R. cbn. lra.
Qed.
Print Assumptions C29_formula_refuted.
Example C29_nonvacuous : let e := EApp HMul [EDat "rho" [0; 0]%Z; EDat "u" [0; 0]%Z] in
  exists r, discretise_derivative 4 1 1 (fun _ => dsets e) (ENum 8) e = Ok r /\ List.length (dsets r) = 10%nat.
Proof. eexists. split; vm_compute; reflexivity. Qed.
