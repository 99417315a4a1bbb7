(* Reflections and projections; a standard interpretation for examples. *)
From Verif Require Import Base Expr ExprProofs KernelModel ShiftModel ShiftSpec BCModel BCSpec.
From Coq Require Import QArith ZArith Reals Qreals Lia Lra.
Local Close Scope Q_scope.
Open Scope R_scope.

Lemma vdot_comm : forall u v, vdot u v = vdot v u.
Proof. induction u as [|a u IH]; intros [|b v]; cbn; auto. rewrite IH. ring. Qed.
Lemma vsub_length : forall f v n, List.length v = List.length n -> List.length (vsub f v n) = List.length n.
Proof. intros f v n. revert v. induction n as [|b n IH]; intros [|a v] H; cbn in *; auto; try lia. Qed.
Lemma vdot_vsub : forall f v n w, List.length v = List.length n -> List.length w = List.length n ->
  vdot (vsub f v n) w = vdot v w - f * vdot n w.
Proof.
  intros f v n. revert v. induction n as [|b n IH]; intros [|a v] [|c w] H1 H2; cbn in *; try lia; try ring.
  rewrite IH by lia. ring.
Qed.
Lemma vsub_vsub : forall f g v n, vsub f (vsub g v n) n = vsub (g + f) v n.
Proof. intros f g v n. revert v. induction n as [|b n IH]; intros [|a v]; cbn; auto. rewrite IH. f_equal. ring. Qed.
Lemma vsub_0 : forall v n, List.length v = List.length n -> vsub 0 v n = v.
Proof. intros v n. revert v. induction n as [|b n IH]; intros [|a v] H; cbn in *; try lia; auto. rewrite IH by lia. f_equal. ring. Qed.
Lemma reflection_facts : forall n v, List.length v = List.length n -> norm2 n <> 0 ->
    vdot (reflected n v) n = - vdot v n /\
    (forall w, vdot w n = 0 -> List.length w = List.length n -> vdot (reflected n v) w = vdot v w) /\
    norm2 (reflected n v) = norm2 v /\
    reflected n (reflected n v) = v.
Proof.
  intros n v L N0. assert (D : vdot (reflected n v) n = - vdot v n).
  { unfold reflected. rewrite vdot_vsub by auto. fold (norm2 n). field. auto. }
  assert (Lr : List.length (reflected n v) = List.length n) by (apply vsub_length; auto).
  split; auto. split; [|split].
  - intros w W Lw. unfold reflected. rewrite vdot_vsub by auto. rewrite (vdot_comm n w), W. ring.
  - unfold norm2 at 1. unfold reflected at 1. rewrite vdot_vsub by auto. rewrite (vdot_comm n), D.
    rewrite (vdot_comm v). unfold reflected. rewrite vdot_vsub by auto. fold (norm2 v). rewrite (vdot_comm n v). field. auto.
  - unfold reflected at 1. rewrite D. unfold reflected. rewrite vsub_vsub.
    replace (_ + _) with 0 by (field; auto). apply vsub_0. auto.
Qed.
Lemma projection_facts : forall n v, List.length v = List.length n -> norm2 n <> 0 ->
    vdot (projected n v) n = 0 /\
    (forall w, vdot w n = 0 -> List.length w = List.length n -> vdot (projected n v) w = vdot v w).
Proof.
  intros n v L N0. split.
  - unfold projected. rewrite vdot_vsub by auto. fold (norm2 n). field. auto.
  - intros w W Lw. unfold projected. rewrite vdot_vsub by auto. rewrite (vdot_comm n w), W. ring.
Qed.

(* real arithmetic with the powers that occur *)
Definition stdJ : interp R := {|
  inum := Q2R;
  isym := fun _ _ => 1;
  iapp := fun h l => match h with
    | HAdd => fold_right Rplus 0 l
    | HMul => fold_right Rmult 1 l
    | HPow => match l with
              | [a; b] => if Req_EM_T b (Q2R 2) then a * a else if Req_EM_T b (Q2R (1 # 2)) then sqrt a else / a
              | _ => 0 end
    | _ => 0 end |}.
Lemma stdJ_reals : reals stdJ.
Proof.
  split; auto; intros; cbn.
  - destruct (Req_EM_T (Q2R (-1 # 1)) (Q2R 2)) as [E | _]; [apply eqR_Qeq in E; discriminate E|].
    destruct (Req_EM_T (Q2R (-1 # 1)) (Q2R (1 # 2))) as [E | _]; [apply eqR_Qeq in E; discriminate E|]. reflexivity.
  - destruct (Req_EM_T (Q2R 2) (Q2R 2)); congruence.
  - destruct (Req_EM_T (Q2R (1 # 2)) (Q2R 2)) as [E | _]; [apply eqR_Qeq in E; discriminate E|].
    destruct (Req_EM_T (Q2R (1 # 2)) (Q2R (1 # 2))); congruence.
Qed.
Definition std_order (e : expr) : list dset := nodup dset_eq_dec (dsets e).
Lemma std_order_good : good_order std_order.
Proof. intros e. split; [apply NoDup_nodup | intros x; apply nodup_In]. Qed.
