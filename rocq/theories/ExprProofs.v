From Verif Require Import Base Expr.

Lemma dsets_app h args : dsets (EApp h args) = flat_map dsets args.
Proof. cbn. induction args as [|x l IH]; cbn; [easy|now rewrite IH]. Qed.

Lemma syms_app k h args : syms k (EApp h args) = flat_map (syms k) args.
Proof. cbn. induction args as [|x l IH]; cbn; [easy|now rewrite IH]. Qed.

Lemma eval_ext {V} (I : interp V) d1 d2 e :
  (forall b ix, In (b, ix) (dsets e) -> d1 b ix = d2 b ix) ->
  eval I d1 e = eval I d2 e.
Proof.
  induction e as [q|k n|b ix|h args IH] using expr_ind'; intros H; cbn; auto.
  - apply H; now left.
  - f_equal. rewrite dsets_app in H.
    induction args as [|x l IHl]; cbn; [easy|].
    inversion IH as [|? ? Hx Hl]; subst. f_equal.
    + apply Hx. intros b ix Hin. apply H. cbn. apply in_or_app; now left.
    + apply IHl; auto. intros b ix Hin. apply H. cbn. apply in_or_app; now right.
Qed.

Lemma eval_map_dsets {V} (I : interp V) dat f e :
  eval I dat (map_dsets f e) =
  eval I (fun b ix => let '(b', ix') := f (b, ix) in dat b' ix') e.
Proof.
  induction e as [q|k n|b ix|h args IH] using expr_ind'; cbn; auto.
  - now destruct (f (b, ix)).
  - f_equal. rewrite map_map. apply map_ext_in. intros x Hx.
    rewrite Forall_forall in IH. now apply IH.
Qed.

Lemma replace1_map_dsets old b' ix' e :
  replace1 old (EDat b' ix') e =
  map_dsets (fun d => if dset_eq_dec d old then (b', ix') else d) e.
Proof.
  induction e as [q|k n|b ix|h args IH] using expr_ind'; cbn [replace1 map_dsets]; auto.
  - now destruct (dset_eq_dec (b, ix) old).
  - f_equal. apply map_ext_in. intros x Hx. rewrite Forall_forall in IH. now apply IH.
Qed.

Lemma map_dsets_map_dsets f g e : map_dsets f (map_dsets g e) = map_dsets (fun d => f (g d)) e.
Proof.
  induction e as [q|k n|b ix|h args IH] using expr_ind'; cbn; auto.
  - destruct (g (b, ix)) as [b1 i1]. cbn. reflexivity.
  - f_equal. rewrite map_map. apply map_ext_in. intros x Hx. rewrite Forall_forall in IH. now apply IH.
Qed.

Lemma map_dsets_ext f g e :
  (forall d, In d (dsets e) -> f d = g d) -> map_dsets f e = map_dsets g e.
Proof.
  induction e as [q|k n|b ix|h args IH] using expr_ind'; intros H; cbn; auto.
  - rewrite (H (b, ix)); [easy|now left].
  - f_equal. apply map_ext_in. intros x Hx. rewrite Forall_forall in IH. apply IH; auto.
    intros d Hd. apply H. rewrite dsets_app. apply in_flat_map. eauto.
Qed.

Lemma map_dsets_id e : map_dsets (fun d => d) e = e.
Proof.
  induction e as [q|k n|b ix|h args IH] using expr_ind'; cbn; auto.
  f_equal. rewrite <- (map_id args) at 2. apply map_ext_in. intros x Hx.
  rewrite Forall_forall in IH. now apply IH.
Qed.

Lemma dsets_map_dsets f e : dsets (map_dsets f e) = map f (dsets e).
Proof.
  induction e as [q|k n|b ix|h args IH] using expr_ind'; auto.
  - cbn. now destruct (f (b, ix)).
  - cbn [map_dsets]. rewrite !dsets_app. rewrite flat_map_concat_map, map_map.
    rewrite flat_map_concat_map, concat_map, map_map. f_equal.
    apply map_ext_in. intros x Hx. rewrite Forall_forall in IH. now apply IH.
Qed.
