(* Substituting derivatives in an equation. *)
From Verif Require Import Base MetModel MetSpec MetCalc MetProofs.
From Coq Require Import Reals Lra.
Open Scope R_scope.

Lemma coord_eqb_spec : forall a b, coord_eqb a b = true <-> a = b.
Proof. intros [i | i] [j | j]; cbn [coord_eqb]; split; intros H; try discriminate; try (apply Nat.eqb_eq in H; congruence); inversion H; apply Nat.eqb_refl. Qed.
Lemma term_eqb_spec : forall a b, term_eqb a b = true <-> a = b.
Proof.
  assert (T : forall x y : bool, x && y = true <-> x = true /\ y = true) by (intros [] []; cbn; intuition congruence).
  induction a; intros []; cbn [term_eqb]; try (split; intros; discriminate).
  - rewrite Z.eqb_eq. split; congruence.
  - rewrite String.eqb_eq. split; congruence.
  - rewrite Nat.eqb_eq. split; congruence.
  - rewrite T, !Nat.eqb_eq. split; [intros [-> ->]; auto | intros E; inversion E; auto].
  - rewrite !T, !Nat.eqb_eq. split; [intros [[-> ->] ->]; auto | intros E; inversion E; auto].
  - split; auto.
  - rewrite T, IHa1, IHa2. split; [intros [-> ->]; auto | intros E; inversion E; auto].
  - rewrite T, IHa1, IHa2. split; [intros [-> ->]; auto | intros E; inversion E; auto].
  - rewrite T, IHa1, IHa2. split; [intros [-> ->]; auto | intros E; inversion E; auto].
  - rewrite IHa. split; congruence.
  - rewrite T, String.eqb_eq, IHa. split; [intros [-> ->]; auto | intros E; inversion E; auto].
  - rewrite T, IHa.
    assert (L : forall l m, (fix eqs (l m : list coord) := match l, m with [], [] => true | c :: l, d :: m => coord_eqb c d && eqs l m | _, _ => false end) l m = true <-> l = m).
    { induction l; destruct m; split; intros H; try discriminate; auto.
      - apply T in H. destruct H as [H1 H2]. apply coord_eqb_spec in H1. apply IHl in H2. congruence.
      - inversion H; subst. apply T. split; [apply coord_eqb_spec; auto | apply IHl; auto]. }
    rewrite L. split; [intros [-> ->]; auto | intros E; inversion E; auto].
Qed.

(* derivatives and time derivatives are not nested and there are no other functions *)
Fixpoint flat (e : term) : Prop :=
  match e with
  | TAdd a b | TMul a b | TDiv a b => flat a /\ flat b
  | TTime a | TCD a _ => plain a
  | TFun _ _ => False
  | _ => True
  end.
Definition is_function (f : term) : Prop := match f with TTime _ | TCD _ _ => True | _ => False end.
Lemma plain_functions : forall e, plain e -> functions e = [].
Proof. induction e; cbn [plain functions]; intros H; auto; try contradiction; destruct H; rewrite IHe1, IHe2; auto. Qed.
Lemma plain_no_physical : forall e, plain e -> no_physical e.
Proof. induction e; cbn [plain no_physical]; intros H; auto; try contradiction; destruct H; auto. Qed.
Lemma plain_subst : forall f t e, is_function f -> plain e -> subst f t e = e.
Proof.
  intros f t e Hf. induction e; intros H; cbn [plain] in H; try contradiction; cbn [subst];
  (match goal with |- (if term_eqb ?a f then _ else _) = _ => destruct (term_eqb a f) eqn:E end; [apply term_eqb_spec in E; rewrite <- E in Hf; contradiction|]); auto;
  destruct H; rewrite IHe1, IHe2; auto.
Qed.
Lemma subst_eval : forall w p f t, is_function f -> eval w t p = eval w f p -> forall e, flat e -> eval w (subst f t e) p = eval w e p.
Proof.
  intros w p f t Hf Ht. induction e; intros H; cbn [flat] in H; try contradiction; cbn [subst];
  (match goal with |- context [if term_eqb ?a f then _ else _] => destruct (term_eqb a f) eqn:E end; [apply term_eqb_spec in E; rewrite E; auto|]); auto;
  try (destruct H; cbn [eval]; rewrite IHe1, IHe2; auto; fail); rewrite plain_subst; auto.
Qed.
Lemma subst_flat : forall f t e, is_function f -> flat t -> flat e -> flat (subst f t e).
Proof.
  intros f t e Hf Ht. induction e; intros H; cbn [flat] in H; try contradiction; cbn [subst];
  (match goal with |- context [if term_eqb ?a f then _ else _] => destruct (term_eqb a f) end; [auto|]); auto;
  try (destruct H; cbn [flat]; auto; fail); cbn [flat]; rewrite plain_subst; auto.
Qed.
Lemma subst_functions : forall f t e g, is_function f -> flat e -> In g (functions (subst f t e)) -> (In g (functions e) /\ g <> f) \/ In g (functions t).
Proof.
  intros f t e g Hf.
  assert (Ne : forall a, term_eqb a f = false -> a <> f) by (intros a E' ->; rewrite (proj2 (term_eqb_spec f f) eq_refl) in E'; discriminate).
  assert (Leaf : forall a, (term_eqb a f = true \/ functions a = []) -> In g (functions (if term_eqb a f then t else a)) -> (In g (functions a) /\ g <> f) \/ In g (functions t)).
  { intros a Ha I. destruct (term_eqb a f); auto. destruct Ha as [Ha | Ha]; [discriminate|]. rewrite Ha in I. contradiction. }
  assert (Node : forall a b, (In g (functions (subst f t a)) -> (In g (functions a) /\ g <> f) \/ In g (functions t)) ->
    (In g (functions (subst f t b)) -> (In g (functions b) /\ g <> f) \/ In g (functions t)) ->
    In g (functions (subst f t a) ++ functions (subst f t b)) -> (In g (functions a ++ functions b) /\ g <> f) \/ In g (functions t)).
  { intros a b Ha Hb I. apply in_app_or in I. destruct I as [I | I]; [destruct (Ha I) as [[? ?] | ?] | destruct (Hb I) as [[? ?] | ?]]; auto; left; split; auto; apply in_or_app; auto. }
  induction e; intros H I; cbn [flat] in H; try contradiction; cbn [subst] in I; try (apply Leaf; auto; fail).
  - destruct (term_eqb (TAdd e1 e2) f); [auto|]. destruct H. apply Node; auto.
  - destruct (term_eqb (TMul e1 e2) f); [auto|]. destruct H. apply Node; auto.
  - destruct (term_eqb (TDiv e1 e2) f); [auto|]. destruct H. apply Node; auto.
  - destruct (term_eqb (TTime e) f) eqn:E; [auto|]. rewrite plain_subst in I by auto. cbn [functions] in *. rewrite plain_functions in * by auto. destruct I as [<- | []]. left. split; [left; auto | auto].
  - destruct (term_eqb (TCD e ds) f) eqn:E; [auto|]. rewrite plain_subst in I by auto. cbn [functions] in *. rewrite plain_functions in * by auto. destruct I as [<- | []]. left. split; [left; auto | auto].
Qed.
Lemma functions_no_physical : forall e g, no_physical e -> flat e -> In g (functions e) -> no_physical g.
Proof.
  induction e; intros g N F I; cbn [no_physical flat functions] in *; try contradiction; try (apply in_app_or in I; destruct N, F, I; auto; fail);
  (destruct I as [<- | I]; [cbn [no_physical]; auto | rewrite plain_functions in I by auto; contradiction]).
Qed.
Lemma no_physical_functions : forall e, flat e -> (forall g, In g (functions e) -> no_physical g) -> no_physical e.
Proof.
  induction e; intros F H; cbn [no_physical flat functions] in *; auto; try contradiction;
  try (destruct F; split; [apply IHe1 | apply IHe2]; auto; intros; apply H; apply in_or_app; auto; fail).
  - apply (H (TTime e)). left. auto.
  - apply (H (TCD e ds)). left. auto.
Qed.
Lemma flat_tsum : forall n f, (forall k, flat (f k)) -> flat (tsum n f).
Proof. intros n f H. unfold tsum. induction (seq 0 n); cbn [fold_right flat]; auto. Qed.
Lemma flat_entry : forall params i j, flat (entry params i j).
Proof. intros params i j. destruct (entry_cases params i j) as [(-> & _) | [(-> & _) | (-> & _)]]; cbn; auto. Qed.
Lemma flat_first : forall n params d e, plain e -> flat (first n params d e).
Proof. intros. unfold first. apply flat_tsum. intros k. cbn [flat]. split; [apply flat_entry | auto]. Qed.
Lemma flat_second : forall n params i j e, plain e -> flat (second n params i j e).
Proof.
  intros. unfold second. apply flat_tsum. intros l. cbn [flat]. split; [apply flat_entry|]. apply flat_tsum. intros k. cbn [flat].
  split; split; auto; [unfold sd_entry; destruct (kept _ _ _ _); cbn; auto | apply flat_entry].
Qed.
Lemma smooth_flat : forall n U X w e, smooth_equation n U X w e -> flat e.
Proof.
  induction e; cbn [smooth_equation flat]; intros H; auto; try (destruct H; auto; fail).
  destruct ds as [|[d | d] [|[d' | d'] [|]]]; try contradiction; destruct H; auto.
Qed.

(* every function can be replaced by a term with the same value and no physical derivative *)
Definition replaceable (n : nat) (params : list (bool * bool)) (w : world) (p : point) (f : term) : Prop :=
  is_function f /\ exists t, transform n params f = Ok t /\ eval w t p = eval w f p /\ flat t /\ no_physical t.
Lemma apply_value : forall n params w p fns e, (forall f, In f fns -> replaceable n params w p f) -> flat e ->
  (forall g, In g (functions e) -> In g fns \/ no_physical g) ->
  exists e', apply_transformation n params fns e = Ok e' /\ no_physical e' /\ eval w e' p = eval w e p.
Proof.
  intros n params w p. induction fns as [|f fns IH]; intros e Hr Hf Hi; cbn [apply_transformation].
  - exists e. split; auto. split; auto. apply no_physical_functions; auto. intros g I. destruct (Hi g I) as [[] | ?]; auto.
  - destruct (Hr f (or_introl eq_refl)) as (Isf & t & Et & Ev & Ft & Nt). rewrite Et. cbn [bind].
    destruct (IH (subst f t e)) as (e' & E & N & V).
    + intros f' I. apply Hr. right. auto.
    + apply subst_flat; auto.
    + intros g I. destruct (subst_functions f t e g Isf Hf I) as [[I' Ng] | I'].
      * destruct (Hi g I') as [[-> | ?] | ?]; auto; contradiction.
      * right. eapply functions_no_physical; eauto.
    + exists e'. split; auto. split; auto. rewrite V. apply subst_eval; auto.
Qed.
