(* Proofs about the time-advancement kernels. *)
From Coq Require Import Reals List String Bool Lra Lia Permutation.
From Verif Require Import Base BaseProofs AdvModel AdvSpec.
Open Scope R_scope.
Local Open Scope list_scope.

Lemma NoDup_app_remove_r : forall (A : Type) (l l' : list A), NoDup (l ++ l') -> NoDup l.
Proof.
  induction l as [|a l IH]; intros l' H; [constructor|]. cbn in H. inversion H as [|? ? N1 N2]; subst.
  constructor; [rewrite in_app_iff in N1; tauto | eauto].
Qed.
Lemma NoDup_app_remove_l : forall (A : Type) (l l' : list A), NoDup (l ++ l') -> NoDup l'.
Proof. induction l; intros l' H; [exact H|]. cbn in H. inversion H; auto. Qed.
Section proofs.
  Variable P : Type.
  Variable inside : P -> bool.
  Notation run := (run P inside).

  Lemma run_app : forall l1 l2 m, run (l1 ++ l2) m = run l2 (run l1 m).
  Proof. intros. unfold AdvModel.run. apply fold_left_app. Qed.
  Lemma run_frame : forall l m v p, ~ In v (map fst l) -> run l m v p = m v p.
  Proof.
    induction l as [|s l IH]; intros m v p H; [reflexivity|]. cbn in H.
    cbn [AdvModel.run fold_left]. change (run l (run_stmt P inside m s) v p = m v p).
    rewrite IH by tauto. unfold run_stmt. destruct (String.eqb_spec v (fst s)); [subst; tauto | reflexivity].
  Qed.
  Lemma run_outside : forall l m v p, inside p = false -> run l m v p = m v p.
  Proof.
    induction l as [|s l IH]; intros m v p H; [reflexivity|].
    cbn [AdvModel.run fold_left]. change (run l (run_stmt P inside m s) v p = m v p).
    rewrite IH by auto. unfold run_stmt. rewrite H. destruct (String.eqb v (fst s)); reflexivity.
  Qed.
  Lemma run_cons : forall s l m, run (s :: l) m = run l (run_stmt P inside m s).
  Proof. reflexivity. Qed.
  Lemma run_hit : forall m v r p, inside p = true -> run_stmt P inside m (v, r) v p = value P m r p.
  Proof. intros. unfold run_stmt. cbn [fst snd]. rewrite String.eqb_refl, H. reflexivity. Qed.
  Lemma run_miss : forall m v w r p, w <> v -> run_stmt P inside m (v, r) w p = m w p.
  Proof. intros. unfold run_stmt. cbn [fst]. destruct (String.eqb_spec w v); [contradiction | reflexivity]. Qed.

  Definition triples (reg : string -> string) (eqs : list equation) :=
    zip3 (map reg (td_fns eqs)) (td_fns eqs) (residuals eqs).
  Lemma triples_ones : forall reg eqs, one_derivative_each eqs ->
    triples reg eqs = flat_map (fun e => map (fun v => (reg v, v, eq_residual e)) (eq_advanced e)) eqs.
  Proof.
    intros reg eqs. induction eqs as [|e eqs IH]; intros H; [reflexivity|].
    destruct (H e (or_introl eq_refl)) as [v Hv]. unfold triples, td_fns, residuals in *.
    cbn [flat_map map]. rewrite Hv. cbn [app map zip3]. f_equal. apply IH.
    intros e' He'. apply H. right. auto.
  Qed.
  Lemma in_triples : forall reg eqs, one_derivative_each eqs ->
    forall e v, In e eqs -> advances e v -> In (reg v, v, eq_residual e) (triples reg eqs).
  Proof.
    intros reg eqs H e v He Hv. rewrite triples_ones by auto. apply in_flat_map. exists e. split; [auto|].
    rewrite Hv. left. reflexivity.
  Qed.

  (* the property of the list of triples that makes the kernels right *)
  Definition good (l : list (string * string * string)) : Prop :=
    NoDup (map (fun z => snd (fst z)) l ++ map (fun z => fst (fst z)) l ++ map snd l).
  Lemma good_triples : forall reg eqs, one_derivative_each eqs -> distinct_arrays reg eqs -> good (triples reg eqs).
  Proof.
    intros reg eqs H D. unfold good, distinct_arrays in *. rewrite triples_ones by auto.
    replace (map (fun z => snd (fst z)) _) with (flat_map eq_advanced eqs).
    replace (map (fun z => fst (fst z)) _) with (map reg (flat_map eq_advanced eqs)).
    replace (map snd _) with (map eq_residual eqs); [exact D|].
    - clear D. induction eqs as [|e eqs IH]; [reflexivity|]. cbn. destruct (H e (or_introl eq_refl)) as [v Hv].
      rewrite Hv. cbn. f_equal. apply IH. intros x Hx. apply H. right. auto.
    - clear D. induction eqs as [|e eqs IH]; [reflexivity|]. cbn. destruct (H e (or_introl eq_refl)) as [v Hv].
      rewrite Hv. cbn. f_equal. apply IH. intros x Hx. apply H. right. auto.
    - clear D. induction eqs as [|e eqs IH]; [reflexivity|]. cbn. destruct (H e (or_introl eq_refl)) as [v Hv].
      rewrite Hv. cbn. f_equal. apply IH. intros x Hx. apply H. right. auto.
  Qed.
  Lemma good_cons : forall a b c l, good ((a, b, c) :: l) ->
    good l /\ a <> b /\ c <> b /\ c <> a /\
    (forall z, In z l -> a <> fst (fst z) /\ a <> snd (fst z) /\ a <> snd z /\
                         b <> fst (fst z) /\ b <> snd (fst z) /\ b <> snd z /\
                         c <> fst (fst z) /\ c <> snd (fst z)).
  Proof.
    intros a b c l H. unfold good in H. cbn [map fst snd] in H.
    set (X := map (fun z => snd (fst z)) l) in *. set (Y := map (fun z => fst (fst z)) l) in *.
    set (Z := map snd l) in *.
    assert (H' : NoDup (b :: a :: c :: X ++ Y ++ Z)).
    { apply (Permutation_NoDup (l := b :: X ++ (a :: Y) ++ c :: Z)); [|exact H].
      constructor.
      transitivity (X ++ a :: c :: Y ++ Z).
      - apply Permutation_app_head. cbn. constructor.
        symmetry. apply Permutation_middle.
      - transitivity (a :: X ++ c :: Y ++ Z); [symmetry; apply Permutation_middle|].
        constructor. symmetry. apply Permutation_middle. }
    inversion H' as [|? ? N1 H1]; subst. inversion H1 as [|? ? N2 H2]; subst. inversion H2 as [|? ? N3 H3]; subst.
    split; [exact H3|]. split; [intros ->; apply N1; left; auto|].
    split; [intros ->; apply N1; right; left; auto|]. split; [intros ->; apply N2; left; auto|].
    intros z Hz.
    assert (I1 : In (snd (fst z)) X) by (unfold X; apply in_map_iff; eauto).
    assert (I2 : In (fst (fst z)) Y) by (unfold Y; apply in_map_iff; eauto).
    assert (I3 : In (snd z) Z) by (unfold Z; apply in_map_iff; eauto).
    cbn [In] in *. rewrite !in_app_iff in *.
    assert (forall x y : string, x <> y \/ x = y) as dec' by (intros x y; destruct (String.eqb_spec x y); auto).
    repeat split; intro E; rewrite ?E in *; tauto.
  Qed.

  Lemma ls_triples : forall dt a b l, good l -> forall m z p, In z l -> inside p = true ->
    let '(tmp, new, res) := z in
    let m' := run (flat_map (fun z => let '(tmp, new, res) := z in
                     [(tmp, Comb a tmp dt res); (new, Axpy new b tmp)]) l) m in
    m' tmp p = a * m tmp p + dt * m res p /\ m' new p = m new p + b * (a * m tmp p + dt * m res p).
  Proof.
    intros dt a b l. induction l as [|[[t n] r] l IH]; intros G m [[tmp new] res] p Hin Hp; [destruct Hin|].
    destruct (good_cons _ _ _ _ G) as (G' & D1 & D2 & D3 & D). cbn [flat_map app]. rewrite !run_cons.
    destruct Hin as [E | Hin].
    - injection E as -> -> ->.
      set (l' := flat_map _ l).
      assert (F1 : ~ In tmp (map fst l') /\ ~ In new (map fst l')).
      { assert (F : forall v, In v (map fst l') -> exists z, In z l /\ (v = fst (fst z) \/ v = snd (fst z))).
        { intros v Hv. apply in_map_iff in Hv. destruct Hv as [[v' rr] [E Hv]]. cbn in E. subst v'.
          unfold l' in Hv. apply in_flat_map in Hv. destruct Hv as [[[x y] w] [Hz Hv]].
          exists (x, y, w). split; [auto|]. cbn. destruct Hv as [E | [E | []]]; injection E as <- <-; auto. }
        split; intro Hv; apply F in Hv; destruct Hv as [z [Hz [E | E]]]; specialize (D z Hz); tauto. }
      rewrite !run_frame by tauto. split.
      + rewrite run_miss by auto. rewrite run_hit by auto. reflexivity.
      + rewrite run_hit by auto. cbn [value].
        rewrite (run_miss m tmp new) by auto. rewrite (run_hit m tmp) by auto. reflexivity.
    - specialize (D _ Hin) as (E1 & E2 & E3 & E4 & E5 & E6 & E7 & E8). cbn [fst snd] in *.
      match goal with |- context [run _ ?mm] => specialize (IH G' mm (tmp, new, res) p Hin Hp) end.
      cbn beta iota zeta in IH.
      rewrite !(run_miss _ n _), !(run_miss _ t _) in IH by congruence. exact IH.
  Qed.

  Lemma ls_writes : forall dt a b l v,
    (forall z, In z l -> v <> fst (fst z) /\ v <> snd (fst z)) ->
    ~ In v (map fst (flat_map (fun z : string * string * string => let '(tmp, new, res) := z in
                     [(tmp, Comb a tmp dt res); (new, Axpy new b tmp)]) l)).
  Proof.
    intros dt a b l v H Hv. apply in_map_iff in Hv. destruct Hv as [[v' rr] [E Hv]]. cbn in E. subst v'.
    apply in_flat_map in Hv. destruct Hv as [[[x y] w] [Hz Hv]]. specialize (H _ Hz). cbn in H.
    destruct Hv as [E | [E | []]]; injection E as -> _; tauto.
  Qed.

  (* maps of assignments whose sources are not written by the map *)
  Lemma run_map : forall {Z} (tgt : Z -> string) (rh : Z -> rhs) (l : list Z) m z p,
    NoDup (map tgt l) -> In z l -> inside p = true ->
    (forall (m' : memory P), (forall x, ~ In x (map tgt l) \/ x = tgt z -> m' x p = m x p) ->
        value P m' (rh z) p = value P m (rh z) p) ->
    run (map (fun z => (tgt z, rh z)) l) m (tgt z) p = value P m (rh z) p.
  Proof.
    intros Z tgt rh l. induction l as [|y l IH]; intros m z p ND Hin Hp Hv; [destruct Hin|].
    cbn [map]. rewrite run_cons. cbn in ND. inversion ND as [|? ? N1 N2]; subst.
    destruct Hin as [-> | Hin].
    - rewrite run_frame.
      + apply run_hit; auto.
      + rewrite map_map. cbn. exact N1.
    - assert (Ne : tgt z <> tgt y) by (intro E; apply N1; rewrite <- E; apply in_map; auto).
      assert (St : forall x, x <> tgt y -> run_stmt P inside m (tgt y, rh y) x p = m x p)
        by (intros; apply run_miss; auto).
      rewrite IH; auto.
      + apply Hv. intros x Hx. apply St. intro E. subst x. destruct Hx as [Hx | Hx]; [apply Hx; left; auto | auto].
      + intros m' Hm'. rewrite Hv.
        * symmetry. apply Hv. intros x Hx. apply St. intro E. subst x.
          destruct Hx as [Hx | Hx]; [apply Hx; left; auto | auto].
        * intros x Hx. rewrite Hm'.
          -- apply St. intro E. subst x. destruct Hx as [Hx | Hx]; [apply Hx; left; auto | auto].
          -- cbn in Hx. destruct Hx as [Hx | Hx]; [left; tauto | right; auto].
  Qed.
End proofs.
