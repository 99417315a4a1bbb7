(* C40 and C41: Einstein notation expands to exactly the components, and their names. *)
From Coq Require Import Permutation.
From Verif Require Import Base BaseProofs AlgProofs EinModel EinSpec EinProofs.
Local Open Scope list_scope.

Lemma expand_cases : forall listed n lhs rhs eqs, expand_equation listed n lhs rhs = Ok eqs ->
  exists l li r ri, structure (normalise lhs) = Ok (l, li) /\ structure (normalise rhs) = Ok (r, ri) /\ same_set li ri = true /\
    let eq := (expand_summations n l, expand_summations n r) in
    (li = [] /\ eqs = [eq] \/ eqs = expand_free_indices (listed li) n eq).
Proof.
  intros listed n lhs rhs eqs H. unfold expand_equation in H. apply bind_ok in H. destruct H as ([l li] & E1 & H). apply bind_ok in H.
  destruct H as ([r ri] & E2 & H). exists l, li, r, ri. split; auto. split; auto. cbn [fst snd] in H. cbv zeta in H |- *.
  destruct li as [|x li].
  - destruct ri as [|y ri].
    + injection H as <-. split; auto.
    + destruct (same_set [] (y :: ri)) eqn:S; discriminate.
  - destruct (same_set (x :: li) ri) eqn:S; [|discriminate]. injection H as <-. split; auto.
Qed.

(* C40, for equations whose products have no two factors with the same base (see the
   refutation below).  The result has n^r equations, r the number of free indices; the
   equation at the position of an assignment has no index left and both its sides have the
   value of the sides of the given equation under the summation convention. *)
Theorem C40_expansion_partial :
  forall listed n lhs rhs eqs,
    (forall l, Permutation (listed l) l) ->
    plain lhs = true -> plain rhs = true -> distinct_factors lhs -> distinct_factors rhs ->
    expand_equation listed n lhs rhs = Ok eqs ->
    exists fs, NoDup fs /\ (forall i, In i fs <-> free i lhs = true) /\ (forall i, free i lhs = free i rhs) /\
      List.length eqs = (n ^ List.length fs)%nat /\
      forall a, List.length a = List.length fs -> Forall (fun d => d < n)%nat a ->
        exists l r, nth_error eqs (position n a) = Some (l, r) /\ expanded l = true /\ expanded r = true /\
          forall V r0, lawful V ->
            value V r0 l = meaning V n (set_indices r0 fs a) lhs /\ value V r0 r = meaning V n (set_indices r0 fs a) rhs.
Proof.
  intros listed n lhs rhs eqs HP P1 P2 D1 D2 H. apply expand_cases in H. destruct H as (l & li & r & ri & E1 & E2 & S & H).
  rewrite normalise_id in E1, E2 by auto.
  set (V0 := {| D := unit; zero := tt; plus := fun _ _ => tt; number := fun _ => tt; times := fun _ => tt; power := fun _ _ => tt;
               func := fun _ _ => tt; oper := fun _ _ => tt; component := fun _ _ => tt |}).
  assert (L0 : lawful V0) by (repeat split; intros; try destruct a; reflexivity).
  destruct (structure_good V0 n L0 _ _ _ E1) as ((N1 & F1) & _ & _ & X1).
  destruct (structure_good V0 n L0 _ _ _ E2) as ((N2 & F2) & _ & _ & X2). rewrite same_set_spec in S.
  assert (HN : NoDup (listed li)) by (eapply Permutation_NoDup; [apply Permutation_sym, HP|auto]).
  assert (HI : forall i, In i (listed li) <-> In i li) by (intros i; split; apply Permutation_in; [|apply Permutation_sym]; apply HP).
  assert (FF : forall i, free i lhs = free i rhs).
  { intros i. specialize (S i). rewrite F1, F2 in S. destruct (free i lhs), (free i rhs); auto; destruct S; intuition congruence. }
  exists (listed li). split; [auto|]. split; [intros i; rewrite HI; apply F1|]. split; [auto|].
  assert (M : forall V r0 a, lawful V -> List.length a = List.length (listed li) ->
     (value V r0 (apply_indices (combine (listed li) a) (expand_summations n l)) = meaning V n (set_indices r0 (listed li) a) lhs) /\
     (value V r0 (apply_indices (combine (listed li) a) (expand_summations n r)) = meaning V n (set_indices r0 (listed li) a) rhs)).
  { intros V r0 a L La. rewrite !value_indices. destruct (structure_good V n L _ _ _ E1) as (_ & _ & M1 & _).
    destruct (structure_good V n L _ _ _ E2) as (_ & _ & M2 & _). rewrite M1, M2. auto. }
  assert (K : forall a, List.length a = List.length (listed li) ->
     expanded (apply_indices (combine (listed li) a) (expand_summations n l)) = true /\
     expanded (apply_indices (combine (listed li) a) (expand_summations n r)) = true).
  { intros a La. split; apply expanded_closed; try (apply sumfree_indices, sumfree_expand); intros i I; apply names_indices in I; auto;
      destruct I as (I & J); apply J, HI; [apply X1; auto|apply S, X2; auto]. }
  cbv zeta in H. destruct H as [(-> & ->) | ->].
  - assert (EL : listed [] = []) by (apply Permutation_nil, Permutation_sym, HP). rewrite EL in *. split; auto.
    intros [|d a] La Fa; [|discriminate]. exists (expand_summations n l), (expand_summations n r). split; auto.
    destruct (K [] eq_refl). split; [auto|]. split; [auto|]. intros V r0 L. apply (M V r0 [] L). auto.
  - unfold expand_free_indices. split; [rewrite map_length; apply ndindex_length|]. intros a La Fa. do 2 eexists. split.
    + erewrite map_nth_error; [reflexivity|]. rewrite <- La. apply ndindex_position; auto.
    + cbn [fst snd]. destruct (K a La). split; [auto|]. split; [auto|]. intros V r0 L. apply M; auto.
Qed.
Print Assumptions C40_expansion_partial.

(* Which equations are accepted: those whose sums are consistent and whose two sides have
   the same free indices. *)
Theorem C40_accepted_partial :
  forall listed n lhs rhs,
    plain lhs = true -> plain rhs = true -> distinct_factors lhs -> distinct_factors rhs ->
    ((exists eqs, expand_equation listed n lhs rhs = Ok eqs) <->
     consistent lhs /\ consistent rhs /\ forall i, free i lhs = free i rhs).
Proof.
  intros listed n lhs rhs P1 P2 D1 D2.
  set (V0 := {| D := unit; zero := tt; plus := fun _ _ => tt; number := fun _ => tt; times := fun _ => tt; power := fun _ _ => tt;
               func := fun _ _ => tt; oper := fun _ _ => tt; component := fun _ _ => tt |}).
  assert (L0 : lawful V0) by (repeat split; intros; try destruct a; reflexivity).
  split.
  - intros (eqs & H). apply expand_cases in H. destruct H as (l & li & r & ri & E1 & E2 & S & _). rewrite normalise_id in E1, E2 by auto.
    destruct (structure_good V0 n L0 _ _ _ E1) as ((N1 & F1) & C1 & _). destruct (structure_good V0 n L0 _ _ _ E2) as ((N2 & F2) & C2 & _).
    split; [auto|]. split; [auto|]. rewrite same_set_spec in S. intros i. specialize (S i). rewrite F1, F2 in S.
    destruct (free i lhs), (free i rhs); auto; destruct S; intuition congruence.
  - intros (C1 & C2 & F). destruct (structure_works lhs P1 C1) as (l & li & E1). destruct (structure_works rhs P2 C2) as (r & ri & E2).
    destruct (structure_good V0 n L0 _ _ _ E1) as ((N1 & F1) & _). destruct (structure_good V0 n L0 _ _ _ E2) as ((N2 & F2) & _).
    assert (S : same_set li ri = true) by (apply same_set_spec; intros i; rewrite F1, F2, F; tauto).
    unfold expand_equation. rewrite !normalise_id by auto. rewrite E1, E2. cbn [bind fst snd].
    destruct li; [destruct ri|]; eauto; rewrite S; eauto.
Qed.
Print Assumptions C40_accepted_partial.

(* a lawful reading, for the examples: integers, with u_i = i + 1 *)
Definition integers : values :=
  {| D := Z; zero := 0%Z; plus := Z.add; number := fun z => z; times := fold_right Z.mul 1%Z; power := Z.pow;
     func := fun _ l => fold_right Z.add 0%Z l; oper := fun _ l => fold_right Z.add 0%Z l;
     component := fun _ a => (Z.of_nat (fold_right Nat.add 0 a)%nat + 1)%Z |}.
Lemma integers_lawful : lawful integers.
Proof. unfold lawful; cbn. repeat split; intros; lia. Qed.

(* Two equal factors with a repeated index: the product u_j u_j becomes the power u_j^2 and
   is not summed.  The equation k = u_j u_j is rejected, and k_j = u_j u_j, which has no meaning
   in the convention, is accepted. *)
Definition uj : ex := Tm "u" [Sym "j"].
Theorem C40_expansion_refuted :
  exists lhs rhs, plain lhs = true /\ plain rhs = true /\ consistent lhs /\ consistent rhs /\ (forall i, free i lhs = free i rhs) /\
    expand_equation (fun l => l) 3 lhs rhs = Err ValueError.
Proof.
  exists (Tm "k" []), (Mul [uj; uj]). repeat split; auto. intros i. unfold uj. cbn -[String.eqb]. destruct (String.eqb "j" i); auto.
Qed.
Print Assumptions C40_expansion_refuted.
Theorem C40_square_accepted_refuted :
  exists lhs rhs, (exists i, free i lhs <> free i rhs) /\ exists eqs, expand_equation (fun l => l) 3 lhs rhs = Ok eqs.
Proof.
  exists (Tm "k" [Sym "j"]), (Mul [uj; uj]). split.
  - exists "j"%string. cbn. discriminate.
  - eexists. reflexivity.
Qed.
Print Assumptions C40_square_accepted_refuted.
(* With two free indices the order of the equations depends on the order in which Python lists a
   set. *)
Theorem C40_order_refuted :
  exists l1 l2 eqs1 eqs2, (forall l, Permutation (l1 l) l) /\ (forall l, Permutation (l2 l) l) /\
    expand_equation l1 2 (Tm "a" [Sym "i"; Sym "j"]) (Tm "b" [Sym "i"; Sym "j"]) = Ok eqs1 /\
    expand_equation l2 2 (Tm "a" [Sym "i"; Sym "j"]) (Tm "b" [Sym "i"; Sym "j"]) = Ok eqs2 /\ eqs1 <> eqs2.
Proof.
  exists (fun l => l), (@rev string). do 2 eexists. split; [auto|]. split; [intros; apply Permutation_sym, Permutation_rev|].
  split; [reflexivity|]. split; [reflexivity|]. discriminate.
Qed.
Print Assumptions C40_order_refuted.
(* the momentum equation of an incompressible flow: D(u_i, t) = - D(u_i u_j, x_j) - D(p, x_i) + D(tau_i_j, x_j) *)
Definition mom_lhs : ex := Op "CD" [Tm "u" [Sym "i"]; Tm "t" []].
Definition mom_rhs : ex :=
  Add [Mul [Num (-1); Op "CD" [Mul [Tm "u" [Sym "i"]; Tm "u" [Sym "j"]]; Tm "x" [Sym "j"]]];
       Mul [Num (-1); Op "CD" [Tm "p" []; Tm "x" [Sym "i"]]];
       Op "CD" [Tm "tau" [Sym "i"; Sym "j"]; Tm "x" [Sym "j"]]].
Example C40_nonvacuous :
  plain mom_lhs = true /\ plain mom_rhs = true /\ distinct_factors mom_lhs /\ distinct_factors mom_rhs /\
  consistent mom_lhs /\ consistent mom_rhs /\ (forall i, free i mom_lhs = free i mom_rhs) /\
  (exists eqs, expand_equation (fun l => l) 3 mom_lhs mom_rhs = Ok eqs /\ List.length eqs = 3%nat) /\ lawful integers.
Proof.
  assert (ND : forall a b : ex, ex_eqb a b = false -> a <> b).
  { intros a b E X. subst b. assert (R : forall e, ex_eqb e e = true).
    { clear. assert (RI : forall l, list_eqb ix_eqb l l = true) by (induction l; cbn; auto; rewrite (proj2 (ix_eqb_eq a a)); auto).
      assert (I : forall x, ix_eqb x x = true) by (intros; apply ix_eqb_eq; auto).
      assert (RL : forall l, Forall (fun e => ex_eqb e e = true) l -> list_eqb ex_eqb l l = true) by (induction 1; cbn; auto; rewrite H; auto).
      induction e using ex_rect'; cbn [ex_eqb]; rewrite ?String.eqb_refl, ?Z.eqb_refl, ?RI, ?I; cbn [andb]; try (apply RL; auto); try (rewrite IHe); auto. }
    rewrite R in E. discriminate. }
  assert (N2 : forall a b : ex, ex_eqb a b = false -> NoDup [a; b]).
  { intros a b E. constructor; [intros [X|[]]; apply (ND a b); auto|constructor; auto; constructor]. }
  split; [auto|]. split; [auto|]. split; [cbn; auto|].
  split; [cbn; repeat split; auto; apply N2; reflexivity|].
  split; [cbn; auto|].
  assert (F : forall i, free i mom_lhs = String.eqb "i" i).
  { intros i. cbn -[String.eqb]. destruct (String.eqb "i" i) eqn:E1; cbn; auto. }
  assert (F1 : forall i e, In e [Mul [Num (-1); Op "CD" [Mul [Tm "u" [Sym "i"]; Tm "u" [Sym "j"]]; Tm "x" [Sym "j"]]];
       Mul [Num (-1); Op "CD" [Tm "p" []; Tm "x" [Sym "i"]]]; Op "CD" [Tm "tau" [Sym "i"; Sym "j"]; Tm "x" [Sym "j"]]] -> free i e = String.eqb "i" i).
  { intros i e [<-|[<-|[<-|[]]]]; cbn -[String.eqb]; destruct (String.eqb "i" i) eqn:E1, (String.eqb "j" i) eqn:E2; cbn -[String.eqb]; auto;
      apply String.eqb_eq in E1, E2; subst; discriminate. }
  split.
  { unfold mom_rhs. cbn [consistent]. split; [cbn; auto 10|]. intros a b Ia Ib _ _ i. rewrite !(F1 i) by auto. auto. }
  split.
  { intros i. rewrite F. unfold mom_rhs. cbn [free]. match goal with |- _ = existsb _ ?l => destruct (existsb (free i) l) eqn:E end.
    - apply existsb_exists in E. destruct E as (e & I & Fe). rewrite (F1 i) in Fe by auto. auto.
    - destruct (String.eqb "i" i) eqn:Ei; auto. exfalso. assert (X : existsb (free i) [Op "CD" [Tm "tau" [Sym "i"; Sym "j"]; Tm "x" [Sym "j"]]] = true).
      { cbn [existsb]. rewrite (F1 i) by (cbn; auto). rewrite Ei. auto. }
      cbn [existsb] in E, X. apply orb_true_iff in X. destruct X as [X|X]; [|discriminate]. rewrite X in E. rewrite !orb_true_r in E. discriminate. }
  split; [eexists; split; reflexivity|apply integers_lawful].
Qed.

(* C41.  Replacing "_k" in the text of a name puts the number in place of the index k and nowhere
   else, if no index name begins with another one. *)
Theorem C41_apply_index_partial :
  forall k d b is, has_char "_" b = false ->
    (forall s, In s (syms is) -> has_char "_" s = false /\ (s = k \/ unrelated k s)) ->
    apply_index_text k d (term_text b is) = term_text b (map (put k d) is).
Proof.
  intros k d b is Hb H. unfold apply_index_text, term_text. change (append "_" k) with (String "_" k). rewrite replace_plain by auto. f_equal.
  induction is as [|x is IH]; [reflexivity|]. rewrite !map_cons, !concat_cons.
  assert (IH' : py_replace (String "_" k) (dec d) (String.concat "" (map ix_text is)) = String.concat "" (map ix_text (map (put k d) is))).
  { apply IH. intros s I. apply H. destruct x; cbn; auto. }
  destruct x as [s|n]; cbn [ix_text put].
  - destruct (H s) as (P & Q); [left; auto|].
    rewrite append_assoc. cbn [append]. rewrite replace_step. cbn [Ascii.eqb Bool.eqb].
    destruct Q as [-> |Q].
    + rewrite strip_append, String.eqb_refl, IH'. auto.
    + rewrite strip_unrelated by auto. rewrite replace_plain by auto. rewrite IH'.
      destruct (String.eqb s k) eqn:E; auto. exfalso. apply String.eqb_eq in E. subst. destruct Q as (Q & _).
      clear -Q. induction k; cbn in Q; [discriminate|]. destruct (ascii_dec a a); auto.
  - rewrite replace_plain by (apply digits_plain, all_digits_dec). rewrite IH'. auto.
Qed.
Print Assumptions C41_apply_index_partial.
(* Index names where one begins with another: applying i to u_i_ii spoils the index ii. *)
Theorem C41_apply_index_refuted :
  exists k d b is, has_char "_" b = false /\ (forall s, In s (syms is) -> has_char "_" s = false) /\
    apply_index_text k d (term_text b is) <> term_text b (map (put k d) is).
Proof.
  exists "i"%string, 0%nat, "u"%string, [Sym "i"; Sym "ii"]. split; [auto|]. split.
  - intros s [<-|[<-|[]]]; auto.
  - discriminate.
Qed.
Print Assumptions C41_apply_index_refuted.
(* Components with different bases or different indices have different names, if base names do not end
   in a digit and there are at most ten dimensions. *)
Theorem C41_unambiguous_partial :
  forall b1 b2 v1 v2, ends_plain b1 = true -> ends_plain b2 = true ->
    Forall (fun n => n < 10)%nat v1 -> Forall (fun n => n < 10)%nat v2 ->
    term_text b1 (map Val v1) = term_text b2 (map Val v2) -> b1 = b2 /\ v1 = v2.
Proof.
  intros b1 b2 v1 v2 E1 E2 F1 F2 H. unfold term_text in H. apply base_split in H; auto; try apply values_digits.
  destruct H as (H1 & H2). split; auto. apply values_inj; auto.
Qed.
Print Assumptions C41_unambiguous_partial.
(* Otherwise names can collide: component 2 of u1 and component (1, 2) of u; components (1, 11)
   and (11, 1) of one tensor. *)
Theorem C41_unambiguous_refuted :
  (exists b1 b2 v1 v2, Forall (fun n => n < 3)%nat (v1 ++ v2) /\ b1 <> b2 /\ term_text b1 (map Val v1) = term_text b2 (map Val v2)) /\
  (exists b v1 v2, ends_plain b = true /\ v1 <> v2 /\ List.length v1 = List.length v2 /\ term_text b (map Val v1) = term_text b (map Val v2)).
Proof.
  split.
  - exists "u1"%string, "u"%string, [2%nat], [1%nat; 2%nat]. repeat split; try discriminate. repeat constructor.
  - exists "u"%string, [1%nat; 11%nat], [11%nat; 1%nat]. repeat split; try discriminate.
Qed.
Print Assumptions C41_unambiguous_refuted.
Example C41_nonvacuous : apply_index_text "j" 2 "tau_i_j" = "tau_i2"%string /\ apply_index_text "i" 0 "tau_i2" = "tau02"%string /\ unrelated "i" "j" /\
  ends_plain "tau" = true.
Proof. repeat split. Qed.

(* The Levi-Civita symbol as evaluated: the sign of a permutation of 0, 1, 2, zero otherwise;
   and its product with itself over one index. *)
Theorem C40_levi_civita :
  forall i j k, (i < 3)%nat -> (j < 3)%nat -> (k < 3)%nat ->
    lc_value i j k = (if Nat.eqb i j || Nat.eqb j k || Nat.eqb i k then 0 else if Nat.eqb ((i + 1) mod 3) j then 1 else -1)%Z /\
    lc_value j i k = (- lc_value i j k)%Z /\ lc_value j k i = lc_value i j k.
Proof.
  intros i j k Hi Hj Hk.
  destruct i as [|[|[|i]]]; try lia; destruct j as [|[|[|j]]]; try lia; destruct k as [|[|[|k]]]; try lia; cbn; auto.
Qed.
Print Assumptions C40_levi_civita.
