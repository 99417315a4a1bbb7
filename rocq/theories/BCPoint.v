(* Kernels whose accesses are all at the grid point itself. *)
From Verif Require Import Base Expr ExprProofs KernelModel ShiftModel ShiftSpec ShiftProofs AlgProofs BCModel BCSpec BCProofs BCKern BCMirror BCOrder BCStm.
From Coq Require Import QArith ZArith Lia.
Local Close Scope Q_scope.

Definition pointwise (n : nat) (qs : kernel_eqs) : Prop :=
  forall q b ix, In q qs -> In (inl (b, ix)) (target q ++ reads q) -> ix = here n.
Section pw.
  Context {V : Type} (J : interp V) (n : nat) (qs : kernel_eqs).
  Hypothesis Pw : pointwise n qs.

  Lemma pw_other : forall x y M b, List.length x = n -> x <> y -> fst (run_point J qs M x) b y = M b y.
  Proof.
    intros x y M b Lx N. unfold run_point. rewrite run_frame; auto. intros q ix Hq Ht.
    rewrite (Pw q b ix Hq) by (apply in_app_iff; auto). unfold here. rewrite vadd_here by auto. auto.
  Qed.
  Lemma pw_same : forall x, List.length x = n ->
    forall l s s', incl l qs -> (forall b, fst s b x = fst s' b x) -> (forall g, snd s g = snd s' g) ->
    forall b, fst (fold_left (exec1 J x) l s) b x = fst (fold_left (exec1 J x) l s') b x.
  Proof.
    intros x Lx. induction l as [|q l IH]; intros s s' Hl HM HL b; cbn [fold_left]; auto.
    assert (Hq : In q qs) by (apply Hl; left; auto).
    assert (Vadd : forall b ix, In (inl (b, ix)) (target q ++ reads q) -> vadd x ix = x).
    { intros b' ix Hb. rewrite (Pw q b' ix Hq Hb). unfold here. apply vadd_here. auto. }
    assert (At : forall l0 r, q = KEq l0 r -> at_point J (fst s) (snd s) x r = at_point J (fst s') (snd s') x r).
    { intros l0 r ->. apply at_point_ext; auto. intros b' ix Hb. rewrite (Vadd b' ix); auto. apply in_app_iff. right.
      cbn. apply in_app_iff. left. apply in_map. auto. }
    apply IH.
    - intros a Ha. apply Hl. right; auto.
    - intros b'. destruct q as [l0 r|bs]; cbn; auto. destruct l0 as [z|k g|b0 ix|h args]; cbn; auto.
      + destruct k; cbn; auto.
      + rewrite (Vadd b0 ix) by (left; auto). unfold upd. rewrite (At _ r eq_refl).
        destruct (string_dec b0 b'); auto. destruct (list_eq_dec Z.eq_dec x x); auto.
    - intros g. destruct q as [l0 r|bs]; cbn; auto. destruct l0 as [z|k g'|b0 ix|h args]; cbn; auto.
      destruct k; cbn; auto. unfold updl. rewrite (At _ r eq_refl). destruct (string_dec g' g); auto.
  Qed.
  Lemma pw_run : forall pts M x b, NoDup pts -> (forall y, In y pts -> List.length y = n) ->
    (In x pts -> run_kernel J qs pts M b x = fst (run_point J qs M x) b x) /\
    (~ In x pts -> run_kernel J qs pts M b x = M b x).
  Proof.
    intros pts. induction pts as [|p pts IH]; intros M x b ND HL; [split; [intros []|auto]|].
    apply NoDup_cons_iff in ND. destruct ND as [Np ND]. cbn [run_kernel fold_left].
    destruct (IH (fst (run_point J qs M p)) x b ND ltac:(intros; apply HL; right; auto)) as [I1 I2].
    assert (Lp : List.length p = n) by (apply HL; left; auto). split.
    - intros [<- | Hx].
      + unfold run_kernel in I2. rewrite I2; auto.
      + unfold run_kernel in I1. rewrite I1; auto. assert (N : p <> x) by (intros ->; auto).
        unfold run_point at 1 3. apply pw_same; auto; [apply HL; right; auto | intros a; auto |]. intros b'. cbn [fst]. apply pw_other; auto.
    - intros Hx. unfold run_kernel in I2. rewrite I2; [|intros H; apply Hx; right; auto]. apply pw_other; auto.
      intros ->. apply Hx. left. auto.
  Qed.
End pw.

(* assignments b := e at every point, where no e reads an assigned array *)
Definition assign (n : nat) (ps : list (string * expr)) : kernel_eqs := map (fun p => KEq (EDat (fst p) (here n)) (snd p)) ps.
Lemma assign_values : forall V (J : interp V) n ps pts M,
  NoDup (map fst ps) -> (forall b e, In (b, e) ps -> placed n e) ->
  (forall b e b' ix, In (b, e) ps -> In (b', ix) (dsets e) -> ~ In b' (map fst ps)) ->
  NoDup pts -> (forall y, In y pts -> List.length y = n) ->
  (forall x b e, In x pts -> In (b, e) ps -> run_kernel J (assign n ps) pts M b x = value J M x e) /\
  (forall x b, ~ (In x pts /\ In b (map fst ps)) -> run_kernel J (assign n ps) pts M b x = M b x).
Proof.
  intros V J n ps pts M ND Pl Nr NP HL.
  assert (Pw : pointwise n (assign n ps)).
  { intros q b ix Hq Hb. apply in_map_iff in Hq. destruct Hq as ([b' e] & <- & Hp). cbn [fst snd] in Hb.
    apply in_app_iff in Hb. destruct Hb as [[E | []] | Hb]; [injection E as <- <-; auto|].
    apply (in_reads_inl (ENum 0)) in Hb. apply (proj1 (Pl b' e Hp) b ix Hb). }
  assert (On : all_on n (assign n ps)).
  { intros q b ix Hq Hb. rewrite (Pw q b ix Hq Hb). apply repeat_length. }
  assert (Fr : forall x b, ~ In b (map fst ps) -> List.length x = n -> fst (run_point J (assign n ps) M x) b x = M b x).
  { intros x b Hb Lx. unfold run_point. rewrite run_frame; auto. intros q ix Hq Ht E. apply in_map_iff in Hq. destruct Hq as ([b' e] & <- & Hp).
    destruct Ht as [Ht | []]. cbn [fst] in Ht. injection Ht as <- <-. apply Hb. apply (in_map fst _ _ Hp). }
  assert (Or : ordered [] (assign n ps)).
  { apply ordered_disjoint; cbn [app].
    - unfold assign. rewrite flat_map_concat_map, map_map. cbn [target].
      clear - ND. induction ps as [|p ps IH]; cbn; [constructor|]. cbn in ND. apply NoDup_cons_iff in ND. destruct ND as [N ND].
      constructor; auto. intros H. apply in_concat in H. destruct H as (l & Hl & H). apply in_map_iff in Hl. destruct Hl as (p' & <- & Hp').
      destruct H as [E | []]. injection E as E. apply N. rewrite <- E. apply in_map. auto.
    - intros q q' t Hq Hq' Ht Hr. apply in_map_iff in Hq, Hq'. destruct Hq as ([b e] & <- & Hp), Hq' as ([b' e'] & <- & Hp').
      destruct Ht as [<- | []]. apply (in_reads_inl (ENum 0)) in Hr. apply (Nr b' e' b (here n) Hp' Hr). apply (in_map fst _ _ Hp). }
  split.
  - intros x b e Hx Hp. assert (Lx : List.length x = n) by auto.
    destruct (pw_run J n (assign n ps) Pw pts M x b NP HL) as [R _]. rewrite R by auto.
    pose proof (run_holds V J n x (assign n ps) M Lx On Or (KEq (EDat b (here n)) e)) as H.
    specialize (H ltac:(apply in_map_iff; exists (b, e); auto)). cbn [holds] in H. unfold here in H at 1. rewrite vadd_here in H by auto.
    change (repeat 0%Z n) with (here n) in H.
    destruct (Pl b e Hp) as (Lo & Gv & _). rewrite <- (at_point_value V J M (snd (run_point J (assign n ps) M x))) by auto.
    transitivity (at_point J (fst (run_point J (assign n ps) M x)) (snd (run_point J (assign n ps) M x)) x e); [exact H|].
    apply at_point_ext; auto. intros b' ix Hb. rewrite (Lo b' ix Hb). unfold here. rewrite vadd_here by auto. apply Fr; auto. apply (Nr b e b' ix); auto.
  - intros x b H. destruct (in_dec (list_eq_dec Z.eq_dec) x pts) as [Hx | Hx].
    + destruct (pw_run J n (assign n ps) Pw pts M x b NP HL) as [R _]. rewrite R by auto. apply Fr; auto.
    + apply (pw_run J n (assign n ps) Pw pts M x b NP HL). auto.
Qed.
