(* The statements of the isothermal wall. *)
From Verif Require Import Base BaseProofs Expr ExprProofs KernelModel ShiftModel ShiftSpec ShiftProofs AlgProofs BCModel BCSpec BCGasSpec BCProofs BCKern BCMirror BCOrder BCStm BCGas.
From Coq Require Import QArith ZArith Reals Qreals Lia Lra Permutation.
Local Close Scope Q_scope.

Lemma append_cancel : forall a b c : string, append a b = append a c -> b = c.
Proof. induction a; intros b c H; cbn in *; auto. injection H as H. auto. Qed.
Lemma digits_inj : forall p i j, digits_name p i = digits_name p j -> i = j.
Proof. intros p i j H. apply append_cancel in H. apply dec_inj. auto. Qed.
Lemma T_not_above : forall i, digits_name "T" i <> "T_above"%string.
Proof.
  intros i H. change "T_above"%string with ("T" ++ "_above")%string in H. apply append_cancel in H.
  pose proof (all_digits_dec i) as A. rewrite H in A. discriminate.
Qed.
Lemma uname_inj : forall c i c' i', (c < 10)%nat -> (c' < 10)%nat -> uname c i = uname c' i' -> c = c' /\ i = i'.
Proof.
  intros c i c' i' Hc Hc' H. unfold uname in H. apply append_cancel in H.
  do 10 (destruct c as [|c]; [do 10 (destruct c' as [|c']; [first [apply append_cancel in H; apply dec_inj in H; auto | discriminate]|]); lia|]). lia.
Qed.

Lemma inr_inj : forall (a b : string), @inr dset string a = inr b -> a = b.
Proof. intros a b H. injection H as H. exact H. Qed.
Lemma inl_inj : forall (a b : string) (k l : list Z), @inl dset string (a, k) = inl (b, l) -> a = b /\ k = l.
Proof. intros a b k l H. injection H as H. auto. Qed.
Inductive ix := Ax0 | Am (m : string) | Ae | AP | Au (c : nat) (m : string) (i : nat) | AT | ATi (i : nat) | Arh (i : nat) | Ar (i : nat)
  | Amo (i c : nat) (m : string) | AE (i : nat).

Section iso.
  Variables (n d : nat) (from to : Z) (w : nat) (rho : string) (moms : list string) (E : string) (x0 e : expr).
  Hypothesis Hd : (d < n)%nat.
  Hypothesis Hs : (from = 1 /\ to = -1 \/ from = -1 /\ to = 1)%Z.
  Hypothesis ND : NoDup (rho :: moms ++ [E]).
  Hypothesis H10 : (List.length moms <= 10)%nat.
  Hypothesis Px0 : placed n x0.
  Hypothesis Nx0 : forall b ix, In (b, ix) (dsets x0) -> ~ In b (moms ++ [E]).
  Hypothesis Pe : placed n e.
  Hypothesis Ne : forall b ix, In (b, ix) (dsets e) -> ~ In b (moms ++ [E]).
  Local Notation v := (ns_arrays n rho moms E).
  Local Notation dat b k := (EDat b (move d k (here n))).

  Definition Q (a : ix) : keq :=
    match a with
    | Ax0 => KEq (evar "x0") x0
    | Am m => KEq (EDat m (here n)) (ENum 0)
    | Ae => KEq (EDat E (here n)) e
    | AP => KEq (evar "Pwall") (put n d 0 (pressure_cons v))
    | Au c m i => KEq (evar (uname c i)) (ediv (dat m (to * Z.of_nat i)) (dat rho (to * Z.of_nat i)))
    | AT => KEq (evar "T_above") (put n d to (temperature_cons v))
    | ATi i => KEq (evar (digits_name "T" i)) (esub (emul [eint (Z.of_nat i + 1); econst "Twall"]) (emul [eint (Z.of_nat i); evar "T_above"]))
    | Arh i => KEq (evar (digits_name "rho_halo_" i)) (ediv (emul [evar "Pwall"; gama; Minf; Minf]) (evar (digits_name "T" i)))
    | Ar i => KEq (dat rho (from * Z.of_nat i)) (evar (digits_name "rho_halo_" i))
    | Amo i c m => KEq (dat m (from * Z.of_nat i)) (emul [eint (-1); evar (digits_name "rho_halo_" i); evar (uname c i)])
    | AE i => KEq (dat E (from * Z.of_nat i)) (eadd [ediv (evar "Pwall") (esub gama (eint 1));
                           emul [ENum (1 # 2); evar (digits_name "rho_halo_" i);
                                 eadd (map (fun c => epow (evar (uname (fst c) i)) 2) (enum (map (fun m => EDat m (here n)) moms)))]])
    end.
  Definition rng (i : nat) := (1 <= i <= w)%nat.
  Definition valid (a : ix) : Prop :=
    match a with
    | Ax0 | Ae | AP | AT => True
    | Am m => In m moms
    | Au c m i => nth_error moms c = Some m /\ rng i
    | ATi i | Arh i | Ar i | AE i => rng i
    | Amo i c m => nth_error moms c = Some m /\ rng i
    end.
  Definition tg (a : ix) : loc :=
    match a with
    | Ax0 => inr "x0"%string
    | Am m => inl (m, move d 0 (here n))
    | Ae => inl (E, move d 0 (here n))
    | AP => inr "Pwall"%string
    | Au c m i => inr (uname c i)
    | AT => inr "T_above"%string
    | ATi i => inr (digits_name "T" i)
    | Arh i => inr (digits_name "rho_halo_" i)
    | Ar i => inl (rho, move d (from * Z.of_nat i) (here n))
    | Amo i c m => inl (m, move d (from * Z.of_nat i) (here n))
    | AE i => inl (E, move d (from * Z.of_nat i) (here n))
    end.
  Lemma target_Q : forall a, target (Q a) = [tg a].
  Proof. destruct a; cbn; rewrite ?move_0; reflexivity. Qed.
  Lemma nth_lt10 : forall c m, nth_error moms c = Some m -> (c < 10)%nat.
  Proof. intros c m H. assert (c < List.length moms)%nat by (apply nth_error_Some; congruence). lia. Qed.
  Lemma nth_in : forall c m, nth_error moms c = Some m -> In m moms.
  Proof. intros. eapply nth_error_In; eauto. Qed.
  Lemma moms_nodup : NoDup moms /\ ~ In rho moms /\ rho <> E /\ ~ In E moms.
  Proof. destruct (nodup3 _ _ _ ND) as (A & B & C & D). auto. Qed.
  Lemma nth_same : forall c c' m, nth_error moms c = Some m -> nth_error moms c' = Some m -> c = c'.
  Proof. intros c c' m H H'. apply (proj1 (NoDup_nth_error moms) (proj1 moms_nodup)); [apply nth_error_Some; congruence | congruence]. Qed.

  Lemma tg_inj : forall a b, valid a -> valid b -> tg a = tg b -> a = b.
  Proof.
    destruct moms_nodup as (_ & N1 & N2 & N3).
    intros a b Va Vb H.
    destruct a; destruct b; cbn [tg valid] in *; try discriminate H; try reflexivity;
      repeat match goal with H : _ /\ _ |- _ => destruct H end; unfold rng in *;
      try (apply inr_inj in H); try (apply inl_inj in H; destruct H as [H H']);
      repeat match goal with H : nth_error moms ?c = Some ?m |- _ =>
        lazymatch goal with G : In m moms |- _ => fail | _ => pose proof (nth_in c m H) end end;
      try (exfalso; match goal with H : digits_name "T" _ = _ |- _ => apply (T_not_above _ H) | H : _ = digits_name "T" _ |- _ => symmetry in H; apply (T_not_above _ H) end; fail);
      try (match goal with H : digits_name _ _ = digits_name _ _ |- _ => first [apply digits_inj in H | discriminate H] end; subst; reflexivity);
      try (match goal with H : move _ _ _ = move _ _ _ |- _ => apply off_inj in H; auto end);
      try (subst; contradiction); try congruence; try (exfalso; lia).
    all: try (match goal with H : uname _ _ = uname _ _ |- _ => apply uname_inj in H; [destruct H; subst | eapply nth_lt10; eauto | eapply nth_lt10; eauto] end; congruence).
    all: try (assert (i = i0) by lia; subst; f_equal; eapply nth_same; eauto; fail).
    all: try (f_equal; lia).
  Qed.

  Lemma tg_data : forall b s k, valid b -> tg b = inl (s, move d k (here n)) ->
    (k = 0%Z /\ In s (moms ++ [E]) /\ (b = Am s \/ b = Ae)) \/ (exists i, rng i /\ k = (from * Z.of_nat i)%Z).
  Proof.
    intros b s k V H. destruct b; cbn [tg valid] in *; try discriminate H; apply inl_inj in H; destruct H as [H H']; apply off_inj in H'; auto; subst.
    - left. split; auto. split; auto. apply in_app_iff. auto.
    - left. split; auto. split; auto. apply in_app_iff. right. left. auto.
    - right. eauto.
    - right. destruct V. eauto.
    - right. eauto.
  Qed.
  Lemma tg_inward : forall b s i, valid b -> (1 <= i)%Z -> tg b = inl (s, move d (to * i) (here n)) -> False.
  Proof.
    intros b s i V Hi H. apply tg_data in H; auto. destruct H as [(H & _) | (j & Hj & H)]; unfold rng in *; lia.
  Qed.
  Definition dep (a b : ix) : Prop :=
    match a with
    | AP => (exists m, b = Am m) \/ b = Ae
    | ATi i => b = AT
    | Arh i => b = AP \/ b = ATi i
    | Ar i => b = Arh i
    | Amo i c m => b = Arh i \/ b = Au c m i
    | AE i => b = AP \/ b = Arh i \/ exists c m, b = Au c m i
    | _ => False
    end.
  Lemma reads_cases : forall l r t, In t (reads (KEq l r)) -> (exists b k, t = inl (b, k) /\ In (b, k) (dsets r)) \/ (exists g, t = inr g /\ In g (syms KGridVar r)).
  Proof.
    intros l r t H. cbn [reads] in H. apply in_app_iff in H. destruct H as [H | H]; apply in_map_iff in H.
    - destruct H as ([b k] & <- & H). left. eauto.
    - destruct H as (g & <- & H). right. eauto.
  Qed.
  Lemma local_target : forall a b g, valid a -> valid b -> tg a = inr g -> tg b = inr g -> b = a.
  Proof. intros. apply tg_inj; auto. congruence. Qed.

  Lemma reads_dep : forall a b, valid a -> valid b -> In (tg b) (reads (Q a)) -> dep a b.
  Proof.
    intros a b Va Vb H. destruct a; cbn [Q] in H; apply reads_cases in H; destruct H as [(s & k & T & H) | (g & T & H)].
    - (* x0 *) destruct Px0 as (Lo & _). pose proof (Nx0 _ _ H) as N. rewrite (Lo _ _ H), (here_move n d) in T. apply tg_data in T; auto.
      destruct T as [(_ & I & _) | (i & Hi & K)]; [contradiction | unfold rng in Hi; lia].
    - destruct Px0 as (_ & Gv & _). rewrite Gv in H. destruct H.
    - destruct H.
    - destruct H.
    - destruct Pe as (Lo & _). pose proof (Ne _ _ H) as N. rewrite (Lo _ _ H), (here_move n d) in T. apply tg_data in T; auto.
      destruct T as [(_ & I & _) | (i & Hi & K)]; [contradiction | unfold rng in Hi; lia].
    - destruct Pe as (_ & Gv & _). rewrite Gv in H. destruct H.
    - rewrite (dsets_put_at _ _ _ _ _ _ H) in T. apply tg_data in T; auto. destruct T as [(_ & _ & I) | (i & Hi & K)]; [|unfold rng in Hi; lia].
      cbn. destruct I; eauto.
    - rewrite put_syms in H. destruct (placed_pressure n rho moms E) as (_ & Gv & _). rewrite Gv in H. destruct H.
    - exfalso. destruct Va as [_ Hi]. unfold rng in Hi. cbn in H. destruct H as [H | [H | []]]; injection H as <- <-; apply tg_inward in T; auto; lia.
    - destruct H.
    - exfalso. rewrite (dsets_put_at _ _ _ _ _ _ H) in T. replace to with (to * 1)%Z in T by lia. apply tg_inward in T; auto; lia.
    - rewrite put_syms in H. destruct (placed_temperature n rho moms E) as (_ & Gv & _). rewrite Gv in H. destruct H.
    - destruct H.
    - cbn in H. destruct H as [<- | []]. cbn. apply (local_target AT b "T_above"); auto. exact I.
    - destruct H.
    - cbn in H. destruct H as [<- | [<- | []]]; cbn; [left; apply (local_target AP b "Pwall"); auto; exact I | right; apply (local_target (ATi i) b (digits_name "T" i)); auto].
    - destruct H.
    - cbn in H. destruct H as [<- | []]. cbn. apply (local_target (Arh i) b (digits_name "rho_halo_" i)); auto.
    - destruct H.
    - destruct Va as [Hc Hi]. cbn [syms emul eint] in H. cbn in H.
      destruct H as [<- | [<- | []]]; cbn; [left; apply (local_target (Arh i) b (digits_name "rho_halo_" i)); auto | right; apply (local_target (Au c m i) b (uname c i)); cbn; auto].
    - exfalso. cbn in H. rewrite ?app_nil_r in H. induction (enum (map (fun m => EDat m (here n)) moms)) as [|c l IH]; cbn in H; auto.
    - cbn in H. destruct H as [<- | [<- | H]]; cbn.
      + left. apply (local_target AP b "Pwall"); auto. exact I.
      + right. left. apply (local_target (Arh i) b (digits_name "rho_halo_" i)); auto.
      + right. right. rewrite ?app_nil_r in H.
        assert (G : exists c, In c (enum (map (fun m => EDat m (here n)) moms)) /\ g = uname (fst c) i).
        { revert H. generalize (enum (map (fun m => EDat m (here n)) moms)). intros l H. induction l as [|c l IH]; cbn in H; [destruct H|].
          destruct H as [<- | H]; [exists c; split; [left; auto | auto] | destruct (IH H) as (c' & Hc' & ->); exists c'; split; [right; auto | auto]]. }
        destruct G as ([c z] & Hc & ->). unfold enum in Hc. rewrite map_length in Hc.
        assert (Nc : nth_error moms c <> None). { apply in_combine_l in Hc. apply in_seq in Hc. apply nth_error_Some. lia. }
        destruct (nth_error moms c) as [m|] eqn:Em; [|congruence]. exists c, m. apply (local_target (Au c m i) b (uname c i)); cbn; auto.
  Qed.

  Definition stepx (i : nat) : list ix :=
    ATi i :: flat_map (fun j => [Arh j; Ar j]) (seq 1 i) ++ flat_map (fun j => map (fun c => Amo j (fst c) (snd c)) (enum moms)) (seq 1 i) ++ map AE (seq 1 i).
  Definition idxs : list ix :=
    Ax0 :: (map Am moms ++ [Ae]) ++ [AP] ++ flat_map (fun c => map (fun i => Au (fst c) (snd c) i) (seq 1 w)) (enum moms) ++ [AT] ++ flat_map stepx (seq 1 w).
  Lemma in_enum : forall c m, In (c, m) (enum moms) <-> nth_error moms c = Some m.
  Proof.
    unfold enum. intros c m. clear. assert (G : forall (l : list string) s, In (c, m) (combine (seq s (List.length l)) l) <-> (s <= c)%nat /\ nth_error l (c - s) = Some m).
    { induction l as [|a l IH]; intros s; cbn [List.length seq combine In].
      - split; [intros [] | intros [_ H]; destruct (c - s)%nat; discriminate].
      - rewrite IH. split.
        + intros [H | [H1 H2]]; [injection H as -> ->; rewrite Nat.sub_diag; auto|]. split; [lia|]. replace (c - s)%nat with (S (c - S s)) by lia. auto.
        + intros [H1 H2]. destruct (Nat.eq_dec s c) as [-> | N]; [rewrite Nat.sub_diag in H2; cbn in H2; injection H2 as ->; auto|].
          right. split; [lia|]. replace (c - s)%nat with (S (c - S s)) in H2 by lia. auto. }
    rewrite G. rewrite Nat.sub_0_r. split; [tauto | intros; split; auto; lia].
  Qed.
  Lemma in_stepx : forall i b, (i <= w)%nat -> (In b (stepx i) <->
    b = ATi i \/ (exists j, (1 <= j <= i)%nat /\ (b = Arh j \/ b = Ar j \/ b = AE j \/ exists c m, nth_error moms c = Some m /\ b = Amo j c m))).
  Proof.
    intros i b Hi. unfold stepx. cbn [In]. rewrite !in_app_iff, !in_flat_map, in_map_iff. split.
    - intros [<- | [(j & Hj & H) | [(j & Hj & H) | (j & <- & Hj)]]]; auto; apply in_seq in Hj; right; exists j; (split; [lia|]).
      + destruct H as [<- | [<- | []]]; auto.
      + apply in_map_iff in H. destruct H as ([c m] & <- & H). apply in_enum in H. right. right. right. exists c, m. auto.
      + auto.
    - intros [-> | (j & Hj & H)]; auto. right. assert (Is : In j (seq 1 i)) by (apply in_seq; lia).
      destruct H as [-> | [-> | [-> | (c & m & Hc & ->)]]].
      + left. exists j. split; auto. left; auto.
      + left. exists j. split; auto. right; left; auto.
      + right. right. eauto.
      + right. left. exists j. split; auto. apply in_map_iff. exists (c, m). split; auto. apply in_enum. auto.
  Qed.
  Lemma in_idxs : forall b, (In b idxs -> valid b) /\ (valid b -> In b idxs).
  Proof.
    intros b. unfold idxs. cbn [In]. rewrite !in_app_iff, !in_flat_map. cbn [In]. rewrite in_map_iff. split.
    - intros [<- | [[(m & <- & H) | [<- | []]] | [[<- | []] | [([c m] & Hc & H) | [[<- | []] | (i & Hi & H)]]]]]; cbn; auto.
      + apply in_map_iff in H. destruct H as (i & <- & Hi). apply in_seq in Hi. apply in_enum in Hc. cbn. split; auto. unfold rng. lia.
      + apply in_seq in Hi. apply in_stepx in H; [|lia]. destruct H as [-> | (j & Hj & [-> | [-> | [-> | (c & m & Hc & ->)]]])]; cbn; unfold rng; try lia. split; auto. lia.
    - intros V. destruct b; cbn [valid] in V; auto.
      + right. left. left. exists m. auto.
      + do 3 right. left. destruct V as [V Hi]. exists (c, m). split; [apply in_enum; auto|]. apply in_map_iff. exists i. split; auto. apply in_seq. unfold rng in Hi. lia.
      + do 4 right. left. auto.
      + do 5 right. exists i. unfold rng in V. split; [apply in_seq; lia|]. apply in_stepx; [lia|]. auto.
      + do 5 right. exists i. unfold rng in V. split; [apply in_seq; lia|]. apply in_stepx; [lia|]. right. exists i. split; [lia|]. auto.
      + do 5 right. exists i. unfold rng in V. split; [apply in_seq; lia|]. apply in_stepx; [lia|]. right. exists i. split; [lia|]. auto.
      + do 5 right. exists i. destruct V as [Hc V]. unfold rng in V. split; [apply in_seq; lia|]. apply in_stepx; [lia|]. right. exists i. split; [lia|].
        right. right. right. eauto.
      + do 5 right. exists i. unfold rng in V. split; [apply in_seq; lia|]. apply in_stepx; [lia|]. right. exists i. split; [lia|]. auto.
  Qed.

  Fixpoint ixok (done l : list ix) : Prop :=
    match l with [] => True | a :: l => (forall b, valid b -> dep a b -> In b done) /\ ixok (done ++ [a]) l end.
  Lemma ixok_app : forall l1 done l2, ixok done l1 -> ixok (done ++ l1) l2 -> ixok done (l1 ++ l2).
  Proof.
    induction l1 as [|a l1 IH]; intros done l2 H1 H2; cbn in *; [rewrite app_nil_r in H2; auto|].
    destruct H1 as [Ha Hb]. split; auto. apply IH; auto. rewrite <- app_assoc. auto.
  Qed.
  Lemma ixok_flat : forall l done, (forall a b, In a l -> valid b -> dep a b -> In b done) -> ixok done l.
  Proof.
    induction l as [|a l IH]; intros done H; cbn; auto. split; [intros; eapply H; eauto; left; auto|].
    apply IH. intros a' b Ha V D. apply in_app_iff. left. apply (H a'); auto. right; auto.
  Qed.
  Lemma steps_ok : forall len s done, (1 <= s)%nat ->
    In AP done -> In AT done -> (forall c m i, valid (Au c m i) -> In (Au c m i) done) -> (forall j, (1 <= j < s)%nat -> In (ATi j) done) ->
    ixok done (flat_map stepx (seq s len)).
  Proof.
    induction len as [|len IH]; intros s done S1 HP HT HU HTi; cbn [seq flat_map]; [exact I|]. apply ixok_app.
    - unfold stepx. cbn [ixok]. split; [intros b _ D; cbn in D; subst; auto|].
      assert (HTi' : forall j, (1 <= j <= s)%nat -> In (ATi j) (done ++ [ATi s])).
      { intros j Hj. apply in_app_iff. destruct (Nat.eq_dec j s) as [-> | N]; [right; left; auto | left; apply HTi; lia]. }
      apply ixok_app; [|apply ixok_flat].
      + assert (HP' : In AP (done ++ [ATi s])) by (apply in_app_iff; auto). revert HTi' HP'. generalize (done ++ [ATi s]). 
        assert (Sub : forall j, In j (seq 1 s) -> (1 <= j <= s)%nat) by (intros j Hj; apply in_seq in Hj; lia). revert Sub. generalize (seq 1 s).
        induction l as [|j l IHl]; intros Sub dn HTi' HP'; cbn; auto. split; [|split].
        * intros b _ [-> | ->]; auto. apply HTi'. apply Sub. left; auto.
        * intros b _ D. cbn in D. subst. apply in_app_iff. right. left. auto.
        * apply IHl; [intros; apply Sub; right; auto | intros; rewrite !in_app_iff; left; left; auto | rewrite !in_app_iff; auto].
      + intros a b Ha V D. apply in_app_iff in Ha. rewrite !in_app_iff. destruct Ha as [Ha | Ha].
        * apply in_flat_map in Ha. destruct Ha as (j & Hj & Ha). apply in_map_iff in Ha. destruct Ha as ([c m] & <- & Hc). cbn in D.
          destruct D as [-> | ->]; [right; apply in_flat_map; exists j; split; auto; left; auto | left; left; auto].
        * apply in_map_iff in Ha. destruct Ha as (j & <- & Hj). cbn in D.
          destruct D as [-> | [-> | (c & m & ->)]]; [left; left; auto | right; apply in_flat_map; exists j; split; auto; left; auto | left; left; auto].
    - apply IH; [lia | apply in_app_iff; auto | apply in_app_iff; auto | intros; apply in_app_iff; auto |].
      intros j Hj. apply in_app_iff. destruct (Nat.eq_dec j s) as [-> | N]; [right; left; auto | left; apply HTi; lia].
  Qed.
  Lemma idxs_ok : ixok [] idxs.
  Proof.
    unfold idxs. cbn [ixok]. split; [intros b _ []|]. cbn [app].
    apply ixok_app; [apply ixok_flat; intros a b Ha V D; apply in_app_iff in Ha; destruct Ha as [Ha | [<- | []]]; [apply in_map_iff in Ha; destruct Ha as (m & <- & _)|]; destruct D|].
    cbn [ixok app]. split.
    { intros b V [(m & ->) | ->]; right; apply in_app_iff; [left; apply in_map; auto | right; left; auto]. }
    apply ixok_app.
    { apply ixok_flat. intros a b Ha V D. apply in_flat_map in Ha. destruct Ha as (c & _ & Ha). apply in_map_iff in Ha. destruct Ha as (i & <- & _). destruct D. }
    cbn [ixok app]. split; [intros b _ []|]. apply steps_ok; auto.
    - right. rewrite !in_app_iff. left. left. right. left. auto.
    - right. rewrite !in_app_iff. right. left. auto.
    - intros c m i [Hc Hi]. right. rewrite !in_app_iff. left. right. apply in_flat_map. exists (c, m). split; [apply in_enum; auto|].
      apply in_map_iff. exists i. split; auto. apply in_seq. unfold rng in Hi. lia.
    - intros; lia.
  Qed.
  Lemma iso_ordered : ordered [] (map Q idxs).
  Proof.
    apply ordered_ssa0.
    - intros q q' t Hq Hq' Ht Ht'. apply in_map_iff in Hq, Hq'. destruct Hq as (a & <- & Ha), Hq' as (b & <- & Hb).
      rewrite target_Q in Ht, Ht'. destruct Ht as [<- | []], Ht' as [H | []]. f_equal. apply tg_inj; auto; apply in_idxs; auto.
    - assert (G : forall l done, incl l idxs -> ixok done l -> wellread (map Q idxs) (map Q done) (map Q l)).
      { induction l as [|a l IH]; intros done Hl Ok; cbn [wellread map]; auto. destruct Ok as [Oa Ok]. split.
        - intros t q' Ht Hq' Tq'. apply in_map_iff in Hq'. destruct Hq' as (b & <- & Hb). rewrite target_Q in Tq'. destruct Tq' as [<- | []].
          apply in_map. assert (Vb : valid b) by (apply in_idxs; auto). apply Oa; auto. apply reads_dep; auto. apply in_idxs. apply Hl. left; auto.
        - change [Q a] with (map Q [a]). rewrite <- map_app. apply IH; auto. intros z Hz. apply Hl. right; auto. }
      apply (G idxs []); [intros a; auto | apply idxs_ok].
  Qed.
  Lemma iso_along : along n d (map Q idxs).
  Proof.
    intros q b k Hq Hb. apply in_map_iff in Hq. destruct Hq as (a & <- & Ha). rewrite target_Q in Hb. apply in_app_iff in Hb. destruct Hb as [[H | []] | H].
    - destruct a; cbn [tg] in H; try discriminate H; apply inl_inj in H; destruct H as [_ <-]; eexists; reflexivity.
    - destruct a; cbn [Q] in H; apply reads_cases in H; (destruct H as [(s & k' & T & H) | (g & T & H)]; [|discriminate T]); apply inl_inj in T; destruct T as [<- <-].
      + destruct Px0 as (Lo & _). exists 0%Z. rewrite (Lo _ _ H), move_0. reflexivity.
      + destruct H.
      + destruct Pe as (Lo & _). exists 0%Z. rewrite (Lo _ _ H), move_0. reflexivity.
      + eexists. apply (dsets_put_at _ _ _ _ _ _ H).
      + cbn in H. destruct H as [H | [H | []]]; injection H as <- <-; eexists; reflexivity.
      + eexists. apply (dsets_put_at _ _ _ _ _ _ H).
      + destruct H.
      + destruct H.
      + destruct H.
      + destruct H.
      + exfalso. cbn in H. rewrite ?app_nil_r in H. induction (enum (map (fun m => EDat m (here n)) moms)) as [|c l IH]; cbn in H; auto.
  Qed.
End iso.

Lemma enum_map : forall A B (f : A -> B) l, enum (map f l) = map (fun c => (fst c, f (snd c))) (enum l).
Proof.
  intros A B f l. unfold enum. rewrite map_length. generalize 0%nat. induction l as [|a l IH]; intros s; cbn; auto. f_equal. apply IH.
Qed.
Lemma firstn_seq1 : forall i w, (i <= w)%nat -> firstn i (seq 1 w) = seq 1 i.
Proof. intros i w H. replace w with (i + (w - i))%nat by lia. rewrite seq_app, firstn_app, seq_length, Nat.sub_diag, firstn_O, app_nil_r. apply firstn_all2. rewrite seq_length. auto. Qed.

Lemma isothermal_eqs : forall ord np bh d side rho moms E x0 e, good_order ord -> List.length bh = List.length np -> (d < List.length np)%nat ->
  let n := List.length np in
  isothermal_apply ord np bh d side (ns_arrays n rho moms E) x0 [KEq (EDat E (here n)) e] =
  Ok {| bk_ranges := set_nth d (if side then (nth d np 0 - 1, nth d np 0) else (0, 1))%Z (block_ranges np);
        bk_halos := set_nth d ([], []) bh;
        bk_eqs := map (Q n d (fst (set_side_factor side)) (snd (set_side_factor side)) rho moms E x0 e) (idxs (Z.to_nat (halo_width bh side)) moms) |}.
Proof.
  intros ord np bh d side rho moms E x0 e Go Lb Hd n. unfold isothermal_apply. rewrite bc_plane_ok by auto. cbn [bind fst snd].
  destruct (set_side_factor side) as [from to] eqn:Es. cbn [fst snd]. rewrite n_halos_width by (rewrite Lb; auto).
  set (w := Z.to_nat (halo_width bh side)).
  assert (I : forall k b, inc ord d k (EDat b (here n)) = Ok (EDat b (move d k (here n)))) by (intros; rewrite (inc_placed ord n); auto; apply placed_dat).
  rewrite (inc_placed ord n) by (auto; apply placed_pressure). cbn [bind].
  cbn [ns_arrays ns_mom ns_rho ns_rhoE]. rewrite enum_map.
  change {| ns_rho := EDat rho (here n); ns_mom := map (fun m : string => EDat m (here n)) moms; ns_rhoE := EDat E (here n) |} with (ns_arrays n rho moms E).
  rewrite (map_result_ok _ _ _ (fun c => map (fun i => KEq (evar (uname (fst c) i)) (match snd c with EDat m _ =>
     ediv (EDat m (move d (to * Z.of_nat i) (here n))) (EDat rho (move d (to * Z.of_nat i) (here n))) | e => e end)) (seq 1 w))).
  2:{ intros c Hc. apply in_map_iff in Hc. destruct Hc as ([c' m] & <- & Hc). cbn [fst snd]. apply map_result_ok. intros i _. rewrite !I. reflexivity. }
  cbn [bind]. rewrite (inc_placed ord n) by (auto; apply placed_temperature). cbn [bind].
  rewrite (map_result_ok _ _ _ (fun i => [KEq (evar (digits_name "rho_halo_" i)) (ediv (emul [evar "Pwall"; gama; Minf; Minf]) (evar (digits_name "T" i)));
     KEq (EDat rho (move d (from * Z.of_nat i) (here n))) (evar (digits_name "rho_halo_" i))])) by (intros; rewrite I; reflexivity).
  cbn [bind].
  rewrite (map_result_ok _ _ _ (fun i => map (fun c => KEq (EDat (snd c) (move d (from * Z.of_nat i) (here n))) (emul [eint (-1); evar (digits_name "rho_halo_" i); evar (uname (fst c) i)])) (enum moms))).
  2:{ intros i _. rewrite (map_result_ok _ _ _ (fun c => match snd c with EDat m _ => KEq (EDat m (move d (from * Z.of_nat i) (here n))) (emul [eint (-1); evar (digits_name "rho_halo_" i); evar (uname (fst c) i)]) | e => KEq e e end)).
      - rewrite map_map. reflexivity.
      - intros c Hc. apply in_map_iff in Hc. destruct Hc as ([c' m] & <- & Hc). cbn [fst snd]. rewrite I. reflexivity. }
  cbn [bind].
  rewrite (map_result_ok _ _ _ (fun i => [Q n d from to rho moms E x0 e (AE i)])).
  2:{ intros i _. rewrite I. cbn [bind Q]. rewrite enum_map. reflexivity. }
  cbn [bind]. f_equal. f_equal. unfold idxs. cbn [map]. f_equal.
  rewrite !map_app. cbn [map]. rewrite !map_map. f_equal. f_equal. f_equal.
  - rewrite flat_map_concat_map, concat_map, !map_map. f_equal. apply map_ext. intros [c m]. rewrite map_map. reflexivity.
  - f_equal. rewrite !flat_map_concat_map, concat_map, map_map. f_equal. apply map_ext_in. intros i Hi. apply in_seq in Hi.
    unfold stepx. cbn [map]. f_equal. rewrite !map_app, !firstn_map, firstn_seq1 by lia.
    rewrite !flat_map_concat_map, !concat_map, !map_map. cbn [map]. f_equal. f_equal.
    + f_equal. apply map_ext. intros j. rewrite map_map. reflexivity.
    + rewrite <- flat_map_concat_map. induction (seq 1 i) as [|j l IH]; cbn [flat_map map app]; auto.
Qed.
