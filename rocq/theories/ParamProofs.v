(* The parameters of a kernel function are the objects its body uses. *)
From Coq Require Import Permutation.
From Verif Require Import Base Expr KernelModel KernelSpec KernelProofs ParamSpec.
Local Open Scope list_scope.

Lemma syms_of_spec kd k s : In s (flat_map (syms_of kd) k) <-> uses kd k s.
Proof.
  rewrite in_flat_map. unfold uses. split.
  - intros (q & Hq & H). exists q. split; [exact Hq|]. destruct q as [l r|bs]; cbn in *.
    + left. exists l, r. split; [auto|]. apply in_app_or in H. exact H.
    + apply in_flat_map in H as (b & Hb & H). apply in_app_or in H as [H|H].
      * apply in_flat_map in H as ([l r] & He & H). cbn in H. apply in_app_or in H.
        left. exists l, r. split; [|exact H]. apply in_flat_map. exists b. auto.
      * destruct (snd b) as [c|] eqn:E; [|contradiction]. right. exists c. split; [|exact H].
        apply in_flat_map. exists b. rewrite E. cbn. auto.
  - intros (q & Hq & H). exists q. split; [exact Hq|]. destruct q as [l r|bs]; cbn in *.
    + destruct H as [(l' & r' & [He|[]] & H)|(c & [] & _)]. inversion He; subst. apply in_or_app. exact H.
    + apply in_flat_map. destruct H as [(l & r & He & H)|(c & Hc & H)].
      * apply in_flat_map in He as (b & Hb & He). exists b. split; [exact Hb|]. apply in_or_app. left.
        apply in_flat_map. exists (l, r). split; [exact He|]. apply in_or_app. exact H.
      * apply in_flat_map in Hc as (b & Hb & Hc). exists b. split; [exact Hb|]. apply in_or_app. right.
        destruct (snd b) as [c'|]; [|contradiction]. destruct Hc as [->|[]]. exact H.
Qed.

Lemma no_bracket_nil : no_bracket EmptyString.
Proof. intros [|c x] y; cbn; discriminate. Qed.

Lemma no_bracket_cons c b : no_bracket (String c b) <-> c <> "["%char /\ no_bracket b.
Proof.
  unfold no_bracket. split.
  - intros H. split.
    + intros ->. apply (H EmptyString b). reflexivity.
    + intros x y E. apply (H (String c x) y). cbn. rewrite E. reflexivity.
  - intros [H1 H2] [|a x] y E; cbn in E; injection E as -> E; [apply H1; reflexivity|].
    apply (H2 x y). exact E.
Qed.

Lemma base_of_spec s : forall b, base_of b s <-> b = ix_base s.
Proof.
  induction s as [|c s IH]; intros b; cbn [ix_base].
  - split.
    + intros [_ [E|[r E]]]; [auto|]. destruct b; cbn in E; discriminate.
    + intros ->. split; [apply no_bracket_nil|auto].
  - destruct (ascii_dec c "["%char) as [->|N].
    + split.
      * intros [H [E|[r E]]].
        -- subst b. apply no_bracket_cons in H. destruct H as [H _]. contradiction.
        -- destruct b as [|a b]; [reflexivity|]. cbn in E. injection E as <- _.
           apply no_bracket_cons in H. destruct H as [H _]. contradiction.
      * intros ->. split; [apply no_bracket_nil|]. right. exists s. reflexivity.
    + split.
      * intros [H E]. destruct b as [|a b].
        -- destruct E as [E|[r E]]; [discriminate|]. cbn in E. injection E as E _. contradiction.
        -- apply no_bracket_cons in H. destruct H as [_ H].
           destruct E as [E|[r E]]; cbn in E; injection E as -> E; f_equal; apply IH; (split; [exact H|]);
             [left; exact E|right; exists r; exact E].
      * intros ->. destruct (proj2 (IH (ix_base s)) eq_refl) as [H E].
        split; [apply no_bracket_cons; auto|]. destruct E as [E|[r E]].
        -- left. f_equal. exact E.
        -- right. exists r. cbn. f_equal. exact E.
Qed.

Section header.
  Variable ord : list string -> list string.
  Hypothesis Hp : forall l, Permutation (ord l) l.
  Variable k : kernel_eqs.

  Lemma in_ord x l : In x (ord l) <-> In x l.
  Proof. split; apply Permutation_in; [apply Hp|apply Permutation_sym, Hp]. Qed.

  Lemma header_cases f :
    In f (header_args ord k) <->
    (exists d, f = FDat d true /\ In d (k_ins k)) \/
    (exists d, f = FDat d false /\ (In d (k_outs k) \/ In d (k_inouts k))) \/
    (exists g, f = FGbl g true /\ uses KGlobal k g) \/
    (exists s, f = FConst (ix_base s) /\ uses KConstIx k s) \/
    (f = FIdx /\ exists s, uses KGridIdx k s).
  Proof.
    unfold header_args, global_variables. rewrite !in_app_iff, !in_map_iff. split.
    - intros [H|[H|[H|[H|[H|[H|H]]]]]].
      + destruct H as (d & <- & H). rewrite in_ord in H. left. eauto.
      + destruct H as (d & <- & H). rewrite in_ord in H. right; left. eauto.
      + destruct H as (d & <- & H). rewrite in_ord in H. right; left. eauto.
      + destruct H as (d & <- & H). rewrite in_ord, in_set_of, syms_of_spec in H. right; right; left. eauto.
      + destruct H as (d & <- & H). rewrite in_ord in H. contradiction.
      + destruct H as (d & <- & H). unfold IndexedConstants in H. rewrite in_ord, in_set_of, syms_of_spec in H.
        right; right; right; left. eauto.
      + unfold grid_indices_used in H. destruct (flat_map (syms_of KGridIdx) k) as [|s l] eqn:E; [contradiction|].
        destruct H as [<-|[]]. do 4 right. split; [reflexivity|]. exists s. apply syms_of_spec. rewrite E. left. reflexivity.
    - intros [H|[H|[H|[H|H]]]].
      + destruct H as (d & -> & H). left. exists d. rewrite in_ord. auto.
      + destruct H as (d & -> & [H|H]); [right; left|right; right; left]; exists d; rewrite in_ord; auto.
      + destruct H as (d & -> & H). do 3 right. left. exists d. rewrite in_ord, in_set_of, syms_of_spec. auto.
      + destruct H as (s & -> & H). do 5 right. left. exists s. unfold IndexedConstants.
        rewrite in_ord, in_set_of, syms_of_spec. auto.
      + destruct H as (-> & s & H). do 6 right. apply syms_of_spec in H. unfold grid_indices_used.
        destruct (flat_map (syms_of KGridIdx) k); [contradiction|]. left. reflexivity.
  Qed.

  Lemma header_arrays d :
    (In (FDat d true) (header_args ord k) <-> reads k d /\ ~ writes k d) /\
    (In (FDat d false) (header_args ord k) <-> writes k d).
  Proof.
    rewrite !header_cases. split; split.
    - intros [(d' & E & H)|[(d' & E & H)|[(g & E & H)|[(s & E & H)|(E & H)]]]]; try discriminate E.
      inversion E; subst. apply ins_spec. exact H.
    - intros H. left. exists d. rewrite ins_spec. auto.
    - intros [(d' & E & H)|[(d' & E & H)|[(g & E & H)|[(s & E & H)|(E & H)]]]]; try discriminate E.
      inversion E; subst. rewrite outs_spec, inouts_spec in H. tauto.
    - intros H. right; left. exists d. split; [reflexivity|].
      rewrite outs_spec, inouts_spec. destruct (in_dec string_dec d (rhs_datasetbases k)) as [Hr|Hr];
        rewrite rhs_spec in Hr; tauto.
  Qed.

  Lemma header_others :
    (forall g c, In (FGbl g c) (header_args ord k) <-> c = true /\ uses KGlobal k g) /\
    (forall b, In (FConst b) (header_args ord k) <-> exists s, base_of b s /\ uses KConstIx k s) /\
    (In FIdx (header_args ord k) <-> exists s, uses KGridIdx k s).
  Proof.
    split; [intros g c|split; [intros b|]]; rewrite header_cases; split.
    - intros [(d' & E & H)|[(d' & E & H)|[(g' & E & H)|[(s & E & H)|(E & H)]]]]; try discriminate E.
      inversion E; subst. auto.
    - intros [-> H]. do 2 right. left. exists g. auto.
    - intros [(d' & E & H)|[(d' & E & H)|[(g' & E & H)|[(s & E & H)|(E & H)]]]]; try discriminate E.
      inversion E; subst. exists s. rewrite base_of_spec. auto.
    - intros (s & B & H). apply base_of_spec in B. subst b. do 3 right. left. exists s. auto.
    - intros [(d' & E & H)|[(d' & E & H)|[(g' & E & H)|[(s & E & H)|(E & H)]]]]; try discriminate E. exact H.
    - intros H. do 4 right. auto.
  Qed.
End header.
