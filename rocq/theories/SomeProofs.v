(* Proofs for C71. *)
From Verif Require Import Base BaseProofs Expr ExprProofs KernelModel FDModel FDProofs WorkModel ShiftSpec ShiftModel DiscModel DiscSpec DiscProofs DiscRun DiscMain SomeModel SomeSpec BCModel BCProofs BCMirror SomeLoop.
From Verif Require WorkProofs BCSpec StoreProofs.
From Coq Require Import QArith ZArith Reals Lia Lra Permutation.
Local Close Scope Q_scope.
Local Open Scope list_scope.

Lemma mapM_all : forall A B (f : A -> result B) (P : A -> B -> Prop) l, (forall v, In v l -> exists r, f v = Ok r /\ P v r) ->
  exists rs, mapM f l = Ok rs /\ Forall2 P l rs.
Proof.
  intros A B f P. induction l as [|v l IH]; intros H; [exists []; split; [auto | constructor]|].
  destruct (H v (or_introl eq_refl)) as (r & E & Pr). destruct IH as (rs & Es & F); [intros; apply H; right; auto|].
  exists (r :: rs). cbn [mapM]. rewrite E. cbn [bind]. rewrite Es. split; [reflexivity | constructor; auto].
Qed.
Lemma forall2_nth : forall A B (P : A -> B -> Prop) l l', Forall2 P l l' -> forall i a, nth_error l i = Some a -> exists b, nth_error l' i = Some b /\ P a b.
Proof.
  intros A B P l l' H. induction H; intros [|i] c E; try discriminate; cbn in *; [injection E as <-; eauto | eauto].
Qed.
Lemma combine_nth : forall A B (l : list A) (l' : list B) a b, In (a, b) (combine l l') -> exists i, nth_error l i = Some a /\ nth_error l' i = Some b.
Proof.
  induction l as [|x l IH]; intros [|y l'] a b H; try destruct H.
  - injection H as -> ->. exists 0%nat. auto.
  - destruct (IH _ _ _ H) as (i & E). exists (S i). auto.
Qed.
Lemma forall2_combine : forall A B (P : A -> B -> Prop) l l' a b, Forall2 P l l' -> In (a, b) (combine l l') -> P a b.
Proof.
  intros A B P l l' a b F H. apply combine_nth in H. destruct H as (i & E1 & E2). destruct (forall2_nth _ _ _ _ _ F i a E1) as (b' & E & Pb). congruence.
Qed.
Lemma nth_error_seq : forall n st i j, nth_error (seq st n) i = Some j -> j = (st + i)%nat.
Proof.
  induction n; intros st [|i] j H; try discriminate; cbn in H; [injection H as <-; lia|]. apply IHn in H. lia.
Qed.
Lemma fst_combine : forall A B (l : list A) (l' : list B), List.length l = List.length l' -> map fst (combine l l') = l.
Proof. induction l as [|x l IH]; intros [|y l'] H; try discriminate; cbn; auto. f_equal. apply IH. cbn in H. lia. Qed.
Lemma dir_sort_perm : forall dirof l, Permutation (sort_by_direction dirof l) l.
Proof.
  intros dirof. assert (I : forall v l, Permutation (insert_dir dirof v l) (v :: l)).
  { induction l as [|u l IH]; cbn [insert_dir]; auto. destruct (Nat.leb _ _); auto. rewrite IH. apply perm_swap. }
  unfold sort_by_direction. induction l as [|v l IH]; cbn [fold_right]; auto. rewrite I, IH. auto.
Qed.

Section proofs.
Variables (J : interp R) (k ndim : nat) (dirof : string -> nat) (inv : nat -> nat -> expr)
  (dord : expr -> list dset) (sord : list (expr * string) -> list (expr * string)) (h : nat -> R) (sizes : list Z)
  (corder : list string -> list string) (eorder vsort : list expr -> list expr) (korder : list (expr * expr) -> list (expr * expr)).
Hypothesis HJ : real_arithmetic J.
Hypothesis Hinv : forall M x d m, value J M x (inv d m) = (/ h d ^ m)%R.
Hypothesis Hinvd : forall d m, dsets (inv d m) = [].
Hypothesis Hinvg : forall d m, syms KGridVar (inv d m) = [].
Hypothesis Hdord : forall e, enumerates (dord e) e.
Hypothesis Hsord : forall l, Permutation l (sord l).
Hypothesis Hcord : forall l, Permutation l (corder l).
Hypothesis Heord : forall l, Permutation l (eorder l).
Hypothesis Hvord : forall l, Permutation l (vsort l).
Hypothesis Hkord : forall l, Permutation l (korder l).
Hypothesis Hsz : List.length sizes = ndim.
Notation SEM := (sem J k dirof h).
Notation zero := (repeat 0%Z ndim).
Notation DISC := (discretise k dirof inv dord).

(* a derivative that contains no other and can be discretised in place *)
Definition local_cd (v : expr) : Prop := proper_derivative ndim dirof v /\ placed ndim v /\ cds_post v = [v] /\ syms KGridVar v = [].
Lemma local_disc : forall v, local_cd v -> exists r, DISC v = Ok r /\
  (forall M x, List.length x = ndim -> value J M x r = SEM M v x) /\
  (forall b ix, In (b, ix) (dsets r) -> exists ix', In (b, ix') (dsets v)) /\ syms KGridVar r = [].
Proof.
  intros v ((a & n & m & E & Hd & Hne) & Pl & Fl & Gv). subst v.
  assert (Fa : cds_post a = []).
  { rewrite cds_cd in Fl. apply (f_equal (@List.length expr)) in Fl. rewrite app_length in Fl. cbn in Fl. destruct (cds_post a); [auto | cbn in Fl; lia]. }
  assert (Pa : placed ndim a) by (intros b ix Hb; apply (Pl b ix); rewrite dsets_cd; auto).
  destruct (discretise_ok J k ndim dirof inv dord h HJ Hinv Hdord a n m Hd Pa Hne) as (r & Er & Vr).
  exists r. split; [exact Er|]. split; [|split].
  - intros M x Lx. rewrite Vr by auto. rewrite sem_cd. apply grid_ext. intros i. symmetry. apply sem_flat. auto.
  - intros b ix Hb. apply (StoreProofs.dsets_discretise k dirof inv dord Hinvd Hdord _ _ Er) in Hb. cbn [cd_arg] in Hb.
    destruct Hb as [Hb | (ix0 & p & Hb & _)]; eexists; rewrite dsets_cd; eauto.
  - eapply syms_discretise; eauto. cbn [cd_arg]. eapply no_syms_arg; [exact Gv | left; auto].
Qed.

(* ---- kernels with local variables ---- *)
Definition local_ok (E : list (string * expr)) : Prop :=
  NoDup (map fst E) /\
  forall r e, In (r, e) E -> syms KGridVar e = [] /\ placed ndim e /\
    (forall b ix, In (b, ix) (dsets e) -> b = r \/ ~ In b (map fst E)) /\
    (forall v, In v (cds_post e) -> local_cd v /\ forall b ix, In (b, ix) (dsets v) -> ~ In b (map fst E)).
Lemma local_functions_in : forall E v, In v (local_functions eorder E) <-> exists r e, In (r, e) E /\ In v (cds_post e).
Proof.
  intros E v. unfold local_functions.
  assert (X : forall l, In v (eorder l) <-> In v l) by (intros l; split; apply Permutation_in; [symmetry|]; apply Heord).
  rewrite X, nodup_In, in_flat_map. split.
  - intros ([r e] & H1 & H2). exists r, e. auto.
  - intros (r & e & H1 & H2). exists (r, e). auto.
Qed.
Lemma SS_ok : forall conv E, local_ok E -> exists o, SS k ndim dirof inv dord eorder vsort conv E = Ok o /\
  match o with
  | None => forall r e, In (r, e) E -> cds_post e = []
  | Some qs => (exists r e v, In (r, e) E /\ In v (cds_post e)) /\
      forall pts M, NoDup pts -> (forall y, In y pts -> List.length y = ndim) ->
        (forall r e x, In (r, e) E -> In x pts -> run_kernel J qs pts M r x = SEM M e x) /\
        (forall b x, ~ In b (map fst E) -> run_kernel J qs pts M b x = M b x)
  end.
Proof.
  intros conv E (ND & HE). unfold SS. destruct (local_functions eorder E) as [|c0 cl] eqn:EL.
  { exists None. split; [reflexivity|]. intros r e Hin. destruct (cds_post e) as [|v l] eqn:C; auto. exfalso.
    assert (In v (local_functions eorder E)) by (apply local_functions_in; exists r, e; rewrite C; split; [auto | left; auto]). rewrite EL in H. destruct H. }
  rewrite <- EL.
  set (cds := local_functions eorder E) in *.
  set (sorted := if conv then sort_by_direction dirof cds else vsort cds).
  assert (Sin : forall v, In v sorted <-> In v cds).
  { intros v. unfold sorted. destruct conv; split; apply Permutation_in; auto; [|symmetry|symmetry]; auto using dir_sort_perm. }
  assert (Loc : forall v, In v sorted -> local_cd v /\ forall b ix, In (b, ix) (dsets v) -> ~ In b (map fst E)).
  { intros v Hv. apply Sin in Hv. apply local_functions_in in Hv. destruct Hv as (r & e & Hin & Hv). apply (HE r e Hin). auto. }
  destruct (mapM_all _ _ DISC (fun v r => (forall M x, List.length x = ndim -> value J M x r = SEM M v x) /\
     (forall b ix, In (b, ix) (dsets r) -> exists ix', In (b, ix') (dsets v)) /\ syms KGridVar r = []) sorted) as (rs & Ers & F2).
  { intros v Hv. apply local_disc. apply Loc. auto. }
  rewrite Ers. cbn [bind]. eexists. split; [reflexivity|]. cbn beta iota.
  assert (Lrs : List.length rs = List.length sorted) by (clear - F2; induction F2; cbn; congruence).
  set (vars := map (fun i => ESym KGridVar (local_name i)) (seq 0 (List.length sorted))).
  assert (Lv : List.length sorted = List.length vars) by (unfold vars; rewrite map_length, seq_length; auto).
  set (E1 := map (fun re => (fst re, replace_all (combine sorted vars) (snd re))) E).
  assert (FE1 : map fst E1 = map fst E) by (unfold E1; rewrite map_map; reflexivity).
  set (q1 := map (fun gr => KEq (fst gr) (snd gr)) (combine vars rs)).
  assert (Q2 : map (fun re : string * expr => KEq (here ndim (fst re)) (fold_left (fun e dg => subst1 (fst dg) (snd dg) e) (combine sorted vars) (snd re))) E =
               map (fun re => KEq (here ndim (fst re)) (snd re)) E1) by (unfold E1; rewrite map_map; reflexivity).
  rewrite Q2. set (q2 := map (fun re => KEq (here ndim (fst re)) (snd re)) E1).
  split. { assert (H0 : In c0 cds) by (rewrite EL; left; auto). apply local_functions_in in H0. destruct H0 as (r & e & A & B). exists r, e, c0. auto. }
  assert (VarD : forall d g, In (d, g) (combine sorted vars) -> exists i, nth_error sorted i = Some d /\ g = ESym KGridVar (local_name i)).
  { intros d g H. apply combine_nth in H. destruct H as (i & A & B). exists i. split; auto. unfold vars in B. rewrite nth_error_map in B.
    destruct (nth_error (seq 0 (List.length sorted)) i) as [j|] eqn:Ej; [|discriminate]. apply nth_error_seq in Ej. cbn in B. injection B as <-. subst j. auto. }
  assert (D1 : forall e b, In b (dsets (replace_all (combine sorted vars) e)) -> In b (dsets e)).
  { intros e b. apply dsets_replace_all. intros d g H. destruct (VarD d g H) as (i & _ & ->). reflexivity. }
  assert (InE1 : forall r e1, In (r, e1) E1 -> exists e, In (r, e) E /\ e1 = replace_all (combine sorted vars) e).
  { intros r e1 H. apply in_map_iff in H. destruct H as ([r0 e0] & X & H). cbn [fst snd] in X. injection X as -> <-. eauto. }
  assert (Tg1 : forall q b ix, In q q1 -> ~ In (inl (b, ix)) (target q)).
  { intros q b ix H Ht. apply in_map_iff in H. destruct H as ([g r] & <- & H). apply in_combine_l in H. cbn [fst snd] in Ht.
    unfold vars in H. apply in_map_iff in H. destruct H as (i & <- & _). destruct Ht as [Ht | []]. discriminate. }
  assert (Tg2 : forall q b ix, In q q2 -> In (inl (b, ix)) (target q) -> In b (map fst E) /\ ix = zero).
  { intros q b ix H Ht. apply in_map_iff in H. destruct H as ([r e1] & <- & H). cbn [fst snd] in Ht. destruct Ht as [Ht | []]. injection Ht as <- <-.
    split; auto. rewrite <- FE1. change r with (fst (r, e1)). apply in_map. auto. }
  assert (Wr : forall b, wr (q1 ++ q2) b -> In b (map fst E)).
  { intros b (q & ix & Hq & Ht). apply in_app_iff in Hq. destruct Hq as [Hq | Hq]; [exfalso; eapply Tg1; eauto | apply (Tg2 q b ix Hq Ht)]. }
  assert (Wdec : forall b, wr (q1 ++ q2) b \/ ~ wr (q1 ++ q2) b).
  { intros b. destruct (in_dec string_dec b (map fst E)) as [H | H]; [left | right; auto].
    rewrite <- FE1 in H. apply in_map_iff in H. destruct H as ([r e] & <- & H). exists (KEq (here ndim r) e), zero. split; [|left; reflexivity].
    apply in_app_iff. right. unfold q2. apply (in_map (fun re => KEq (here ndim (fst re)) (snd re)) _ (r, e)). auto. }
  assert (Own : own ndim (q1 ++ q2)).
  { split.
    - intros q b ix Hq Ht. apply in_app_iff in Hq. destruct Hq as [Hq | Hq]; [exfalso; eapply Tg1; eauto | apply (Tg2 q b ix Hq Ht)].
    - intros q b ix Hq Hr W. apply Wr in W. apply in_app_iff in Hq. destruct Hq as [Hq | Hq]; apply in_map_iff in Hq.
      + destruct Hq as ([g r] & <- & Hq). cbn [fst snd reads] in Hr. apply in_app_iff in Hr. destruct Hr as [Hr | Hr];
          apply in_map_iff in Hr; destruct Hr as (z & X & Hr); [|discriminate]. injection X as ->.
        apply combine_nth in Hq. destruct Hq as (i & A & B).
        destruct (nth_error sorted i) as [v|] eqn:Ev; [|apply nth_error_None in Ev; assert (nth_error rs i = None) by (apply nth_error_None; lia); congruence].
        destruct (forall2_nth _ _ _ _ _ F2 i v Ev) as (r' & Er' & _ & Dv & _). assert (r' = r) by congruence. subst r'.
        destruct (Dv b ix Hr) as (ix' & Hb). exfalso. eapply (proj2 (Loc v (nth_error_In _ _ Ev))); eauto.
      + destruct Hq as ([r e1] & <- & Hq). cbn [fst snd reads] in Hr. apply in_app_iff in Hr. destruct Hr as [Hr | Hr];
          apply in_map_iff in Hr; destruct Hr as (z & X & Hr); [|discriminate]. injection X as ->.
        destruct (InE1 r e1 Hq) as (e & He & ->). apply D1 in Hr. apply (proj1 (proj2 (HE r e He)) b ix Hr). }
  intros pts M NDp Lp. split.
  2: { intros b x Nb. apply loop_frame. intros W. apply Nb. auto. }
  intros r e x Hin Hx. rewrite (loop_run J ndim (q1 ++ q2) Own Wdec) by auto.
  destruct (in_dec (list_eq_dec Z.eq_dec) x pts) as [_ | N]; [|contradiction].
  assert (Lx := Lp x Hx). unfold run_point. rewrite fold_left_app.
  destruct (locals_run J x M rs 0 (isym J KGridVar)) as (L & EL' & AL & _).
  { intros r' Hr'. apply In_nth_error in Hr'. destruct Hr' as (i & Hr').
    destruct (nth_error sorted i) as [v|] eqn:Ev; [|apply nth_error_None in Ev; assert (nth_error rs i = None) by (apply nth_error_None; lia); congruence].
    destruct (forall2_nth _ _ _ _ _ F2 i v Ev) as (r'' & Er' & _ & _ & G). congruence. }
  rewrite Lrs in EL'. fold vars q1 in EL'. rewrite EL'.
  assert (InE : In (r, replace_all (combine sorted vars) e) E1).
  { unfold E1. apply (in_map (fun re : string * expr => (fst re, replace_all (combine sorted vars) (snd re))) _ (r, e)). auto. }
  rewrite (sets_run J ndim x Lx E1 M L) with (e := replace_all (combine sorted vars) e); auto; [|rewrite FE1; auto|].
  2: { intros r1 e1 b ix H1 Hb. destruct (InE1 r1 e1 H1) as (e' & He' & ->). apply D1 in Hb. rewrite FE1.
       destruct (proj1 (proj2 (proj2 (HE r1 e' He'))) b ix Hb) as [-> | N]; auto. right. split; auto. apply (proj1 (proj2 (HE r1 e' He')) r1 ix Hb). }
  destruct (HE r e Hin) as (Ge & Pe & Ae & Ce).
  destruct (replace_all_ok k dirof h (with_locals J L) M x (combine sorted vars) e) as [A B].
  - intros v Hv. apply Ce in Hv. apply Hv.
  - intros d g Hdg. destruct (VarD d g Hdg) as (i & Hi & ->). destruct (Loc d (nth_error_In _ _ Hi)) as ((Pd & Pld & Fld & Gd) & _).
    destruct (forall2_nth _ _ _ _ _ F2 i d Hi) as (r' & Er' & Vr & _). split.
    + destruct Pd as (a & n & m & -> & _). reflexivity.
    + exists (local_name i). split; auto. cbn [isym with_locals]. rewrite (AL i r' Er' : L (local_name i) = _). rewrite Vr by auto. symmetry. apply sem_locals. auto.
  - rewrite sem_flat in A.
    + rewrite <- (sem_locals J k dirof h L M e x Ge). rewrite <- A. reflexivity.
    + destruct (cds_post (replace_all (combine sorted vars) e)) as [|v l] eqn:C; auto. exfalso.
      assert (Hv : In v (v :: l)) by (left; auto). apply B in Hv. destruct Hv as (H1 & H2). apply H2. rewrite fst_combine by auto.
      apply Sin. apply local_functions_in. eauto.
Qed.
End proofs.
