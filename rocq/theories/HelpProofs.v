(* Proofs for C88 and C89. *)
From Verif Require Import Base BaseProofs CodeModel CodeProofs AlgModel KernelModel KernelProofs HelpModel HelpSpec.
Local Open Scope list_scope.

Lemma occurs_has : forall w s, occurs_in w s = true <-> has w s.
Proof.
  intros w. induction s as [|c s IH]; cbn [occurs_in].
  - destruct (strip_prefix w []) as [r|] eqn:E.
    + apply strip_prefix_spec in E. split; auto. intros _. exists [], r. exact E.
    + split; [discriminate|]. intros (p & q & H). exfalso.
      destruct p; [|discriminate]. cbn in H. symmetry in H. apply app_eq_nil in H. destruct H as [-> ->]. discriminate.
  - destruct (strip_prefix w (c :: s)) as [r|] eqn:E.
    + apply strip_prefix_spec in E. split; auto. intros _. exists [], r. exact E.
    + rewrite IH. split.
      * intros (p & q & ->). exists (c :: p), q. reflexivity.
      * intros (p & q & H). destruct p as [|d p].
        -- cbn in H. assert (E' : strip_prefix w (c :: s) = Some q) by (apply strip_prefix_spec; exact H). congruence.
        -- injection H as -> ->. exists p, q. reflexivity.
Qed.
Lemma starts_dec : forall l, occurs_in check_string l = true <-> starts_loop l.
Proof. intros l. apply occurs_has. Qed.

(* "0;" in a concatenation *)
Notation zs := (T "0;").
Lemma zs_app : forall a b, has zs (a ++ b) -> (forall b', b <> ";"%char :: b') -> has zs a \/ has zs b.
Proof.
  induction a as [|c a IH]; intros b H Hb; auto.
  destruct H as (p & q & H). destruct p as [|d p].
  - cbn in H. injection H as Hc H. subst c. destruct a as [|e a].
    + cbn in H. exfalso. exact (Hb _ H).
    + cbn in H. injection H as He _. subst e. left. exists [], a. reflexivity.
  - cbn in H. injection H as _ H. destruct (IH b) as [(p' & q' & E) | E]; auto.
    + exists p, q. exact H.
    + left. exists (c :: p'), q'. rewrite E. reflexivity.
Qed.
Lemma zs_semi : forall a, has zs a -> In ";"%char a.
Proof. intros a (p & q & ->). apply in_app_iff. right. right. left. reflexivity. Qed.
Lemma digits_nosemi : forall s, all_digits s = true -> ~ In ";"%char (T s).
Proof.
  induction s as [|c s IH]; cbn; intros H; auto.
  apply andb_true_iff in H. destruct H as [H1 H2]. intros [-> | Hi]; [discriminate | exact (IH H2 Hi)].
Qed.
Lemma T_app : forall a b, T (append a b) = T a ++ T b.
Proof. induction a; intros b; cbn; auto. unfold T in *. cbn. f_equal. auto. Qed.
Lemma decZ_nosemi : forall z, ~ In ";"%char (T (decZ z)).
Proof.
  intros z. unfold decZ. destruct (z <? 0)%Z.
  - rewrite T_app. intros H. apply in_app_iff in H. destruct H as [[H|[]]|H]; [discriminate|].
    exact (digits_nosemi _ (all_digits_dec _) H).
  - apply digits_nosemi, all_digits_dec.
Qed.
Lemma decimal_decZ : forall z number, decimal z number -> number = T (decZ z).
Proof.
  intros z number (n & [[-> ->]|[-> ->]]); unfold decZ.
  - destruct (Z.ltb_spec (Z.of_nat n) 0) as [H|H]; [lia|]. rewrite Nat2Z.id. reflexivity.
  - destruct (Z.ltb_spec (- Z.of_nat (S n)) 0) as [H|H]; [|lia].
    rewrite Z.opp_involutive, Nat2Z.id. reflexivity.
Qed.
Lemma no_zs : forall s, occurs_in zs s = false -> ~ has zs s.
Proof. intros s H Hh. apply occurs_has in Hh. congruence. Qed.

Lemma ins_no_zs : forall every nan, array_name nan -> ~ has zs (appended every nan).
Proof.
  intros every nan Hn H. unfold appended in H.
  apply zs_app in H.
  2:{ intros b' E. destruct (T (decZ every)) as [|c r] eqn:Ed; [discriminate E|].
      cbn in E. injection E as -> _. apply (decZ_nosemi every). rewrite Ed. left. reflexivity. }
  destruct H as [H|H]; [revert H; apply no_zs; reflexivity|].
  apply zs_app in H; [|intros b' E; discriminate E].
  destruct H as [H|H]; [exact (decZ_nosemi every (zs_semi _ H))|].
  destruct nan as [name|]; [|revert H; apply no_zs; reflexivity].
  cbn [array_name] in Hn.
  do 4 (apply zs_app in H; [|intros b' E; discriminate E];
    destruct H as [H|H]; [revert H; apply no_zs; reflexivity|]).
  apply zs_app in H.
  2:{ intros b' E. destruct name as [|c r]; [discriminate E|].
      cbn in E. injection E as -> _. apply Hn. left. reflexivity. }
  destruct H as [H|H]; [revert H; apply no_zs; reflexivity|].
  apply zs_app in H; [|intros b' E; discriminate E].
  destruct H as [H|H]; [exact (Hn (zs_semi _ H)) | revert H; apply no_zs; reflexivity].
Qed.

(* A match in a line with the report added is in the line itself. *)
Lemma app_split : forall {A} (a b p q : list A), a ++ b = p ++ q ->
  (exists m, a = p ++ m /\ q = m ++ b) \/ (exists m, p = a ++ m /\ b = m ++ q).
Proof.
  intros A. induction a as [|x a IH]; intros b p q H.
  - right. exists p. split; auto.
  - destruct p as [|y p]; [left; exists (x :: a); auto|].
    cbn in H. injection H as -> H. destruct (IH _ _ _ H) as [(m & -> & ->)|(m & -> & ->)];
      [left; exists m | right; exists m]; auto.
Qed.
Lemma starts_app : forall a every nan, array_name nan ->
  starts_loop (a ++ appended every nan) -> starts_loop a.
Proof.
  intros a every nan Hn (p & q & H). rewrite app_assoc in H.
  destruct (app_split _ _ _ _ H) as [(m & E & _)|(m & E & E2)].
  - exists p, m. rewrite <- app_assoc in E. exact E.
  - pose proof (ins_no_zs every nan Hn) as Hz.
    change (T "int iter=0;") with (T "int iter=" ++ T "0;") in E. rewrite app_assoc in E.
    symmetry in E. destruct (app_split _ _ _ _ E) as [(m' & Ea & Em)|(m' & Ea & Em)].
    + destruct m' as [|x m'].
      * exfalso. apply Hz. exists [], q. cbn in Em. rewrite E2, <- Em. reflexivity.
      * destruct m' as [|y m'].
        -- exfalso. cbn in Em. injection Em as _ <-. unfold appended in E2. discriminate E2.
        -- cbn in Em. injection Em as <- <- Em. symmetry in Em. apply app_eq_nil in Em. destruct Em as [-> _].
           exists p, []. rewrite Ea, app_nil_r, <- app_assoc. reflexivity.
    + exfalso. apply Hz. exists m', q. rewrite E2, Em, <- app_assoc. reflexivity.
Qed.
Lemma starts_app_nil : forall a, starts_loop (a ++ [NL]) -> starts_loop a.
Proof.
  intros a (p & q & H). rewrite app_assoc in H.
  destruct (app_split _ _ _ _ H) as [(m & E & _)|(m & E & E2)].
  - exists p, m. rewrite <- app_assoc in E. exact E.
  - destruct m as [|x m].
    + exists p, []. rewrite app_nil_r in E. rewrite app_nil_r. auto.
    + exfalso. cbn in E2. injection E2 as <- E2. symmetry in E2. apply app_eq_nil in E2. destruct E2 as [-> ->].
      change (T "int iter=0;") with (T "int iter=0" ++ T ";") in E. rewrite app_assoc in E.
      apply app_inj_tail in E. destruct E as [_ E]. discriminate E.
Qed.
Lemma starts_mono : forall a b, starts_loop a -> starts_loop (a ++ b).
Proof. intros a b (p & q & ->). exists p, (q ++ b). rewrite <- !app_assoc. reflexivity. Qed.

(* The lines of a text. *)
Lemma readlines_line : forall l s, one_line l -> readlines (l ++ NL :: s) = (l ++ [NL]) :: readlines s.
Proof.
  induction l as [|c l IH]; intros s Hl; cbn [app readlines].
  - destruct (ascii_dec NL NL); [reflexivity | congruence].
  - destruct (ascii_dec c NL) as [->|N]; [exfalso; apply Hl; left; reflexivity|].
    rewrite IH; [reflexivity|]. intros H; apply Hl; right; exact H.
Qed.
Lemma readlines_last : forall t, one_line t -> t <> [] -> readlines t = [t].
Proof.
  induction t as [|c t IH]; intros Ht N; [congruence|]. cbn [readlines].
  destruct (ascii_dec c NL) as [->|N']; [exfalso; apply Ht; left; reflexivity|].
  destruct t as [|d t]; [reflexivity|].
  rewrite IH; [reflexivity | intros H; apply Ht; right; exact H | discriminate].
Qed.
Definition tail (t : text) : list text := match t with [] => [] | _ => [t] end.
Lemma readlines_text : forall ls t, (forall l, In l ls -> one_line l) -> one_line t ->
  readlines (unlines ls ++ t) = map (fun l => l ++ [NL]) ls ++ tail t.
Proof.
  induction ls as [|l ls IH]; intros t Hl Ht.
  - cbn. destruct t as [|c t]; [reflexivity|]. apply readlines_last; [exact Ht | discriminate].
  - unfold unlines. cbn [map List.concat]. rewrite <- !app_assoc. cbn [app].
    rewrite readlines_line by (apply Hl; left; reflexivity).
    fold (unlines ls). rewrite IH; [reflexivity | intros x Hx; apply Hl; right; exact Hx | exact Ht].
Qed.

(* ---- the loop ---- *)
Definition startsb (l : text) : bool := occurs_in check_string l.
Fixpoint annotate (rep : list text) (prev : bool) (ls : list text) : list (list text) :=
  match ls with
  | [] => []
  | l :: ls => (l :: if prev then rep else []) :: annotate rep (startsb l) ls
  end.
Fixpoint prev_of (prev : bool) (ls : list text) : bool :=
  match ls with [] => prev | l :: ls => prev_of (startsb l) ls end.

Lemma appended_report : forall every nan,
  appended every nan = unlines (report (T (decZ every)) nan).
Proof.
  intros every nan. unfold appended, unlines, report. destruct nan as [name|]; cbn [app map List.concat];
    rewrite <- ?app_assoc; reflexivity.
Qed.
Lemma starts_line : forall every nan l (prev : bool), array_name nan ->
  occurs_in check_string ((l ++ [NL]) ++ (if prev then appended every nan else [])) = startsb l.
Proof.
  intros every nan l prev Hn. unfold startsb.
  destruct (occurs_in check_string l) eqn:E.
  - apply starts_dec. rewrite <- app_assoc. apply starts_mono, starts_dec, E.
  - destruct (occurs_in check_string ((l ++ [NL]) ++ _)) eqn:E2; auto.
    apply starts_dec in E2. rewrite <- E. symmetry. apply starts_dec. apply starts_app_nil.
    destruct prev; [exact (starts_app _ _ _ Hn E2) | rewrite app_nil_r in E2; exact E2].
Qed.
Lemma starts_tail : forall every nan l (prev : bool), array_name nan ->
  occurs_in check_string (l ++ (if prev then appended every nan else [])) = startsb l.
Proof.
  intros every nan l prev Hn. unfold startsb.
  destruct (occurs_in check_string l) eqn:E.
  - apply starts_dec. apply starts_mono, starts_dec, E.
  - destruct (occurs_in check_string (l ++ _)) eqn:E2; auto.
    apply starts_dec in E2. rewrite <- E. symmetry. apply starts_dec.
    destruct prev; [exact (starts_app _ _ _ Hn E2) | rewrite app_nil_r in E2; exact E2].
Qed.

Definition finish (every : Z) (nan : option text) (last : bool) (t : text) : result (list text) :=
  match t with
  | [] => if last then Err IndexErr else Ok []
  | _ => if startsb t then Err IndexErr else Ok [t ++ if last then appended every nan else []]
  end.
Lemma print_loop_spec : forall every nan t, array_name nan -> forall ls prev,
  (ls <> [] \/ t <> [] \/ prev = false) ->
  print_loop (appended every nan) (if prev then appended every nan else [])
      (map (fun l => l ++ [NL]) ls ++ tail t) =
  bind (finish every nan (prev_of prev ls) t) (fun r =>
    Ok (map unlines (annotate (report (T (decZ every)) nan) prev ls) ++ r)).
Proof.
  intros every nan t Hn. induction ls as [|l ls IH]; intros prev H.
  - cbn [map app annotate prev_of]. destruct t as [|c t].
    + destruct H as [H|[H|H]]; try congruence. subst prev. reflexivity.
    + cbn [tail print_loop finish]. rewrite starts_tail by exact Hn.
      destruct (startsb (c :: t)); reflexivity.
  - cbn [map app print_loop annotate prev_of]. rewrite starts_line by exact Hn.
    assert (El : (l ++ [NL]) ++ (if prev then appended every nan else []) =
                 unlines (l :: if prev then report (T (decZ every)) nan else [])).
    { rewrite appended_report. unfold unlines. cbn [map List.concat]. destruct prev; reflexivity. }
    change (list ascii) with text in *. rewrite El. destruct (startsb l) eqn:Es.
    + specialize (IH true). cbv iota in IH.
      match goal with |- context [match ?m with [] => Err IndexErr | _ :: _ => _ end] =>
        set (lines := m) in *; assert (Ex : lines = m) by reflexivity; clearbody lines end.
      destruct lines as [|x xs]; symmetry in Ex.
      * apply app_eq_nil in Ex. destruct Ex as [E1 E2]. destruct ls; [|discriminate E1].
        destruct t; [|discriminate E2]. reflexivity.
      * rewrite IH.
        2:{ destruct ls as [|? ?]; [|left; discriminate]. right. left. intros ->. discriminate Ex. }
        destruct (finish _ _ _ _); reflexivity.
    + specialize (IH false). cbv iota in IH. rewrite IH by auto.
      destruct (finish _ _ _ _); reflexivity.
Qed.

Lemma annotate_reported : forall rep ls prev,
  List.length (annotate rep prev ls) = List.length ls /\
  forall i l, nth_error ls i = Some l ->
    nth_error (annotate rep prev ls) i =
    Some (l :: if (match i with 0 => prev | S j => match nth_error ls j with Some k => startsb k | None => false end end)
               then rep else []).
Proof.
  intros rep. induction ls as [|x ls IH]; intros prev; cbn [annotate].
  - split; auto. intros [|i] l H; discriminate H.
  - destruct (IH (startsb x)) as [H1 H2]. split; [cbn; f_equal; exact H1|].
    intros [|i] l H; cbn [nth_error] in *.
    + injection H as ->. reflexivity.
    + rewrite (H2 _ _ H). destruct i; reflexivity.
Qed.
Lemma reported_annotate : forall rep ls, reported rep ls (annotate rep false ls).
Proof.
  intros rep ls. destruct (annotate_reported rep ls false) as [H1 H2]. split; auto.
  intros i l H. rewrite (H2 _ _ H). split.
  - intros (j & k & -> & Hk & Hs). rewrite Hk. rewrite (proj2 (starts_dec k) Hs : startsb k = true). reflexivity.
  - intros N. destruct i as [|j]; [reflexivity|].
    destruct (nth_error ls j) as [k|] eqn:Ek; [|reflexivity].
    destruct (startsb k) eqn:Es; [|reflexivity]. exfalso. apply N. exists j, k. repeat split; auto.
    apply starts_dec, Es.
Qed.
Lemma prev_of_app : forall ls l prev, prev_of prev (ls ++ [l]) = startsb l.
Proof. induction ls as [|x ls IH]; intros l prev; cbn; auto. Qed.
Lemma prev_of_follows : forall ls, prev_of false ls = true <-> follows_start ls (List.length ls).
Proof.
  intros ls. destruct ls as [|x xs] using rev_ind.
  - cbn. split; [discriminate|]. intros (j & l & E & _). discriminate E.
  - clear IHxs. rewrite prev_of_app, app_length. cbn [List.length]. rewrite Nat.add_1_r. split.
    + intros H. exists (List.length xs), x. repeat split; auto.
      * rewrite nth_error_app2, Nat.sub_diag by auto. reflexivity.
      * apply starts_dec, H.
    + intros (j & l & E & Hl & Hs). injection E as <-. rewrite nth_error_app2, Nat.sub_diag in Hl by auto.
      injection Hl as ->. apply starts_dec, Hs.
Qed.
Lemma concat_unlines : forall out, List.concat (map unlines out) = unlines (List.concat out).
Proof.
  induction out as [|x out IH]; auto. cbn [map List.concat]. rewrite IH. unfold unlines.
  rewrite map_app, concat_app. reflexivity.
Qed.

Lemma print_spec : forall every nan ls t, array_name nan ->
  (forall l, In l ls -> one_line l) -> one_line t ->
  print_iteration_ops every nan (unlines ls ++ t) =
  bind (finish every nan (prev_of false ls) t) (fun r =>
    Ok (unlines (List.concat (annotate (report (T (decZ every)) nan) false ls)) ++ List.concat r)).
Proof.
  intros every nan ls t Hn Hl Ht. unfold print_iteration_ops. rewrite (readlines_text _ _ Hl Ht).
  pose proof (print_loop_spec every nan t Hn ls false (or_intror (or_intror eq_refl))) as H.
  cbv iota in H. rewrite H. destruct (finish _ _ _ _) as [r|e]; [|reflexivity].
  cbn [bind]. rewrite concat_app, concat_unlines. reflexivity.
Qed.

(* ---- C89 ---- *)
Section Data.
  Variable A : Type.
  Lemma h5_loop_plane : forall m0 p0 m1 p1 npoints b (l : list (A * string)) acc,
    NoDup (map h5_name acc ++ map (fun x => dsetbase_name (snd x) b) l) ->
    h5_loop 2 b [[m0; p0]; [m1; p1]] npoints acc l =
    Ok (acc ++ map (fun x => {| h5_name := dsetbase_name (snd x) b; h5_data := fst x;
                                h5_info := plane_meta m0 p0 m1 p1 npoints b |}) l).
  Proof.
    intros m0 p0 m1 p1 npoints b. induction l as [|[a n] l IH]; intros acc H.
    - cbn. rewrite app_nil_r. reflexivity.
    - cbn [h5_loop map fst snd] in *. destruct (in_dec string_dec _ _) as [Hi|Hi].
      + exfalso. apply NoDup_remove_2 in H. apply H, in_app_iff. left. exact Hi.
      + cbn [set_hdf5_metadata]. unfold set_hdf5_metadata. cbn.
        rewrite IH.
        * rewrite <- app_assoc. reflexivity.
        * rewrite map_app. cbn [map h5_name]. rewrite <- app_assoc. exact H.
  Qed.
  Lemma names_nodup : forall b names, NoDup names -> NoDup (map (fun n => dsetbase_name n b) names).
  Proof.
    intros b. induction 1; cbn; constructor; auto. intros Hi. apply in_map_iff in Hi.
    destruct Hi as (n & E & Hn). apply dsetbase_name_inj in E. destruct E as [-> _]. auto.
  Qed.
  Lemma combine_snd : forall (arrays : list A) (names : list string),
    List.length arrays = List.length names -> map snd (combine arrays names) = names.
  Proof. induction arrays; destruct names; cbn; intros H; try discriminate; auto. f_equal. auto. Qed.
  Lemma nth_combine : forall (arrays : list A) (names : list string) k a n,
    nth_error arrays k = Some a -> nth_error names k = Some n -> In (a, n) (combine arrays names).
  Proof.
    induction arrays as [|x arrays IH]; destruct names as [|y names]; intros [|k] a n H1 H2; try discriminate.
    - cbn in *. left. congruence.
    - cbn in *. right. eauto.
  Qed.

  Lemma output_plane : forall (arrays : list A) names m0 p0 m1 p1 npoints b fname,
    List.length arrays = List.length names -> NoDup names ->
    exists file, output_hdf5 arrays names [[m0; p0]; [m1; p1]] npoints 2 b fname = H5File file /\
      h5_fname file = match fname with Some f => f | None => "data.h5"%string end /\
      h5_group file = blockname b /\
      map h5_name (h5_dsets file) = map (fun n => dsetbase_name n b) names /\
      forall k n a, nth_error names k = Some n -> nth_error arrays k = Some a ->
        holds file (dsetbase_name n b) a (plane_meta m0 p0 m1 p1 npoints b).
  Proof.
    intros arrays names m0 p0 m1 p1 npoints b fname Hl Hd.
    assert (Em : map (fun x : A * string => dsetbase_name (snd x) b) (combine arrays names) =
                 map (fun n => dsetbase_name n b) names).
    { rewrite <- (combine_snd arrays names Hl) at 2. rewrite map_map. reflexivity. }
    assert (Hn : NoDup (map (fun x : A * string => dsetbase_name (snd x) b) (combine arrays names))).
    { rewrite Em. apply names_nodup, Hd. }
    unfold output_hdf5. rewrite Hl, Nat.eqb_refl. cbn [negb].
    rewrite h5_loop_plane by exact Hn. cbn [app].
    eexists. split; [reflexivity|]. cbn [h5_fname h5_group h5_dsets].
    split; [reflexivity|]. split; [reflexivity|].
    assert (Emm : forall l, map h5_name (map (fun x : A * string => {| h5_name := dsetbase_name (snd x) b;
       h5_data := fst x; h5_info := plane_meta m0 p0 m1 p1 npoints b |}) l) = map (fun x => dsetbase_name (snd x) b) l).
    { intros l. rewrite map_map. reflexivity. }
    split; [rewrite Emm; exact Em|].
    intros k n a Hk Ha. pose proof (nth_combine _ _ _ _ _ Ha Hk) as Hi.
    eexists. split; [apply in_map_iff; exists (a, n); split; [reflexivity | exact Hi]|].
    cbn [h5_name h5_data h5_info fst snd]. repeat split.
    intros y Hy Ey. apply in_map_iff in Hy. destruct Hy as ([a' n'] & <- & Hy). cbn [fst snd h5_name] in *.
    apply dsetbase_name_inj in Ey. destruct Ey as [-> _].
    assert (a' = a) as ->; [|reflexivity].
    clear - Hd Hi Hy Hl. revert names Hl Hd Hi Hy. induction arrays as [|x xs IH]; intros [|y ys] Hl Hd Hi Hy; cbn in *; try contradiction.
    inversion Hd as [|? ? Hy' Hd']; subst. destruct Hi as [Hi|Hi], Hy as [Hy|Hy].
    - congruence.
    - injection Hi as _ <-. exfalso. apply Hy'. apply (in_combine_r _ _ _ _ Hy).
    - injection Hy as _ <-. exfalso. apply Hy'. apply (in_combine_r _ _ _ _ Hi).
    - apply (IH ys); auto.
  Qed.
End Data.

Lemma modify_keys : forall k f d, map fst (modify k f d) = map fst d.
Proof. intros k f. induction d as [|[k' e] d IH]; cbn; auto. destruct (string_dec k k'); cbn; congruence. Qed.
Lemma get_in : forall k d, In k (map fst d) <-> exists e, get k d = Some e.
Proof.
  intros k. induction d as [|[k' e] d IH]; cbn.
  - split; [contradiction | intros (e & H); discriminate].
  - destruct (string_dec k k') as [<-|N].
    + split; intros _; eauto.
    + rewrite <- IH. split; [intros [->|H]; [congruence | exact H] | auto].
Qed.
Lemma get_modify : forall k k' f d,
  get k (modify k' f d) = if string_dec k k' then option_map f (get k d) else get k d.
Proof.
  intros k k' f. induction d as [|[k1 e] d IH]; cbn.
  - destruct (string_dec k k'); reflexivity.
  - destruct (string_dec k' k1) as [<-|N]; cbn.
    + destruct (string_dec k k') as [<-|N']; reflexivity.
    + rewrite IH. destruct (string_dec k k1) as [<-|N1]; [|reflexivity].
      destruct (string_dec k k'); [congruence | reflexivity].
Qed.

Definition marked (file : string) (ars : list string) (k : string) (e : entry) : entry :=
  if in_dec string_dec k ars then set_read file e else e.
Lemma set_read_twice : forall f e, set_read f (set_read f e) = set_read f e.
Proof. destruct e; reflexivity. Qed.
Lemma read_loop_known : forall file ars dset d, (forall a, In a ars -> In a (map fst d)) ->
  exists d', read_loop file dset d ars = Ok d' /\ map fst d' = map fst d /\
    forall k, get k d' = option_map (marked file ars k) (get k d).
Proof.
  intros file. induction ars as [|a ars IH]; intros dset d H.
  - exists d. split; [reflexivity|]. split; [reflexivity|]. intros k. destruct (get k d); reflexivity.
  - cbn [read_loop]. destruct (proj1 (get_in a d) (H a (or_introl eq_refl))) as (e & E). rewrite E.
    destruct (IH (Some a) (modify a (set_read file) d)) as (d' & H1 & H2 & H3).
    { intros x Hx. rewrite modify_keys. apply H. right. exact Hx. }
    exists d'. split; [exact H1|]. split; [rewrite H2; apply modify_keys|].
    intros k. rewrite H3, get_modify. unfold marked. destruct (string_dec k a) as [->|N].
    + rewrite E. cbn [option_map]. destruct (in_dec string_dec a (a :: ars)) as [_|N]; [|exfalso; apply N; left; reflexivity].
      destruct (in_dec string_dec a ars); [rewrite set_read_twice|]; reflexivity.
    + destruct (get k d); [|reflexivity]. cbn [option_map].
      destruct (in_dec string_dec k ars) as [Hk|Hk], (in_dec string_dec k (a :: ars)) as [Hk'|Hk']; try reflexivity.
      * exfalso. apply Hk'. right. exact Hk.
      * exfalso. destruct Hk' as [->|Hk']; [congruence | exact (Hk Hk')].
Qed.

Lemma update_writes : forall ios d, (forall i, In i ios -> writes_only i) -> update_inputs ios d = Ok d.
Proof.
  induction ios as [|i ios IH]; intros d H; cbn [update_inputs]; auto.
  unfold set_read_from_hdf5_arrays. rewrite (H i (or_introl eq_refl)). cbn.
  apply IH. intros j Hj. apply H. right. exact Hj.
Qed.
Lemma update_app : forall a b d, update_inputs (a ++ b) d = bind (update_inputs a d) (update_inputs b).
Proof.
  induction a as [|i a IH]; intros b d; cbn [app update_inputs]; auto.
  destruct (set_read_from_hdf5_arrays i d); cbn [bind]; auto.
Qed.

(* Declarations of a dictionary of dataset bases. *)
Lemma declare_ok : forall b d, (forall k e, In (k, e) d -> exists r f, e = EBase r f /\ (r = true -> f <> None)) ->
  exists ds, declare_datasets b d = Ok ds /\ map declared ds = map fst d /\
    forall x, In x ds <-> exists k e, In (k, e) d /\ declare_dataset b k e = Ok x.
Proof.
  intros b. induction d as [|[k e] d IH]; intros H.
  - exists []. split; [reflexivity|]. split; [reflexivity|]. intros x. split; [contradiction | intros (k & e & [] & _)].
  - destruct IH as (ds & H1 & H2 & H3); [intros k' e' Hi; apply (H k' e'); right; exact Hi|].
    destruct (H k e (or_introl eq_refl)) as (r & f & -> & Hf).
    assert (exists x, declare_dataset b k (EBase r f) = Ok x /\ declared x = k) as (x & Ex & Dx).
    { destruct r; cbn; [destruct f as [f|]; [eexists; split; reflexivity | exfalso; apply Hf; reflexivity] | eexists; split; reflexivity]. }
    exists (x :: ds). cbn [declare_datasets]. rewrite Ex. cbn [bind]. rewrite H1. cbn [bind].
    split; [reflexivity|]. split; [cbn; rewrite Dx, H2; reflexivity|].
    intros y. split.
    + intros [<-|Hy].
      * exists k, (EBase r f). split; [left; reflexivity | exact Ex].
      * apply H3 in Hy. destruct Hy as (k' & e' & Hi & E). exists k', e'. split; [right; exact Hi | exact E].
    + intros (k' & e' & [Hi|Hi] & E).
      * injection Hi as <- <-. left. congruence.
      * right. apply H3. exists k', e'. split; assumption.
Qed.
Lemma get_nodup : forall d k e, NoDup (map fst d) -> (get k d = Some e <-> In (k, e) d).
Proof.
  induction d as [|[k1 e1] d IH]; cbn; intros k e H.
  - split; [discriminate | contradiction].
  - inversion H as [|? ? Hn Hd]; subst. destruct (string_dec k k1) as [->|N].
    + split; [intros E; left; congruence|]. intros [E|Hi]; [congruence|].
      exfalso. apply Hn. apply in_map_iff. exists (k1, e). auto.
    + rewrite IH by exact Hd. split; [auto|]. intros [E|Hi]; [congruence | exact Hi].
Qed.

(* What the program declares for a request to read. *)
Lemma read_declarations : forall b ios1 ios2 names save fname d,
  (forall j, In j (ios1 ++ ios2) -> writes_only j) ->
  kernel_datasets d -> (forall n, In n names -> In n (map fst d)) ->
  exists i ds, iohdf5 names save (read_request fname) = Ok i /\
    declarations b (ios1 ++ i :: ios2) d = Ok ds /\ map declared ds = map fst d /\
    forall n, In n (map fst d) ->
      (In n names -> In (DRead (blockname b) n (match fname with Some f => lower f | None => "data.h5"%string end)) ds) /\
      (~ In n names -> In (DPlain (blockname b) n) ds).
Proof.
  intros b ios1 ios2 names save fname d Hw [Hd He] Hn.
  set (file := match fname with Some f => lower f | None => "data.h5"%string end).
  assert (exists i, iohdf5 names save (read_request fname) = Ok i /\ io_arrays i = names /\
     lookup "iotype" (io_kw i) = Some "read"%string /\
     (match lookup "filename" (io_kw i) with Some f => f | None => "data.h5"%string end) = file) as (i & Ei & Ea & Et & Ef).
  { unfold file. destruct fname as [f|]; eexists; (split; [reflexivity|]); repeat split. }
  destruct (read_loop_known file names None d Hn) as (d' & E1 & E2 & E3).
  assert (Eu : update_inputs (ios1 ++ i :: ios2) d = Ok d').
  { rewrite update_app, update_writes by (intros j Hj; apply Hw, in_app_iff; auto). cbn [bind update_inputs].
    unfold set_read_from_hdf5_arrays. rewrite Et. cbv zeta. rewrite Ef, Ea, E1.
    destruct (string_dec "read" "read"); [|congruence]. cbn [bind].
    apply update_writes. intros j Hj; apply Hw, in_app_iff; auto. }
  assert (Hd' : NoDup (map fst d')) by (rewrite E2; exact Hd).
  assert (Hent : forall k e, In (k, e) d' -> e = if in_dec string_dec k names then EBase true (Some file) else EBase false None).
  { intros k e Hi. apply (get_nodup _ _ _ Hd') in Hi. rewrite E3 in Hi.
    destruct (get k d) as [e0|] eqn:Eg; [|discriminate]. apply (get_nodup _ _ _ Hd) in Eg.
    rewrite (He _ _ Eg) in Hi. cbn [option_map] in Hi. injection Hi as <-. unfold marked.
    destruct (in_dec string_dec k names); reflexivity. }
  destruct (declare_ok b d') as (ds & D1 & D2 & D3).
  { intros k e Hi. rewrite (Hent _ _ Hi). destruct (in_dec string_dec k names); do 2 eexists; (split; [reflexivity|]); discriminate. }
  exists i, ds. split; [exact Ei|]. unfold declarations. rewrite Eu. cbn [bind].
  split; [exact D1|]. split; [congruence|].
  intros n Hin. rewrite <- E2 in Hin. apply get_in in Hin. destruct Hin as (e & Hg).
  apply (get_nodup _ _ _ Hd') in Hg. pose proof (Hent _ _ Hg) as ->.
  split; intros Hnn; apply D3; do 2 eexists; (split; [exact Hg|]);
    destruct (in_dec string_dec n names); try contradiction; reflexivity.
Qed.

(* An array no kernel uses *)
Lemma declare_access : forall b d k, In (k, EAccess) d -> exists e, declare_datasets b d = Err e.
Proof.
  intros b. induction d as [|[k' e'] d IH]; intros k H; [contradiction|].
  cbn [declare_datasets]. destruct H as [H|H].
  - injection H as -> ->. exists TypeErr. reflexivity.
  - destruct (IH _ H) as (e & E). destruct (declare_dataset b k' e'); cbn [bind]; [|eauto].
    rewrite E. cbn [bind]. eauto.
Qed.
Lemma modify_access : forall k k' f d, f EAccess = EAccess -> In (k, EAccess) d -> In (k, EAccess) (modify k' f d).
Proof.
  intros k k' f d Hf. induction d as [|[k1 e] d IH]; intros H; [contradiction|]. cbn [modify].
  destruct (string_dec k' k1); destruct H as [H|H].
  - injection H as -> ->. left. rewrite Hf. reflexivity.
  - right. exact H.
  - left. exact H.
  - right. auto.
Qed.
(* keys are those of d or accesses *)
Definition grown (d d' : dict) : Prop :=
  (forall k, In (k, EAccess) d -> In (k, EAccess) d') /\
  (forall k, In k (map fst d) -> In k (map fst d')) /\
  forall k, In k (map fst d') -> In k (map fst d) \/ In (k, EAccess) d'.
Lemma grown_refl : forall d, grown d d.
Proof. intros d. repeat split; auto. Qed.
Lemma grown_trans : forall a b c, grown a b -> grown b c -> grown a c.
Proof.
  intros a b c (H1 & H2 & H3) (K1 & K2 & K3). repeat split; auto.
  intros k H. destruct (K3 _ H) as [H'|H']; auto. destruct (H3 _ H'); auto.
Qed.
Lemma grown_modify : forall k f d, f EAccess = EAccess -> grown d (modify k f d).
Proof.
  intros k f d Hf. split; [intros x; apply modify_access, Hf|]. rewrite modify_keys. auto.
Qed.
Lemma grown_add : forall a d, grown d (d ++ [(a, EAccess)]).
Proof.
  intros a d. repeat split.
  - intros k H. apply in_app_iff. auto.
  - intros k H. rewrite map_app. apply in_app_iff. auto.
  - intros k H. rewrite map_app in H. apply in_app_iff in H. destruct H as [H|[H|[]]]; auto.
    cbn in H. subst. right. apply in_app_iff. right. left. reflexivity.
Qed.
Lemma read_loop_grown : forall file ars dset d d', read_loop file dset d ars = Ok d' ->
  grown d d' /\ forall a, In a ars -> In a (map fst d').
Proof.
  intros file. induction ars as [|a ars IH]; intros dset d d' H; cbn [read_loop] in H.
  - injection H as <-. split; [apply grown_refl | intros a []].
  - destruct (get a d) eqn:E.
    + destruct (IH _ _ _ H) as (G & I).
      assert (G' : grown d d') by (eapply grown_trans; [|exact G]; apply grown_modify; reflexivity).
      split; [exact G'|]. intros x [<-|Hx]; [|auto]. apply G', get_in. eauto.
    + destruct dset as [k|]; [|discriminate].
      destruct (IH _ _ _ H) as (G & I).
      assert (G' : grown (d ++ [(a, EAccess)]) d') by (eapply grown_trans; [|exact G]; apply grown_modify; reflexivity).
      split; [eapply grown_trans; [apply grown_add | exact G']|].
      intros x [<-|Hx]; [|auto]. apply G'. rewrite map_app. apply in_app_iff. right. left. reflexivity.
Qed.
Lemma set_read_grown : forall i d d', set_read_from_hdf5_arrays i d = Ok d' ->
  grown d d' /\ (reads i -> forall a, In a (io_arrays i) -> In a (map fst d')).
Proof.
  intros i d d'. unfold set_read_from_hdf5_arrays, reads. destruct (lookup "iotype" (io_kw i)) as [t|]; [|discriminate].
  destruct (string_dec t "read") as [->|N].
  - cbv zeta. intros H. destruct (read_loop_grown _ _ _ _ _ H) as (G & I). auto.
  - intros H. injection H as <-. split; [apply grown_refl|]. intros E. congruence.
Qed.
Lemma update_grown : forall ios d d', update_inputs ios d = Ok d' ->
  grown d d' /\ forall i, In i ios -> reads i -> forall a, In a (io_arrays i) -> In a (map fst d').
Proof.
  induction ios as [|i ios IH]; intros d d' H; cbn [update_inputs] in H.
  - injection H as <-. split; [apply grown_refl | intros i []].
  - destruct (set_read_from_hdf5_arrays i d) as [d1|] eqn:E; [|discriminate]. cbn [bind] in H.
    destruct (set_read_grown _ _ _ E) as (G1 & I1). destruct (IH _ _ H) as (G2 & I2).
    split; [eapply grown_trans; eauto|]. intros j [<-|Hj] Hr a Ha; [|eauto].
    apply G2. eauto.
Qed.
Lemma unused_fails : forall b ios d i a, In i ios -> reads i -> In a (io_arrays i) -> ~ In a (map fst d) ->
  exists e, declarations b ios d = Err e.
Proof.
  intros b ios d i a Hi Hr Ha Hn. unfold declarations.
  destruct (update_inputs ios d) as [d'|e] eqn:E; [|eexists; reflexivity].
  destruct (update_grown _ _ _ E) as ((_ & _ & G) & I). cbn [bind].
  destruct (G a (I _ Hi Hr _ Ha)) as [H|H]; [contradiction|]. exact (declare_access b _ _ H).
Qed.
