From Verif Require Import Base BaseProofs CodeModel CodeSpec.
From Coq Require Import Permutation.

(* ---- wrapping ---- *)

Lemma words_from_app cur a c b :
  isspace c = true -> words_from cur (a ++ c :: b) = words_from cur a ++ words b.
Proof.
  intros Hc. revert cur; induction a as [|x a IH]; intros cur; cbn.
  - rewrite Hc. destruct cur; reflexivity.
  - destruct (isspace x).
    + destruct cur; [apply IH|]. cbn. now rewrite IH.
    + apply IH.
Qed.

Lemma words_sep a c b : isspace c = true -> words (a ++ c :: b) = words a ++ words b.
Proof. apply words_from_app. Qed.

Lemma words_lead n s : words (repeat SP n ++ s) = words s.
Proof. induction n; cbn; auto. Qed.

Lemma words_lstrip s : words (lstrip s) = words s.
Proof.
  unfold words. induction s as [|c s IH]; cbn; auto.
  destruct (isspace c) eqn:E; auto. cbn. now rewrite E.
Qed.

Lemma words_blank n : words (repeat SP n) = [].
Proof. induction n; cbn; auto. Qed.

Lemma split_sp_cons s : exists p ps, split_sp s = p :: ps.
Proof.
  induction s as [|c s IH]; cbn; eauto.
  destruct (ascii_dec c SP); eauto. destruct IH as (p & ps & ->). eauto.
Qed.

Fixpoint join_sp (l : list text) : text :=
  match l with [] => [] | [p] => p | p :: ps => p ++ SP :: join_sp ps end.

Lemma join_split s : join_sp (split_sp s) = s.
Proof.
  induction s as [|c s IH]; cbn; auto.
  destruct (ascii_dec c SP) as [->|Hn].
  - destruct (split_sp_cons s) as (p & ps & E). rewrite E in *. change (SP :: join_sp (p :: ps) = SP :: s). now rewrite IH.
  - destruct (split_sp s) as [|p ps]; cbn in *; [now subst|].
    destruct ps; cbn in *; now rewrite IH.
Qed.

Lemma split_words s : flat_map words (split_sp s) = words s.
Proof.
  rewrite <- (join_split s) at 2. generalize (split_sp s) as l.
  induction l as [|p l IH]; cbn; auto.
  destruct l as [|q l]; [now cbn; rewrite app_nil_r|].
  rewrite words_sep by reflexivity. now rewrite IH.
Qed.

Lemma split_nosp s p : In p (split_sp s) -> ~ In SP p.
Proof.
  revert p; induction s as [|c s IH]; intros p; cbn.
  - intros [<-|[]]; easy.
  - destruct (ascii_dec c SP) as [->|Hn].
    + intros [<-|H]; [easy|now apply IH].
    + destruct (split_sp s) as [|q qs].
      * intros [<-|[]]. intros [H|[]]. auto.
      * intros [<-|H].
        -- intros [H|H]; [auto|]. exact (IH q (or_introl eq_refl) H).
        -- apply IH. now right.
Qed.

Lemma words_join ls : words (join_lines ls) = flat_map words ls.
Proof.
  induction ls as [|l ls IH]; cbn; auto.
  destruct ls as [|m ls]; [now cbn; rewrite app_nil_r|].
  cbn [app]. rewrite words_sep by reflexivity. now rewrite IH.
Qed.

Lemma squeeze_words_from cur s : List.concat (words_from cur s) = cur ++ squeeze s.
Proof.
  revert cur; induction s as [|c s IH]; intros cur; cbn.
  - destruct cur; cbn; now rewrite ?app_nil_r.
  - destruct (isspace c); cbn.
    + destruct cur; cbn; rewrite IH; reflexivity.
    + rewrite IH. now rewrite <- app_assoc.
Qed.

Lemma squeeze_words s : squeeze s = List.concat (words s).
Proof. unfold words. now rewrite squeeze_words_from. Qed.

Lemma squeeze_app a b : squeeze (a ++ b) = squeeze a ++ squeeze b.
Proof. apply filter_app. Qed.

Lemma squeeze_concat ls : squeeze (List.concat ls) = List.concat (flat_map words ls).
Proof.
  induction ls as [|l ls IH]; cbn; auto.
  rewrite squeeze_app, IH, squeeze_words, <- concat_app. reflexivity.
Qed.

Definition good_line (l : text) : Prop := List.length l <= limit \/ one_word l.

Lemma wrap_loop_spec lead ws : forall acc str,
  (forall w, In w ws -> ~ In SP w) ->
  Forall good_line acc -> good_line str ->
  let '(acc', str') := wrap_loop lead acc str ws in
  flat_map words (acc' ++ [str']) = flat_map words (acc ++ [str]) ++ flat_map words ws /\
  Forall good_line (acc' ++ [str']).
Proof.
  induction ws as [|s ws IH]; intros acc str Hw Ha Hs; cbn [wrap_loop].
  - split; [cbn; now rewrite app_nil_r|]. apply Forall_app. auto.
  - destruct (Nat.leb_spec limit (List.length str + List.length s)) as [Hl|Hl].
    + specialize (IH (acc ++ [str]) (repeat SP (lead + lead) ++ s)).
      destruct (wrap_loop lead (acc ++ [str]) (repeat SP (lead + lead) ++ s) ws) as [acc' str'].
      destruct IH as [E F].
      * intros w H. apply Hw. now right.
      * apply Forall_app; auto.
      * right. exists (lead + lead), s. split; auto. apply Hw. now left.
      * split; auto. rewrite E. rewrite (flat_map_app words (acc ++ [str])). cbn [flat_map].
        rewrite words_lead, app_nil_r, <- app_assoc. reflexivity.
    + specialize (IH acc (str ++ [SP] ++ s)).
      destruct (wrap_loop lead acc (str ++ [SP] ++ s) ws) as [acc' str'].
      destruct IH as [E F]; auto.
      * intros w H. apply Hw. now right.
      * left. rewrite !app_length. cbn. lia.
      * split; auto. rewrite E. rewrite !flat_map_app. cbn [flat_map app].
        rewrite words_sep by reflexivity. rewrite !app_nil_r, <- !app_assoc. reflexivity.
Qed.

Lemma wrap_line_spec code :
  exists ls, wrap_line code = Ok ls /\ words (join_lines ls) = words code /\
    Forall good_line ls /\ (List.length code <= limit -> ls = [code]).
Proof.
  unfold wrap_line. destruct (Nat.ltb_spec limit (List.length code)) as [H|H].
  - set (lead := List.length code - List.length (lstrip code)).
    assert (S := wrap_loop_spec lead (split_sp (lstrip code)) [] (repeat SP lead)).
    destruct (wrap_loop lead [] (repeat SP lead) (split_sp (lstrip code))) as [acc str].
    destruct S as [E F].
    + apply split_nosp.
    + constructor.
    + right. exists lead, []. rewrite app_nil_r. auto.
    + cbn [app flat_map] in E. rewrite words_blank, split_words, words_lstrip in E. cbn [app] in E.
      destruct (text_dec _ _) as [_|Hn].
      * eexists. split; [reflexivity|]. rewrite words_join. split; [exact E|]. split; [exact F|lia].
      * exfalso. apply Hn. rewrite squeeze_concat, E. now rewrite squeeze_words.
  - eexists. split; [reflexivity|]. split; [reflexivity|]. split; [|reflexivity].
    constructor; [now left|constructor].
Qed.

Lemma wrap_spec codes :
  exists ls, wrap_long_lines codes = Ok ls /\
    words (join_lines ls) = words (join_lines codes) /\
    (forall l, In l ls -> (List.length l <= limit)%nat \/ one_word l) /\
    ((forall c, In c codes -> (List.length c <= limit)%nat) -> ls = codes).
Proof.
  induction codes as [|c codes IH]; cbn [wrap_long_lines].
  - exists []. repeat split; try easy.
  - destruct (wrap_line_spec c) as (a & Ea & Wa & Ga & Ia).
    destruct IH as (b & Eb & Wb & Gb & Ib). rewrite Ea, Eb. cbn [bind].
    exists (a ++ b). split; [reflexivity|]. split; [|split].
    + rewrite words_join, flat_map_app, <- !words_join, Wa, Wb.
      rewrite (words_join (c :: codes)). cbn [flat_map]. now rewrite words_join.
    + intros l H. apply in_app_or in H. destruct H as [H|H]; auto.
      rewrite Forall_forall in Ga. now apply Ga.
    + intros H. rewrite Ia, Ib; auto; intros; apply H; cbn; auto.
Qed.

(* ---- fmax ---- *)

Lemma max_step_snoc2 l a b : max_step (l ++ [a; b]) = l ++ [fmax_text a b].
Proof. unfold max_step. rewrite rev_app_distr. cbn. now rewrite rev_involutive. Qed.

Lemma max_iter_shape n : forall l, List.length l = S n ->
  exists s, Nat.iter n max_step l = [s] /\
    forall (V : Type) (le : V -> V -> Prop) (fmax : V -> V -> V) (den : string -> V -> Prop),
      (forall x, le x x) -> (forall x y z, le x y -> le y z -> le x z) ->
      (forall x y, le x (fmax x y) /\ le y (fmax x y) /\ (fmax x y = x \/ fmax x y = y)) ->
      (forall a b x y, den a x -> den b y -> den (fmax_text a b) (fmax x y)) ->
      forall vals, Forall2 den l vals ->
      exists v, den s v /\ In v vals /\ forall w, In w vals -> le w v.
Proof.
  induction n as [|n IH]; intros l Hl.
  - destruct l as [|s [|t l]]; try discriminate. exists s. split; [reflexivity|].
    intros V le fmax den Hr Ht Hm Hd vals F. inversion F as [|? v ? r Hv Fr]; subst.
    inversion Fr; subst. exists v. repeat split; auto; [now left|].
    intros w [<-|[]]. apply Hr.
  - destruct (exists_last (l := l)) as (l1 & b & E1); [intros ->; discriminate|].
    destruct (exists_last (l := l1)) as (l2 & a & E2).
    { intros ->. subst. rewrite app_length in Hl. cbn in Hl. lia. }
    subst. rewrite <- app_assoc in *. cbn [app] in *.
    assert (Hi : Nat.iter (S n) max_step (l2 ++ [a; b]) = Nat.iter n max_step (l2 ++ [fmax_text a b])).
    { rewrite <- (max_step_snoc2 l2 a b). clear. induction n; cbn in *; auto. now rewrite IHn. }
    rewrite Hi. destruct (IH (l2 ++ [fmax_text a b])) as (s & Es & Hs).
    { rewrite app_length in *. cbn in *. lia. }
    exists s. split; [exact Es|]. intros V le fmax den Hr Ht Hm Hd vals F.
    apply Forall2_app_inv_l in F. destruct F as (v1 & v2 & F1 & F2 & ->).
    inversion F2 as [|? x ? r Hx Fr]; subst. inversion Fr as [|? y ? r' Hy Fr']; subst. inversion Fr'; subst.
    destruct (Hs V le fmax den Hr Ht Hm Hd (v1 ++ [fmax x y])) as (v & Hv & Iv & Lv).
    { apply Forall2_app; auto. }
    exists v. split; auto. destruct (Hm x y) as (L1 & L2 & L3). split.
    + apply in_app_or in Iv. apply in_or_app. destruct Iv as [Iv|[<-|[]]]; auto.
      right. cbn. destruct L3 as [-> | ->]; auto.
    + intros w Hw. apply in_app_or in Hw. destruct Hw as [Hw|[<-|[<-|[]]]].
      * apply Lv, in_or_app. auto.
      * apply Ht with (fmax x y); auto. apply Lv, in_or_app. cbn; auto.
      * apply Ht with (fmax x y); auto. apply Lv, in_or_app. cbn; auto.
Qed.

Lemma print_Max_spec args : args <> [] ->
  exists s, print_Max args = Ok s /\
    forall (V : Type) (le : V -> V -> Prop) (fmax : V -> V -> V) (den : string -> V -> Prop),
      (forall x, le x x) -> (forall x y z, le x y -> le y z -> le x z) ->
      (forall x y, le x (fmax x y) /\ le y (fmax x y) /\ (fmax x y = x \/ fmax x y = y)) ->
      (forall a b x y, den a x -> den b y -> den (fmax_text a b) (fmax x y)) ->
      forall vals, Forall2 den args vals ->
      exists v, den s v /\ In v vals /\ forall w, In w vals -> le w v.
Proof.
  intros H. destruct args as [|a args]; [easy|].
  destruct (max_iter_shape (List.length args) (a :: args) eq_refl) as (s & E & S).
  exists s. split; auto. unfold print_Max. cbn [List.length]. rewrite Nat.sub_succ, Nat.sub_0_r.
  now rewrite E.
Qed.

(* ---- grouped piecewise ---- *)

Section pw.
  Context {A C S : Type}.
  Variable run : A -> S -> S.
  Variable test : C -> S -> bool.
  Notation toks := (list (tok A C)).

  Definition blockof (e : list A) : cstmt A C := SBlock (map SAssign e).

  Lemma pstmts_assign e : forall n (r : toks), (n >= List.length e + 1)%nat ->
    pstmts A C n (map TStmt e ++ TClose :: r) = Some (map SAssign e, TClose :: r).
  Proof.
    induction e as [|a e IH]; intros n r Hn; cbn [List.length] in Hn.
    - destruct n; [lia|]. reflexivity.
    - destruct n as [|[|n]]; try lia. cbn [map app].
      change (match pstmts A C (Datatypes.S n) (map TStmt e ++ TClose :: r) with
              | Some (l, r') => Some (SAssign a :: l, r') | None => None end =
              Some (SAssign a :: map SAssign e, TClose :: r)).
      rewrite IH by lia. reflexivity.
  Qed.

  Lemma pstmt_body e n (r : toks) : (n >= List.length (branch_body (A:=A) (C:=C) e))%nat ->
    pstmt A C n (branch_body e ++ r) = Some (blockof e, r).
  Proof.
    unfold branch_body. rewrite !app_length, map_length. cbn [List.length]. intros Hn.
    destruct n; [lia|]. cbn [app pstmt]. rewrite <- app_assoc. cbn [app].
    rewrite pstmts_assign by lia. reflexivity.
  Qed.

  Fixpoint chain (bs : list (list A * ccond C)) : option (cstmt A C) :=
    match bs with
    | [] => None
    | (e, CTrue) :: _ => Some (blockof e)
    | (e, CCond c) :: bs => Some (SIf (CCond c) (blockof e) (chain bs))
    end.

  Inductive normal : list (list A * ccond C) -> Prop :=
  | n_nil : normal []
  | n_true e : normal [(e, CTrue)]
  | n_cons e c bs : normal bs -> normal ((e, CCond c) :: bs).

  Lemma piecewise_normal bs : normal (piecewise_new bs).
  Proof.
    induction bs as [|[e [[|c]|]] bs IH]; cbn; auto; constructor; auto.
  Qed.

  Definition no_else (r : toks) : Prop := match r with TElse :: _ => False | _ => True end.

  Lemma pstmt_if bs : normal bs -> forall c e i n (r : toks), no_else r ->
    (n >= 1 + List.length (branch_body (A:=A) (C:=C) e)
          + List.length (group_tokens (Datatypes.S i) bs))%nat ->
    pstmt A C n (TIf c :: branch_body e ++ group_tokens (Datatypes.S i) bs ++ r)
    = Some (SIf c (blockof e) (chain bs), r).
  Proof.
    induction 1 as [|e'|e' c' bs Hb IH]; intros c e i n r Hr Hn; cbn [group_tokens] in *.
    - destruct n; [cbn in Hn; lia|]. cbn [pstmt app].
      rewrite pstmt_body by (cbn [List.length] in Hn; lia).
      destruct r as [|[] r]; try reflexivity. destruct Hr.
    - destruct n; [cbn in Hn; lia|]. cbn [pstmt].
      rewrite !app_length in Hn. cbn [Nat.eqb List.length] in Hn.
      cbn [Nat.eqb app]. rewrite pstmt_body by lia. rewrite app_nil_r in *.
      rewrite pstmt_body by lia. reflexivity.
    - destruct n; [cbn in Hn; lia|]. cbn [pstmt].
      rewrite !app_length in Hn. cbn [Nat.eqb List.length] in Hn.
      cbn [Nat.eqb app]. rewrite pstmt_body by lia.
      rewrite <- app_assoc.
      rewrite IH; [reflexivity|auto|lia].
  Qed.

  Definition ast (q : geq A C) : list (cstmt A C) :=
    match q with
    | GEq a => [SAssign a]
    | GGroup bs =>
        match piecewise_new bs with
        | [] => []
        | (e, c) :: bs => [SIf c (blockof e) (chain bs)]
        end
    end.

  Lemma no_else_body qs : no_else (body_tokens (A:=A) (C:=C) qs).
  Proof.
    unfold body_tokens. induction qs as [|[a|bs] qs IH]; cbn; auto.
    destruct (piecewise_new bs) as [|[e c] l]; cbn; auto.
  Qed.

  Lemma group_cons e c bs (r : toks) n : normal ((e, c) :: bs) -> no_else r ->
    (n >= List.length (group_tokens 0 ((e, c) :: bs)))%nat ->
    pstmt A C n (group_tokens 0 ((e, c) :: bs) ++ r) = Some (SIf c (blockof e) (chain bs), r).
  Proof.
    intros Hb Hr Hn. cbn [group_tokens Nat.eqb] in *. rewrite !app_length in Hn.
    rewrite <- !app_assoc. cbn [app].
    assert (Hb' : normal bs) by (inversion Hb; subst; auto; constructor).
    apply pstmt_if; auto.
  Qed.

  Lemma pstmts_cons n ts s (r : toks) : ts <> [] -> (forall r', ts <> TClose :: r') ->
    pstmt A C n ts = Some (s, r) ->
    pstmts A C (Datatypes.S n) ts =
    match pstmts A C n r with Some (l, r') => Some (s :: l, r') | None => None end.
  Proof.
    intros H1 H2 H3. destruct ts as [|t ts]; [easy|].
    transitivity (match pstmt A C n (t :: ts) with
                  | Some (s, r) => match pstmts A C n r with
                                   | Some (l, r') => Some (s :: l, r') | None => None end
                  | None => None end).
    - destruct t; try reflexivity. now destruct (H2 ts).
    - now rewrite H3.
  Qed.

  Lemma body_cons q qs : body_tokens (A:=A) (C:=C) (q :: qs) =
    match q with GEq a => [TStmt a] | GGroup bs => group_tokens 0 (piecewise_new bs) end
    ++ body_tokens qs.
  Proof. reflexivity. Qed.

  Lemma pstmts_body qs : forall n, (n >= Datatypes.S (List.length (body_tokens (A:=A) (C:=C) qs)))%nat ->
    pstmts A C n (body_tokens qs) = Some (flat_map ast qs, []).
  Proof.
    induction qs as [|q qs IH]; intros n Hn.
    - cbn in *. destruct n; [lia|]. reflexivity.
    - rewrite body_cons in *. rewrite app_length in Hn. cbn [flat_map].
      destruct q as [a|bs]; cbn [ast].
      + cbn [List.length] in Hn. destruct n as [|n]; [lia|].
        rewrite (pstmts_cons n _ (SAssign a) (body_tokens qs)); try (cbn; congruence).
        * rewrite IH by lia. reflexivity.
        * destruct n; [lia|]. reflexivity.
      + assert (Hb := piecewise_normal bs). destruct (piecewise_new bs) as [|[e c] bs'].
        * apply IH. cbn in Hn. lia.
        * destruct n as [|n]; [lia|].
          rewrite (pstmts_cons n _ (SIf c (blockof e) (chain bs')) (body_tokens qs)).
          -- rewrite IH; [reflexivity|]. cbn [group_tokens Nat.eqb] in Hn.
             rewrite !app_length in Hn. cbn [List.length] in Hn. lia.
          -- cbn. congruence.
          -- cbn. congruence.
          -- apply group_cons; auto using no_else_body. lia.
  Qed.

  Lemma exec_block e s : exec A C S run test (blockof e) s = do_assignments A S run e s.
  Proof.
    unfold blockof, do_assignments. cbn [exec]. revert s; induction e as [|a e IH]; intros s; cbn; auto.
  Qed.

  Definition meaning_n (bs : list (list A * ccond C)) (s : S) : S :=
    match find (fun b => holds C S test (snd b) s) bs with
    | Some b => do_assignments A S run (fst b) s
    | None => s
    end.

  Lemma exec_chain bs s : normal bs ->
    match chain bs with Some p => exec A C S run test p s | None => s end = meaning_n bs s.
  Proof.
    unfold meaning_n. induction 1 as [|e|e c bs Hb IH]; cbn [chain find fst snd holds]; auto.
    - apply exec_block.
    - cbn [exec holds]. destruct (test c s); [apply exec_block|exact IH].
  Qed.

  Lemma meaning_norm bs s :
    meaning A C S run test (GGroup bs) s = meaning_n (piecewise_new bs) s.
  Proof.
    unfold meaning_n. cbn [meaning]. induction bs as [|[e [[|c]|]] bs IH]; cbn; auto.
    destruct (test c s); auto.
  Qed.

  Lemma exec_ast q s : exec_all run test (ast q) s = meaning A C S run test q s.
  Proof.
    destruct q as [a|bs]; [reflexivity|]. rewrite meaning_norm. cbn [ast].
    assert (Hb := piecewise_normal bs). destruct (piecewise_new bs) as [|[e c] bs']; [reflexivity|].
    transitivity (exec A C S run test (SIf c (blockof e) (chain bs')) s); [reflexivity|].
    transitivity (if holds C S test c s then exec A C S run test (blockof e) s
                  else match chain bs' with Some p => exec A C S run test p s | None => s end);
      [destruct (chain bs'); reflexivity|].
    rewrite exec_block. unfold meaning_n. cbn [find fst snd].
    destruct (holds C S test c s) eqn:E; auto.
    inversion Hb; subst; [discriminate|]. now apply exec_chain.
  Qed.

  Lemma piecewise_spec qs :
    exists p, parse (body_tokens (A:=A) (C:=C) qs) = Some p /\
      forall s, exec_all run test p s = meaning_all run test qs s.
  Proof.
    exists (flat_map ast qs). split.
    - unfold parse. rewrite pstmts_body by lia. reflexivity.
    - unfold exec_all, meaning_all. induction qs as [|q qs IH]; intros s; cbn [flat_map fold_left]; auto.
      rewrite fold_left_app, IH. f_equal. apply exec_ast.
  Qed.
End pw.

(* ---- order of first occurrence ---- *)

Lemma fo_nil {X} : @first_occurrences X [] [].
Proof.
  split; [constructor|]. split; [easy|]. intros l1 x l2 y l3 H. now destruct l1.
Qed.

Lemma fo_old {X} (l reqs : list X) x :
  In x l -> first_occurrences l reqs -> first_occurrences l (reqs ++ [x]).
Proof.
  intros Hx (H1 & H2 & H3). split; auto. split.
  - intros y. rewrite in_app_iff. rewrite H2. cbn. split; [tauto|].
    intros [H|[<-|[]]]; auto. now apply H2.
  - intros l1 a l2 y l3 E. destruct (H3 _ _ _ _ _ E) as (pre & post & -> & Hy).
    exists pre, (post ++ [x]). split; auto. now rewrite <- app_assoc.
Qed.

Lemma fo_new {X} (l reqs : list X) x :
  ~ In x l -> first_occurrences l reqs -> first_occurrences (l ++ [x]) (reqs ++ [x]).
Proof.
  intros Hx (H1 & H2 & H3). split; [now apply nodup_snoc|]. split.
  - intros y. rewrite !in_app_iff, H2. tauto.
  - intros l1 a l2 y l3 E. destruct (exists_last (l := y :: l3)) as (m & z & Ez); [easy|].
    rewrite Ez in E. replace (l1 ++ a :: l2 ++ m ++ [z]) with ((l1 ++ a :: l2 ++ m) ++ [z]) in E
      by (rewrite <- !app_assoc; cbn; now rewrite <- !app_assoc).
    apply app_inj_tail in E. destruct E as [El Ex]. subst z.
    destruct m as [|w m].
    + cbn in Ez. inversion Ez; subst. rewrite app_nil_r in *.
      assert (Ha : In a reqs) by (apply H2, in_or_app; right; now left).
      destruct (in_split _ _ Ha) as (pre & post & ->).
      exists pre, (post ++ [x]). split; [now rewrite <- app_assoc|].
      intros Hp. apply Hx, H2, in_or_app. now left.
    + cbn in Ez. inversion Ez; subst.
      destruct (H3 l1 a l2 w m eq_refl) as (pre & post & -> & Hy).
      exists pre, (post ++ [x]). split; [now rewrite <- app_assoc|auto].
Qed.

Lemma fo_before {X} (uses : X -> list X) (l reqs : list X) :
  first_occurrences l reqs ->
  (forall pre x post, reqs = pre ++ x :: post -> forall u, In u (uses x) -> In u pre) ->
  forall pre x post, l = pre ++ x :: post -> forall u, In u (uses x) -> In u pre.
Proof.
  intros (H1 & H2 & H3) Hu pre x post E u Hin.
  assert (Hx : In x reqs) by (apply H2; rewrite E; apply in_or_app; right; now left).
  destruct (in_split _ _ Hx) as (p & q & Er).
  assert (Hr : In u reqs) by (rewrite Er; apply in_or_app; left; eapply Hu; eauto).
  apply H2 in Hr. rewrite E in Hr. apply in_app_or in Hr. destruct Hr as [Hr|[Hr|Hr]]; auto.
  - (* u = x: then x is used before its own first occurrence *)
    subst u. exfalso. clear -Hu Hin Er.
    assert (K : forall n p q, List.length p <= n -> reqs = p ++ x :: q -> False).
    { induction n as [|n IH]; intros p' q' Hn E.
      - destruct p'; [|cbn in Hn; lia]. destruct (Hu _ _ _ E _ Hin).
      - assert (Hp := Hu _ _ _ E _ Hin). destruct (in_split _ _ Hp) as (a & b & ->).
        apply (IH a (b ++ x :: q')).
        + rewrite app_length in Hn. cbn in Hn. lia.
        + rewrite E, <- app_assoc. reflexivity. }
    exact (K _ _ _ (le_n _) Er).
  - exfalso. destruct (in_split _ _ Hr) as (a & b & ->).
    destruct (H3 pre x a u b E) as (p' & q' & E' & Hn).
    apply Hn. eapply Hu; eauto.
Qed.

(* ---- constants ---- *)

Lemma add_constant_fo {K} (cs : list (cdecl K)) : forall l reqs,
  first_occurrences (map fst l) (map fst reqs) ->
  (forall n v, In (n, v) l -> exists pre post, reqs = pre ++ (n, v) :: post /\ ~ In n (map fst pre)) ->
  let r := fold_left add_constant cs l in
  first_occurrences (map fst r) (map fst (reqs ++ cs)) /\
  (forall n v, In (n, v) r ->
     exists pre post, reqs ++ cs = pre ++ (n, v) :: post /\ ~ In n (map fst pre)).
Proof.
  induction cs as [|c cs IH]; intros l reqs H1 H2; cbn [fold_left].
  - rewrite app_nil_r. auto.
  - replace (reqs ++ c :: cs) with ((reqs ++ [c]) ++ cs) by now rewrite <- app_assoc.
    apply IH; unfold add_constant; destruct (in_dec string_dec (fst c) (map fst l)) as [Hi|Hi].
    + rewrite map_app. now apply fo_old.
    + rewrite !map_app. now apply fo_new.
    + intros n v H. destruct (H2 n v H) as (pre & post & -> & Hn).
      exists pre, (post ++ [c]). split; auto. now rewrite <- app_assoc.
    + intros n v H. apply in_app_or in H. destruct H as [H|[H|[]]].
      * destruct (H2 n v H) as (pre & post & -> & Hn).
        exists pre, (post ++ [c]). split; auto. now rewrite <- app_assoc.
      * subst c. exists reqs, []. split; auto. cbn in Hi. intros Hr. apply Hi.
        destruct H1 as (_ & H1 & _). now apply H1.
Qed.

Lemma declare_fo {K} (cs : list (cdecl K)) :
  let r := fold_left add_constant cs [] in
  first_occurrences (map fst r) (map fst cs) /\
  (forall n v, In (n, v) r ->
     exists pre post, cs = pre ++ (n, v) :: post /\ ~ In n (map fst pre)).
Proof. apply (add_constant_fo cs [] []); [apply fo_nil|easy]. Qed.

Lemma prefix_inj o o' i j :
  (prefix_of o ++ dec i)%string = (prefix_of o' ++ dec j)%string -> o = o' /\ i = j.
Proof.
  intros H.
  assert (D : forall n s, (dec n = String "i"%char s -> False)).
  { intros n s E. assert (A := all_digits_dec n). rewrite E in A. discriminate. }
  destruct o, o'; cbn in H; try discriminate; inversion H as [E]; try (split; [reflexivity|now apply dec_inj]).
  - now destruct (D _ _ E).
  - symmetry in E. now destruct (D _ _ E).
Qed.

Lemma generated_prefix n : generated_name n <-> exists o i, n = (prefix_of o ++ dec i)%string.
Proof.
  split.
  - intros (i & [-> |[-> | ->]]); [exists Orat, i|exists Opow, i|exists Odelta, i]; reflexivity.
  - intros ([] & i & ->); exists i; cbn; auto.
Qed.

Section const.
  Context {K : Type} (K_dec : forall a b : K, {a = b} + {a <> b}).

  Definition cinv (s : cstate K) : Prop :=
    NoDup (map fst (existing s)) /\
    (forall k n, In (k, n) (existing s) ->
       (exists o i, n = (prefix_of o ++ dec i)%string /\ i < rational_counter s) /\
       In (n, Some k) (constants s)) /\
    NoDup (map snd (existing s)) /\
    NoDup (map fst (constants s)) /\
    (forall n, In n (map fst (constants s)) -> generated_name n -> In n (map snd (existing s))).

  Lemma cinv_init : cinv cinit.
  Proof. repeat split; cbn; try constructor; easy. Qed.

  Lemma add_constant_in (l : list (cdecl K)) c x :
    In x (add_constant l c) -> In x l \/ x = c.
  Proof.
    unfold add_constant. destruct (in_dec _ _ _); auto. intros H. apply in_app_or in H.
    destruct H as [H|[H|[]]]; auto.
  Qed.
  Lemma add_constant_keep (l : list (cdecl K)) c x : In x l -> In x (add_constant l c).
  Proof. unfold add_constant. destruct (in_dec _ _ _); auto. intros H. apply in_or_app. auto. Qed.
  Lemma add_constant_nodup (l : list (cdecl K)) c :
    NoDup (map fst l) -> NoDup (map fst (add_constant l c)).
  Proof.
    unfold add_constant. destruct (in_dec _ _ _); auto. intros H. rewrite map_app.
    now apply nodup_snoc.
  Qed.

  Lemma lookup_Some k (l : list (K * string)) n : lookup K_dec k l = Some n -> In (k, n) l.
  Proof.
    unfold lookup. destruct (find _ l) as [p|] eqn:E; [|discriminate]. intros H. inversion H; subst.
    apply find_some in E. destruct E as [E1 E2]. destruct (K_dec (fst p) k); [|discriminate].
    subst. now destruct p.
  Qed.
  Lemma lookup_None k (l : list (K * string)) : lookup K_dec k l = None -> ~ In k (map fst l).
  Proof.
    unfold lookup. destruct (find _ l) as [p|] eqn:E; [discriminate|]. intros _ H.
    apply in_map_iff in H. destruct H as (p & <- & Hp). apply (find_none _ _ E) in Hp.
    cbn in Hp. now destruct (K_dec (fst p) (fst p)).
  Qed.

  Lemma cstep_inv s op :
    cinv s -> (forall cs c, op = Declare cs -> In c cs -> ~ generated_name c) ->
    let '(s', t) := cstep K_dec s op in
    cinv s' /\ (forall p, In p (existing s) -> In p (existing s')) /\
    (forall p, In p t -> In p (existing s')).
  Proof.
    intros (I1 & I2 & I3 & I4 & I5) Hc. destruct op as [o k|cs]; cbn [cstep].
    - unfold shared_constant. destruct (lookup K_dec k (existing s)) as [n|] eqn:E.
      + apply lookup_Some in E. split; [exact (conj I1 (conj I2 (conj I3 (conj I4 I5))))|].
        split; [auto|]. intros p [<-|[]]. auto.
      + apply lookup_None in E. unfold get_next_rational_constant.
        set (n := (prefix_of o ++ dec (rational_counter s))%string).
        assert (Fn : ~ In n (map snd (existing s))).
        { intros H. apply in_map_iff in H. destruct H as ((k' & n') & En & H). cbn in En. subst n'.
          destruct (I2 _ _ H) as ((o' & i & En & Hi) & _). apply prefix_inj in En. lia. }
        assert (Fc : ~ In n (map fst (constants s))).
        { intros H. apply Fn, I5; auto. apply generated_prefix. eexists _, _. reflexivity. }
        split; [|split].
        * unfold cinv; cbn [existing rational_counter constants map fst snd].
          split; [constructor; auto|]. split; [|split; [constructor; auto|split]].
          -- intros k' n' [H|H].
             ++ inversion H; subst. split; [exists o, (rational_counter s); split; [reflexivity|lia]|].
                unfold add_constant. cbn [fst]. destruct (in_dec _ _ _); [contradiction|].
                apply in_or_app. right. now left.
             ++ destruct (I2 _ _ H) as ((o' & i & En & Hi) & Hcn). split.
                ** exists o', i. split; [auto|lia].
                ** now apply add_constant_keep.
          -- now apply add_constant_nodup.
          -- intros m Hm Hg. apply in_map_iff in Hm. destruct Hm as (c & <- & Hm).
             apply add_constant_in in Hm. destruct Hm as [Hm| ->]; [|now left].
             right. apply I5; auto. now apply in_map.
        * intros p Hp. now right.
        * intros p [<-|[]]. now left.
    - split; [|split]; [|auto|easy].
      unfold cinv; cbn [existing rational_counter constants].
      assert (G : forall cs' l, (forall c, In c cs' -> ~ generated_name c) ->
                NoDup (map fst l) ->
                (forall n, In n (map fst l) -> generated_name n -> In n (map snd (existing s))) ->
                let l' := fold_left add_constant (map (fun c => (c, @None K)) cs') l in
                NoDup (map fst l') /\ (forall x, In x l -> In x l') /\
                (forall n, In n (map fst l') -> generated_name n -> In n (map snd (existing s)))).
      { clear. induction cs' as [|c cs' IH]; intros l Hg Hn Hx; cbn [map fold_left]; [auto|].
        destruct (IH (add_constant l (c, None))) as (A1 & A2 & A3).
        - intros; apply Hg; now right.
        - now apply add_constant_nodup.
        - intros n Hi Hgn. apply in_map_iff in Hi. destruct Hi as (p & <- & Hi).
          apply add_constant_in in Hi. destruct Hi as [Hi| ->]; [apply Hx; auto; now apply in_map|].
          now destruct (Hg c (or_introl eq_refl)).
        - split; [exact A1|]. split; [|exact A3]. intros x H. apply A2. now apply add_constant_keep. }
      destruct (G cs (constants s)) as (A1 & A2 & A3); auto; [intros; eapply Hc; eauto|].
      split; [auto|]. split; [|split; [auto|split; auto]].
      intros k n H. destruct (I2 _ _ H) as (B1 & B2). split; auto.
  Qed.

  Lemma crun_inv ops : forall s, cinv s -> no_clash ops ->
    let '(s', t) := crun K_dec s ops in
    cinv s' /\ (forall p, In p (existing s) -> In p (existing s')) /\
    (forall p, In p t -> In p (existing s')).
  Proof.
    induction ops as [|op ops IH]; intros s Hs Hn; cbn [crun]; [split; [auto|split; [auto|easy]]|].
    assert (H1 := cstep_inv s op Hs). destruct (cstep K_dec s op) as [s1 t1].
    destruct H1 as (A1 & A2 & A3).
    { intros cs c -> Hc. apply (Hn cs c); auto. now left. }
    specialize (IH s1 A1). destruct (crun K_dec s1 ops) as [s2 t2].
    destruct IH as (B1 & B2 & B3).
    { intros cs c H Hc. apply (Hn cs c); auto. now right. }
    split; [auto|]. split; [auto|]. intros p H. apply in_app_or in H. destruct H; auto.
  Qed.

  Lemma nodup_map_inj {X Y} (f : X -> Y) (l : list X) a b :
    NoDup (map f l) -> In a l -> In b l -> f a = f b -> a = b.
  Proof.
    induction l as [|x l IH]; cbn; [easy|]. intros Hn Ha Hb E. inversion Hn as [|? ? Hx Hl]; subst.
    destruct Ha as [->|Ha], Hb as [->|Hb]; auto.
    - exfalso. apply Hx. rewrite E. now apply in_map.
    - exfalso. apply Hx. rewrite <- E. now apply in_map.
  Qed.

  Lemma constants_consistent ops s t :
    no_clash ops -> crun K_dec cinit ops = (s, t) ->
    (forall k n k' n', In (k, n) t -> In (k', n') t -> (k = k' <-> n = n')) /\
    (forall k n, In (k, n) t ->
       In (n, Some k) (constants s) /\ forall v, In (n, v) (constants s) -> v = Some k) /\
    NoDup (map fst (constants s)).
  Proof.
    intros Hn E. assert (H := crun_inv ops cinit cinv_init Hn). rewrite E in H.
    destruct H as ((I1 & I2 & I3 & I4 & I5) & _ & H). split; [|split; auto].
    - intros k n k' n' H1 H2. apply H in H1. apply H in H2. split; intros <-.
      + assert (X := nodup_map_inj fst _ _ _ I1 H1 H2 eq_refl). congruence.
      + assert (X := nodup_map_inj snd _ _ _ I3 H1 H2 eq_refl). congruence.
    - intros k n H1. apply H in H1. destruct (I2 _ _ H1) as (_ & Hc). split; auto.
      intros v Hv. assert (X := nodup_map_inj fst _ _ _ I4 Hc Hv eq_refl). congruence.
  Qed.
End const.

(* ---- loop_alg ---- *)

Section comp_ind.
  Variable P : comp -> Prop.
  Hypothesis Hl : forall k, P (Leaf k).
  Hypothesis Hn : forall cs, Forall P cs -> P (Node cs).
  Fixpoint comp_ind' (c : comp) : P c :=
    match c with
    | Leaf k => Hl k
    | Node cs => Hn cs ((fix go cs : Forall P cs := match cs with
                          | [] => Forall_nil P
                          | c :: cs => Forall_cons c (comp_ind' c) (go cs) end) cs)
    end.
End comp_ind.

Lemma leaves_node cs : leaves (Node cs) = flat_map leaves cs.
Proof. reflexivity. Qed.

Lemma gen_node want cs : forall acc, gen_comp want acc (Node cs) = fold_left (gen_comp want) cs acc.
Proof. induction cs as [|c cs IH]; intros acc; cbn in *; auto. Qed.

Lemma gen_comp_fo want c : forall acc reqs,
  first_occurrences acc reqs ->
  first_occurrences (gen_comp want acc c) (reqs ++ filter want (leaves c)).
Proof.
  induction c as [k|cs IH] using comp_ind'; intros acc reqs H.
  - cbn [gen_comp leaves filter]. destruct (want k); [|now rewrite app_nil_r].
    destruct (in_dec Nat.eq_dec k acc) as [Hi|Hi]; [apply (fo_old _ _ _ Hi H)|apply (fo_new _ _ _ Hi H)].
  - rewrite gen_node, leaves_node. revert acc reqs H.
    induction IH as [|c cs Hc _ IH]; intros acc reqs H; cbn; [now rewrite app_nil_r|].
    rewrite filter_app, app_assoc. apply IH. now apply Hc.
Qed.

Lemma loop_alg_fo want prg : first_occurrences (loop_alg want prg) (filter want (flat_map leaves prg)).
Proof.
  unfold loop_alg. rewrite <- (gen_node want prg []), <- leaves_node.
  apply (gen_comp_fo want (Node prg) [] []). apply fo_nil.
Qed.

(* ---- write_kernels ---- *)

Lemma write_at_spec {A} (x : A) files : forall i, i < List.length files ->
  exists fs, write_at i x files = Some fs /\ List.length fs = List.length files /\
    forall j f, nth_error files j = Some f ->
      nth_error fs j = Some (if (j =? i)%nat then f ++ [x] else f).
Proof.
  induction files as [|g files IH]; intros i Hi; cbn in Hi; [lia|].
  destruct i as [|i]; cbn [write_at].
  - eexists. split; [reflexivity|]. split; [reflexivity|]. intros [|j] f Hj; cbn in *; congruence.
  - destruct (IH i) as (fs & -> & Hl & Hn); [lia|]. eexists. split; [reflexivity|].
    split; [cbn; lia|]. intros [|j] f Hj; cbn in *; [congruence|]. now apply Hn.
Qed.

Lemma write_all_spec {A} (ks : list (nat * A)) : forall files,
  (forall b x, In (b, x) ks -> b < List.length files) ->
  exists fs, write_all files ks = Ok fs /\ List.length fs = List.length files /\
    forall j f, nth_error files j = Some f ->
      nth_error fs j = Some (f ++ map snd (filter (fun k => (fst k =? j)%nat) ks)).
Proof.
  induction ks as [|[b x] ks IH]; intros files Hk; cbn [write_all].
  - eexists. split; [reflexivity|]. split; [reflexivity|]. intros j f H. cbn. now rewrite app_nil_r.
  - destruct (write_at_spec x files b) as (f1 & -> & L1 & N1); [apply (Hk b x); now left|].
    destruct (IH f1) as (f2 & -> & L2 & N2).
    { intros b' x' H. rewrite L1. apply (Hk b' x'). now right. }
    eexists. split; [reflexivity|]. split; [lia|]. intros j f H.
    rewrite (N2 j _ (N1 j f H)). cbn [filter fst]. rewrite (Nat.eqb_sym b j).
    destruct (j =? b)%nat; cbn; [now rewrite <- app_assoc|reflexivity].
Qed.

Lemma write_kernels_spec {A} n (ks : list (nat * A)) :
  (forall b x, In (b, x) ks -> b < n) ->
  exists fs, write_kernels (seq 0 n) ks = Ok fs /\ List.length fs = n /\
    forall j, j < n -> nth_error fs j = Some (map snd (filter (fun k => (fst k =? j)%nat) ks)).
Proof.
  intros H. unfold write_kernels.
  destruct (write_all_spec ks (map (fun _ => []) (seq 0 n))) as (fs & E & L & N).
  - rewrite map_length, seq_length. exact H.
  - rewrite map_length, seq_length in L. exists fs. split; auto. split; auto.
    intros j Hj. rewrite (N j []); auto.
    rewrite nth_error_map. rewrite (nth_error_nth' _ 0) by (rewrite seq_length; lia). reflexivity.
Qed.

(* ---- substitution of simulation parameters ---- *)

Lemma strip_prefix_spec p : forall s r, strip_prefix p s = Some r <-> s = p ++ r.
Proof.
  induction p as [|a p IH]; intros s r; cbn.
  - split; intros H; [now inversion H|now subst].
  - destruct s as [|b s]; [split; discriminate|].
    destruct (ascii_dec a b) as [ -> |Hn].
    + rewrite IH. split; [now intros ->|intros H; now inversion H].
    + split; [discriminate|]. intros H; inversion H; congruence.
Qed.

Section repl.
  Variables old new : text.
  Hypothesis Hold : old <> [].

  Lemma repl_fuel n : forall m s, List.length s < n -> List.length s < m ->
    pyreplace_fuel n old new s = pyreplace_fuel m old new s.
  Proof.
    induction n as [|n IH]; intros m s Hn Hm; [lia|]. destruct m as [|m]; [lia|].
    cbn [pyreplace_fuel]. destruct (strip_prefix old s) as [r|] eqn:E.
    - apply strip_prefix_spec in E. subst s. rewrite app_length in *.
      destruct old as [|c o]; [easy|]. cbn in Hn, Hm. f_equal. apply IH; lia.
    - destruct s as [|c s]; auto. cbn in Hn, Hm. f_equal. apply IH; lia.
  Qed.

  Lemma repl_eq s : pyreplace old new s =
    match strip_prefix old s with
    | Some r => new ++ pyreplace old new r
    | None => match s with [] => [] | c :: s' => c :: pyreplace old new s' end
    end.
  Proof.
    unfold pyreplace at 1. cbn [pyreplace_fuel]. destruct (strip_prefix old s) as [r|] eqn:E.
    - unfold pyreplace. f_equal. apply strip_prefix_spec in E. subst s. apply repl_fuel; rewrite ?app_length; [|lia].
      destruct old; [easy|cbn; lia].
    - destruct s; auto.
  Qed.

  Lemma repl_absent s : ~ contains old s -> pyreplace old new s = s.
  Proof.
    induction s as [|c s IH]; intros H; rewrite repl_eq.
    - destruct (strip_prefix old []) as [r|] eqn:E; auto. apply strip_prefix_spec in E.
      exfalso. apply H. exists [], r. exact E.
    - destruct (strip_prefix old (c :: s)) as [r|] eqn:E.
      + apply strip_prefix_spec in E. exfalso. apply H. exists [], r. exact E.
      + f_equal. apply IH. intros (a & b & ->). apply H. now exists (c :: a), b.
  Qed.

  Lemma repl_whole : pyreplace old new old = new.
  Proof.
    rewrite repl_eq. destruct (strip_prefix old old) as [r|] eqn:E.
    - apply strip_prefix_spec in E. assert (r = []).
      { rewrite <- (app_nil_r old) in E at 1. now apply app_inv_head in E. }
      subst r. unfold pyreplace. cbn [List.length pyreplace_fuel].
      destruct (strip_prefix old []) as [r|] eqn:E'; [|apply app_nil_r].
      apply strip_prefix_spec in E'. symmetry in E'. apply app_eq_nil in E'. now destruct E'.
    - exfalso. assert (X : strip_prefix old old = Some []) by (apply strip_prefix_spec; now rewrite app_nil_r).
      congruence.
  Qed.

  Lemma prefix_before_nl o : forall a b r, ~ In NL o -> a ++ NL :: b = o ++ r ->
    exists r', a = o ++ r' /\ r = r' ++ NL :: b.
  Proof.
    induction o as [|c o IH]; intros a b r Hn H.
    - exists a. cbn in H. auto.
    - destruct a as [|x a].
      + cbn in H. inversion H; subst. exfalso. apply Hn. now left.
      + cbn in H. inversion H; subst. destruct (IH a b r) as (r' & -> & ->); auto.
        { intros Hi. apply Hn. now right. }
        exists r'. auto.
  Qed.

  Lemma repl_line : ~ In NL old -> forall n a b, List.length a <= n ->
    pyreplace old new (a ++ NL :: b) = pyreplace old new a ++ NL :: pyreplace old new b.
  Proof.
    intros Hn. induction n as [|n IH]; intros a b Ha.
    - destruct a; [|cbn in Ha; lia]. cbn [app]. rewrite repl_eq.
      destruct (strip_prefix old (NL :: b)) as [r|] eqn:E.
      + apply strip_prefix_spec in E. destruct (prefix_before_nl old [] b r Hn E) as (r' & H & _).
        symmetry in H. apply app_eq_nil in H. now destruct H.
      + rewrite (repl_absent []); [reflexivity|]. intros (x & y & H).
        symmetry in H. apply app_eq_nil in H. destruct H as [_ H]. apply app_eq_nil in H. now destruct H.
    - rewrite repl_eq. rewrite (repl_eq a).
      destruct (strip_prefix old (a ++ NL :: b)) as [r|] eqn:E.
      + apply strip_prefix_spec in E. destruct (prefix_before_nl old a b r Hn E) as (r' & -> & ->).
        assert (X : strip_prefix old (old ++ r') = Some r') by now apply strip_prefix_spec.
        rewrite X, <- app_assoc. f_equal. apply IH. rewrite app_length in Ha.
        destruct old; [easy|cbn in Ha; lia].
      + destruct (strip_prefix old a) as [r|] eqn:E'.
        * apply strip_prefix_spec in E'. subst a.
          assert (X : strip_prefix old ((old ++ r) ++ NL :: b) = Some (r ++ NL :: b))
            by (apply strip_prefix_spec; now rewrite <- app_assoc).
          congruence.
        * destruct a as [|c a]; cbn [app].
          -- reflexivity.
          -- f_equal. apply IH. cbn in Ha. lia.
  Qed.

  Lemma repl_join ls : ~ In NL old ->
    pyreplace old new (join_lines ls) = join_lines (map (pyreplace old new) ls).
  Proof.
    intros Hn. induction ls as [|l ls IH].
    - cbn. apply repl_absent. intros (x & y & H).
      symmetry in H. apply app_eq_nil in H. destruct H as [_ H]. apply app_eq_nil in H. now destruct H.
    - destruct ls as [|m ls]; [reflexivity|].
      change (join_lines (l :: m :: ls)) with (l ++ NL :: join_lines (m :: ls)).
      rewrite (repl_line Hn _ _ _ (le_n _)), IH. reflexivity.
  Qed.
End repl.

Lemma no_eq_split (c d r s : text) :
  ~ In "="%char c -> ~ In "="%char d -> c ++ "="%char :: r = d ++ "="%char :: s -> c = d /\ r = s.
Proof.
  revert d; induction c as [|x c IH]; intros [|y d] Hc Hd H; cbn in H; inversion H; subst; auto.
  - exfalso. apply Hd. now left.
  - exfalso. apply Hc. now left.
  - destruct (IH d) as [-> ->]; auto; intros Hi; [apply Hc|apply Hd]; now right.
Qed.

Lemma input_tail : T "=Input;" = "="%char :: T "Input;". Proof. reflexivity. Qed.

Lemma input_contains k c :
  ~ In "="%char k -> ~ In "="%char c -> contains (k ++ T "=Input;") (c ++ T "=Input;") -> is_suffix k c.
Proof.
  intros Hk Hc (a & b & H). rewrite input_tail in H. rewrite <- !app_assoc in H. cbn [app] in H.
  rewrite app_assoc in H.
  assert (Ha : ~ In "="%char (a ++ k)).
  { intros Hi. destruct (in_split _ _ Hi) as (u & v & E).
    assert (Hu : exists u' v', a ++ k = u' ++ "="%char :: v' /\ ~ In "="%char u').
    { clear -Hi. induction (a ++ k) as [|x l IH]; [destruct Hi|].
      destruct (ascii_dec x "="%char) as [ -> |Hn]; [exists [], l; auto|].
      destruct Hi as [Hi|Hi]; [congruence|]. destruct (IH Hi) as (u & v & -> & Hu).
      exists (x :: u), v. split; auto. intros [H|H]; [congruence|auto]. }
    destruct Hu as (u' & v' & E' & Hu'). rewrite E' in H. rewrite <- app_assoc in H. cbn [app] in H.
    destruct (no_eq_split _ _ _ _ Hc Hu' H) as [-> Ht].
    assert (X : In "="%char (T "Input;")).
    { rewrite Ht. apply in_or_app. right. now left. }
    cbn in X. repeat (destruct X as [X|X]; [discriminate X|]). destruct X. }
  destruct (no_eq_split _ _ _ _ Hc Ha H) as [-> _]. now exists a.
Qed.

Definition stepl (p : text * text) (l : line) : line :=
  match l with
  | LOther t => LOther t
  | LInput c => if text_dec (fst p) c then LOther (c ++ T " = " ++ snd p ++ T ";") else LInput c
  end.

Lemma wf_replaced c v : ~ In NL c -> ~ In "="%char c -> ~ In NL v ->
  ~ contains (T "=Input;") (v ++ T ";") -> wf_line (LOther (c ++ T " = " ++ v ++ T ";")).
Proof.
  intros Hc1 Hc2 Hv1 Hv2. split.
  - intros H. apply in_app_or in H. destruct H as [H|H]; [auto|].
    apply in_app_or in H. destruct H as [H|H].
    { cbn in H. repeat (destruct H as [H|H]; [discriminate H|]). destruct H. }
    apply in_app_or in H. destruct H as [H|H]; [auto|].
    cbn in H. destruct H as [H|[]]. discriminate H.
  - intros (a & b & H). change (T " = ") with [SP; "="%char; SP] in H.
    rewrite input_tail in H. cbn [app] in H.
    assert (Hs : ~ In "="%char (c ++ [SP])).
    { intros X. apply in_app_or in X. destruct X as [X|[X|[]]]; [auto|discriminate X]. }
    replace (c ++ SP :: "="%char :: SP :: v ++ T ";")
      with ((c ++ [SP]) ++ "="%char :: SP :: v ++ T ";") in H by now rewrite <- app_assoc.
    destruct (in_dec ascii_dec "="%char a) as [Hi|Hi].
    + assert (Hu : exists u v, a = u ++ "="%char :: v /\ ~ In "="%char u).
      { clear -Hi. induction a as [|x l IH]; [destruct Hi|].
        destruct (ascii_dec x "="%char) as [ -> |Hn]; [exists [], l; auto|].
        destruct Hi as [Hi|Hi]; [congruence|]. destruct (IH Hi) as (u & v & -> & Hu).
        exists (x :: u), v. split; auto. intros [H|H]; [congruence|auto]. }
      destruct Hu as (u & w & -> & Hu). rewrite <- (app_assoc u) in H. cbn [app] in H.
      destruct (no_eq_split _ _ _ _ Hs Hu H) as [_ H2].
      destruct w as [|x w]; cbn in H2; [discriminate|]. inversion H2 as [[Hx H3]].
      apply Hv2. exists w, b. rewrite input_tail. exact H3.
    + destruct (no_eq_split _ _ _ _ Hs Hi H) as [_ H2]. discriminate H2.
Qed.

Lemma stepl_wf p l : wf_sub p -> wf_line l -> wf_line (stepl p l).
Proof.
  intros (H0 & H1 & H2 & H3 & H4) Hl. destruct l as [c|t]; cbn [stepl]; auto.
  destruct (text_dec (fst p) c) as [<-|Hn]; auto. now apply wf_replaced.
Qed.

Lemma app_T_ne (k : text) : k ++ T "=Input;" <> [].
Proof. intros H. apply app_eq_nil in H. destruct H as [_ H]. discriminate H. Qed.

Lemma subst_line p l : wf_sub p -> wf_line l ->
  (forall c, l = LInput c -> is_suffix (fst p) c -> fst p = c) ->
  pyreplace (fst p ++ T "=Input;") (fst p ++ T " = " ++ snd p ++ T ";") (line_text l)
  = line_text (stepl p l).
Proof.
  intros (H0 & H1 & H2 & H3 & H4) Hl Hs. destruct l as [c|t]; cbn [stepl line_text].
  - destruct (text_dec (fst p) c) as [<-|Hn].
    + cbn [line_text]. apply repl_whole, app_T_ne.
    + cbn [line_text]. apply repl_absent; [apply app_T_ne|]. intros Hc.
      apply Hn, Hs; auto. apply input_contains in Hc; auto. apply Hl.
  - apply repl_absent; [apply app_T_ne|]. destruct Hl as [_ Hl]. intros (a & b & ->).
    apply Hl. exists (a ++ fst p), b. now rewrite <- !app_assoc.
Qed.

Lemma input_nonl (k : text) : ~ In NL k -> ~ In NL (k ++ T "=Input;").
Proof.
  intros H Hi. apply in_app_or in Hi. destruct Hi as [Hi|Hi]; auto.
  cbn in Hi. repeat (destruct Hi as [Hi|Hi]; [discriminate Hi|]). destruct Hi.
Qed.

Lemma subst_steps subs : forall ls,
  Forall wf_sub subs -> Forall wf_line ls ->
  (forall p c, In p subs -> In (LInput c) ls -> is_suffix (fst p) c -> fst p = c) ->
  substitute_simulation_parameters subs (join_lines (map line_text ls)) =
  join_lines (map (fun l => line_text (fold_left (fun l p => stepl p l) subs l)) ls).
Proof.
  induction subs as [|p subs IH]; intros ls Hw Hl Hs; [reflexivity|].
  inversion Hw as [|? ? Hp Hsubs]; subst. cbn [substitute_simulation_parameters fold_left].
  unfold substitute_simulation_parameters in *. cbn [fold_left].
  assert (E : subst_one (join_lines (map line_text ls)) p
              = join_lines (map line_text (map (stepl p) ls))).
  { unfold subst_one. destruct p as [k v]. rewrite repl_join.
    - f_equal. rewrite !map_map. apply map_ext_in. intros l Hin.
      apply (subst_line (k, v)); auto.
      + rewrite Forall_forall in Hl. now apply Hl.
      + intros c -> Hc. apply (Hs (k, v) c); auto. now left.
    - apply app_T_ne.
    - apply input_nonl. apply Hp. }
  rewrite E, IH; auto.
  - now rewrite map_map.
  - apply Forall_forall. intros l Hin. apply in_map_iff in Hin. destruct Hin as (l0 & <- & Hin).
    apply stepl_wf; auto. rewrite Forall_forall in Hl. now apply Hl.
  - intros q c Hq Hin. apply in_map_iff in Hin. destruct Hin as (l0 & E0 & Hin).
    destruct l0 as [c0|t]; cbn [stepl] in E0; [|discriminate].
    destruct (text_dec (fst p) c0); [discriminate|]. inversion E0; subst. apply Hs; auto. now right.
Qed.

Lemma fold_other subs t : fold_left (fun l p => stepl p l) subs (LOther t) = LOther t.
Proof. induction subs; auto. Qed.

Lemma fold_intended subs l :
  line_text (fold_left (fun l p => stepl p l) subs l) = intended subs l.
Proof.
  destruct l as [c|t]; [|now rewrite fold_other].
  cbn [intended]. induction subs as [|[k v] subs IH]; [reflexivity|].
  cbn [fold_left stepl find fst snd]. destruct (text_dec k c) as [->|Hn]; auto.
  now rewrite fold_other.
Qed.

Lemma substitution_exact subs ls :
  Forall wf_sub subs -> Forall wf_line ls ->
  (forall p c, In p subs -> In (LInput c) ls -> is_suffix (fst p) c -> fst p = c) ->
  substitute_simulation_parameters subs (join_lines (map line_text ls)) =
  join_lines (map (intended subs) ls).
Proof.
  intros. rewrite subst_steps; auto. f_equal. apply map_ext. intros l. apply fold_intended.
Qed.

Lemma intended_perm subs subs' l : NoDup (map fst subs) -> Permutation subs subs' ->
  intended subs l = intended subs' l.
Proof.
  intros Hn Hp. destruct l as [c|t]; auto. cbn [intended].
  assert (F : forall s, NoDup (map fst s) -> forall v,
    find (fun p : text * text => if text_dec (fst p) c then true else false) s = Some (c, v)
    <-> In (c, v) s).
  { clear. induction s as [|[k w] s IH]; cbn [find fst map]; intros Hs v; [easy|].
    inversion Hs as [|? ? Hk Hs']; subst. destruct (text_dec k c) as [->|Hc].
    - split; [intros H; left; congruence|]. intros [H|H]; [congruence|].
      exfalso. apply Hk. apply in_map_iff. exists (c, v). auto.
    - rewrite IH by auto. split; [now right|]. intros [H|H]; [congruence|auto]. }
  assert (N : forall s r, find (fun p : text * text => if text_dec (fst p) c then true else false) s = Some r -> fst r = c).
  { clear. intros s r H. apply find_some in H. destruct H as [_ H]. now destruct (text_dec (fst r) c). }
  assert (Hn' : NoDup (map fst subs')).
  { apply (Permutation_NoDup (Permutation_map fst Hp) Hn). }
  destruct (find _ subs) as [[k v]|] eqn:E1.
  - assert (X := N _ _ E1). cbn in X. subst k. apply (F _ Hn) in E1.
    apply (Permutation_in _ Hp) in E1. apply (F _ Hn') in E1. now rewrite E1.
  - destruct (find _ subs') as [[k v]|] eqn:E2; auto.
    assert (X := N _ _ E2). cbn in X. subst k. apply (F _ Hn') in E2.
    apply (Permutation_in _ (Permutation_sym Hp)) in E2. apply (F _ Hn) in E2. congruence.
Qed.

Lemma substitution_any_order subs subs' ls :
  Forall wf_sub subs -> Forall wf_line ls -> NoDup (map fst subs) -> Permutation subs subs' ->
  (forall p c, In p subs -> In (LInput c) ls -> is_suffix (fst p) c -> fst p = c) ->
  substitute_simulation_parameters subs' (join_lines (map line_text ls)) =
  join_lines (map (intended subs) ls).
Proof.
  intros H1 H2 H3 H4 H5. rewrite substitution_exact.
  - f_equal. apply map_ext. intros l. symmetry. now apply intended_perm.
  - now rewrite H4 in H1.
  - auto.
  - intros p c Hp. apply H5. now apply (Permutation_in _ (Permutation_sym H4)).
Qed.

(* Decides absence of a literal text in a literal text. *)
Fixpoint containsb (needle s : text) : bool :=
  match strip_prefix needle s with
  | Some _ => true
  | None => match s with [] => false | _ :: s => containsb needle s end
  end.
Lemma containsb_complete needle s : contains needle s -> containsb needle s = true.
Proof.
  intros (a & b & ->). induction a as [|x a IH]; cbn [app].
  - assert (X : strip_prefix needle (needle ++ b) = Some b) by now apply strip_prefix_spec.
    destruct (needle ++ b); cbn [containsb]; now rewrite X.
  - cbn [containsb]. now destruct (strip_prefix needle _).
Qed.

Ltac absent :=
  match goal with
  | |- ~ In _ _ => let H := fresh in intros H; cbn in H;
                   repeat (destruct H as [H|H]; [discriminate H|]); destruct H
  | |- ~ contains _ _ => let H := fresh in intros H; apply containsb_complete in H; discriminate H
  | |- _ <> _ => discriminate
  end.
Ltac wf_text :=
  repeat (apply Forall_cons; [unfold wf_sub, wf_line; cbn [fst snd]; repeat split; absent|]);
  apply Forall_nil.

Lemma substitution_wrong :
  exists subs ls,
    Forall wf_sub subs /\ Forall wf_line ls /\ NoDup (map fst subs) /\
    substitute_simulation_parameters subs (join_lines (map line_text ls)) = T "gama = 2.0;" /\
    join_lines (map (intended subs) ls) = T "gama = 1.4;".
Proof.
  exists [(T "a", T "2.0"); (T "gama", T "1.4")], [LInput (T "gama")].
  split; [wf_text|]. split; [wf_text|].
  split; [repeat constructor; cbn; intros H; decompose [or] H; try discriminate; easy|].
  split; vm_compute; reflexivity.
Qed.
