(* Kernels given as statements: each location is defined by one statement, before it is used. *)
From Verif Require Import Base Expr ExprProofs KernelModel ShiftModel ShiftSpec ShiftProofs AlgProofs BCModel BCSpec BCProofs BCKern BCMirror BCOrder.
From Coq Require Import QArith ZArith Reals Qreals Lia Lra Permutation.
Local Close Scope Q_scope.

Definition loc_eq_dec : forall a b : loc, {a = b} + {a <> b}.
Proof. intros. decide equality; [apply dset_eq_dec | apply string_dec]. Defined.
Definition functional (all : kernel_eqs) : Prop :=
  forall q q' t, In q all -> In q' all -> In t (target q) -> In t (target q') -> q = q'.
Fixpoint wellread (all done qs : kernel_eqs) : Prop :=
  match qs with
  | [] => True
  | q :: qs => (forall t q', In t (reads q) -> In q' all -> In t (target q') -> In q' done) /\ wellread all (done ++ [q]) qs
  end.
Lemma wellread_app : forall all l1 done l2, wellread all done l1 -> wellread all (done ++ l1) l2 -> wellread all done (l1 ++ l2).
Proof.
  induction l1 as [|q l1 IH]; intros done l2 H1 H2; cbn in *; [rewrite app_nil_r in H2; auto|].
  destruct H1 as [Ha Hb]. split; auto. apply IH; auto. rewrite <- app_assoc. auto.
Qed.
Lemma target_one : forall q, target q = [] \/ exists t, target q = [t].
Proof. intros [l r|bs]; [|auto]. destruct l as [z|k g|b ix|h args]; cbn; eauto. destruct k; eauto. Qed.
Lemma ordered_ssa : forall all qs done, functional all -> incl done all -> incl qs all ->
  (forall q t q', In q done -> In t (reads q) -> In q' all -> In t (target q') -> In q' done) ->
  wellread all done qs -> ordered done qs.
Proof.
  intros all. induction qs as [|q qs IH]; intros done F Id Iq Cl W; cbn in *; auto. destruct W as [Wq W]. split.
  - destruct (target_one q) as [E | (t & E)].
    + right. rewrite E. intros ? [].
    + destruct (in_dec loc_eq_dec t (flat_map target done)) as [I | N].
      * left. apply in_flat_map in I. destruct I as (q' & Hq' & Ht). assert (q = q') as <-; auto.
        apply (F q q' t); auto; [apply Iq; left; auto | rewrite E; left; auto].
      * right. rewrite E. intros t' [<- | []]. assert (NI : ~ In q done).
        { intros Hq. apply N. apply in_flat_map. exists q. split; auto. rewrite E. left; auto. }
        assert (Hqa : In q all) by (apply Iq; left; auto). assert (Htq : In t (target q)) by (rewrite E; left; auto).
        split; [intros R; apply NI; apply (Wq t q); auto|].
        intros q' Hq'. split; [intros T; apply N; apply in_flat_map; eauto | intros R; apply NI; apply (Cl q' t); auto].
  - apply IH; auto.
    + intros a Ha. apply in_app_iff in Ha. destruct Ha as [Ha | [<- | []]]; auto. apply Iq. left; auto.
    + intros a Ha. apply Iq. right; auto.
    + intros a t q' Ha Ht Hq' Tq'. apply in_app_iff. left. apply in_app_iff in Ha. destruct Ha as [Ha | [<- | []]]; [apply (Cl a t); auto | apply (Wq t); auto].
Qed.
Lemma ordered_ssa0 : forall qs, functional qs -> wellread qs [] qs -> ordered [] qs.
Proof. intros. apply (ordered_ssa qs); auto; try (intros ? []); intros ? ?; auto. Qed.

(* ---- kernels in which nothing written is read ---- *)
Definition stm (n d : nat) (s : string * Z * expr) : keq := KEq (EDat (fst (fst s)) (move d (snd (fst s)) (here n))) (snd s).
Definition written (S : list (string * Z * expr)) (b : string) (k : Z) : Prop := exists r, In (b, k, r) S.

Lemma stms_face : forall V (J : interp V) np bh d side (S : list (string * Z * expr)) pts M,
  (d < List.length np)%nat -> sweeps pts (on_face np bh d side) ->
  (forall b k r r', In (b, k, r) S -> In (b, k, r') S -> r = r') ->
  (forall b k r, In (b, k, r) S -> syms KGridVar r = [] /\
     forall b' ix, In (b', ix) (dsets r) -> exists k', ix = move d k' (here (List.length np)) /\ ~ written S b' k') ->
  (forall b k r x L, In (b, k, r) S -> on_face np bh d side x ->
     run_kernel J (map (stm (List.length np) d) S) pts M b (move d k x) = at_point J M L x r) /\
  (forall b y, (forall k x, written S b k -> on_face np bh d side x -> y <> move d k x) ->
     run_kernel J (map (stm (List.length np) d) S) pts M b y = M b y).
Proof.
  intros V J np bh d side S pts M Hd Sw F Rd. set (n := List.length np) in *.
  assert (Al : along n d (map (stm n d) S)).
  { intros q b ix Hq Hb. apply in_map_iff in Hq. destruct Hq as ([[b' k] r] & <- & Hs). unfold stm in Hb. cbn [fst snd] in Hb.
    apply in_app_iff in Hb. destruct Hb as [[E | []] | Hb]; [injection E as <- <-; exists k; auto|].
    apply (in_reads_inl (ENum 0)) in Hb. destruct (Rd _ _ _ Hs) as [_ D]. destruct (D b ix Hb) as (k' & -> & _). exists k'. auto. }
  assert (Fr : forall b y, (forall k x, written S b k -> on_face np bh d side x -> y <> move d k x) ->
     run_kernel J (map (stm n d) S) pts M b y = M b y).
  { intros b y H. apply (face_frame V J np bh d side); auto. intros q k x Hq Ht Hx. apply in_map_iff in Hq.
    destruct Hq as ([[b' k'] r] & <- & Hs). destruct Ht as [E | []]. cbn [fst snd] in E. injection E as -> E.
    apply off_inj in E; auto. subst. apply H; auto. exists r. auto. }
  split; auto.
  intros b k r x L Hs Hx.
  assert (Lx : List.length x = n) by apply Hx.
  assert (Or : ordered [] (map (stm n d) S)).
  { apply ordered_ssa0.
    - intros q q' t Hq Hq' Ht Ht'. apply in_map_iff in Hq, Hq'. destruct Hq as ([[b1 k1] r1] & <- & H1), Hq' as ([[b2 k2] r2] & <- & H2).
      destruct Ht as [<- | []], Ht' as [E | []]. cbn [fst snd] in E. injection E as -> E. apply off_inj in E; auto. subst.
      rewrite (F _ _ _ _ H1 H2). reflexivity.
    - assert (G : forall l done, incl l S -> wellread (map (stm n d) S) done (map (stm n d) l)).
      { induction l as [|s l IH]; intros done Hl; cbn; auto. split; [|apply IH; intros a Ha; apply Hl; right; auto].
        intros t q' Ht Hq' Tq'. exfalso. apply in_map_iff in Hq'. destruct Hq' as ([[b2 k2] r2] & <- & H2).
        destruct Tq' as [<- | []]. cbn [fst snd] in Ht. destruct s as [[b1 k1] r1]. unfold stm in Ht. cbn [fst snd] in Ht.
        apply (in_reads_inl (ENum 0)) in Ht. destruct (Rd b1 k1 r1) as [_ D]; [apply Hl; left; auto|].
        destruct (D _ _ Ht) as (k' & E & W). apply off_inj in E; auto. subst. apply W. exists r2. auto. }
      apply G. intros a; auto. }
  destruct (face_holds V J np bh d side _ pts M x Hd Al Or Sw Hx) as [L' H].
  specialize (H (stm n d (b, k, r)) (in_map _ _ _ Hs)). change (run_kernel J (map (stm n d) S) pts M b (vadd x (move d k (here n))) = at_point J (run_kernel J (map (stm n d) S) pts M) L' x r) in H.
  rewrite (vadd_along n) in H by auto. rewrite H. destruct (Rd _ _ _ Hs) as [Gv D].
  apply at_point_ext; [|rewrite Gv; intros ? []].
  intros b' ix Hb. destruct (D b' ix Hb) as (k' & -> & W). apply Fr. intros k2 x2 W2 Hx2 E. unfold here in E. rewrite (vadd_along n) in E by auto.
  assert (Lx2 : List.length x2 = n) by apply Hx2.
  assert (Ex : x = x2).
  { apply (lines_disjoint d k' k2); auto; try (rewrite Lx; auto). destruct Hx as (_ & Xd & _), Hx2 as (_ & X2d & _). congruence. }
  subst x2. apply move_inj in E; [|rewrite Lx; auto]. subst. auto.
Qed.

(* locations of shifted expressions *)
Lemma dsets_put_at : forall n d k e b ix, In (b, ix) (dsets (put n d k e)) -> ix = move d k (here n).
Proof. intros. apply dsets_put in H. apply H. Qed.
Lemma put_syms : forall n d k e kd, syms kd (put n d k e) = syms kd e.
Proof. intros. unfold put. apply syms_map_dsets. Qed.
Lemma here_move : forall n d, here n = move d 0 (here n).
Proof. intros. rewrite move_0. reflexivity. Qed.
Lemma inc_placed : forall ord n d k e, good_order ord -> (d < n)%nat -> placed n e -> inc ord d k e = Ok (put n d k e).
Proof. intros ord n d k e Go Hd (Lo & _ & Ko). apply inc_local; auto. Qed.
Lemma at_put : forall V (J : interp V) M L n d k x e, List.length x = n -> placed n e ->
  at_point J M L x (put n d k e) = value J M (move d k x) e.
Proof. intros V J M L n d k x e Lx (Lo & Gv & _). rewrite at_point_put by auto. apply at_point_value. auto. Qed.
