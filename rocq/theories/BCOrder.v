(* Kernels whose statements use values computed by earlier statements. *)
From Verif Require Import Base Expr ExprProofs KernelModel ShiftModel ShiftSpec ShiftProofs AlgProofs BCModel BCSpec BCProofs BCKern BCMirror.
From Coq Require Import QArith ZArith Reals Qreals Lia Lra Permutation.
Local Close Scope Q_scope.

Fixpoint later {A} (P : A -> A -> Prop) (l : list A) : Prop :=
  match l with [] => True | a :: l => (forall b, In b l -> P a b) /\ later P l end.
Lemma later_app : forall A (P : A -> A -> Prop) l m, later P l -> later P m ->
  (forall a b, In a l -> In b m -> P a b) -> later P (l ++ m).
Proof.
  induction l as [|a l IH]; intros m Hl Hm H; cbn; auto. destruct Hl as [Ha Hl]. split.
  - intros b Hb. apply in_app_iff in Hb. destruct Hb; auto. apply H; auto. left; auto.
  - apply IH; auto. intros; apply H; auto. right; auto.
Qed.
Lemma later_flat_map : forall A B (P : A -> A -> Prop) (Q : B -> B -> Prop) (f : B -> list A) l,
  later Q l -> (forall i, In i l -> later P (f i)) ->
  (forall i j a b, In i l -> In j l -> Q i j -> In a (f i) -> In b (f j) -> P a b) -> later P (flat_map f l).
Proof.
  induction l as [|i l IH]; intros Hl Hi H; cbn; auto. destruct Hl as [Ha Hl]. apply later_app.
  - apply Hi. left; auto.
  - apply IH; auto; intros; [apply Hi; right; auto | apply (H i0 j); auto; right; auto].
  - intros a b Ha' Hb. apply in_flat_map in Hb. destruct Hb as (j & Hj & Hb). apply (H i j); auto; [left; auto | right; auto].
Qed.
Lemma later_map : forall A B (P : A -> A -> Prop) (Q : B -> B -> Prop) (f : B -> A) l,
  later Q l -> (forall i j, In i l -> In j l -> Q i j -> P (f i) (f j)) -> later P (map f l).
Proof.
  induction l as [|i l IH]; intros Hl H; cbn; auto. destruct Hl as [Ha Hl]. split.
  - intros b Hb. apply in_map_iff in Hb. destruct Hb as (j & <- & Hj). apply H; auto; [left; auto | right; auto].
  - apply IH; auto. intros; apply H; auto; right; auto.
Qed.
Lemma later_nodup : forall A (l : list A), NoDup l -> later (fun a b => a <> b) l.
Proof. induction 1; cbn; auto. split; auto. intros b Hb ->. auto. Qed.
Lemma later_upto : forall n, later Z.lt (upto n).
Proof.
  intros n. unfold upto. apply (later_map _ _ _ lt).
  - generalize 1%nat. induction n; intros k; cbn; auto. split; auto. intros b Hb. apply in_seq in Hb. lia.
  - intros. lia.
Qed.

(* a statement writes what no earlier statement wrote or read *)
Definition clean (q q' : keq) : Prop := forall t, In t (target q') -> ~ In t (target q) /\ ~ In t (reads q).
Definition selfclean (q : keq) : Prop := forall t, In t (target q) -> ~ In t (reads q).
Lemma ordered_later : forall qs done, (forall a b, In a done -> In b qs -> clean a b) -> later clean qs ->
  (forall q, In q qs -> selfclean q) -> ordered done qs.
Proof.
  induction qs as [|q qs IH]; intros done Hd Hl Hs; cbn; auto. destruct Hl as [Hq Hl]. split.
  - right. intros t Ht. split; [apply Hs; auto; left; auto|]. intros q' Hq'. apply (Hd q' q); auto. left; auto.
  - apply IH; auto.
    + intros a b Ha Hb. apply in_app_iff in Ha. destruct Ha as [Ha | [<- | []]]; auto. apply Hd; auto. right; auto.
    + intros; apply Hs; right; auto.
Qed.

Lemma map_result_ok : forall A B (f : A -> result B) g l, (forall a, In a l -> f a = Ok (g a)) -> map_result f l = Ok (map g l).
Proof.
  induction l as [|a l IH]; intros H; auto. cbn [map_result map]. rewrite (H a) by (left; auto). cbn [bind].
  rewrite IH by (intros; apply H; right; auto). reflexivity.
Qed.

(* the offset of a location along the line *)
Lemma off_inj : forall n d j k, (d < n)%nat -> move d j (here n) = move d k (here n) -> j = k.
Proof. intros n d j k Hd H. apply (move_inj d j k (here n)); auto. unfold here. rewrite repeat_length. auto. Qed.

(* a kernel swept over a face *)
Lemma face_holds : forall V (J : interp V) np bh d side qs pts M x,
  (d < List.length np)%nat -> along (List.length np) d qs -> ordered [] qs ->
  sweeps pts (on_face np bh d side) -> on_face np bh d side x ->
  exists L, forall q, In q qs -> holds J x (run_kernel J qs pts M, L) q.
Proof.
  intros V J np bh d side qs pts M x Hd Al Or Sw Hx. destruct (face_of _ _ _ _ _ Sw) as [NP HP].
  eapply plane_holds; eauto. apply Sw. auto.
Qed.
Lemma face_frame : forall V (J : interp V) np bh d side qs pts (M : string -> list Z -> V) b y,
  along (List.length np) d qs -> sweeps pts (on_face np bh d side) ->
  (forall q k x, In q qs -> In (inl (b, move d k (here (List.length np)))) (target q) -> on_face np bh d side x -> y <> move d k x) ->
  run_kernel J qs pts M b y = M b y.
Proof.
  intros V J np bh d side qs pts M b y Al Sw H. apply (plane_frame J qs). intros x q ix Hx Hq Ht E. apply Sw in Hx.
  destruct (Al q b ix Hq) as [k ->]; [apply in_app_iff; auto|]. rewrite (vadd_along (List.length np)) in E by apply Hx.
  apply (H q k x); auto.
Qed.

(* ---- linear extrapolation ---- *)
Definition lin_eqs (n d : nat) (s : Z) (names : list string) (w : nat) : kernel_eqs :=
  flat_map (fun t => map (fun b => KEq (EDat b (move d (s * t) (here n)))
     (esub (emul [eint 2; EDat b (move d (s * (t - 1)) (here n))]) (EDat b (move d (s * (t - 2)) (here n))))) names) (upto w).
Lemma put_dat : forall n d k b, put n d k (EDat b (here n)) = EDat b (move d k (here n)).
Proof. reflexivity. Qed.
Lemma in_lin : forall n d s names w q, In q (lin_eqs n d s names w) <-> exists t b, (1 <= t <= Z.of_nat w)%Z /\ In b names /\
  q = KEq (EDat b (move d (s * t) (here n))) (esub (emul [eint 2; EDat b (move d (s * (t - 1)) (here n))]) (EDat b (move d (s * (t - 2)) (here n)))).
Proof.
  intros. unfold lin_eqs. rewrite in_flat_map. split.
  - intros (t & Ht & H). apply in_map_iff in H. destruct H as (b & <- & Hb). apply in_upto in Ht. eauto.
  - intros (t & b & Ht & Hb & ->). exists t. split; [apply in_upto; auto|]. apply in_map_iff. eauto.
Qed.
Lemma lin_reads : forall n d s t b z,
  In z (reads (KEq (EDat b (move d (s * t) (here n))) (esub (emul [eint 2; EDat b (move d (s * (t - 1)) (here n))]) (EDat b (move d (s * (t - 2)) (here n)))))) ->
  z = inl (b, move d (s * (t - 1)) (here n)) \/ z = inl (b, move d (s * (t - 2)) (here n)).
Proof. intros n d s t b z H. cbn in H. intuition. Qed.
Lemma lin_along : forall n d s names w, along n d (lin_eqs n d s names w).
Proof.
  intros n d s names w q b ix Hq Hb. apply in_lin in Hq. destruct Hq as (t & b' & Ht & _ & ->).
  apply in_app_iff in Hb. destruct Hb as [[E | []] | Hb].
  - injection E as <- <-. eexists. reflexivity.
  - apply lin_reads in Hb. destruct Hb as [E | E]; injection E as -> ->; eexists; reflexivity.
Qed.
Lemma lin_ordered : forall n d s names w, (d < n)%nat -> (s = 1 \/ s = -1)%Z -> NoDup names -> ordered [] (lin_eqs n d s names w).
Proof.
  intros n d s names w Hd Hs ND. apply ordered_later; [intros ? ? []| |].
  - unfold lin_eqs. apply (later_flat_map _ _ clean Z.lt); [apply later_upto| |].
    + intros t Ht. apply (later_map _ _ _ (fun a b => a <> b)); [apply later_nodup; auto|].
      intros a b _ _ N z [<- | []]. split.
      * intros [E | []]. injection E as E. auto.
      * intros Hr. apply lin_reads in Hr. destruct Hr as [E | E]; injection E as E E'; auto.
    + intros i j a b Hi Hj Hij Ha Hb. apply in_map_iff in Ha, Hb. destruct Ha as (x & <- & _), Hb as (y & <- & _).
      intros z [<- | []]. split.
      * intros [E | []]. injection E as -> E. apply off_inj in E; auto. destruct Hs; subst; lia.
      * intros Hr. apply lin_reads in Hr. destruct Hr as [E | E]; injection E as -> E; apply off_inj in E; auto; destruct Hs; subst; lia.
  - intros q Hq. apply in_lin in Hq. destruct Hq as (t & b & Ht & _ & ->). intros z [<- | []] Hr.
    apply lin_reads in Hr. destruct Hr as [E | E]; injection E as E; apply off_inj in E; auto; destruct Hs; subst; lia.
Qed.
