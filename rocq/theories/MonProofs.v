(* Proofs about simulation monitors. *)
From Verif Require Import Base BaseProofs AlgModel MonModel.
Local Open Scope list_scope.

Fixpoint percents (s : string) : nat :=
  match s with
  | EmptyString => 0
  | String c s => (if Ascii.eqb c "%" then 1 else 0) + percents s
  end.

Lemma percents_app : forall a b, percents (a ++ b)%string = percents a + percents b.
Proof. induction a; cbn; intros; [reflexivity|]. rewrite IHa. lia. Qed.

Lemma percents_digits : forall s, all_digits s = true -> percents s = 0.
Proof.
  induction s as [|c s IH]; [reflexivity|]. cbn. intros H. apply andb_true_iff in H. destruct H as [Hc Hs].
  rewrite IH by auto. destruct (Ascii.eqb_spec c "%") as [-> | ]; [discriminate|reflexivity].
Qed.

Lemma percents_join : forall l, percents (join_comma l) = list_sum (map percents l).
Proof.
  induction l as [|a [|b l] IH]; [reflexivity| |].
  - cbn. lia.
  - change (join_comma (a :: b :: l)) with (a ++ ", " ++ join_comma (b :: l))%string.
    rewrite !percents_app, IH. cbn. lia.
Qed.

Lemma percents_placeholders : forall p n, percents (placeholders p n) = n + 2.
Proof.
  intros. unfold placeholders. rewrite percents_join. cbn [map list_sum].
  assert (E : forall k, list_sum (map percents (repeat ("%." ++ dec p ++ "f")%string k)) = k).
  { induction k; [reflexivity|]. cbn [repeat map list_sum]. rewrite !percents_app.
    rewrite (percents_digits (dec p)) by apply all_digits_dec.
    unfold list_sum in *. cbn [fold_right] in *. rewrite IHk. reflexivity. }
  unfold list_sum in *. cbn [fold_right]. rewrite E. cbn. lia.
Qed.

Lemma number_length : forall a l n, List.length a = List.length l -> List.length (number_monitors n a l) = List.length a.
Proof. induction a; destruct l; cbn; intros; try discriminate; auto. Qed.

Lemma number_spec : forall a l n, List.length a = List.length l ->
  map m_var (number_monitors n a l) = a /\ map m_loc (number_monitors n a l) = l /\
  map m_no (number_monitors n a l) = seq n (List.length a).
Proof.
  induction a as [|x a IH]; destruct l as [|y l]; cbn; intros n H; try discriminate; auto.
  injection H as H. destruct (IH l (S n) H) as (A & B & C). rewrite A, B, C. auto.
Qed.

Lemma zseq_one : forall i, zseq i (i + 1) = [i].
Proof. intros. unfold zseq. replace (i + 1 - i)%Z with 1%Z by lia. change (seq 0 (Z.to_nat 1)) with [0]. cbn [map]. rewrite Z.add_0_r. reflexivity. Qed.

Lemma points_one : forall loc, points (map (fun i => (i, i + 1)%Z) loc) = [loc].
Proof.
  induction loc as [|i loc IH]; [reflexivity|]. cbn [map points]. rewrite IH. cbn [flat_map].
  rewrite zseq_one. reflexivity.
Qed.

Lemma dec_sep : forall a b x y, (dec a ++ "_" ++ x)%string = (dec b ++ "_" ++ y)%string -> a = b /\ x = y.
Proof.
  intros a b x y H. change ("_" ++ x)%string with (String "_" x) in H. change ("_" ++ y)%string with (String "_" y) in H.
  apply digits_sep in H; try apply all_digits_dec; try reflexivity.
  destruct H as (H & _ & ->). split; [apply dec_inj; auto | auto].
Qed.

Lemma nodup_by_no : forall (f : monitor -> string) ms,
  (forall m m', f m = f m' -> m_no m = m_no m') -> NoDup (map m_no ms) -> NoDup (map f ms).
Proof.
  intros f ms Hf. induction ms as [|m ms IH]; cbn; intros N; constructor; inversion N; subst; auto.
  intros Hin. apply in_map_iff in Hin. destruct Hin as (m' & E & Hin). apply Hf in E.
  apply H1. rewrite <- E. apply in_map. auto.
Qed.

(* reversing strings, to read a number at the end of a name *)
Fixpoint srev (s : string) : string :=
  match s with EmptyString => EmptyString | String c s => (srev s ++ String c "")%string end.
Lemma srev_app : forall a b, srev (a ++ b)%string = (srev b ++ srev a)%string.
Proof.
  induction a; cbn; intros; [rewrite append_nil_r; reflexivity|]. rewrite IHa, append_assoc. reflexivity.
Qed.
Lemma srev_inv : forall s, srev (srev s) = s.
Proof. induction s; cbn; [reflexivity|]. rewrite srev_app, IHs. reflexivity. Qed.
Lemma srev_digits : forall s, all_digits s = true -> all_digits (srev s) = true.
Proof.
  induction s; cbn; auto. intros H. apply andb_true_iff in H. destruct H as [H1 H2].
  rewrite all_digits_app, IHs by auto. cbn. rewrite H1. reflexivity.
Qed.

Lemma output_name_no : forall m m', output_name m = output_name m' -> m_no m = m_no m'.
Proof.
  intros m m' H. unfold output_name in H. apply (f_equal srev) in H. rewrite !srev_app in H.
  rewrite !append_assoc in H. apply append_cancel_l in H.
  change (srev "_") with (String "_" "") in H.
  cbn [append] in H. apply digits_sep in H; try reflexivity; try (apply srev_digits, all_digits_dec).
  destruct H as (H & _ & _). apply (f_equal srev) in H. rewrite !srev_inv in H. apply dec_inj. auto.
Qed.
