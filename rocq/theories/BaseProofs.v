From Verif Require Import Base.
From Coq Require Import Decimal DecimalString DecimalNat DecimalFacts.

Lemma dec_inj n m : dec n = dec m -> n = m.
Proof.
  unfold dec; intros H.
  apply (f_equal NilEmpty.uint_of_string) in H.
  rewrite !NilEmpty.usu in H. inversion H as [H1].
  apply (f_equal Nat.of_uint) in H1. now rewrite !Unsigned.of_to in H1.
Qed.

Lemma append_cancel_l s a b : append s a = append s b -> a = b.
Proof. induction s as [|c s IH]; cbn; [easy|]; intros H; inversion H; auto. Qed.

Lemma append_assoc a b c : append (append a b) c = append a (append b c).
Proof. induction a as [|x a IH]; cbn; [easy|now rewrite IH]. Qed.

Lemma append_nil_r a : append a EmptyString = a.
Proof. induction a as [|x a IH]; cbn; [easy|now rewrite IH]. Qed.

Lemma length_append a b : String.length (append a b) = String.length a + String.length b.
Proof. induction a as [|x a IH]; cbn; [easy|now rewrite IH]. Qed.

(* The decimal digits as a predicate on characters. *)
Definition digit (c : ascii) : bool :=
  let n := nat_of_ascii c in (48 <=? n)%nat && (n <=? 57)%nat.

Fixpoint all_digits (s : string) : bool :=
  match s with EmptyString => true | String c s => digit c && all_digits s end.

Lemma all_digits_uint u : all_digits (NilEmpty.string_of_uint u) = true.
Proof. induction u; cbn; auto. Qed.

Lemma all_digits_dec n : all_digits (dec n) = true.
Proof. apply all_digits_uint. Qed.

Lemma all_digits_app a b : all_digits (append a b) = all_digits a && all_digits b.
Proof. induction a as [|c a IH]; cbn; [easy|]. rewrite IH. now destruct (digit c). Qed.

Lemma all_digits_zeros k : all_digits (zeros k) = true.
Proof. induction k; cbn; auto. Qed.

Lemma all_digits_decpad w n : all_digits (decpad w n) = true.
Proof. unfold decpad. now rewrite all_digits_app, all_digits_zeros, all_digits_dec. Qed.

(* Reading back a zero-padded number. *)
Fixpoint addz (k : nat) (u : uint) : uint :=
  match k with 0 => u | S k => D0 (addz k u) end.

Lemma string_addz k u :
  append (zeros k) (NilEmpty.string_of_uint u) = NilEmpty.string_of_uint (addz k u).
Proof. induction k as [|k IH]; cbn; [easy|now rewrite IH]. Qed.

Lemma of_uint_addz k u : Nat.of_uint (addz k u) = Nat.of_uint u.
Proof. induction k as [|k IH]; cbn; [easy|exact IH]. Qed.

Lemma decpad_inj w n m : decpad w n = decpad w m -> n = m.
Proof.
  unfold decpad, dec; rewrite !string_addz; intros H.
  apply (f_equal NilEmpty.uint_of_string) in H.
  rewrite !NilEmpty.usu in H. inversion H as [H1].
  apply (f_equal Nat.of_uint) in H1. now rewrite !of_uint_addz, !Unsigned.of_to in H1.
Qed.

(* Two digit strings followed by the same kind of non-digit separator. *)
Lemma digits_sep a b c d x y :
  all_digits a = true -> all_digits b = true -> digit x = false -> digit y = false ->
  append a (String x c) = append b (String y d) -> a = b /\ x = y /\ c = d.
Proof.
  revert b; induction a as [|p a IH]; intros [|q b]; cbn; intros Ha Hb Hx Hy H.
  - inversion H; auto.
  - inversion H; subst. apply andb_true_iff in Hb as [Hq _]. congruence.
  - inversion H; subst. apply andb_true_iff in Ha as [Hp _]. congruence.
  - apply andb_true_iff in Ha as [_ Ha]. apply andb_true_iff in Hb as [_ Hb].
    inversion H as [[H1 H2]]. destruct (IH b Ha Hb Hx Hy H2) as (-> & -> & ->). auto.
Qed.

Lemma nodup_snoc {A} (l : list A) x : NoDup l -> ~ In x l -> NoDup (l ++ [x]).
Proof.
  induction l as [|y l IH]; cbn; intros H Hx; [constructor; [easy|constructor]|].
  inversion H as [|? ? Hy Hl]; subst. constructor.
  - rewrite in_app_iff. cbn. intros [?|[?|[]]]; [easy|subst; tauto].
  - apply IH; tauto.
Qed.

Lemma append_cancel_r s : forall a b, append a s = append b s -> a = b.
Proof.
  induction a as [|c a IH]; intros b H; destruct b as [|d b]; cbn in H; auto.
  - apply (f_equal String.length) in H. cbn in H. rewrite length_append in H. lia.
  - apply (f_equal String.length) in H. cbn in H. rewrite length_append in H. lia.
  - injection H as -> H. f_equal. auto.
Qed.
