(* Conditions of boundaries given as nested lists. *)
From Verif Require Import Base BCModel FlatSpec.
Local Open Scope list_scope.

Lemma flatten_reads {A} (t : nest A) l : reads_as t l -> flatten t = l.
Proof.
  induction 1 as [a| |t ts l ls H1 IH1 H2 IH2]; [reflexivity|reflexivity|].
  cbn in *. rewrite IH1, IH2. reflexivity.
Qed.

Lemma pair_up_nth {A} (ps : list (A * A)) : pair_up (flat_map (fun p => [fst p; snd p]) ps) = ps.
Proof. induction ps as [|[a b] ps IH]; [reflexivity|]. cbn. rewrite IH. reflexivity. Qed.

Lemma pairs_length {A} (ps : list (A * A)) : List.length (flat_map (fun p => [fst p; snd p]) ps) = List.length ps * 2.
Proof. induction ps as [|p ps IH]; [reflexivity|]. cbn. rewrite IH. reflexivity. Qed.

Lemma as_pairs {A} n : forall l : list A, List.length l = n * 2 -> exists ps, l = flat_map (fun p => [fst p; snd p]) ps /\ List.length ps = n.
Proof.
  induction n as [|n IH]; intros l H.
  - destruct l; [|discriminate]. exists []. auto.
  - destruct l as [|a [|b l]]; try discriminate. cbn in H. injection H as H. destruct (IH l H) as (ps & -> & L).
    exists ((a, b) :: ps). cbn. auto.
Qed.

Lemma types_reads {A} ndim (t : nest A) l : reads_as t l ->
  (forall ps, set_boundary_types ndim t = Ok ps <-> l = flat_map (fun p => [fst p; snd p]) ps /\ List.length ps = ndim) /\
  (List.length l <> ndim * 2 -> set_boundary_types ndim t = Err ValueError).
Proof.
  intros H. unfold set_boundary_types. rewrite (flatten_reads t l H). split.
  - intros ps. destruct (Nat.eqb_spec (List.length l) (ndim * 2)) as [E|N].
    + split.
      * intros X. injection X as <-. destruct (as_pairs ndim l E) as (qs & -> & L). rewrite pair_up_nth. auto.
      * intros [-> _]. rewrite pair_up_nth. reflexivity.
    + split; [discriminate|]. intros [-> L]. exfalso. apply N. rewrite pairs_length, L. reflexivity.
  - intros N. apply Nat.eqb_neq in N. rewrite N. reflexivity.
Qed.
