(* Proofs about the metric arrays: they are the inverse of the Jacobian. *)
From Verif Require Import Base MetModel MetSpec MetCalc.
From Coq Require Import Reals Lra Psatz FunctionalExtensionality.
Open Scope R_scope.

Definition delta (i j : nat) : R := if Nat.eqb i j then 1 else 0.

Lemma eval_tsum : forall w n f p, eval w (tsum n f) p = sumn n (fun k => eval w (f k) p).
Proof.
  intros w n f p. unfold tsum. 
  assert (G : forall l a, eval w (fold_right (fun k s => TAdd (f k) s) a l) p = fold_right (fun k s => eval w (f k) p + s) (eval w a p) l).
  { induction l; intros; cbn [fold_right eval]; auto. rewrite IHl. auto. }
  rewrite G. cbn [eval]. clear G.
  assert (K : forall l c, fold_right (fun k s => eval w (f k) p + s) c l = fold_right (fun k s => eval w (f k) p + s) 0 l + c).
  { induction l; intros; cbn [fold_right]; [ring|]. rewrite (IHl c). ring. }
  induction n; auto. rewrite seq_S, fold_right_app. cbn [fold_right sumn]. rewrite K, IHn. cbn [Nat.add]. ring.
Qed.

(* determinants and adjugates of real matrices *)
Definition minorR (m : nat -> nat -> R) (i j a b : nat) : R := m (skip i a) (skip j b).
Definition signR (i : nat) : R := IZR (if Nat.even i then 1 else -1).
Fixpoint detR (d : nat) (m : nat -> nat -> R) : R :=
  match d with
  | O => 1
  | S d => sumn (S d) (fun j => (signR j * m 0%nat j) * detR d (minorR m 0 j))
  end.
Definition adjR (d : nat) (m : nat -> nat -> R) (i j : nat) : R := signR (i + j) * detR (d - 1) (minorR m j i).
Lemma eval_det : forall w p d m, eval w (det d m) p = detR d (fun i j => eval w (m i j) p).
Proof.
  intros w p. induction d; intros m; [reflexivity|]. cbn [det detR]. rewrite eval_tsum. apply sumn_ext. intros j Hj. cbn [eval]. rewrite IHd. reflexivity.
Qed.
Lemma eval_adj : forall w p d m i j, eval w (adj d m i j) p = adjR d (fun i j => eval w (m i j) p) i j.
Proof. intros. unfold adj, adjR. cbn [eval]. rewrite eval_det. reflexivity. Qed.

Definition small (n : nat) : Prop := n = 1%nat \/ n = 2%nat \/ n = 3%nat.
Lemma detR_ext : forall n m m', small n -> (forall i j, (i < n)%nat -> (j < n)%nat -> m i j = m' i j) -> detR n m = detR n m'.
Proof.
  intros n m m' [-> | [-> | ->]] H; cbn; unfold minorR; cbn; repeat match goal with |- context [m ?a ?b] => rewrite (H a b) by lia end; reflexivity.
Qed.
Lemma adjR_ext : forall n m m' i j, small n -> (i < n)%nat -> (j < n)%nat -> (forall i j, (i < n)%nat -> (j < n)%nat -> m i j = m' i j) -> adjR n m i j = adjR n m' i j.
Proof.
  intros n m m' i j [-> | [-> | ->]] Hi Hj H; unfold adjR.
  - reflexivity.
  - do 2 (try (destruct i as [|i]; try lia)); do 2 (try (destruct j as [|j]; try lia)); cbn; unfold minorR; cbn; repeat match goal with |- context [m ?a ?b] => rewrite (H a b) by lia end; reflexivity.
  - do 3 (try (destruct i as [|i]; try lia)); do 3 (try (destruct j as [|j]; try lia)); cbn; unfold minorR; cbn; repeat match goal with |- context [m ?a ?b] => rewrite (H a b) by lia end; reflexivity.
Qed.
Lemma adj_right : forall n m i j, small n -> (i < n)%nat -> (j < n)%nat -> sumn n (fun k => m i k * adjR n m k j) = delta i j * detR n m.
Proof.
  intros n m i j [-> | [-> | ->]] Hi Hj; unfold adjR, delta.
  - destruct i; [|lia]. destruct j; [|lia]. cbn; unfold minorR, signR; cbn. ring.
  - do 2 (try (destruct i as [|i]; try lia)); do 2 (try (destruct j as [|j]; try lia)); cbn; unfold minorR, signR; cbn; unfold minorR; cbn; ring.
  - do 3 (try (destruct i as [|i]; try lia)); do 3 (try (destruct j as [|j]; try lia)); cbn; unfold minorR, signR; cbn; unfold minorR; cbn; ring.
Qed.
Lemma adj_left : forall n m i j, small n -> (i < n)%nat -> (j < n)%nat -> sumn n (fun k => adjR n m i k * m k j) = delta i j * detR n m.
Proof.
  intros n m i j [-> | [-> | ->]] Hi Hj; unfold adjR, delta.
  - destruct i; [|lia]. destruct j; [|lia]. cbn; unfold minorR, signR; cbn. ring.
  - do 2 (try (destruct i as [|i]; try lia)); do 2 (try (destruct j as [|j]; try lia)); cbn; unfold minorR, signR; cbn; unfold minorR; cbn; ring.
  - do 3 (try (destruct i as [|i]; try lia)); do 3 (try (destruct j as [|j]; try lia)); cbn; unfold minorR, signR; cbn; unfold minorR; cbn; ring.
Qed.
Lemma det_mult : forall n a b, small n -> detR n a * detR n b = detR n (fun i j => sumn n (fun k => a i k * b k j)).
Proof.
  intros n a b [-> | [-> | ->]]; cbn; unfold minorR, signR; cbn; unfold minorR; cbn; ring.
Qed.
Lemma det_delta : forall n, small n -> detR n delta = 1.
Proof. intros n [-> | [-> | ->]]; cbn; unfold minorR, signR, delta; cbn; unfold minorR; cbn; ring. Qed.

(* the pattern *)
Lemma entry_cases : forall params i j,
  (entry params i j = TMet i j /\ jac params i j = TCD (TMap i) [Curv j] /\ ((curv params i = true /\ curv params j = true) \/ (i = j /\ curv params i = false /\ stretch params i = true))) \/
  (entry params i j = TNum 1 /\ jac params i j = TNum 1 /\ i = j /\ curv params i = false /\ stretch params i = false) \/
  (entry params i j = TNum 0 /\ jac params i j = TNum 0 /\ i <> j /\ (curv params i = false \/ curv params j = false)).
Proof.
  intros params i j. unfold entry, jac, M2, doit. destruct (curv params i) eqn:Ci.
  - destruct (curv params j) eqn:Cj; cbn; [left; auto|]. right. right. repeat split; auto. congruence.
  - destruct (Nat.eqb_spec i j) as [-> | N].
    + destruct (stretch params j) eqn:Sj.
      * left. cbn. repeat split; auto.
      * right. left. cbn [existsb forallb coord_eqb orb]. rewrite Nat.eqb_refl. cbn. repeat split; auto.
    + cbn. right. right. auto.
Qed.

Section map.
  Variables (n : nat) (params : list (bool * bool)) (U : point -> Prop) (X : nat -> field) (w : world).
  Hypothesis Hn : small n.
  Hypothesis Hm : mapping n params U X.
  Hypothesis Hx : forall i, w_map w i = X i.
  Let J (p : point) (i j : nat) : R := partial j (X i) p.

  (* the coordinate x_i does not depend on xi_j *)
  Definition independent (i j : nat) : Prop := forall p t, U p -> U (set p j t) -> X i (set p j t) = X i p.
  Lemma ind_curv : forall i j, (i < n)%nat -> curv params i = true -> curv params j = false -> independent i j.
  Proof. intros i j Hi Ci Cj p t Hp Ht. apply (map_curv _ _ _ _ Hm); auto. intros b Hb Cb. apply set_off. congruence. Qed.
  Lemma ind_other : forall i j, (i < n)%nat -> curv params i = false -> i <> j -> independent i j.
  Proof.
    intros i j Hi Ci N p t Hp Ht. destruct (stretch params i) eqn:S.
    - apply (map_stretch _ _ _ _ Hm); auto. apply set_off; auto.
    - destruct (map_plain _ _ _ _ Hm i Hi Ci S) as (c & E). rewrite !E by auto. rewrite set_off; auto.
  Qed.
  Lemma ind_zero : forall i j p, U p -> independent i j -> has_partial j (X i) p 0.
  Proof. intros i j p Hp I. apply (has_partial_const U); [apply (map_open _ _ _ _ Hm) | auto |]. intros t Ht. apply I; auto. Qed.

  Lemma jac_value : forall i j p, (i < n)%nat -> (j < n)%nat -> U p -> eval w (jac params i j) p = J p i j.
  Proof.
    intros i j p Hi Hj Hp. unfold J.
    destruct (entry_cases params i j) as [(_ & -> & _) | [(_ & -> & <- & C & S) | (_ & -> & N & C)]].
    - cbn [eval fold_left]. rewrite Hx. reflexivity.
    - cbn [eval]. symmetry. apply partial_eq. destruct (map_plain _ _ _ _ Hm i Hi C S) as (c & E).
      apply (has_partial_local U _ (fun q => q i + c)); [apply (map_open _ _ _ _ Hm) | auto | intros; symmetry; auto |].
      unfold has_partial. apply (derivable_local (fun t => t + c) _ _ _ 1); [lra | intros; rewrite set_at; auto |].
      replace 1 with (1 + 0) by ring. apply (derivable_pt_lim_plus (fun t => t) (fun _ => c)); [apply derivable_pt_lim_id | apply derivable_pt_lim_const].
    - cbn [eval]. symmetry. apply partial_eq. apply ind_zero; auto. destruct (curv params i) eqn:Ci.
      + apply ind_curv; auto. destruct C; congruence.
      + apply ind_other; auto.
  Qed.
  Lemma det_nonzero : forall p, U p -> detR n (J p) <> 0.
  Proof.
    intros p Hp E. destruct (map_invertible _ _ _ _ Hm p Hp) as (B & HB).
    pose proof (det_mult n (J p) B Hn) as M. rewrite E in M.
    rewrite (detR_ext n (fun i j => sumn n (fun k => J p i k * B k j)) delta Hn) in M. { rewrite det_delta in M by auto. lra. }
    intros i j Hi Hj. apply HB; auto.
  Qed.
  Lemma det_value : forall p, U p -> eval w (det n (jac params)) p = detR n (J p).
  Proof. intros p Hp. rewrite eval_det. apply detR_ext; auto. intros. apply jac_value; auto. Qed.

  (* the inverse of the Jacobian *)
  Definition inv (p : point) (i j : nat) : R := adjR n (J p) i j / detR n (J p).
  Lemma inv_right : forall p i j, (i < n)%nat -> (j < n)%nat -> U p -> sumn n (fun k => J p i k * inv p k j) = delta i j.
  Proof.
    intros p i j Hi Hj Hp. unfold inv. pose proof (det_nonzero p Hp).
    rewrite (sumn_ext n _ (fun k => (J p i k * adjR n (J p) k j) * / detR n (J p))) by (intros; unfold Rdiv; ring).
    rewrite sumn_scalr, adj_right by auto. field. auto.
  Qed.
  Lemma inv_left : forall p i j, (i < n)%nat -> (j < n)%nat -> U p -> sumn n (fun k => inv p i k * J p k j) = delta i j.
  Proof.
    intros p i j Hi Hj Hp. unfold inv. pose proof (det_nonzero p Hp).
    rewrite (sumn_ext n _ (fun k => (adjR n (J p) i k * J p k j) * / detR n (J p))) by (intros; unfold Rdiv; ring).
    rewrite sumn_scalr, adj_left by auto. field. auto.
  Qed.
  (* the entries of the Jacobian that vanish *)
  Lemma J_zero : forall i j p, (i < n)%nat -> (j < n)%nat -> U p -> i <> j -> curv params i = false \/ curv params j = false -> J p i j = 0.
  Proof.
    intros i j p Hi Hj Hp N C. unfold J. apply partial_eq. apply ind_zero; auto. destruct (curv params i) eqn:Ci; [apply ind_curv; auto; destruct C; congruence | apply ind_other; auto].
  Qed.
  Lemma inv_zero : forall i j p, (i < n)%nat -> (j < n)%nat -> U p -> i <> j -> curv params i = false \/ curv params j = false -> inv p i j = 0.
  Proof.
    intros i j p Hi Hj Hp N [C | C].
    - pose proof (inv_right p i j Hi Hj Hp) as R. rewrite (sumn_ext n _ (fun k => inv p k j * J p i i * (if Nat.eqb k i then 1 else 0))) in R.
      + rewrite (sumn_delta n i (fun k => inv p k j * J p i i)) in R by auto. unfold delta in R. destruct (Nat.eqb_spec i j); [contradiction|].
        assert (Q : J p i i <> 0).
        { intros Z. pose proof (inv_right p i i Hi Hi Hp) as R'. rewrite (sumn_ext n _ (fun k => 0)) in R'.
          - rewrite sumn_zero in R'. unfold delta in R'. rewrite Nat.eqb_refl in R'. lra.
          - intros k Hk. destruct (Nat.eq_dec k i) as [-> | Nk]; [rewrite Z; ring|]. rewrite (J_zero i k) by auto. ring. }
        apply Rmult_integral in R. destruct R; [auto | contradiction].
      + intros k Hk. destruct (Nat.eqb_spec k i) as [-> | Nk]; [ring|]. rewrite (J_zero i k) by auto. ring.
    - pose proof (inv_left p i j Hi Hj Hp) as R. rewrite (sumn_ext n _ (fun k => inv p i k * J p j j * (if Nat.eqb k j then 1 else 0))) in R.
      + rewrite (sumn_delta n j (fun k => inv p i k * J p j j)) in R by auto. unfold delta in R. destruct (Nat.eqb_spec i j); [contradiction|].
        assert (Q : J p j j <> 0).
        { intros Z. pose proof (inv_left p j j Hj Hj Hp) as R'. rewrite (sumn_ext n _ (fun k => 0)) in R'.
          - rewrite sumn_zero in R'. unfold delta in R'. rewrite Nat.eqb_refl in R'. lra.
          - intros k Hk. destruct (Nat.eq_dec k j) as [-> | Nk]; [rewrite Z; ring|]. rewrite (J_zero k j) by auto. ring. }
        apply Rmult_integral in R. destruct R; [auto | contradiction].
      + intros k Hk. destruct (Nat.eqb_spec k j) as [-> | Nk]; [ring|]. rewrite (J_zero k j) by auto. ring.
  Qed.
  Lemma inv_one : forall i p, (i < n)%nat -> U p -> curv params i = false -> inv p i i * J p i i = 1.
  Proof.
    intros i p Hi Hp C. pose proof (inv_right p i i Hi Hi Hp) as R. rewrite (sumn_ext n _ (fun k => inv p k i * J p i i * (if Nat.eqb k i then 1 else 0))) in R.
    - rewrite (sumn_delta n i (fun k => inv p k i * J p i i)) in R by auto. unfold delta in R. rewrite Nat.eqb_refl in R. auto.
    - intros k Hk. destruct (Nat.eqb_spec k i) as [-> | Nk]; [ring|]. rewrite (J_zero i k) by auto. ring.
  Qed.
  Lemma J_one : forall i p, (i < n)%nat -> U p -> curv params i = false -> stretch params i = false -> J p i i = 1.
  Proof.
    intros i p Hi Hp C S. pose proof (jac_value i i p Hi Hi Hp) as V. destruct (entry_cases params i i) as [(_ & _ & [[? _] | (_ & _ & ?)]) | [(_ & E & _) | (_ & _ & ? & _)]]; try congruence.
    rewrite E in V. cbn [eval] in V. auto.
  Qed.

  Hypothesis Hc : computed w U (fdequations n params).
  Lemma in_pairs : forall i j, (i < n)%nat -> (j < n)%nat -> In (i, j) (pairs n).
  Proof. intros. apply in_prod; apply in_seq; lia. Qed.
  Lemma entry_value : forall i j p, (i < n)%nat -> (j < n)%nat -> U p -> eval w (entry params i j) p = inv p i j.
  Proof.
    intros i j p Hi Hj Hp. destruct (entry_cases params i j) as [(E & _ & _) | [(E & _ & <- & C & S) | (E & _ & N & C)]].
    - rewrite E. rewrite (Hc (TMet i j) (TDiv (adj n (jac params) i j) (det n (jac params))) p); auto.
      + cbn [eval]. rewrite det_value, eval_adj by auto. unfold inv. f_equal. apply adjR_ext; auto. intros. apply jac_value; auto.
      + right. apply in_flat_map. exists (i, j). split; [apply in_pairs; auto|]. cbn [fst snd]. rewrite E. left. auto.
    - rewrite E. cbn [eval]. pose proof (inv_one i p Hi Hp C) as O. rewrite (J_one i p) in O by auto. lra.
    - rewrite E. cbn [eval]. symmetry. apply inv_zero; auto.
  Qed.

  (* differentiability of the inverse *)
  Lemma signed : forall k F p l c, has_partial k F p l -> has_partial k (fun q => c * F q) p (c * l).
  Proof. intros k F p l c H. exact (derivable_pt_lim_scal _ c _ _ H). Qed.
  Lemma det_differentiable : forall d k (m : point -> nat -> nat -> R) p, (forall i j, (i < d)%nat -> (j < d)%nat -> exists l, has_partial k (fun q => m q i j) p l) ->
    exists l, has_partial k (fun q => detR d (m q)) p l.
  Proof.
    induction d; intros k m p H; [exists 0; exact (has_partial_num k 1 p)|]. cbn [detR].
    assert (G : forall j, (j < S d)%nat -> exists l, has_partial k (fun q => signR j * m q 0%nat j * detR d (minorR (m q) 0 j)) p l).
    { intros j Hj. destruct (H 0%nat j) as (l1 & H1); [lia | auto|]. destruct (IHd k (fun q => minorR (m q) 0 j) p) as (l2 & H2).
      - intros a b Ha Hb. unfold minorR. apply H; unfold skip; [destruct (Nat.ltb_spec a 0); lia | destruct (Nat.ltb_spec b j); lia].
      - eexists. apply has_partial_mult; [apply signed; apply H1 | apply H2]. }
    assert (G' : exists l, forall j, (j < S d)%nat -> has_partial k (fun q => signR j * m q 0%nat j * detR d (minorR (m q) 0 j)) p (l j)).
    { clear H IHd. revert G. generalize (S d) as e. intros e. revert p.
      generalize (fun j q => signR j * m q 0%nat j * detR d (minorR (m q) 0 j)) as F. intros F p G. induction e.
      - exists (fun _ => 0). intros. lia.
      - destruct IHe as (l & L); [intros; apply G; lia|]. destruct (G e) as (le & Le); [lia|]. exists (fun j => if Nat.eqb j e then le else l j). intros j Hj.
        destruct (Nat.eqb_spec j e) as [-> | N]; [auto | apply L; lia]. }
    destruct G' as (l & L). eexists. apply (has_partial_sumn (S d) k (fun j q => signR j * m q 0%nat j * detR d (minorR (m q) 0 j)) p l). auto.
  Qed.
  Lemma inv_differentiable : forall i j k p, (i < n)%nat -> (j < n)%nat -> (k < n)%nat -> U p -> exists l, has_partial k (fun q => inv q i j) p l.
  Proof.
    intros i j k p Hi Hj Hk Hp.
    assert (D : forall a b, (a < n)%nat -> (b < n)%nat -> exists l, has_partial k (fun q => J q a b) p l).
    { intros a b Ha Hb. eexists. apply (map_second _ _ _ _ Hm a b k p); auto. }
    destruct (det_differentiable n k J p D) as (ld & Ld).
    destruct (det_differentiable (n - 1) k (fun q => minorR (J q) j i) p) as (la & La).
    { intros a b Ha Hb. unfold minorR. apply D; unfold skip; [destruct (Nat.ltb_spec a j); lia | destruct (Nat.ltb_spec b i); lia]. }
    eexists. unfold inv. apply has_partial_div; [apply det_nonzero; auto | unfold adjR; apply signed; apply La | apply Ld].
  Qed.
  Lemma inv_partial : forall i j k p, (i < n)%nat -> (j < n)%nat -> (k < n)%nat -> U p -> has_partial k (fun q => inv q i j) p (partial k (fun q => inv q i j) p).
  Proof. intros i j k p Hi Hj Hk Hp. destruct (inv_differentiable i j k p) as (l & L); auto. rewrite (partial_eq _ _ _ _ L). auto. Qed.

  (* moving along a direction that is not curvilinear changes one entry of the Jacobian only *)
  Lemma J_along : forall l a b p t, (l < n)%nat -> (a < n)%nat -> (b < n)%nat -> curv params l = false -> ~ (a = l /\ b = l) -> U p -> U (set p l t) -> J (set p l t) a b = J p a b.
  Proof.
    intros l a b p t Hl Ha Hb C N Hp Ht.
    destruct (Nat.eq_dec b l) as [-> | Nb].
    - rewrite !J_zero; auto; intros ->; apply N; auto.
    - destruct (Nat.eq_dec a l) as [-> | Na]; [rewrite !J_zero; auto|].
      assert (I : independent a l). { destruct (curv params a) eqn:Ca; [apply ind_curv; auto | apply ind_other; auto]. }
      unfold J. apply partial_eq. pose proof (map_first _ _ _ _ Hm a b p Ha Hb Hp) as F. unfold has_partial in *. rewrite set_off by auto.
      destruct (map_open _ _ _ _ Hm p b Hp) as (d & Hd & Od). destruct (map_open _ _ _ _ Hm (set p l t) b Ht) as (d' & Hd' & Od').
      apply (derivable_local (fun s => X a (set p b s)) _ _ _ (Rmin d d')); [apply Rmin_pos; auto | | auto].
      intros s Hs. rewrite set_comm by auto. symmetry. apply I.
      + apply Od. eapply Rlt_le_trans; [apply Hs | apply Rmin_l].
      + rewrite <- set_comm by auto. apply Od'. rewrite set_off by auto. eapply Rlt_le_trans; [apply Hs | apply Rmin_r].
  Qed.
  Lemma inv_along : forall l i j p t, (l < n)%nat -> (i < n)%nat -> (j < n)%nat -> curv params l = false -> ~ (i = l /\ j = l) -> U p -> U (set p l t) -> inv (set p l t) i j = inv p i j.
  Proof.
    intros l i j p t Hl Hi Hj C N Hp Ht. set (p' := set p l t) in *.
    (* inv p' = inv p J(p) inv p' and inv p = inv p J(p') inv p' *)
    assert (E1 : inv p' i j = sumn n (fun a => sumn n (fun b => inv p i a * J p a b * inv p' b j))).
    { rewrite sumn_swap. rewrite (sumn_ext n _ (fun b => inv p' b j * delta b i)).
      - unfold delta. rewrite (sumn_delta n i (fun b => inv p' b j)); auto.
      - intros b Hb. rewrite sumn_scalr, inv_left by auto. unfold delta. rewrite Nat.eqb_sym. ring. }
    assert (E2 : inv p i j = sumn n (fun a => sumn n (fun b => inv p i a * J p' a b * inv p' b j))).
    { rewrite (sumn_ext n _ (fun a => inv p i a * delta a j)).
      - unfold delta. rewrite (sumn_delta n j (fun a => inv p i a)); auto.
      - intros a Ha. rewrite (sumn_ext n _ (fun b => inv p i a * (J p' a b * inv p' b j))) by (intros; ring). rewrite sumn_scal, inv_right by auto. auto. }
    rewrite E1, E2. apply sumn_ext. intros a Ha. apply sumn_ext. intros b Hb.
    destruct (Nat.eq_dec a l) as [-> | Na]; [destruct (Nat.eq_dec b l) as [-> | Nb]|].
    - destruct (Nat.eq_dec i l) as [-> | Ni].
      + assert (Nj : l <> j) by (intros <-; apply N; auto). rewrite (inv_zero l j p' Hl Hj Ht Nj (or_introl C)). ring.
      + rewrite (inv_zero i l p Hi Hl Hp Ni (or_intror C)). ring.
    - unfold p'. rewrite J_along; auto. intros [_ ?]; auto.
    - unfold p'. rewrite J_along; auto. intros [? _]; auto.
  Qed.

  Hypothesis Hs : computed w U (sdequations n params).
  Lemma sd_value : forall i j k p, (i < n)%nat -> (j < n)%nat -> (k < n)%nat -> U p -> eval w (sd_entry params i j k) p = partial k (fun q => inv q i j) p.
  Proof.
    intros i j k p Hi Hj Hk Hp. unfold sd_entry. destruct (kept params i j k) eqn:K.
    - rewrite (Hs (TSec i j k) (TCD (entry params i j) [Curv k]) p); auto.
      + cbn [eval fold_left]. apply (partial_local U k (fun q => inv q i j)); [apply (map_open _ _ _ _ Hm) | auto | intros; symmetry; apply entry_value; auto | apply inv_partial; auto].
      + unfold sdequations. apply in_flat_map. exists (i, j). split; [apply in_pairs; auto|]. apply in_flat_map. exists k. split; [apply in_seq; lia|]. cbn [fst snd]. rewrite K. left. auto.
    - cbn [eval]. symmetry.
      assert (Cn : forall c, (forall q, U q -> inv q i j = c) -> partial k (fun q => inv q i j) p = 0).
      { intros c H. apply partial_eq. apply (has_partial_const U); [apply (map_open _ _ _ _ Hm) | auto|]. intros t Ht. rewrite !H; auto. }
      unfold kept in K.
      destruct (entry_cases params i j) as [(E & _ & Cs) | [(E & _ & <- & C & S) | (E & _ & N & C)]].
      + rewrite E in K. cbn in K. unfold SD in K.
        assert (Dr : curv params k = false /\ ~ (i = k /\ j = k)).
        { assert (M : match M2 params i j with Some (Curv _) => False | _ => True end).
          { unfold M2. destruct Cs as [[-> ->] | (-> & -> & ->)]; [auto|]. rewrite Nat.eqb_refl. auto. }
          destruct (M2 params i j) as [[c | c]|]; try contradiction; (destruct (curv params k) eqn:Ck; [cbn in K; discriminate|]; split; auto; intros [-> ->]; rewrite Nat.eqb_refl in K;
            destruct Cs as [[? _] | (_ & _ & Sk)]; [congruence|]; rewrite Sk in K; cbn in K; discriminate). }
        destruct Dr as [Ck Nk]. apply partial_eq. apply (has_partial_const U); [apply (map_open _ _ _ _ Hm) | auto|]. intros t Ht. apply inv_along; auto.
      + apply (Cn 1). intros q Hq. rewrite <- entry_value by auto. rewrite E. auto.
      + apply (Cn 0). intros q Hq. rewrite <- entry_value by auto. rewrite E. auto.
  Qed.
End map.
