(* Fornberg's recurrence gives weights that are exact on polynomials. *)
From Coq Require Import QArith List ZArith Lia Setoid Qfield.
From Verif Require Import Base FDModel.
Import ListNotations.
Local Open Scope Q_scope.

Fixpoint pev (p : list Q) (y : Q) : Q := match p with [] => 0 | a :: p => a + y * pev p y end.
Definition coef (p : list Q) (m : nat) : Q := nth m p 0.
Definition factQ (m : nat) : Q := inject_Z (Z.of_nat (fact m)).

Lemma factQ_S : forall m, factQ (S m) == nQ (S m) * factQ m.
Proof.
  intros m. unfold factQ, nQ. rewrite <- inject_Z_mult, <- Nat2Z.inj_mul.
  change (fact (S m)) with (S m * fact m)%nat. reflexivity.
Qed.

Fixpoint padd (p q : list Q) : list Q :=
  match p, q with
  | [], q => q
  | p, [] => p
  | a :: p, b :: q => (a + b) :: padd p q
  end.
Definition pscale (a : Q) (p : list Q) : list Q := map (Qmult a) p.

Lemma pev_padd : forall p q y, pev (padd p q) y == pev p y + pev q y.
Proof.
  induction p as [|a p IH]; intros [|b q] y; cbn [padd pev]; try ring. rewrite IH. ring.
Qed.
Lemma pev_pscale : forall a p y, pev (pscale a p) y == a * pev p y.
Proof. induction p as [|b p IH]; intros y; cbn; [ring|]. unfold pscale in IH. rewrite IH. ring. Qed.
Lemma coef_padd : forall p q m, coef (padd p q) m == coef p m + coef q m.
Proof.
  induction p as [|a p IH]; intros [|b q] m; unfold coef; destruct m; cbn [padd nth]; try ring.
  apply IH.
Qed.
Lemma coef_pscale : forall a p m, coef (pscale a p) m == a * coef p m.
Proof.
  unfold coef, pscale. induction p as [|b p IH]; intros [|m]; cbn [map nth]; try ring. apply IH.
Qed.
Lemma padd_length : forall p q, List.length (padd p q) = Nat.max (List.length p) (List.length q).
Proof. induction p; intros [|b q]; cbn; auto. Qed.

(* (y - c) p *)
Definition pmono (c : Q) (p : list Q) : list Q := padd (pscale (- c) p) (0 :: p).
Lemma pev_pmono : forall c p y, pev (pmono c p) y == (y - c) * pev p y.
Proof. intros. unfold pmono. rewrite pev_padd, pev_pscale. cbn [pev]. ring. Qed.
Lemma coef_pmono : forall c p m, coef (pmono c p) m == pred_del (coef p) m - c * coef p m.
Proof.
  intros. unfold pmono. rewrite coef_padd, coef_pscale. destruct m; cbn [pred_del]; unfold coef; cbn [nth]; ring.
Qed.
Lemma pmono_length : forall c p, List.length (pmono c p) = S (List.length p).
Proof. intros. unfold pmono. rewrite padd_length. unfold pscale. rewrite map_length. cbn. lia. Qed.

Lemma division : forall c p, exists q r, List.length q = pred (List.length p) /\
  (forall m, coef p m == c * coef q m - pred_del (coef q) m + match m with O => r | _ => 0 end) /\
  (forall y, pev p y == (c - y) * pev q y + r).
Proof.
  intros c. induction p as [|a p (q & r & Hl & Hc & He)].
  - exists [], 0. split; [reflexivity|]. split; [|intros; cbn; ring].
    intros m. unfold coef. destruct m; cbn [pred_del]; unfold coef; [cbn; ring|].
    destruct m; cbn [nth]; ring.
  - destruct p as [|b p].
    + exists [], a. split; [reflexivity|]. split; [|intros; cbn; ring].
      intros m. destruct m as [|[|m]]; unfold coef; cbn; ring.
    + exists ((- r) :: q), (a + c * r). split; [cbn in *; lia|]. split.
      * intros m. destruct m as [|m].
        { unfold coef. cbn [nth pred_del]. ring. }
        change (coef (a :: b :: p) (S m)) with (coef (b :: p) m).
        change (coef (- r :: q) (S m)) with (coef q m).
        rewrite Hc. destruct m as [|m]; cbn [pred_del]; unfold coef; cbn [nth]; ring.
      * intros y. change (pev (a :: b :: p) y) with (a + y * pev (b :: p) y). rewrite He. cbn [pev]. ring.
Qed.

Definition qsum (l : list Q) : Q := fold_right Qplus 0 l.
Definition prodp (x : Q) (rows : list frow) : Q := fold_right (fun r acc => (x - pt r) * acc) 1 rows.
Lemma prodp_cons : forall x r rs, prodp x (r :: rs) = (x - pt r) * prodp x rs.
Proof. reflexivity. Qed.
Lemma prodp_nil : forall x, prodp x [] = 1.
Proof. reflexivity. Qed.
Lemma qsum_cons : forall a l, qsum (a :: l) = a + qsum l.
Proof. reflexivity. Qed.

Section inv.
  Variable x0 : Q.

  Definition exact (rows : list frow) : Prop :=
    forall p m, (List.length p <= List.length rows)%nat ->
      qsum (map (fun r => del r m * pev p (pt r - x0)) rows) == factQ m * coef p m.

  Definition inv (s : Q * list frow) : Prop :=
    let '(c1, rows) := s in
    exact rows /\
    (rows = [] -> c1 == 1) /\
    (forall rs l, rows = rs ++ [l] ->
       ~ c1 == 0 /\
       exists w, List.length w = S (List.length rs) /\
         (forall x, pev w (x - x0) == prodp x rs) /\
         c1 == prodp (pt l) rs /\
         (forall m, c1 * del l m == factQ m * coef w m)).

  Lemma prodp_app : forall x a b, prodp x (a ++ b) == prodp x a * prodp x b.
  Proof.
    induction a; intros; cbn [app]; rewrite ?prodp_cons, ?prodp_nil; [ring|]. rewrite IHa. ring.
  Qed.
  Lemma prodp_zero : forall rs r, In r rs -> prodp (pt r) rs == 0.
  Proof.
    induction rs as [|a rs IH]; intros r H; [destruct H|]. rewrite prodp_cons.
    destruct H as [-> | H]; [ring|]. rewrite (IH r H). ring.
  Qed.
  Lemma prodp_nonzero : forall x rs, (forall r, In r rs -> ~ x == pt r) -> ~ prodp x rs == 0.
  Proof.
    induction rs as [|a rs IH]; intros H; [discriminate|]. rewrite prodp_cons.
    intro E. apply Qmult_integral in E. destruct E as [E | E].
    - apply (H a (or_introl eq_refl)). setoid_replace (pt a) with (x - (x - pt a)) by ring. rewrite E. ring.
    - revert E. apply IH. intros r Hr. apply H. right. auto.
  Qed.
  Lemma qsum_app : forall a b, qsum (a ++ b) == qsum a + qsum b.
  Proof. induction a; intros; cbn [app]; rewrite ?qsum_cons; [cbn; ring|]. rewrite IHa. ring. Qed.
  Lemma qsum_ext : forall (f g : frow -> Q) l, (forall r, In r l -> f r == g r) -> qsum (map f l) == qsum (map g l).
  Proof.
    induction l; intros H; cbn [map]; [reflexivity|]. rewrite !qsum_cons, (H a (or_introl eq_refl)), IHl; [reflexivity|].
    intros. apply H. right. auto.
  Qed.
  Lemma qsum_lin : forall (f g : frow -> Q) a b l,
    qsum (map (fun r => a * f r - b * g r) l) == a * qsum (map f l) - b * qsum (map g l).
  Proof. induction l; cbn [map]; [cbn; ring|]. rewrite !qsum_cons, IHl. ring. Qed.

  Lemma inv_init : inv (1, []).
  Proof.
    split; [|split].
    - intros p m H. destruct p; [|cbn in H; lia]. cbn. unfold coef. destruct m; cbn; ring.
    - reflexivity.
    - intros rs l E. destruct rs; discriminate.
  Qed.

  Lemma exact_pred : forall rows q m, exact rows -> (List.length q <= List.length rows)%nat ->
    qsum (map (fun r => nQ m * pred_del (del r) m * pev q (pt r - x0)) rows) == factQ m * pred_del (coef q) m.
  Proof.
    intros rows q m He Hl. destruct m as [|m].
    - cbn [pred_del]. rewrite (qsum_ext _ (fun r => 0 * 1 - 0 * 1)) by (intros; ring).
      rewrite (qsum_lin (fun _ => 1) (fun _ => 1)). ring.
    - cbn [pred_del]. rewrite (qsum_ext _ (fun r => nQ (S m) * (del r m * pev q (pt r - x0)) - 0 * 0)) by (intros; ring).
      rewrite (qsum_lin (fun r => del r m * pev q (pt r - x0)) (fun _ => 0)). rewrite (He q m Hl), factQ_S. ring.
  Qed.

  Lemma inv_step : forall s xn, inv s -> (forall r, In r (snd s) -> ~ xn == pt r) -> inv (fstep x0 s xn).
  Proof.
    intros [c1 rows] xn (He & H1 & Hw) Hd. cbn [snd] in Hd. unfold fstep.
    destruct (rev rows) as [|l rl] eqn:Er.
    - assert (rows = []) by (apply (f_equal (@rev _)) in Er; rewrite rev_involutive in Er; auto). subst rows.
      split; [|split].
      + intros p m Hp. destruct p as [|a [|b p]]; [| |cbn in Hp; lia].
        * cbn. unfold coef. destruct m; cbn; ring.
        * cbn [map pt del qsum fold_right pev]. destruct m as [|m].
          -- change (factQ 0) with 1. unfold coef. cbn [nth]. ring.
          -- unfold coef. cbn [nth]. destruct m; cbn [nth]; ring.
      + discriminate.
      + intros rs l E. destruct rs as [|r0 rs].
        * injection E as E. subst l. specialize (H1 eq_refl). split; [rewrite H1; discriminate|].
          exists [1]. split; [reflexivity|]. split; [intros; cbn; ring|]. split; [cbn; rewrite H1; reflexivity|].
          intros m. cbn [del]. rewrite H1. destruct m as [|m].
          -- change (factQ 0) with 1. unfold coef. cbn [nth]. ring.
          -- unfold coef. cbn [nth]. destruct m; cbn [nth]; ring.
        * destruct rs; discriminate.
    - assert (Erows : rows = rev rl ++ [l]) by (apply (f_equal (@rev _)) in Er; rewrite rev_involutive in Er; auto).
      clear Er. set (rs := rev rl) in *. clearbody rs.
      destruct (Hw rs l Erows) as (Hc1 & w & Lw & Ew & Ec & Dw). clear Hw.
      fold (prodp xn rows). set (c2 := prodp xn rows).
      assert (Hc2 : ~ c2 == 0) by (apply prodp_nonzero; auto).
      set (w' := pmono (pt l - x0) w).
      assert (Ew' : forall x, pev w' (x - x0) == prodp x rows).
      { intros x. unfold w'. rewrite pev_pmono, Ew, Erows, prodp_app, prodp_cons, prodp_nil. ring. }
      assert (Dlast : forall m, c2 * (c1 / c2 * (nQ m * pred_del (del l) m - (pt l - x0) * del l m)) == factQ m * coef w' m).
      { intros m. unfold w'. rewrite coef_pmono.
        transitivity (nQ m * (c1 * pred_del (del l) m) - (pt l - x0) * (c1 * del l m)); [field; auto|].
        rewrite Dw. destruct m as [|m]; cbn [pred_del].
        - unfold nQ. cbn. ring.
        - rewrite Dw, factQ_S. ring. }
      split; [|split].
      + intros p m Hp. rewrite app_length, map_length in Hp. cbn [List.length] in Hp.
        rewrite map_app, qsum_app, map_map. cbn [map pt del qsum fold_right].
        set (a := pev p (xn - x0) / c2). set (p' := padd p (pscale (- a) w')).
        destruct (division (xn - x0) p') as (q & r & Lq & Cq & Eq).
        assert (Er : r == 0).
        { pose proof (Eq (xn - x0)) as E. unfold p' in E. rewrite pev_padd, pev_pscale, Ew' in E. fold c2 in E.
          unfold a in E. transitivity ((xn - x0 - (xn - x0)) * pev q (xn - x0) + r); [ring|]. rewrite <- E. field. auto. }
        assert (Lq' : (List.length q <= List.length rows)%nat).
        { rewrite Lq. unfold p'. rewrite padd_length. unfold pscale. rewrite map_length. unfold w'.
          rewrite pmono_length, Lw, Erows, app_length in *. cbn in *. lia. }
        rewrite (qsum_ext _ (fun r => (xn - x0) * (del r m * pev q (pt r - x0))
                                       - 1 * (nQ m * pred_del (del r) m * pev q (pt r - x0)))).
        * rewrite (qsum_lin (fun r => del r m * pev q (pt r - x0))
                            (fun r => nQ m * pred_del (del r) m * pev q (pt r - x0))).
          rewrite (He q m Lq'), (exact_pred rows q m He Lq').
          transitivity (factQ m * ((xn - x0) * coef q m - pred_del (coef q) m + match m with O => r | _ => 0 end)
                        + a * (c2 * (c1 / c2 * (nQ m * pred_del (del l) m - (pt l - x0) * del l m)))).
          { destruct m; [rewrite Er|]; unfold a; field; auto. }
          rewrite <- Cq, Dlast. unfold p'. rewrite coef_padd, coef_pscale. ring.
        * intros r' Hr'. assert (Hne : ~ xn - pt r' == 0).
          { intro E. apply (Hd r' Hr'). setoid_replace (pt r') with (xn - (xn - pt r')) by ring. rewrite E. ring. }
          assert (Ep : pev p (pt r' - x0) == (xn - pt r') * pev q (pt r' - x0)).
          { pose proof (Eq (pt r' - x0)) as E. unfold p' in E. rewrite pev_padd, pev_pscale, Ew', (prodp_zero rows r' Hr'), Er in E.
            transitivity (pev p (pt r' - x0) + - a * 0); [ring|]. rewrite E. ring. }
          rewrite Ep. field. auto.
      + intros E. destruct (map _ rows); discriminate.
      + intros rs' l' E. apply app_inj_tail in E. destruct E as [E1 E2]. subst rs' l'. split; [exact Hc2|].
        exists w'. rewrite map_length. split; [unfold w'; rewrite pmono_length, Lw, Erows, app_length; cbn; lia|].
        assert (Pm : forall x, prodp x (map (fun r => {| pt := pt r;
            del := fun m => ((xn - x0) * del r m - nQ m * pred_del (del r) m) / (xn - pt r) |}) rows) = prodp x rows).
        { intros x. clear. induction rows; cbn; [reflexivity|]. f_equal. unfold prodp in IHrows. exact IHrows. }
        split; [intros; rewrite Pm; apply Ew'|]. split; [cbn [pt]; rewrite Pm; reflexivity|].
        intros m. cbn [del]. apply Dlast.
  Qed.

  Lemma step_pts : forall s xn, map pt (snd (fstep x0 s xn)) = map pt (snd s) ++ [xn].
  Proof.
    intros [c1 rows] xn. unfold fstep. destruct (rev rows) as [|l rl] eqn:Er.
    - assert (rows = []) by (apply (f_equal (@rev _)) in Er; rewrite rev_involutive in Er; auto). subst. reflexivity.
    - cbn [snd]. rewrite map_app, map_map. reflexivity.
  Qed.

  Lemma run_inv : forall xs s, inv s ->
    (forall a b l, map pt (snd s) ++ xs = l ++ a :: b -> forall x, In x l -> ~ a == x) ->
    inv (fold_left (fstep x0) xs s) /\ map pt (snd (fold_left (fstep x0) xs s)) = map pt (snd s) ++ xs.
  Proof.
    induction xs as [|x xs IH]; intros s Hs Hd.
    - cbn. rewrite app_nil_r. auto.
    - cbn [fold_left]. destruct (IH (fstep x0 s x)) as [I1 I2].
      + apply inv_step; auto. intros r Hr. apply (Hd x xs (map pt (snd s)) eq_refl). apply in_map. auto.
      + intros a b l E. rewrite step_pts in E. rewrite <- app_assoc in E. cbn in E. apply (Hd a b l E).
      + split; [exact I1|]. rewrite I2, step_pts, <- app_assoc. reflexivity.
  Qed.
End inv.

(* pairwise distinct points *)
Definition distinct (xs : list Q) : Prop := forall a b l, xs = l ++ a :: b -> forall x, In x l -> ~ a == x.

Lemma fornberg_pts : forall xs x0, distinct xs -> map pt (fornberg xs x0) = xs.
Proof.
  intros xs x0 H. unfold fornberg. destruct (run_inv x0 xs (1, []) (inv_init x0)) as [_ E]; [exact H|].
  rewrite E. reflexivity.
Qed.
Lemma fornberg_exact : forall xs x0, distinct xs -> exact x0 (fornberg xs x0).
Proof.
  intros xs x0 H. unfold fornberg. destruct (run_inv x0 xs (1, []) (inv_init x0)) as [I _]; [exact H|].
  destruct (fold_left (fstep x0) xs (1, [])) as [c rows]. apply I.
Qed.

(* weights, as returned *)
Lemma weights_length : forall m xs x0, distinct xs -> List.length (finite_diff_weights m xs x0) = List.length xs.
Proof. intros. unfold finite_diff_weights. rewrite map_length.
  pose proof (f_equal (@List.length Q) (fornberg_pts xs x0 H)) as E. rewrite map_length in E. exact E.
Qed.

Fixpoint wsum (ws xs : list Q) (f : Q -> Q) : Q :=
  match ws, xs with w :: ws, x :: xs => w * f x + wsum ws xs f | _, _ => 0 end.
Lemma weights_exact : forall m xs x0, distinct xs -> forall p, (List.length p <= List.length xs)%nat ->
  wsum (finite_diff_weights m xs x0) xs (fun x => pev p (x - x0)) == factQ m * coef p m.
Proof.
  intros m xs x0 H p Hp. pose proof (fornberg_exact xs x0 H p m) as He.
  pose proof (fornberg_pts xs x0 H) as Hpt. unfold finite_diff_weights.
  rewrite <- He by (rewrite <- (map_length pt), Hpt; exact Hp). rewrite <- Hpt at 2. clear.
  induction (fornberg xs x0) as [|r rs IH]; cbn [map wsum]; [reflexivity|].
  rewrite IH. cbn. rewrite Qred_correct. reflexivity.
Qed.
