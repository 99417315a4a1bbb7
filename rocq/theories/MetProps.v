(* C50: metric transformations. *)
From Verif Require Import Base MetModel MetSpec MetCalc MetProofs MetEqn.
From Coq Require Import Reals Lra Psatz FunctionalExtensionality.
Open Scope R_scope.

Lemma small_range : forall n, (1 <= n <= 3)%nat -> small n.
Proof. intros. unfold small. lia. Qed.
Lemma generated : forall n params mo fd sd, generate_transformations n params mo = Ok (fd, sd) -> fd = fdequations n params /\ sd = sdequations n params.
Proof. intros n params mo fd sd H. unfold generate_transformations in H. destruct (negb _); [discriminate|]. destruct (mo =? 0)%nat; [discriminate|]. inversion H; auto. Qed.

(* One pair of flags is required for every direction. *)
Theorem C50_parameters : forall n params mo, (0 < mo)%nat ->
  (List.length params = n -> exists r, generate_transformations n params mo = Ok r) /\
  (List.length params <> n -> generate_transformations n params mo = Err ValueError).
Proof.
  intros n params mo Hm. unfold generate_transformations. split; intros H.
  - subst n. replace (2 * List.length params =? List.length params * 2)%nat with true by (symmetry; apply Nat.eqb_eq; lia). cbn [negb].
    destruct (Nat.eqb_spec mo 0); [lia|]. eexists. reflexivity.
  - destruct (Nat.eqb_spec (2 * List.length params) (n * 2)); [lia|]. reflexivity.
Qed.
Print Assumptions C50_parameters.

(* The metric coefficients are the inverse of the Jacobian matrix d x_i/d xi_j, and detJ is
   its determinant. *)
Theorem C50_inverse : forall n params mo fd sd U X w, (1 <= n <= 3)%nat ->
  generate_transformations n params mo = Ok (fd, sd) -> mapping n params U X -> (forall i, w_map w i = X i) -> computed w U fd ->
  forall i j p, (i < n)%nat -> (j < n)%nat -> U p ->
    sumn n (fun k => eval w (entry params i k) p * partial j (X k) p) = (if Nat.eqb i j then 1 else 0) /\
    sumn n (fun k => partial k (X i) p * eval w (entry params k j) p) = (if Nat.eqb i j then 1 else 0) /\
    eval w TDet p = determinant n (fun i j => partial j (X i) p).
Proof.
  intros n params mo fd sd U X w Hn Hg Hm Hx Hc i j p Hi Hj Hp. apply small_range in Hn. destruct (generated _ _ _ _ _ Hg) as [-> ->].
  split; [|split].
  - rewrite (sumn_ext n _ (fun k => inv n X p i k * partial j (X k) p)) by (intros k Hk; rewrite (entry_value n params U X w Hn Hm Hx Hc); auto). apply (inv_left n params U X Hn Hm); auto.
  - rewrite (sumn_ext n _ (fun k => partial k (X i) p * inv n X p k j)) by (intros k Hk; rewrite (entry_value n params U X w Hn Hm Hx Hc); auto). apply (inv_right n params U X Hn Hm); auto.
  - rewrite (Hc TDet (det n (jac params)) p (or_introl eq_refl) Hp). rewrite (det_value n params U X w Hn Hm Hx p Hp).
    destruct Hn as [-> | [-> | ->]]; cbn; unfold minorR, signR; cbn; unfold minorR; cbn; ring.
Qed.
Print Assumptions C50_inverse.

Section smooth.
  Variables (n : nat) (params : list (bool * bool)) (U : point -> Prop) (X : nat -> field) (w : world).
  Hypothesis Hn : small n.
  Hypothesis Hm : mapping n params U X.
  Hypothesis Hx : forall i, w_map w i = X i.
  Hypothesis Hc : computed w U (fdequations n params).
  Let J (p : point) (i j : nat) : R := partial j (X i) p.
  Let at_ (p : point) : point := fun i => X i p.
  Lemma field_partial : forall F g G k p, physical1 n U X F g G -> (k < n)%nat -> U p -> has_partial k F p (sumn n (fun i => G i (at_ p) * J p i k)).
  Proof.
    intros F g G k p [E D] Hk Hp. apply (has_partial_local U k (fun q => g (fun i => X i q))); [apply (map_open _ _ _ _ Hm) | auto | intros; symmetry; auto |].
    apply chain_partial; [apply D; auto|]. intros i Hi. apply (map_first _ _ _ _ Hm); auto.
  Qed.
  (* multiplying by the inverse Jacobian recovers the gradient *)
  Lemma recover : forall (G : nat -> R) d p, (d < n)%nat -> U p -> sumn n (fun k => inv n X p k d * sumn n (fun i => G i * J p i k)) = G d.
  Proof.
    intros G d p Hd Hp. rewrite (sumn_ext n _ (fun k => sumn n (fun i => G i * (J p i k * inv n X p k d)))).
    2:{ intros k Hk. rewrite <- sumn_scal. apply sumn_ext. intros. ring. }
    rewrite sumn_swap. rewrite (sumn_ext n _ (fun i => G i * delta i d)).
    - apply (sumn_delta n d G); auto.
    - intros i Hi. rewrite sumn_scal. f_equal. apply (inv_right n params U X Hn Hm); auto.
  Qed.
  Lemma first_value : forall e g G d p, physical1 n U X (eval w e) g G -> (d < n)%nat -> U p -> eval w (first n params d e) p = G d (at_ p).
  Proof.
    intros e g G d p Hf Hd Hp. unfold first. rewrite eval_tsum.
    rewrite (sumn_ext n _ (fun k => inv n X p k d * sumn n (fun i => G i (at_ p) * J p i k))).
    - apply (recover (fun i => G i (at_ p))); auto.
    - intros k Hk. cbn [eval fold_left]. rewrite (entry_value n params U X w Hn Hm Hx Hc) by auto. f_equal. apply partial_eq. eapply field_partial; eauto.
  Qed.
  Hypothesis Hs : computed w U (sdequations n params).
  Lemma second_value : forall e g G H i j p, physical2 n U X (eval w e) g G H -> (i < n)%nat -> (j < n)%nat -> U p -> eval w (second n params i j e) p = H i j (at_ p).
  Proof.
    intros e g G H i j p (Hf & HG & HS) Hi Hj Hp. set (F := eval w e).
    set (f := fun k q => sumn n (fun a => G a (at_ q) * J q a k)).
    set (h := fun k l => sumn n (fun a => sumn n (fun b => H a b (at_ p) * J p b l) * J p a k + G a (at_ p) * partial l (partial k (X a)) p)).
    assert (Ff : forall k q, (k < n)%nat -> U q -> partial k F q = f k q) by (intros; apply partial_eq; eapply field_partial; eauto).
    assert (Gp : forall a l, (a < n)%nat -> (l < n)%nat -> has_partial l (fun q => G a (at_ q)) p (sumn n (fun b => H a b (at_ p) * J p b l))).
    { intros a l Ha Hl. apply (chain_partial n (G a) l X p); [apply HG; auto|]. intros b Hb. apply (map_first _ _ _ _ Hm); auto. }
    assert (Fp : forall k l, (k < n)%nat -> (l < n)%nat -> has_partial l (f k) p (h k l)).
    { intros k l Hk Hl. apply (has_partial_sumn n l (fun a q => G a (at_ q) * J q a k)). intros a Ha.
      apply (has_partial_mult l (fun q => G a (at_ q)) (fun q => J q a k)); auto. apply (map_second _ _ _ _ Hm a k l p); auto. }
    assert (Sy : forall k l, (k < n)%nat -> (l < n)%nat -> h k l = h l k).
    { intros k l Hk Hl. unfold h. rewrite !sumn_plus. f_equal.
      - rewrite (sumn_ext n _ (fun a => sumn n (fun b => H a b (at_ p) * J p b l * J p a k))) by (intros; rewrite sumn_scalr; auto).
        rewrite (sumn_ext n (fun i => sumn n (fun b => H i b (at_ p) * J p b k) * J p i l) (fun a => sumn n (fun b => H a b (at_ p) * J p b k * J p a l))) by (intros; rewrite sumn_scalr; auto).
        rewrite sumn_swap. apply sumn_ext. intros a Ha. apply sumn_ext. intros b Hb. pose proof (HS b a p Hb Ha Hp) as Q. fold (at_ p) in Q. rewrite Q. ring.
      - apply sumn_ext. intros a Ha. rewrite (map_sym _ _ _ _ Hm a k l p); auto. }
    assert (Tw : forall k l, (k < n)%nat -> (l < n)%nat -> eval w (TCD e (two k l)) p = h k l).
    { intros k l Hk Hl. unfold two. destruct (Nat.leb k l); cbn [eval fold_left]; fold F.
      - apply (partial_local U l (f k)); [apply (map_open _ _ _ _ Hm) | auto | intros; symmetry; apply Ff; auto | auto].
      - rewrite Sy by auto. apply (partial_local U k (f l)); [apply (map_open _ _ _ _ Hm) | auto | intros; symmetry; apply Ff; auto | auto]. }
    unfold second. rewrite eval_tsum.
    rewrite (sumn_ext n _ (fun l => inv n X p l j * sumn n (fun b => H i b (at_ p) * J p b l))).
    { apply (recover (fun b => H i b (at_ p))); auto. }
    intros l Hl. cbn [eval]. rewrite (entry_value n params U X w Hn Hm Hx Hc) by auto. f_equal. rewrite eval_tsum.
    rewrite (sumn_ext n _ (fun k => partial l (fun q => inv n X q k i) p * f k p + inv n X p k i * h k l)).
    2:{ intros k Hk. pose proof (Tw k l Hk Hl) as T. cbn [eval] in *. rewrite T. rewrite (entry_value n params U X w Hn Hm Hx Hc) by auto.
        rewrite (sd_value n params U X w Hn Hm Hx Hc Hs) by auto. cbn [fold_left]. fold F. rewrite Ff by auto. reflexivity. }
    (* both sides are the derivative of the i-th component of the gradient *)
    assert (P1 : has_partial l (fun q => sumn n (fun k => inv n X q k i * f k q)) p (sumn n (fun k => partial l (fun q => inv n X q k i) p * f k p + inv n X p k i * h k l))).
    { apply (has_partial_sumn n l (fun k q => inv n X q k i * f k q)). intros k Hk.
      apply (has_partial_mult l (fun q => inv n X q k i) (f k)); [apply (inv_partial n params U X Hn Hm); auto | auto]. }
    rewrite <- (partial_eq _ _ _ _ P1).
    apply (partial_local U l (fun q => G i (at_ q))); [apply (map_open _ _ _ _ Hm) | auto | | auto].
    intros q Hq. unfold f. symmetry. apply (recover (fun a => G a (at_ q))); auto.
  Qed.
End smooth.

(* The transformed first derivative is the physical derivative. *)
Theorem C50_first : forall n params mo fd sd U X w, (1 <= n <= 3)%nat ->
  generate_transformations n params mo = Ok (fd, sd) -> mapping n params U X -> (forall i, w_map w i = X i) -> computed w U fd ->
  forall e g G d p, physical1 n U X (eval w e) g G -> (d < n)%nat -> U p ->
  exists t, transform n params (TCD e [Cart d]) = Ok t /\ (no_physical e -> no_physical t) /\ eval w t p = G d (fun i => X i p).
Proof.
  intros n params mo fd sd U X w Hn Hg Hm Hx Hc e g G d p Hf Hd Hp. apply small_range in Hn. destruct (generated _ _ _ _ _ Hg) as [-> ->].
  eexists. split; [reflexivity|]. split; [|eapply first_value; eauto].
  intros N. unfold first, tsum. cbn [direction]. induction (seq 0 n) as [|k l IH]; cbn [fold_right no_physical]; auto.
  split; auto. split; [|split; [auto|intros d' [E | []]; discriminate]]. destruct (entry_cases params k d) as [(-> & _) | [(-> & _) | (-> & _)]]; cbn; auto.
Qed.
Print Assumptions C50_first.

(* So is the transformed second derivative, mixed or not. *)
Theorem C50_second : forall n params mo fd sd U X w, (1 <= n <= 3)%nat ->
  generate_transformations n params mo = Ok (fd, sd) -> mapping n params U X -> (forall i, w_map w i = X i) -> computed w U fd -> computed w U sd ->
  forall e g G H i j p, physical2 n U X (eval w e) g G H -> (i < n)%nat -> (j < n)%nat -> U p ->
  exists t, transform n params (TCD e [Cart i; Cart j]) = Ok t /\ (no_physical e -> no_physical t) /\ eval w t p = H i j (fun i => X i p).
Proof.
  intros n params mo fd sd U X w Hn Hg Hm Hx Hc Hs e g G H i j p Hf Hi Hj Hp. apply small_range in Hn. destruct (generated _ _ _ _ _ Hg) as [-> ->].
  eexists. split; [reflexivity|]. split; [|eapply second_value; eauto].
  intros N. assert (Ne : forall a b, no_physical (entry params a b)) by (intros a b; destruct (entry_cases params a b) as [(-> & _) | [(-> & _) | (-> & _)]]; cbn; auto).
  assert (Ns : forall a b c, no_physical (sd_entry params a b c)) by (intros; unfold sd_entry; destruct (kept _ _ _ _); cbn; auto).
  assert (Nt : forall f, (forall k, no_physical (f k)) -> no_physical (tsum n f)) by (intros f Hff; unfold tsum; induction (seq 0 n); cbn [fold_right no_physical]; auto).
  unfold second. apply Nt. intros l. cbn [no_physical]. split; auto. apply Nt. intros k. cbn [no_physical]. split; (split; [auto|]; split; auto).
  - intros d [E | []]; discriminate.
  - intros d. unfold two. destruct (Nat.leb k l); intros [E | [E | []]]; discriminate.
Qed.
Print Assumptions C50_second.

Lemma functions_replaceable : forall n params U X w p, small n -> mapping n params U X -> (forall i, w_map w i = X i) ->
  computed w U (fdequations n params) -> computed w U (sdequations n params) -> takes_derivatives n U X (w_phys w) -> U p ->
  forall e f, smooth_equation n U X w e -> In f (functions e) -> replaceable n params w p f.
Proof.
  intros n params U X w p Hn Hm Hx Hc Hs Hph Hp.
  induction e; intros fn Sm I; cbn [smooth_equation functions] in *; try contradiction; try (apply in_app_or in I; destruct Sm, I; auto; fail).
  - destruct I as [<- | I]; [|rewrite plain_functions in I by auto; contradiction]. split; [exact Logic.I|]. exists (TTime e).
    split; [reflexivity|]. split; auto. split; auto. cbn [no_physical]. apply plain_no_physical; auto.
  - destruct ds as [|[d | d] [|[d' | d'] [|]]]; try contradiction.
    + destruct Sm as (Pl & Hd & g & G & Hf). destruct I as [<- | I]; [|rewrite plain_functions in I by auto; contradiction]. split; [exact Logic.I|].
      exists (first n params d e). split; [reflexivity|]. split; [|split; [apply flat_first; auto|]].
      * rewrite (first_value n params U X w Hn Hm Hx Hc e g G) by auto. cbn [eval fold_left]. symmetry. eapply Hph; eauto.
      * unfold first, tsum. induction (seq 0 n) as [|k l IH]; cbn [fold_right no_physical]; auto.
        split; auto. split; [|split; [apply plain_no_physical; auto|intros d' [E | []]; discriminate]]. destruct (entry_cases params k d) as [(-> & _) | [(-> & _) | (-> & _)]]; cbn; auto.
    + destruct Sm as (Pl & Hd & Hd' & g & G & H & Hf). destruct I as [<- | I]; [|rewrite plain_functions in I by auto; contradiction]. split; [exact Logic.I|].
      exists (second n params d d' e). split; [reflexivity|]. split; [|split; [apply flat_second; auto|]].
      * rewrite (second_value n params U X w Hn Hm Hx Hc Hs e g G H) by auto. cbn [eval fold_left]. symmetry. destruct Hf as (Hf & HG & HS).
        apply (Hph (w_phys w d (eval w e)) (G d) (H d) d' p); auto. split.
        -- intros q Hq. apply (Hph (eval w e) g G d q); auto.
        -- intros q Hq. apply HG; auto.
      * assert (Ne : forall a b, no_physical (entry params a b)) by (intros a b; destruct (entry_cases params a b) as [(-> & _) | [(-> & _) | (-> & _)]]; cbn; auto).
        assert (Ns : forall a b c, no_physical (sd_entry params a b c)) by (intros; unfold sd_entry; destruct (kept _ _ _ _); cbn; auto).
        assert (Nt : forall f, (forall k, no_physical (f k)) -> no_physical (tsum n f)) by (intros f Hff; unfold tsum; induction (seq 0 n); cbn [fold_right no_physical]; auto).
        unfold second. apply Nt. intros l. cbn [no_physical]. split; auto. apply Nt. intros k. cbn [no_physical]. split; (split; [auto|]; split; [apply plain_no_physical; auto|]).
        -- intros a [E | []]; discriminate.
        -- intros a. unfold two. destruct (Nat.leb k l); intros [E | [E | []]]; discriminate.
Qed.

(* Transforming a whole equation, in whatever order its derivatives are visited, leaves no
   derivative along a physical coordinate and does not change its value. *)
Theorem C50_equation : forall n params mo fd sd U X w, (1 <= n <= 3)%nat ->
  generate_transformations n params mo = Ok (fd, sd) -> mapping n params U X -> (forall i, w_map w i = X i) -> computed w U fd -> computed w U sd ->
  takes_derivatives n U X (w_phys w) ->
  forall e fns, smooth_equation n U X w e -> traversal fns e -> forall p, U p ->
  exists e', apply_transformation n params fns e = Ok e' /\ no_physical e' /\ eval w e' p = eval w e p.
Proof.
  intros n params mo fd sd U X w Hn Hg Hm Hx Hc Hs Hph e fns Sm [_ Tr] p Hp. apply small_range in Hn. destruct (generated _ _ _ _ _ Hg) as [-> ->].
  apply apply_value.
  - intros f I. apply Tr in I. eapply functions_replaceable; eauto.
  - eapply smooth_flat; eauto.
  - intros g I. left. apply Tr. auto.
Qed.
Print Assumptions C50_equation.

(* With nested derivatives the result depends on the order: if the inner one is visited
   first, the outer one is left untransformed. *)
Theorem C50_nested_refuted : exists n params e fns e', (1 <= n <= 3)%nat /\ List.length params = n /\ traversal fns e /\
  apply_transformation n params fns e = Ok e' /\ ~ no_physical e'.
Proof.
  set (inner := TCD (TFld "u") [Cart 1]). set (e := TCD (TMul (TFld "mu") inner) [Cart 0]).
  exists 2%nat, [(false, true); (false, true)], e, [inner; e]. eexists. split; [lia|]. split; [reflexivity|]. split; [|split; [reflexivity|]].
  - split.
    + constructor; [intros [E | []]; discriminate | constructor; [intros [] | constructor]].
    + intros f. cbn. tauto.
  - cbn. intros [_ H]. apply (H 0%nat). left. reflexivity.
Qed.
Print Assumptions C50_nested_refuted.

(* The hypotheses can be met: the metric arrays can be computed in every world, *)
Definition with_metrics (n : nat) (params : list (bool * bool)) (w : world) : world :=
  let met i j := eval w (TDiv (adj n (jac params) i j) (det n (jac params))) in
  {| w_fld := w_fld w; w_map := w_map w; w_met := met;
     w_sec := fun i j k => partial k (match entry params i j with TMet i j => met i j | TNum z => fun _ => IZR z | _ => fun _ => 0 end); w_det := eval w (det n (jac params)); w_time := w_time w; w_fun := w_fun w; w_phys := w_phys w |}.
Lemma jac_world : forall params w w', w_map w = w_map w' -> forall i j, eval w (jac params i j) = eval w' (jac params i j).
Proof. intros params w w' E i j. destruct (entry_cases params i j) as [(_ & -> & _) | [(_ & -> & _) | (_ & -> & _)]]; cbn [eval fold_left]; auto. rewrite E. auto. Qed.
Lemma det_world : forall n params w w' p, w_map w = w_map w' -> eval w (det n (jac params)) p = eval w' (det n (jac params)) p.
Proof. intros. rewrite !eval_det. f_equal. apply functional_extensionality. intros i. apply functional_extensionality. intros j. rewrite (jac_world params w w'); auto. Qed.
Lemma adj_world : forall n params w w' p i j, w_map w = w_map w' -> eval w (adj n (jac params) i j) p = eval w' (adj n (jac params) i j) p.
Proof. intros. rewrite !eval_adj. f_equal. apply functional_extensionality. intros a. apply functional_extensionality. intros b. rewrite (jac_world params w w'); auto. Qed.
Lemma with_metrics_computed : forall n params U w, computed (with_metrics n params w) U (fdequations n params) /\ computed (with_metrics n params w) U (sdequations n params).
Proof.
  intros n params U w. set (w' := with_metrics n params w). assert (Em : w_map w' = w_map w) by reflexivity. split; intros l r p I Hp.
  - destruct I as [I | I].
    + inversion I; subst. cbn [eval]. symmetry. apply det_world. auto.
    + apply in_flat_map in I. destruct I as ([i j] & _ & I). cbn [fst snd] in I. destruct (entry_cases params i j) as [(E & _) | [(E & _) | (E & _)]]; rewrite E in I; try contradiction.
      destruct I as [I | []]. inversion I; subst. cbn [eval]. rewrite (det_world n params w' w), (adj_world n params w' w) by auto. reflexivity.
  - apply in_flat_map in I. destruct I as ([i j] & _ & I). apply in_flat_map in I. destruct I as (k & _ & I). cbn [fst snd] in I. destruct (kept params i j k); [|contradiction].
    destruct I as [I | []]. inversion I; subst. cbn [eval fold_left]. unfold w', with_metrics at 1. cbn [w_sec].
    destruct (entry_cases params i j) as [(-> & _) | [(-> & _) | (-> & _)]]; reflexivity.
Qed.
(* there is an operator taking physical derivatives, *)
Lemma derivative_exists : forall n params U X, (1 <= n <= 3)%nat -> mapping n params U X -> takes_derivatives n U X (fun d F p => sumn n (fun k => inv n X p k d * partial k F p)).
Proof.
  intros n params U X Hn Hm F g G d p Hd Hf Hp. apply small_range in Hn.
  rewrite (sumn_ext n _ (fun k => inv n X p k d * sumn n (fun i => G i (fun i => X i p) * partial k (X i) p))).
  - apply (recover n params U X Hn Hm (fun i => G i (fun i => X i p))); auto.
  - intros k Hk. f_equal. apply partial_eq. apply (field_partial n params U X Hm F g G); auto.
Qed.
(* and there are curved mappings and smooth functions of the coordinates. *)
Definition shear (i : nat) : field := match i with 0%nat => fun p => p 0%nat + p 1%nat ^ 2 | 1%nat => fun p => p 1%nat | _ => fun p => p 2%nat + p 2%nat ^ 3 end.
Lemma has_coord : forall k i p, has_partial k (fun q => q i) p (delta i k).
Proof.
  intros k i p. unfold has_partial, delta. destruct (Nat.eqb_spec i k) as [-> | N].
  - apply (derivable_local (fun t => t) _ _ _ 1); [lra | intros; rewrite set_at; auto | apply derivable_pt_lim_id].
  - apply (derivable_local (fun t => p i) _ _ _ 1); [lra | intros; rewrite set_off; auto | apply derivable_pt_lim_const].
Qed.
Definition shear_jac (i j : nat) : field :=
  match i with 0%nat => fun p => delta 0 j + 2 * p 1%nat * delta 1 j | 1%nat => fun _ => delta 1 j | _ => fun p => (1 + 3 * p 2%nat ^ 2) * delta 2 j end.
Definition shear_hess (i j k : nat) : field :=
  match i with 0%nat => fun p => 2 * delta 1 k * delta 1 j | 1%nat => fun _ => 0 | _ => fun p => 6 * p 2%nat * delta 2 k * delta 2 j end.
Lemma shear_first : forall i j p, has_partial j (shear i) p (shear_jac i j p).
Proof.
  intros i j p. destruct i as [|[|i]]; cbn [shear shear_jac].
  - pose proof (has_coord j 1 p) as C. pose proof (has_partial_plus j _ _ p _ _ (has_coord j 0 p) (has_partial_mult j _ _ p _ _ C C)) as M.
    replace (delta 0 j + 2 * p 1%nat * delta 1 j) with (delta 0 j + (delta 1 j * p 1%nat + p 1%nat * delta 1 j)) by ring.
    replace (fun q : point => q 0%nat + q 1%nat ^ 2) with (fun q : point => q 0%nat + q 1%nat * q 1%nat) by (apply functional_extensionality; intros; ring). exact M.
  - apply has_coord.
  - pose proof (has_coord j 2 p) as C. pose proof (has_partial_plus j _ _ p _ _ C (has_partial_mult j _ _ p _ _ C (has_partial_mult j _ _ p _ _ C C))) as M. cbn beta in M.
    match type of M with has_partial _ _ _ ?v => replace ((1 + 3 * p 2%nat ^ 2) * delta 2 j) with v by ring end.
    replace (fun q : point => q 2%nat + q 2%nat ^ 3) with (fun q : point => q 2%nat + q 2%nat * (q 2%nat * q 2%nat)) by (apply functional_extensionality; intros; ring). exact M.
Qed.
Lemma shear_second : forall i j k p, has_partial k (shear_jac i j) p (shear_hess i j k p).
Proof.
  intros i j k p. destruct i as [|[|i]]; cbn [shear_jac shear_hess].
  - pose proof (has_partial_plus k _ _ p _ _ (has_partial_num k (delta 0 j) p) (has_partial_mult k _ _ p _ _ (has_partial_mult k _ _ p _ _ (has_partial_num k 2 p) (has_coord k 1 p)) (has_partial_num k (delta 1 j) p))) as M. cbn beta in M.
    match type of M with has_partial _ _ _ ?v => replace (2 * delta 1 k * delta 1 j) with v by ring end. exact M.
  - apply has_partial_num.
  - pose proof (has_coord k 2 p) as C.
    pose proof (has_partial_mult k _ _ p _ _ (has_partial_plus k _ _ p _ _ (has_partial_num k 1 p) (has_partial_mult k _ _ p _ _ (has_partial_num k 3 p) (has_partial_mult k _ _ p _ _ C C))) (has_partial_num k (delta 2 j) p)) as M. cbn beta in M.
    match type of M with has_partial _ _ _ ?v => replace (6 * p 2%nat * delta 2 k * delta 2 j) with v by ring end.
    replace (fun p : point => (1 + 3 * p 2%nat ^ 2) * delta 2 j) with (fun q : point => (1 + 3 * (q 2%nat * q 2%nat)) * delta 2 j) by (apply functional_extensionality; intros; ring). exact M.
Qed.
Lemma shear_partial : forall i j, partial j (shear i) = shear_jac i j.
Proof. intros. apply functional_extensionality. intros p. apply partial_eq. apply shear_first. Qed.
Lemma shear_partial2 : forall i j k, partial k (partial j (shear i)) = shear_hess i j k.
Proof. intros. rewrite shear_partial. apply functional_extensionality. intros p. apply partial_eq. apply shear_second. Qed.
Definition shear_params : list (bool * bool) := [(false, true); (true, true); (true, false)].
Example C50_mapping_nonvacuous : mapping 3 shear_params (fun _ => True) shear.
Proof.
  constructor.
  - intros p k _. exists 1. split; [lra | auto].
  - intros i j p _ _ _. rewrite shear_partial. apply shear_first.
  - intros i j k p _ _ _ _. rewrite shear_partial2, shear_partial. apply shear_second.
  - intros i j k p _ _ _ _. rewrite !shear_partial2. destruct i as [|[|i]]; cbn [shear_hess]; ring.
  - intros p _. exists (fun k j => match k, j with 0%nat, 0%nat => 1 | 0%nat, 1%nat => - 2 * p 1%nat | 1%nat, 1%nat => 1 | 2%nat, 2%nat => / (1 + 3 * p 2%nat ^ 2) | _, _ => 0 end).
    assert (1 + 3 * p 2%nat ^ 2 <> 0) by (pose proof (pow2_ge_0 (p 2%nat)); lra).
    intros i j Hi Hj. do 3 (try (destruct i as [|i]; try lia)); do 3 (try (destruct j as [|j]; try lia)); cbn [sumn Nat.eqb]; rewrite !shear_partial; cbn [shear_jac]; unfold delta; cbn [Nat.eqb]; try field; auto.
  - intros i p q Hi C _ _ E. do 3 (try (destruct i as [|i]; try lia)); cbn in C; try discriminate; cbn [shear].
    + rewrite (E 0%nat), (E 1%nat) by (auto; lia). auto.
    + rewrite (E 1%nat) by (auto; lia). auto.
  - intros i p q Hi C S _ _ E. do 3 (try (destruct i as [|i]; try lia)); cbn in C; try discriminate. cbn [shear]. rewrite E. auto.
  - intros i Hi C S. do 3 (try (destruct i as [|i]; try lia)); cbn in C, S; discriminate.
Qed.
Example C50_field_nonvacuous : physical2 3 (fun _ => True) shear (fun p => (p 0%nat + p 1%nat ^ 2) * p 1%nat)
  (fun x => x 0%nat * x 1%nat) (fun i x => match i with 0%nat => x 1%nat | 1%nat => x 0%nat | _ => 0 end) (fun i j _ => match i, j with 0%nat, 1%nat | 1%nat, 0%nat => 1 | _, _ => 0 end).
Proof.
  split; [split|split].
  - intros p _. reflexivity.
  - intros p _ eps He. cbn [shear]. set (x0 := p 0%nat + p 1%nat ^ 2). set (x1 := p 1%nat). exists (Rmin eps 1). split; [apply Rmin_pos; lra|]. intros y Hy.
    cbn [sumn shear]. pose proof (Hy 0%nat ltac:(lia)) as H0. pose proof (Hy 1%nat ltac:(lia)) as H1. cbn [shear] in *. fold x0 in H0. fold x1 in H1. fold x0 x1.
    replace (y 0%nat * y 1%nat - x0 * x1 - (0 + x1 * (y 0%nat - x0) + x0 * (y 1%nat - x1) + 0 * (y 2%nat - (p 2%nat + p 2%nat ^ 3)))) with ((y 0%nat - x0) * (y 1%nat - x1)) by ring.
    rewrite Rabs_mult. pose proof (Rabs_pos (y 0%nat - x0)). pose proof (Rabs_pos (y 1%nat - x1)). pose proof (Rabs_pos (y 2%nat - (p 2%nat + p 2%nat ^ 3))).
    pose proof (Rmin_l eps 1). set (a := Rabs (y 0%nat - x0)) in *. set (b := Rabs (y 1%nat - x1)) in *. set (c := Rabs (y 2%nat - (p 2%nat + p 2%nat ^ 3))) in *.
    assert (a * b <= eps * b) by (apply Rmult_le_compat_r; lra). nra.
  - intros i p Hi _ eps He. exists 1. split; [lra|]. intros y _. do 3 (try (destruct i as [|i]; try lia)); cbn [sumn shear];
    (match goal with |- Rabs ?z <= _ => replace z with 0 by ring end; rewrite Rabs_R0; apply Rmult_le_pos; [lra|];
     repeat (apply Rplus_le_le_0_compat; [|apply Rabs_pos]); lra).
  - intros i j p Hi Hj _. do 3 (try (destruct i as [|i]; try lia)); do 3 (try (destruct j as [|j]; try lia)); reflexivity.
Qed.
