(* C42: the skew-symmetric form of the derivative of a product. *)
From Coq Require Import Reals Lra FunctionalExtensionality.
From Verif Require Import Base EinModel EinSpec SkewModel FDModel FDSpec FDProps.
Local Open Scope list_scope.
Local Open Scope R_scope.

(* Fields on a set X of points, with an operator d c for each direction c. *)
Definition fields (X : Type) (comp : string -> list nat -> X -> R) (d : (X -> R) -> (X -> R) -> X -> R) : values :=
  {| D := X -> R; zero := fun _ => 0; plus := fun f g x => f x + g x; number := fun z _ => IZR z;
     times := fun l x => fold_right (fun f p => f x * p) 1 l; power := fun f p x => powerRZ (f x) p;
     func := fun _ l => fun x => fold_right (fun f p => f x * p) 1 l;
     oper := fun _ l => match l with f :: cs => fold_left (fun g c => d c g) cs f | [] => fun _ => 0 end;
     component := comp |}.
(* the product rule for f and g *)
Definition product_rule {X : Type} (d : (X -> R) -> X -> R) (f g : X -> R) : Prop :=
  forall x, d (fun x => f x * g x) x = f x * d g x + g x * d f x.

Lemma skew_value : forall X comp d r a b c, exists e, skew (Mul [a; b]) [c] = Ok e /\
  let V := fields X comp d in let dc := d (value V r c) in
  value V r e = (fun x => / 2 * (dc (fun x => value V r a x * value V r b x) x + value V r b x * dc (value V r a) x + value V r a x * dc (value V r b) x)).
Proof.
  intros X comp d r a b c. eexists. split; [reflexivity|]. cbv zeta. apply functional_extensionality. intros x.
  cbn [value fields D zero plus number times power func oper component map sum fold_right fold_left der conservative].
  unfold sum. cbn [fold_right plus zero fields].
  replace (fun x0 => value (fields X comp d) r a x0 * (value (fields X comp d) r b x0 * 1))
    with (fun x0 => value (fields X comp d) r a x0 * value (fields X comp d) r b x0) by (apply functional_extensionality; intros; ring).
  change (powerRZ 2 (-1)) with (/ (2 * 1)). rewrite Rmult_1_r. ring.
Qed.

Lemma times_two : forall (f g : R), f * (g * 1) = f * g.
Proof. intros. ring. Qed.
(* C42.  For every operator that obeys the product rule on the two factors, the skew form of
   their product is the derivative of the product. *)
Theorem C42_product_rule :
  forall X comp d r a b c, product_rule (d (value (fields X comp d) r c)) (value (fields X comp d) r a) (value (fields X comp d) r b) ->
    exists e, skew (Mul [a; b]) [c] = Ok e /\
      value (fields X comp d) r e = value (fields X comp d) r (der (Mul [a; b]) [c]).
Proof.
  intros X comp d r a b c L. destruct (skew_value X comp d r a b c) as (e & E & H). exists e. split; auto. cbv zeta in H. rewrite H.
  cbn [value fields D zero plus number times power func oper component map fold_right fold_left der].
  replace (fun x0 => value (fields X comp d) r a x0 * (value (fields X comp d) r b x0 * 1))
    with (fun x0 => value (fields X comp d) r a x0 * value (fields X comp d) r b x0) by (apply functional_extensionality; intros; ring).
  apply functional_extensionality. intros x. rewrite (L x). field.
Qed.
Print Assumptions C42_product_rule.
(* in particular for the derivative of differentiable functions on the line *)
Theorem C42_derivative :
  forall comp d r a b c da db,
    (forall f x l, derivable_pt_lim f x l -> d (value (fields R comp d) r c) f x = l) ->
    (forall x, derivable_pt_lim (value (fields R comp d) r a) x (da x)) -> (forall x, derivable_pt_lim (value (fields R comp d) r b) x (db x)) ->
    exists e, skew (Mul [a; b]) [c] = Ok e /\
      forall x, derivable_pt_lim (fun x => value (fields R comp d) r a x * value (fields R comp d) r b x) x (value (fields R comp d) r e x).
Proof.
  intros comp d r a b c da db H Ha Hb. set (fa := value (fields R comp d) r a) in *. set (fb := value (fields R comp d) r b) in *.
  destruct (skew_value R comp d r a b c) as (e & E & V). exists e. split; auto. cbv zeta in V. fold fa fb in V. intros x. rewrite V.
  pose proof (derivable_pt_lim_mult fa fb x _ _ (Ha x) (Hb x)) as M. unfold mult_fct in M.
  rewrite (H _ _ _ M), (H _ _ _ (Ha x)), (H _ _ _ (Hb x)).
  replace (/ 2 * (da x * fb x + fa x * db x + fb x * da x + fa x * db x)) with (da x * fb x + fa x * db x) by field. exact M.
Qed.
Print Assumptions C42_derivative.
(* On a periodic grid with central differences of any order, which have no product rule, the skew
   form of a mass flux a times a quantity v sums to zero and does not change the energy. *)
Theorem C42_discrete_conservation :
  forall (k n : nat) h comp r a b c,
    let V := fields Z comp (fun _ f i => grid_formula (2 * Z.of_nat k) 1 h f i) in
    periodic n (value V r a) -> periodic n (value V r b) ->
    exists e, skew (Mul [a; b]) [c] = Ok e /\ total n (value V r e) = 0 /\
      total n (fun i => value V r b i * - value V r e i
                        - value V r b i * value V r b i / 2 * - grid_formula (2 * Z.of_nat k) 1 h (value V r a) i) = 0.
Proof.
  intros k n h comp r a b c V Pa Pb. destruct (skew_value Z comp (fun _ f i => grid_formula (2 * Z.of_nat k) 1 h f i) r a b c) as (e & E & H).
  exists e. split; auto. cbv zeta in H. fold V in H. rewrite H.
  destruct (C27_skew_conserves k n h (value V r a) (value V r b) Pa Pb) as (A & B). split.
  - etransitivity; [|exact A]. f_equal.
  - etransitivity; [|exact B]. f_equal.
Qed.
Print Assumptions C42_discrete_conservation.
(* Atoms and expressions with more than two arguments are rejected. *)
Theorem C42_rejected_partial :
  forall v dirs, (List.length (args v) = 0 \/ 2 < List.length (args v))%nat -> skew v dirs = Err ValueError.
Proof. intros v dirs H. unfold skew. destruct (args v) as [|a [|b [|x l]]]; auto; cbn in H; lia. Qed.
Print Assumptions C42_rejected_partial.
(* Sums and powers also have two arguments: they are accepted and treated as products.  With two
   directions the mixed terms of the second derivative are missing.  d below is the derivative on
   the polynomials involved: of constants, x, 2 x, x^2 and x^3. *)
Definition on_line (d : (R -> R) -> R -> R) : values := fields R (fun _ _ x => x) (fun _ => d).
Definition slope (f : R -> R) (x : R) : R := (f (x - 2) - 8 * f (x - 1) + 8 * f (x + 1) - f (x + 2)) / 12.
Theorem C42_other_shapes_refuted :
  exists d : (R -> R) -> R -> R,
    (forall c x, d (fun _ => c) x = 0) /\ (forall c x, d (fun x => c * x) x = c) /\ (forall x, d (fun x => x * x) x = 2 * x) /\ (forall x, d (fun x => x * x * x) x = 3 * (x * x)) /\
    (exists e, skew (Add [Tm "a" []; Tm "b" []]) [Tm "x" []] = Ok e /\
       value (on_line d) (fun _ => 0%nat) e 0 <> value (on_line d) (fun _ => 0%nat) (der (Add [Tm "a" []; Tm "b" []]) [Tm "x" []]) 0) /\
    (exists e, skew (Pow (Tm "a" []) 3) [Tm "x" []] = Ok e /\
       value (on_line d) (fun _ => 0%nat) e 0 <> value (on_line d) (fun _ => 0%nat) (der (Pow (Tm "a" []) 3) [Tm "x" []]) 0) /\
    (exists e, skew (Mul [Tm "a" []; Tm "b" []]) [Tm "x" []; Tm "x" []] = Ok e /\
       value (on_line d) (fun _ => 0%nat) e 0 <> value (on_line d) (fun _ => 0%nat) (der (Mul [Tm "a" []; Tm "b" []]) [Tm "x" []; Tm "x" []]) 0).
Proof.
  exists slope. unfold slope. repeat split; try (intros; field).
  - eexists. split; [reflexivity|]. cbn. unfold slope, sum. cbn. unfold powerRZ. change (Pos.to_nat 1) with 1%nat. change (Pos.to_nat 3) with 3%nat. cbn [pow]. intros H. lra.
  - eexists. split; [reflexivity|]. cbn. unfold slope, sum. cbn. unfold powerRZ. change (Pos.to_nat 1) with 1%nat. change (Pos.to_nat 3) with 3%nat. cbn [pow]. intros H. lra.
  - eexists. split; [reflexivity|]. cbn. unfold slope, sum. cbn. unfold powerRZ. change (Pos.to_nat 1) with 1%nat. change (Pos.to_nat 3) with 3%nat. cbn [pow]. intros H. lra.
Qed.
Print Assumptions C42_other_shapes_refuted.
Example C42_nonvacuous : exists d : (R -> R) -> R -> R, product_rule d (fun x => x) (fun x => x) /\ d (fun x => x * x) 1 <> 0.
Proof. exists slope. unfold product_rule, slope. split; [intros; field|intros H; lra]. Qed.
