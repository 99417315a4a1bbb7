(* Specification: partial derivatives, differentiable functions and smooth mappings. *)
From Verif Require Import Base MetModel.
From Coq Require Import Reals Lra Classical.
Open Scope R_scope.

Definition point := nat -> R.
Definition field := point -> R.
Definition set (p : point) (k : nat) (t : R) : point := fun i => if Nat.eqb i k then t else p i.
Fixpoint sumn (n : nat) (f : nat -> R) : R := match n with O => 0 | S n => sumn n f + f n end.

(* F has the partial derivative l along coordinate k at p *)
Definition has_partial (k : nat) (F : field) (p : point) (l : R) : Prop :=
  derivable_pt_lim (fun t => F (set p k t)) (p k) l.
(* the limit of difference quotients, 0 if it does not exist *)
Definition quotients (f : R -> R) (x : R) (n : nat) : R := (f (x + / INR (S n)) - f x) / / INR (S n).
Definition deriv (f : R -> R) (x : R) : R :=
  match ClassicalDedekindReals.sig_not_dec (Cauchy_crit (quotients f x)) with
  | left H => proj1_sig (R_complete _ (NNPP _ H))
  | right _ => 0
  end.
Definition partial (k : nat) (F : field) (p : point) : R := deriv (fun t => F (set p k t)) (p k).

(* U contains with every point a segment along every axis *)
Definition axis_open (U : point -> Prop) : Prop :=
  forall p k, U p -> exists d, 0 < d /\ forall t, Rabs (t - p k) < d -> U (set p k t).
(* g, a function of n coordinates, is differentiable at x with gradient G *)
Definition differentiable (n : nat) (g : field) (x : point) (G : nat -> R) : Prop :=
  forall eps, 0 < eps -> exists d, 0 < d /\ forall y, (forall i, (i < n)%nat -> Rabs (y i - x i) < d) ->
    Rabs (g y - g x - sumn n (fun i => G i * (y i - x i))) <= eps * sumn n (fun i => Rabs (y i - x i)).

(* The coordinates as functions of xi: the mapping X from U has first and symmetric second
   partial derivatives and an invertible Jacobian, and is of the declared kind: a
   curvilinear coordinate depends on the curvilinear directions only, a stretched one on its
   own direction only, and any other is the computational coordinate up to a shift. *)
Record mapping (n : nat) (params : list (bool * bool)) (U : point -> Prop) (X : nat -> field) := {
  map_open : axis_open U;
  map_first : forall i j p, (i < n)%nat -> (j < n)%nat -> U p -> has_partial j (X i) p (partial j (X i) p);
  map_second : forall i j k p, (i < n)%nat -> (j < n)%nat -> (k < n)%nat -> U p -> has_partial k (partial j (X i)) p (partial k (partial j (X i)) p);
  map_sym : forall i j k p, (i < n)%nat -> (j < n)%nat -> (k < n)%nat -> U p -> partial k (partial j (X i)) p = partial j (partial k (X i)) p;
  map_invertible : forall p, U p -> exists B : nat -> nat -> R, forall i j, (i < n)%nat -> (j < n)%nat ->
    sumn n (fun k => partial k (X i) p * B k j) = if Nat.eqb i j then 1 else 0;
  map_curv : forall i p q, (i < n)%nat -> curv params i = true -> U p -> U q -> (forall b, (b < n)%nat -> curv params b = true -> p b = q b) -> X i p = X i q;
  map_stretch : forall i p q, (i < n)%nat -> curv params i = false -> stretch params i = true -> U p -> U q -> p i = q i -> X i p = X i q;
  map_plain : forall i, (i < n)%nat -> curv params i = false -> stretch params i = false -> exists c, forall p, U p -> X i p = p i + c }.

(* a value for every symbol of an expression; phys d is the derivative along x_d *)
Record world := { w_fld : string -> field; w_map : nat -> field; w_met : nat -> nat -> field; w_sec : nat -> nat -> nat -> field; w_det : field;
  w_time : field -> field; w_fun : string -> R -> R; w_phys : nat -> field -> field }.
Fixpoint eval (w : world) (e : term) : field :=
  match e with
  | TNum z => fun _ => IZR z
  | TFld s => w_fld w s
  | TMap i => w_map w i
  | TMet i j => w_met w i j
  | TSec i j k => w_sec w i j k
  | TDet => w_det w
  | TAdd a b => fun p => eval w a p + eval w b p
  | TMul a b => fun p => eval w a p * eval w b p
  | TDiv a b => fun p => eval w a p / eval w b p
  | TTime a => w_time w (eval w a)
  | TFun f a => fun p => w_fun w f (eval w a p)
  | TCD a ds => fold_left (fun F c => match c with Cart d => w_phys w d F | Curv k => partial k F end) ds (eval w a)
  end.
(* the equations hold on U: their left-hand arrays have been computed *)
Definition computed (w : world) (U : point -> Prop) (eqs : list (term * term)) : Prop :=
  forall l r p, In (l, r) eqs -> U p -> eval w l p = eval w r p.

(* A field F over the grid is the function g of the physical coordinates, which is
   differentiable with gradient G; in the second case so is the gradient, with symmetric
   second derivatives H. *)
Definition physical1 (n : nat) (U : point -> Prop) (X : nat -> field) (F g : field) (G : nat -> field) : Prop :=
  (forall p, U p -> F p = g (fun i => X i p)) /\
  forall p, U p -> differentiable n g (fun i => X i p) (fun i => G i (fun i => X i p)).
Definition physical2 (n : nat) (U : point -> Prop) (X : nat -> field) (F g : field) (G : nat -> field) (H : nat -> nat -> field) : Prop :=
  physical1 n U X F g G /\
  (forall i p, (i < n)%nat -> U p -> differentiable n (G i) (fun i => X i p) (fun j => H i j (fun i => X i p))) /\
  (forall i j p, (i < n)%nat -> (j < n)%nat -> U p -> H i j (fun i => X i p) = H j i (fun i => X i p)).
(* phys takes the physical derivative of every differentiable function of the coordinates *)
Definition takes_derivatives (n : nat) (U : point -> Prop) (X : nat -> field) (phys : nat -> field -> field) : Prop :=
  forall F g G d p, (d < n)%nat -> physical1 n U X F g G -> U p -> phys d F p = G d (fun i => X i p).
(* no derivative along a physical coordinate occurs in e *)
Fixpoint no_physical (e : term) : Prop :=
  match e with
  | TAdd a b | TMul a b | TDiv a b => no_physical a /\ no_physical b
  | TTime a | TFun _ a => no_physical a
  | TCD a ds => no_physical a /\ forall d, ~ In (Cart d) ds
  | _ => True
  end.
(* e has no derivatives and no functions *)
Fixpoint plain (e : term) : Prop :=
  match e with
  | TAdd a b | TMul a b | TDiv a b => plain a /\ plain b
  | TTime _ | TCD _ _ | TFun _ _ => False
  | _ => True
  end.
(* An equation whose derivatives are of first or second order, along physical coordinates,
   of smooth physical fields, and not nested. *)
Fixpoint smooth_equation (n : nat) (U : point -> Prop) (X : nat -> field) (w : world) (e : term) : Prop :=
  match e with
  | TAdd a b | TMul a b | TDiv a b => smooth_equation n U X w a /\ smooth_equation n U X w b
  | TTime a => plain a
  | TFun _ _ => False
  | TCD a [Cart d] => plain a /\ (d < n)%nat /\ exists g G, physical1 n U X (eval w a) g G
  | TCD a [Cart i; Cart j] => plain a /\ (i < n)%nat /\ (j < n)%nat /\ exists g G H, physical2 n U X (eval w a) g G H
  | TCD _ _ => False
  | _ => True
  end.
(* determinant of a matrix of size 1, 2 or 3 *)
Definition determinant (n : nat) (m : nat -> nat -> R) : R :=
  match n with
  | 1%nat => m 0%nat 0%nat
  | 2%nat => m 0%nat 0%nat * m 1%nat 1%nat - m 0%nat 1%nat * m 1%nat 0%nat
  | _ => m 0%nat 0%nat * (m 1%nat 1%nat * m 2%nat 2%nat - m 1%nat 2%nat * m 2%nat 1%nat)
         - m 0%nat 1%nat * (m 1%nat 0%nat * m 2%nat 2%nat - m 1%nat 2%nat * m 2%nat 0%nat)
         + m 0%nat 2%nat * (m 1%nat 0%nat * m 2%nat 1%nat - m 1%nat 1%nat * m 2%nat 0%nat)
  end.
(* fns lists the functions of e in some order, each once *)
Definition traversal (fns : list term) (e : term) : Prop := NoDup fns /\ forall f, In f fns <-> In f (functions e).
