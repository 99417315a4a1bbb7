(* Specification of the central discretisation: the value of a right-hand side with
   every derivative read as the difference formula applied to the values of its
   argument, and the conditions on the equations. *)
From Verif Require Import Base Expr FDModel ShiftSpec.
From Coq Require Import QArith ZArith Reals Permutation.
Local Close Scope Q_scope.

Section spec.
  Variable J : interp R.
  Variable k : nat.                   (* order 2k *)
  Variable dirof : string -> nat.     (* direction of a coordinate *)
  Variable h : nat -> R.              (* spacing per direction *)
  Variable M : string -> list Z -> R. (* arrays *)

  Definition direction (cs : list expr) : nat :=
    match cs with ESym KCoord n :: _ => dirof n | _ => 0%nat end.
  (* value of e at grid point x *)
  Fixpoint sem (e : expr) (x : list Z) : R :=
    match e with
    | ENum q => inum J q
    | ESym kd n => isym J kd n
    | EDat b ix => M b (vadd x ix)
    | EApp hd args =>
        match hd, args with
        | HCD, a :: cs =>
            grid_formula (2 * Z.of_nat k) (List.length cs) (h (direction cs))
              (fun i => sem a (move (direction cs) i x)) 0
        | _, _ => iapp J hd (map (fun a => sem a x) args)
        end
    end.
End spec.

(* occurrences of derivatives and of other functions *)
Inductive inside : expr -> expr -> Prop :=
| in_self : forall e, inside e e
| in_arg : forall e hd args a, In a args -> inside e a -> inside e (EApp hd args).
Definition derivative (v : expr) : Prop := exists a cs, v = EApp HCD (a :: cs).
Definition no_function (e : expr) : Prop := forall f args, ~ inside (EApp (HFun f) args) e.

(* a derivative with respect to one coordinate, any number of times, of an expression
   that accesses arrays *)
Definition proper_derivative (ndim : nat) (dirof : string -> nat) (v : expr) : Prop :=
  exists a n m, v = EApp HCD (a :: repeat (ESym KCoord n) (S m)) /\ (dirof n < ndim)%nat /\ dsets a <> [].
(* a point of the grid *)
Definition grid_point (sizes : list Z) (x : list Z) : Prop :=
  Forall2 (fun n i => (0 <= i < n)%Z) sizes x.

(* terms of a right-hand side; those with the Reynolds number are the viscous ones *)
Definition terms (rhs : expr) : list expr := match rhs with EApp HAdd args => args | _ => [rhs] end.
Definition viscous_term (t : expr) : Prop := In "Re"%string (syms KConst t).
(* number of occurrences of derivatives *)
Fixpoint nderivs (e : expr) : nat :=
  match e with
  | EApp hd args =>
      (match hd, args with HCD, _ :: _ => 1 | _, _ => 0 end +
       (fix go l := match l with [] => 0 | x :: l => nderivs x + go l end) args)%nat
  | _ => 0%nat
  end.

(* The systems covered.  [reserved] are the names of work arrays; an equation is its
   residual array and its right-hand side. *)
Record well_formed (ndim : nat) (dirof : string -> nat) (reserved : string -> Prop) (eqs : list (string * expr)) : Prop := {
  (* every equation has its own residual array, which no right-hand side reads *)
  wf_distinct : NoDup (map fst eqs);
  wf_residual : forall r rhs, In (r, rhs) eqs -> ~ reserved r;
  wf_arrays : forall r rhs b ix, In (r, rhs) eqs -> In (b, ix) (dsets rhs) ->
    ix = repeat 0%Z ndim /\ ~ reserved b /\ ~ In b (map fst eqs);
  (* right-hand sides are sums or products without functions other than derivatives *)
  wf_form : forall r rhs, In (r, rhs) eqs -> exists args, rhs = EApp HAdd args \/ rhs = EApp HMul args;
  wf_function : forall r rhs, In (r, rhs) eqs -> no_function rhs;
  wf_derivative : forall r rhs v, In (r, rhs) eqs -> inside v rhs -> derivative v -> proper_derivative ndim dirof v;
  (* in the convective terms no derivative contains another *)
  wf_convective : forall r rhs t v, In (r, rhs) eqs -> In t (terms rhs) -> ~ viscous_term t ->
    inside v t -> derivative v -> (nderivs v <= 1)%nat;
  (* in the viscous terms a derivative contains at most one other, in which its own
     coordinate does not occur *)
  wf_viscous : forall r rhs t v, In (r, rhs) eqs -> In t (terms rhs) -> viscous_term t ->
    inside v t -> derivative v -> (nderivs v <= 2)%nat /\
      forall a n cs u, v = EApp HCD (a :: ESym KCoord n :: cs) -> inside u a -> derivative u -> ~ In n (syms KCoord u) }.

(* l lists, without repetition, the derivatives in the terms satisfying P *)
Definition lists_derivatives (eqs : list (string * expr)) (P : expr -> Prop) (l : list expr) : Prop :=
  NoDup l /\ forall v, In v l <->
    derivative v /\ exists r rhs t, In (r, rhs) eqs /\ In t (terms rhs) /\ P t /\ inside v t.

(* A substitution list replaces inner derivatives before outer ones: no pattern
   mentions an array introduced by a later entry. *)
Definition inner_first (l : list (expr * string)) : Prop :=
  forall l1 key w l2, l = l1 ++ (key, w) :: l2 ->
    forall key' w' ix, In (key', w') l2 -> ~ In (w', ix) (dsets key).

(* the program reads, at a point of a kernel's range, an array that it computes itself,
   at a point where no kernel computes it *)
Definition written (ks : list (list (string * expr) * (list Z -> bool))) (b : string) : Prop :=
  exists kn, In kn ks /\ In b (map fst (fst kn)).
Definition reads_uncomputed_point (ks : list (list (string * expr) * (list Z -> bool))) : Prop :=
  exists kn r e b ix x, In kn ks /\ In (r, e) (fst kn) /\ In (b, ix) (dsets e) /\ snd kn x = true /\ written ks b /\
    forall kw, In kw ks -> In b (map fst (fst kw)) -> snd kw (vadd x ix) = false.
(* a kernel reads an array that only later kernels compute *)
Definition reads_before_computed (ks : list (list (string * expr) * (list Z -> bool))) : Prop :=
  exists l1 kn l2 r e b ix, ks = l1 ++ kn :: l2 /\ In (r, e) (fst kn) /\ In (b, ix) (dsets e) /\
    ~ written (l1 ++ [kn]) b /\ written l2 b.
