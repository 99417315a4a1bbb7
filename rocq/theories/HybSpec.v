(* Specification for simulation equations with shock capturing (C65). *)
From Verif Require Import Base Expr FDModel ShiftSpec DiscSpec LLFModel.
From Coq Require Import QArith ZArith Reals.
Local Close Scope Q_scope.
Local Open Scope list_scope.

Definition WD (f : expr) (coordinate : string) : expr := EApp (HFun "WD") [f; ESym KCoord coordinate].

(* Value of a right-hand side at a grid point: central derivatives are difference
   formulas, [wd n] is the value of the shock-capturing derivative with respect to the
   coordinate n. *)
Section spec.
  Variable J : interp R.
  Variable k : nat.
  Variable dirof : string -> nat.
  Variable h : nat -> R.
  Variable M : string -> list Z -> R.
  Variable wd : string -> list Z -> R.
  Fixpoint hybrid_value (e : expr) (x : list Z) : R :=
    match e with
    | ENum q => inum J q
    | ESym kd n => isym J kd n
    | EDat b ix => M b (vadd x ix)
    | EApp hd args =>
        match hd, args with
        | HCD, a :: cs =>
            grid_formula (2 * Z.of_nat k) (List.length cs) (h (direction dirof cs))
              (fun i => hybrid_value a (move (direction dirof cs) i x)) 0
        | HFun f, [_; ESym KCoord n] =>
            if String.eqb f "WD" then wd n x else iapp J hd (map (fun a => hybrid_value a x) args)
        | _, _ => iapp J hd (map (fun a => hybrid_value a x) args)
        end
    end.
End spec.
(* the arrays that the numerical flux reads besides the fluxes *)
Definition flow_arrays (solution : list string) : list string := solution ++ ["rho"; "u0"; "u1"; "u2"; "a"; "p"]%string.
(* The numerical flux (C37) at the upper face of point x in direction d: conserved
   variables and fluxes on the line through x, direction vector e_d. *)
Definition numerical_flux (J : interp R) (sch : LLFModel.scheme) (g : R) (av : averaging) (solution : list string) (ndim d : nat)
    (fluxes : list expr) (M : string -> list Z -> R) (x : list Z) : result (list R) :=
  interface_flux sch g av (fun j => let y := move d j x in
    {| c_U := map (fun q => M q y) solution; c_F := map (value J M y) fluxes;
       c_rho := M "rho"%string y; c_u := map (fun u => M u y) (firstn ndim ["u0"; "u1"; "u2"]%string);
       c_a := M "a"%string y; c_p := M "p"%string y;
       c_k := map (fun e => if Nat.eqb e d then 1%R else 0%R) (seq 0 ndim) |}) 0.
(* the difference of the numerical fluxes at the two faces of a point: component i of
   [face d x] is the flux at the upper face of x in direction d *)
Definition flux_difference (dirof : string -> nat) (h : nat -> R) (face : nat -> list Z -> list R) (i : nat) (n : string) (x : list Z) : R :=
  ((nth i (face (dirof n) x) 0 - nth i (face (dirof n) (move (dirof n) (-1) x)) 0) / h (dirof n))%R.

(* an expression that vanishes with the expressions P in it *)
Inductive made_of (P : expr -> Prop) : expr -> Prop :=
| md_one : forall v, P v -> made_of P v
| md_product : forall a args, In a args -> made_of P a -> made_of P (EApp HMul args)
| md_sum : forall args, (forall a, In a args -> made_of P a) -> made_of P (EApp HAdd args).
Definition any_derivative (v : expr) : Prop := derivative v \/ exists f n, v = WD f n.
(* a sum of derivatives multiplied with expressions that are constant in space *)
Definition divergence_form (rhs : expr) : Prop :=
  forall t, In t (terms rhs) -> exists l1 v l2, t = EApp HMul (l1 ++ v :: l2) /\ any_derivative v /\
    forall c, In c (l1 ++ l2) -> dsets c = [] /\ forall u, inside u c -> ~ any_derivative u.

(* Equations whose i-th right-hand side has, for every direction d, exactly one
   shock-capturing derivative: that of the i-th flux in [fluxes d]. *)
Record shock_system (ndim : nat) (dirof : string -> nat) (reserved : string -> Prop) (coordinate : nat -> string)
    (fluxes : nat -> list expr) (eqs : list (string * expr)) : Prop := {
  ss_count : List.length eqs = (ndim + 2)%nat;
  ss_coordinate : forall d, (d < ndim)%nat -> dirof (coordinate d) = d;
  ss_distinct : NoDup (map fst eqs);
  ss_residual : forall r rhs, In (r, rhs) eqs -> ~ reserved r;
  ss_arrays : forall r rhs b ix, In (r, rhs) eqs -> In (b, ix) (dsets rhs) ->
    ix = repeat 0%Z ndim /\ ~ reserved b /\ ~ In b (map fst eqs);
  ss_fluxes : forall d, (d < ndim)%nat -> List.length (fluxes d) = List.length eqs /\ NoDup (fluxes d) /\
    forall f, In f (fluxes d) -> forall v, inside v f -> ~ derivative v /\ forall n args, v <> EApp (HFun n) args;
  ss_one : forall i r rhs, nth_error eqs i = Some (r, rhs) -> forall v,
    (inside v rhs /\ exists f n, v = WD f n) <-> (exists d, (d < ndim)%nat /\ v = WD (nth i (fluxes d) (ENum 0)) (coordinate d)) }.

(* Moreover: terms without the Reynolds number have no central derivative and no function
   other than the shock-capturing derivatives; terms with the Reynolds number have only
   central derivatives, as in [well_formed], and vanish with them. *)
Record hybrid_system (ndim : nat) (dirof : string -> nat) (reserved : string -> Prop) (coordinate : nat -> string)
    (fluxes : nat -> list expr) (eqs : list (string * expr)) : Prop := {
  hs_shock : shock_system ndim dirof reserved coordinate fluxes eqs;
  hs_form : forall r rhs, In (r, rhs) eqs -> exists args, rhs = EApp HAdd args \/ rhs = EApp HMul args;
  hs_inviscid : forall r rhs t, In (r, rhs) eqs -> In t (terms rhs) -> ~ viscous_term t ->
    forall v, inside v t -> (forall args, v <> EApp HCD args) /\ forall f args, v = EApp (HFun f) args -> exists g n, v = WD g n;
  hs_viscous : forall r rhs t, In (r, rhs) eqs -> In t (terms rhs) -> viscous_term t ->
    made_of derivative t /\ no_function t /\
    forall v, inside v t -> derivative v -> proper_derivative ndim dirof v /\ (nderivs v <= 2)%nat /\
      forall a n cs u, v = EApp HCD (a :: ESym KCoord n :: cs) -> inside u a -> derivative u -> ~ In n (syms KCoord u) }.
