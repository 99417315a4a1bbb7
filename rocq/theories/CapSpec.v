(* Specification for whole programs with shock capturing (C81). *)
From Verif Require Import Base Expr WorkModel ShiftSpec DiscSpec LLFModel HybSpec ProgModel ProgSpec CapModel.
From Verif Require AdvModel AdvSpec AlgModel AlgProps WenoModel ProgProps.
From Coq Require Import ZArith Reals Permutation.

(* [f] is the right-hand side of the semi-discrete system du/dt = f(u): at every grid point
   the right-hand side of the equation, where the shock-capturing derivatives are differences
   of the numerical fluxes (C37) on the lines through the point, and central derivatives are
   difference formulas.  [F] are the arrays that belong to u: periodic, relations satisfied. *)
Definition shock_semi_discrete (J : interp R) (k : nat) (dirof : string -> nat) (h : nat -> R) (sch : scheme) (g : R) (av : averaging)
    (fluxes : nat -> list expr) (sizes : list Z) (sys crs : list (string * expr)) (S : string -> list Z -> R)
    (f : ProgSpec.solution -> ProgSpec.solution) : Prop :=
  forall u, exists F face, fields J sizes sys crs S u F /\
    (forall d x, (d < List.length sizes)%nat -> numerical_flux J sch g av (map fst sys) (List.length sizes) d (fluxes d) F x = Ok (face d x)) /\
    forall i v rhs x, nth_error sys i = Some (v, rhs) -> grid_point sizes x ->
      f u (v, x) = hybrid_value J k dirof h F (flux_difference dirof h face i) rhs x.

(* the schemes by their orders: WENO of order 2r - 1 has r candidate stencils of r points;
   TENO of order 5 and 6 *)
Definition order_scheme (sh : shock) : scheme :=
  match sh with Weno fm order eps => weno_scheme fm ((order + 1) / 2) eps | Teno order eps CT => teno_scheme order eps CT end.
(* the points on either side of a face that the reconstruction reads *)
Definition width (sh : shock) : nat :=
  match sh with Weno _ order _ => (order + 1) / 2 | Teno order _ _ => if Nat.eqb order 8 then 4 else 3 end.

(* the schemes for which the flux of C37 is proved correct *)
Definition usable_scheme (sh : shock) : Prop :=
  match sh with
  | Weno fm order eps => (3 <= order)%nat /\ (fm = WenoModel.WZ -> (order <= 14)%nat) /\ (0 < eps)%R
  | Teno order eps CT => (order = 5 \/ order = 6)%nat /\ (0 < eps)%R /\ (CT <= 1 / INR (order - 2))%R
  end.
(* density, speed of sound and velocity components *)
Definition flow_names (ndim : nat) : list string := ["rho"; "a"]%string ++ firstn ndim ["u0"; "u1"; "u2"]%string.
(* the numerical flux in direction d is computed from array b *)
Definition in_flux (ndim : nat) (fluxes : nat -> list expr) (b : string) (d : nat) : Prop :=
  In b (flow_names ndim) \/ exists f ix, In f (fluxes d) /\ In (b, ix) (dsets f).
(* the equations need w layers of array b outside the grid in direction d: r for the
   reconstruction, k for central derivatives *)
Definition needs_layers (ndim r k : nat) (dirof : string -> nat) (fluxes : nat -> list expr) (sys : list (string * expr)) (b : string) (d w : nat) : Prop :=
  ((d < ndim)%nat /\ in_flux ndim fluxes b d /\ w = r) \/ (differentiated dirof sys b d /\ w = k).

Record shock_problem (ndim r k : nat) (dirof : string -> nat) (register : string -> string) (coordinate : nat -> string)
    (fluxes : nat -> list expr) (sys crs : list (string * expr)) (known : list string) : Prop := {
  cp_form : hybrid_system ndim dirof (private register sys) coordinate fluxes (disc_eqs sys);
  cp_coordinates : forall v rhs v' rhs' n n', In (v, rhs) sys -> In (v', rhs') sys ->
    In n (syms KCoord rhs) -> In n' (syms KCoord rhs') -> dirof n = dirof n' -> n = n';
  (* different arrays for different purposes *)
  cp_arrays : AdvSpec.distinct_arrays register (adv_eqs sys);
  cp_work : forall v, In v (map fst sys) -> (forall i, v <> wk_name i) /\ (forall i, register v <> wk_name i);
  cp_relations : NoDup (map fst crs);
  cp_names : forall b, In b (map fst crs) ->
    ~ private register sys b /\ ~ In b (map fst sys) /\ ~ In b (map fst (disc_eqs sys)) /\ ~ In b known;
  cp_flow : forall b, In b ("p"%string :: flow_names ndim) -> ~ private register sys b /\ ~ In b (map fst (disc_eqs sys));
  (* if the pressure is computed, it occurs in a flux of every direction *)
  cp_pressure : In "p"%string (map fst crs) -> forall d, (d < ndim)%nat -> in_flux ndim fluxes "p"%string d;
  (* relations are evaluated point by point, from arrays that are not private *)
  cp_local : forall b e c ix, In (b, e) crs -> In (c, ix) (dsets e) ->
    ix = repeat 0%Z ndim /\ ~ private register sys c /\ ~ In c (map fst (disc_eqs sys));
  cp_pointwise : forall b e v, In (b, e) crs -> inside v e -> ~ derivative v;
  (* a relation that is needed outside the grid only depends on relations that are needed
     there *)
  cp_ranges : forall b e c ix d w, In (b, e) crs -> In (c, ix) (dsets e) -> In c (map fst crs) ->
    needs_layers ndim r k dirof fluxes sys b d w -> exists w', needs_layers ndim r k dirof fluxes sys c d w' /\ (w <= w')%nat }.

(* prg is a program generated for the problem (sys, crs) on a block of the given sizes with
   periodic boundaries, the shock-capturing scheme sh, central differences of order 2k if
   there is a central scheme, and the time scheme ts: whatever the order in which Python
   iterates over its sets and dictionaries, whatever other arrays, output requests and
   monitors there are *)
Definition shock_generated (ts : timescheme) (J : interp R) (k : nat) (sh : shock) (central : bool) (dirof : string -> nat) (h : nat -> R)
    (fluxes : nat -> list expr) (sizes : list Z) (sys crs : list (string * expr)) (prg : list (AlgModel.stmt ckernel)) : Prop :=
  real_arithmetic J /\ sizes <> [] /\ usable_scheme sh /\
  (forall d, (d < List.length sizes)%nat -> (Z.of_nat (width sh) <= nth d sizes 0)%Z /\ (central = true -> (Z.of_nat k <= nth d sizes 0)%Z)) /\
  exists inv dord sord worder num kord coordinate known vcds datasets ios rqs mon blk,
    (forall M x d m, value J M x (inv d m) = (/ h d ^ m)%R) /\
    (forall e, enumerates (dord e) e) /\ (forall l, Permutation l (sord l)) /\
    (forall l l', Permutation l l' -> inner_first l' -> inner_first (sord l)) /\
    (forall l, Permutation l (worder l)) /\
    (forall a b, num a = num b -> a = b) /\ (forall l, Permutation l (kord l)) /\
    shock_problem (List.length sizes) (width sh) k dirof (ProgProps.register_of ts) coordinate fluxes sys crs known /\
    lists_derivatives (disc_eqs sys) viscous_term vcds /\ (central = false -> vcds = []) /\
    AlgProps.made_from rqs ios /\
    capturing_block k sh central dirof inv dord sord worder num kord sizes ts sys crs known vcds datasets ios = Ok blk /\
    AlgModel.generate_solution blk mon = Ok prg.
