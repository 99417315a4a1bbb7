(* Specification for programs with boundaries (C78): the values on and beyond the edge of
   the grid that the boundary conditions give to a solution, and the semi-discrete system
   for the remaining points. *)
From Verif Require Import Base Expr WorkModel ShiftSpec DiscModel DiscSpec ProgModel ProgSpec BCSpec BndModel.
From Verif Require BCModel RKModel AlgModel AlgProps.
From Verif Require Import DiscProps ProgProps.
From Coq Require Import ZArith Reals Permutation.
Local Open Scope list_scope.

(* the points of the grid and of k halos around it *)
Definition near (k : nat) (sizes x : list Z) : Prop :=
  List.length x = List.length sizes /\
  forall d, (d < List.length sizes)%nat -> (- Z.of_nat k <= nth d x 0 < nth d sizes 0 + Z.of_nat k)%Z.
(* the position with coordinate v in direction d *)
Definition at_index (d : nat) (v : Z) (x : list Z) : list Z := move d (v - nth d x 0)%Z x.

(* ---- which points a condition determines ---- *)
(* conditions that also set the points on the face *)
Definition sets_face (b : boundary) : Prop := match b with InviscidWall _ | ZeroGradient => True | _ => False end.
(* y is determined by the conditions l (lower side) and r (upper side) of a direction with n
   points, in which its coordinate is i *)
Definition determined_by (l r : boundary) (n i : Z) : Prop :=
  (i < 0 \/ n <= i \/ (i = 0 /\ sets_face l) \/ (i = n - 1 /\ sets_face r))%Z.
Definition determined (sizes : list Z) (types : list (boundary * boundary)) (d : nat) (y : list Z) : Prop :=
  exists l r, nth_error types d = Some (l, r) /\ determined_by l r (nth d sizes 0%Z) (nth d y 0%Z).
(* the grid points that no condition determines *)
Definition free (sizes : list Z) (types : list (boundary * boundary)) (x : list Z) : Prop :=
  grid_point sizes x /\ forall d, ~ determined sizes types d x.
(* d is the last direction whose conditions determine y *)
Definition last_determined (sizes : list Z) (types : list (boundary * boundary)) (d : nat) (y : list Z) : Prop :=
  determined sizes types d y /\ forall i, (d < i)%nat -> ~ determined sizes types i y.

(* ---- the values ---- *)
(* the coordinate the value is taken from: the periodic image, the mirror image in the face,
   or for a point on the face the first point inside *)
Definition image (b : boundary) (n i : Z) : Z :=
  match b with
  | Periodic => (i mod n)%Z
  | _ => (if i <? 0 then - i else if n - 1 <? i then 2 * (n - 1) - i else if i =? 0 then 1 else n - 2)%Z
  end.
Section values.
  Variables (J : interp R) (k : nat) (sizes : list Z) (fs : list field) (types : list (boundary * boundary)) (S : memory).
  (* vectors: reflected in the plane normal to the row of the metrics beyond the face,
     projected onto it on the face *)
  Definition vectors_by (E : memory) (row : list expr) (transformed : list R -> list R -> list R) (y z : list Z) : Prop :=
    forall vs, In (FVector vs) fs -> map (fun v => E v y) vs = transformed (map (value J S z) row) (map (fun v => E v z) vs).
  Definition boundary_value (E : memory) (b : boundary) (d : nat) (y : list Z) : Prop :=
    let n := nth d sizes 0%Z in let i := nth d y 0%Z in
    let z := at_index d (image b n i) y in
    (forall s, In (FScalar s) fs -> E s y = E s z) /\
    match b with
    | Periodic | ZeroGradient => forall vs v, In (FVector vs) fs -> In v vs -> E v y = E v z
    | Symmetry row => vectors_by E row reflected y z
    | InviscidWall row => vectors_by E row (if ((i =? 0) || (i =? n - 1))%Z then projected else reflected) y z
    end.
  (* E are the values of the solution u with all the conditions; the other arrays are in S *)
  Record continues (u : solution) (E : memory) : Prop := {
    c_free : forall v x, In v (field_names fs) -> free sizes types x -> E v x = u (v, x);
    c_boundary : forall y d l r, near k sizes y -> last_determined sizes types d y -> nth_error types d = Some (l, r) ->
      boundary_value E (if (nth d y 0 <=? 0)%Z then l else r) d y }.
End values.

(* ---- the system ---- *)
Section spec.
  Variables (J : interp R) (k : nat) (dirof : string -> nat) (h : nat -> R) (sizes : list Z)
    (fs : list field) (types : list (boundary * boundary)).
  Variables (sys crs : list (string * expr)) (S : memory).
  (* F are the arrays that belong to the values E of the advanced arrays *)
  Record bounded_fields (E F : memory) : Prop := {
    bf_solution : forall b x, In b (map fst sys) -> near k sizes x -> F b x = E b x;
    bf_relation : forall b e x, In (b, e) crs -> near k sizes x -> F b x = value J F x e;
    bf_other : forall b x, ~ In b (map fst sys) -> ~ In b (map fst crs) -> F b x = S b x }.
  (* f is the right-hand side of the semi-discrete system du/dt = f(u) for the values u at
     the free points: the right-hand side of the equation, with difference formulas for the
     derivatives, of the values that the conditions make of u *)
  Definition bounded_system (f : solution -> solution) : Prop :=
    forall u, exists E F, continues J k sizes fs types S u E /\ bounded_fields E F /\
      forall v rhs x, In (v, rhs) sys -> free sizes types x -> f u (v, x) = sem J k dirof h F rhs x.
End spec.

(* ---- which boundaries ---- *)
Definition rows_of (b : boundary) : list (list expr) :=
  match b with Symmetry row | InviscidWall row => [row] | _ => [] end.
Record boundaries (k : nat) (sizes : list Z) (fs : list field) (types : list (boundary * boundary)) (usable : string -> Prop) : Prop := {
  bd_count : List.length types = List.length sizes;
  (* periodic on both sides or on none *)
  bd_matched : forall l r, In (l, r) types -> (l = Periodic <-> r = Periodic);
  (* the halos are not wider than the grid *)
  bd_wide : forall d l r, nth_error types d = Some (l, r) ->
    (Z.of_nat k <= nth d sizes 0)%Z /\ (l <> Periodic -> (Z.max 1 (Z.of_nat k) + 2 <= nth d sizes 0)%Z);
  bd_names : NoDup (field_names fs) /\ field_names fs <> [];
  bd_vectors : forall vs, In (FVector vs) fs -> List.length vs = List.length sizes;
  (* metrics: one entry per direction, from arrays that may be used *)
  bd_rows : forall l r row, In (l, r) types -> In row (rows_of l ++ rows_of r) ->
    List.length row = List.length sizes /\
    forall e, In e row -> placed (List.length sizes) e /\ forall b ix, In (b, ix) (dsets e) -> usable b }.
(* the metrics are not degenerate *)
Definition normals (J : interp R) (k : nat) (sizes : list Z) (types : list (boundary * boundary)) (S : memory) : Prop :=
  forall l r row z, In (l, r) types -> In row (rows_of l ++ rows_of r) -> near k sizes z -> norm2 (map (value J S z) row) <> 0%R.

(* arrays the boundary conditions may read besides the solution *)
Definition given (register : string -> string) (sys crs : list (string * expr)) (b : string) : Prop :=
  ~ In b (map fst sys) /\ ~ In b (map fst crs) /\ ~ In b (map fst (disc_eqs sys)) /\ ~ private register sys b.

(* prg is a program generated for the problem (sys, crs) with the conditions types on a
   block of the given sizes, central differences of order 2k and the time scheme ts:
   whatever the order in which Python iterates over its sets, whatever other arrays,
   output requests and monitors there are.  fs are the advanced arrays, by scalars and
   vectors. *)
Definition generated (ts : timescheme) (J : interp R) (k : nat) (dirof : string -> nat) (h : nat -> R)
    (sizes : list Z) (fs : list field) (types : list (boundary * boundary)) (sys crs : list (string * expr))
    (prg : list (AlgModel.stmt xkernel)) : Prop :=
  reals J /\
  boundaries k sizes fs types (given (register_of ts) sys crs) /\
  (forall v, In v (field_names fs) <-> In v (map fst sys)) /\
  exists inv dord sord num kord known ccds vcds datasets ios rqs mon ord blk,
    (forall M x d m, value J M x (inv d m) = (/ h d ^ m)%R) /\
    (forall e, enumerates (dord e) e) /\ (forall l, Permutation l (sord l)) /\
    (forall l l', Permutation l l' -> inner_first l' -> inner_first (sord l)) /\
    (forall a b, num a = num b -> a = b) /\ (forall l, Permutation l (kord l)) /\
    periodic_problem (List.length sizes) dirof (register_of ts) sys crs known /\
    lists_derivatives (disc_eqs sys) (fun t => ~ viscous_term t) ccds /\
    lists_derivatives (disc_eqs sys) viscous_term vcds /\
    ccds <> [] /\ (vcds = [] -> forall r rhs t, In (r, rhs) (disc_eqs sys) -> In t (terms rhs) -> ~ viscous_term t) /\
    AlgProps.made_from rqs ios /\ good_order ord /\
    bounded_block k dirof inv dord sord num kord sizes ts sys crs known ccds vcds datasets ios ord (arrays_of (List.length sizes) fs) types = Ok blk /\
    AlgModel.generate_solution blk mon = Ok prg.
(* the run-time system treats every point of a boundary kernel once, in some order *)
Definition all_points (points : BCModel.bkernel -> list (list Z)) : Prop :=
  forall bk, sweeps (points bk) (fun x => BCModel.bk_points bk x = true).
(* no relation needs its own array, directly or through others *)
Definition not_circular (crs : list (string * expr)) : Prop :=
  exists rank : string -> nat, forall b e c ix,
    In (b, e) crs -> In (c, ix) (dsets e) -> In c (map fst crs) -> (rank c < rank b)%nat.
(* two memories hold the same problem: same given arrays, same values of the advanced arrays
   at the points that no condition determines.  Nothing is said about the other points of
   the advanced arrays, work arrays, residuals, relations and the register of the scheme. *)
Definition same_problem (ts : timescheme) (sizes : list Z) (types : list (boundary * boundary)) (sys crs : list (string * expr))
    (M1 M2 : memory) : Prop :=
  (forall v x, In v (map fst sys) -> free sizes types x -> M1 v x = M2 v x) /\
  (forall b x, given (register_of ts) sys crs b -> M1 b x = M2 b x).
