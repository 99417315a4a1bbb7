(* Specification for programs with any of the boundary conditions (C80): what each condition
   imposes on the arrays, and the steps the program takes, as relations between the contents
   of the arrays before and after. *)
From Verif Require Import Base Expr WorkModel ShiftSpec DiscModel DiscSpec ProgModel ProgSpec BCSpec BCGasSpec BC2Spec BndModel BndSpec OneModel SideModel SideSpec FaceModel.
From Verif Require BCModel RKModel AlgModel AlgProps.
From Verif Require Import DiscProps ProgProps.
From Coq Require Import ZArith Reals Permutation.
Local Open Scope list_scope.

(* the points of the grid and of its halos, with w false layers on the lower and w true layers
   on the upper side *)
Definition around (w : bool -> nat) (sizes x : list Z) : Prop :=
  List.length x = List.length sizes /\
  forall d, (d < List.length sizes)%nat -> (- Z.of_nat (w false) <= nth d x 0 < nth d sizes 0 + Z.of_nat (w true))%Z.
Definition gas_names (g : gas) : list string := g_density g :: g_momentum g ++ [g_energy g].

(* ---- what a condition imposes ---- *)
(* w are the widths of the halos; shock is true if a scheme of the block is shock capturing *)
Section imposed.
  Variables (J : interp R) (w : bool -> nat) (shock : bool) (sizes : list Z) (fs : list field) (g : gas).
  Notation names := (field_names fs).
  Notation rho := (g_density g).
  Notation moms := (g_momentum g).
  Notation E := (g_energy g).
  (* the points of the lower (side = false) or upper face in direction d, with the halo points
     of the other directions *)
  Definition face (d : nat) (side : bool) (x : list Z) : Prop :=
    around w sizes x /\ nth d x 0%Z = (if side then nth d sizes 0 - 1 else 0)%Z.
  Definition layer (side : bool) (t : Z) : Prop := (1 <= t <= Z.of_nat (w side))%Z.
  Definition beyond (d : nat) (side : bool) (y : list Z) : Prop :=
    exists x t, face d side x /\ layer side t /\ y = outwards d side t x.
  Definition edge (d : nat) (side : bool) (y : list Z) : Prop := face d side y \/ beyond d side y.
  (* nothing changes except the given arrays at the given points *)
  Definition changes_only (arrays : list string) (P : list Z -> Prop) (M M' : memory) : Prop :=
    forall b y, ~ (In b arrays /\ P y) -> M' b y = M b y.
  (* one-sided difference of the temperature: its weights are those of the first derivative *)
  Definition temperature_slope (M : memory) (d : nat) (side : bool) (x : list Z) : R :=
    let T := T_at J M rho moms E in
    (- (11 / 6) * T x + 3 * T (inwards d side 1 x) - 3 / 2 * T (inwards d side 2 x) + 1 / 3 * T (inwards d side 3 x))%R.
  Definition proper : Prop := (const J "gama" <> 1 /\ const J "gama" <> 0 /\ const J "Minf" <> 0)%R.

  (* the reflection of the points inside *)
  Definition mirrored (row : list expr) (d : nat) (side : bool) (M M' : memory) : Prop :=
    forall x t, face d side x -> layer side t ->
      let y := outwards d side t x in let z := inwards d side t x in
      (forall s, In (FScalar s) fs -> M' s y = M s z) /\
      (forall vs, In (FVector vs) fs -> let normal := map (value J M z) row in norm2 normal <> 0%R ->
         map (fun v => M' v y) vs = reflected normal (map (fun v => M v z) vs)).
  (* layer t beyond a wall with a given temperature: the pressure at the wall, a temperature
     extrapolated through the wall, the velocity reversed *)
  Definition set_from_wall (M M' : memory) (d : nat) (side : bool) (x : list Z) (t : Z) : Prop :=
    let y := outwards d side t x in let z := inwards d side t x in
    let p := p_at J M' rho moms E x in
    let T := ((IZR t + 1) * const J "Twall" - IZR t * T_at J M rho moms E (inwards d side 1 x))%R in
    M' rho y = (p * const J "gama" * const J "Minf" * const J "Minf" / T)%R /\
    (forall m, In m moms -> M' m y = - M' rho y * (M m z / M rho z))%R /\
    (proper -> T <> 0%R -> p <> 0%R -> p_at J M' rho moms E y = p /\ T_at J M' rho moms E y = T).
  (* M and M' are the contents of the arrays before and after *)
  Definition imposes (c : bcond) (d : nat) (side : bool) (M M' : memory) : Prop :=
    match c with
    | Central Periodic => False
    | Central (Symmetry row) => mirrored row d side M M' /\ changes_only names (beyond d side) M M'
    | Central (InviscidWall row) =>
        mirrored row d side M M' /\
        (forall x, face d side x -> let z := inwards d side 1 x in
           (forall s, In (FScalar s) fs -> M' s x = M s z) /\
           (forall vs, In (FVector vs) fs -> let normal := map (value J M z) row in norm2 normal <> 0%R ->
              map (fun v => M' v x) vs = projected normal (map (fun v => M v z) vs))) /\
        changes_only names (edge d side) M M'
    | Central ZeroGradient =>
        (forall x b, face d side x -> In b names -> M' b x = M b (inwards d side 1 x)) /\
        (forall x t b, face d side x -> layer side t -> In b names -> M' b (outwards d side t x) = M b (inwards d side t x)) /\
        changes_only names (edge d side) M M'
    | Dirichlet ps _ =>
        (forall y b e, edge d side y -> In (b, e) ps -> M' b y = value J M y e) /\
        changes_only (map fst ps) (edge d side) M M'
    | Extrapolation order _ =>
        (order = 0%Z /\
         (forall x t b, face d side x -> (t = 0%Z \/ layer side t) -> In b names -> M' b (outwards d side t x) = M b (inwards d side 1 x)) /\
         changes_only names (edge d side) M M') \/
        (order = 1%Z /\
         (forall x t b, face d side x -> layer side t -> In b names ->
            M' b (outwards d side t x) = (M b x + IZR t * (M b x - M b (inwards d side 1 x)))%R) /\
         changes_only names (beyond d side) M M')
    | InletTransfer _ =>
        side = false /\
        (forall x b, face d side x -> In b names -> M' b x = M b (outwards d side 1 x)) /\
        changes_only names (face d side) M M'
    | PressureOutlet _ =>
        side = true /\
        (forall x t, face d side x -> (t = 0%Z \/ layer side t) ->
           let y := outwards d side t x in let z := inwards d side 1 x in
           M' rho y = M rho z /\ (forall m, In m moms -> M' m y = M m z) /\
           (const J "gama" <> 1%R -> M rho z <> 0%R -> p_at J M' rho moms E y = const J "back_pressure")) /\
        changes_only (gas_names g) (edge d side) M M'
    | Adiabatic _ =>
        (forall x, face d side x -> (forall m, In m moms -> M' m x = 0%R) /\ M' rho x = M rho x /\
           (proper -> M rho x <> 0%R -> temperature_slope M' d side x = 0%R)) /\
        (forall x t, face d side x -> layer side t -> let y := outwards d side t x in let z := inwards d side t x in
           M' rho y = M rho z /\ (forall m, In m moms -> M' m y = - M m z)%R /\ M' E y = M E z) /\
        changes_only (gas_names g) (edge d side) M M'
    | Isothermal _ e _ =>
        (forall x, face d side x -> (forall m, In m moms -> M' m x = 0%R) /\ M' rho x = M rho x /\ M' E x = value J M x e) /\
        (forall x t, face d side x -> layer side t -> set_from_wall M M' d side x t) /\
        changes_only (gas_names g) (edge d side) M M'
    | CarpenterWall _ =>
        (forall x, face d side x -> (forall m, In m moms -> M' m x = 0%R) /\ M' rho x = M rho x /\
           (proper -> M rho x <> 0%R -> temperature_slope M' d side x = 0%R)) /\
        changes_only (moms ++ [E]) (face d side) M M'
    | ForcingStrip md e1 e2 _ =>
        (forall x, face d side x -> M' md x = value J M x e1 /\ (forall m, In m moms -> m <> md -> M' m x = 0%R) /\
           M' rho x = M rho x /\ M' E x = value J M x e2) /\
        (* the halos are set only if there is a shock-capturing scheme *)
        (if shock then
           (forall x t, face d side x -> layer side t -> set_from_wall M M' d side x t) /\
           changes_only (gas_names g) (edge d side) M M'
         else changes_only (moms ++ [E]) (face d side) M M')
    | LawalInlet _ =>
        side = false /\
        (forall x t, face d side x -> (t = 0%Z \/ layer side t) ->
           let y := outwards d side t x in let z := inwards d side 1 x in
           let speed2 := norm2 (map (fun m => velocity_at M rho m z) moms) in
           (1 < const J "gama" -> (const J "gama" - 1) / 2 * speed2 < 1 ->
            0 < M' rho y /\ (forall m, In m moms -> velocity_at M' rho m y = velocity_at M rho m z) /\
            const J "gama" * p_at J M' rho moms E y / M' rho y + (const J "gama" - 1) / 2 * speed2 = 1 /\
            const J "gama" * p_at J M' rho moms E y = Rpower (M' rho y) (const J "gama"))%R) /\
        changes_only (gas_names g) (edge d side) M M'
    | PressureInlet _ =>
        side = false /\
        (forall x md, face d side x -> nth_error moms d = Some md ->
           (0 < const J "gama" -> 0 < M rho x -> 0 < p_at J M rho moms E x ->
            let speed := Rabs (velocity_at M rho md x) in let a := sound_at J M rho moms E x in
            (a <= speed ->
               (forall b, In b (gas_names g) -> M' b x = M b (outwards d side 1 x)) /\
               (forall b t, layer side t -> M' b (outwards d side t x) = M b (outwards d side t x))) /\
            (speed < a ->
               (forall b, In b (gas_names g) -> M' b x = M b x) /\
               (forall t, layer side t -> M' E (outwards d side t x) = M E x)))%R) /\
        (forall b y, b <> E -> ~ face d side y -> M' b y = M b y) /\
        changes_only (gas_names g) (edge d side) M M'
    end.
  (* both sides of a direction, lower side first; a periodic direction leaves other arrays and
     the grid alone *)
  Definition imposed_on (d : nat) (l r : bcond) (M M' : memory) : Prop :=
    (l = Central Periodic /\ r = Central Periodic /\
     (* on the upper side as many layers as on the lower side *)
     (forall b y, In b names -> around w sizes y -> (nth d y 0 < nth d sizes 0 + Z.of_nat (w false))%Z ->
        M' b y = M b (BndSpec.at_index d (nth d y 0 mod nth d sizes 0)%Z y)) /\
     (forall b y, ~ In b names -> M' b y = M b y)) \/
    (exists M1, imposes l d false M M1 /\ imposes r d true M1 M').
  (* all directions, one after the other *)
  Fixpoint imposed_from (d : nat) (types : list (bcond * bcond)) (M M' : memory) : Prop :=
    match types with
    | [] => M' = M
    | (l, r) :: types => exists M1, imposed_on d l r M M1 /\ imposed_from (S d) types M1 M'
    end.
End imposed.

(* ---- the one-sided formulas ---- *)
(* which formulas are used next to the sides of direction d: those announced by the condition *)
Definition announced (c : bcond) : option bscheme :=
  match c with
  | Central _ => None
  | Dirichlet _ s => Some s
  | Extrapolation _ s => Some s
  | InletTransfer s => Some s
  | PressureOutlet s => Some s
  | Adiabatic s => Some s
  | Isothermal _ _ s => Some s
  | CarpenterWall s => Some s
  | ForcingStrip _ _ _ s => Some s
  | LawalInlet s => Some s
  | PressureInlet s => Some s
  end.
Definition announced_sides (types : list (bcond * bcond)) (d : nat) : option bscheme * option bscheme :=
  match nth_error types d with Some (l, r) => (announced l, announced r) | None => (None, None) end.

(* ---- the steps of the program ---- *)
(* r are the right-hand sides for the contents M: the relations hold at all points of the
   grid and its halos, the derivatives are the formulas of C79 *)
Definition right_hand_sides (J : interp R) (k : nat) (dirof : string -> nat) (h : nat -> R) (sizes : list Z) (types : list (bcond * bcond))
    (sys crs : list (string * expr)) (M : memory) (r : solution) : Prop :=
  exists F, bounded_fields J k sizes sys crs M M F /\
    forall v rhs x, In (v, rhs) sys -> grid_point sizes x -> r (v, x) = sem1 J k dirof h sizes (announced_sides types) F rhs x.

Section steps.
  Variables (J : interp R) (w : bool -> nat) (shock : bool) (sizes : list Z) (fs : list field) (g : gas) (types : list (bcond * bcond)).
  Variables (ts : timescheme) (sys crs : list (string * expr)) (dt : R).
  (* rhs M r: r are the right-hand sides for the contents M *)
  Variable rhs : memory -> solution -> Prop.
  Definition imposed : memory -> memory -> Prop := imposed_from J w shock sizes fs g 0 types.
  Notation given := (BndSpec.given (register_of ts) sys crs).
  (* a stage with the coefficients a, b; the state is the contents of the arrays and what the
     scheme remembers between stages *)
  Definition stage (ab : R * R) (s s' : memory * solution) : Prop :=
    let '(a, b) := ab in
    exists r M1, rhs (fst s) r /\
      (forall v x, In v (map fst sys) -> grid_point sizes x ->
         match ts with
         | LS _ _ => snd s' (v, x) = a * snd s (v, x) + dt * r (v, x) /\ M1 v x = fst s v x + b * snd s' (v, x)
         | SBLI _ => M1 v x = snd s (v, x) + dt * b * r (v, x) /\ snd s' (v, x) = snd s (v, x) + dt * a * r (v, x)
         end)%R /\
      (forall v x, In v (map fst sys) -> ~ grid_point sizes x -> M1 v x = fst s v x) /\
      (forall c x, given c -> M1 c x = fst s c x) /\
      imposed M1 (fst s').
  Fixpoint stages (abs : list (R * R)) (s s' : memory * solution) : Prop :=
    match abs with [] => s' = s | ab :: abs => exists s1, stage ab s s1 /\ stages abs s1 s' end.
  (* a step: the conditions, what the scheme remembers is set, the stages *)
  Definition step (ab : list R * list R) (M M' : memory) : Prop :=
    exists M1 M2 T T', imposed M M1 /\
      (forall c x, In c (map fst sys) \/ given c -> M2 c x = M1 c x) /\
      (forall v x, In v (map fst sys) -> grid_point sizes x -> T (v, x) = match ts with LS _ _ => 0%R | SBLI _ => M1 v x end) /\
      stages (combine (fst ab) (snd ab)) (M2, T) (M', T').
  Fixpoint steps (n : nat) (ab : list R * list R) (M M' : memory) : Prop :=
    match n with O => M' = M | S n => exists M1, step ab M M1 /\ steps n ab M1 M' end.
End steps.

(* ---- which boundaries ---- *)
Definition uses_gas (c : bcond) : Prop :=
  match c with
  | Central _ | Dirichlet _ _ | Extrapolation _ _ | InletTransfer _ => False
  | _ => True
  end.
(* the data of a condition: metrics with one entry per direction, expressions without reference
   to what the condition itself sets *)
Definition admissible (n : nat) (fs : list field) (g : gas) (d : nat) (c : bcond) : Prop :=
  match c with
  | Central b => forall row, In row (rows_of b) -> List.length row = n /\ Forall (placed n) row
  | Dirichlet ps _ => NoDup (map fst ps) /\ incl (map fst ps) (field_names fs) /\
      (forall b e, In (b, e) ps -> placed n e) /\
      (forall b e b' ix, In (b, e) ps -> In (b', ix) (dsets e) -> ~ In b' (map fst ps))
  | Isothermal x0 e _ => forall q, q = x0 \/ q = e ->
      placed n q /\ forall b ix, In (b, ix) (dsets q) -> ~ In b (g_momentum g ++ [g_energy g])
  | ForcingStrip md e1 e2 _ => nth_error (g_momentum g) d = Some md /\ forall q, q = e1 \/ q = e2 ->
      placed n q /\ forall b ix, In (b, ix) (dsets q) -> ~ In b (g_momentum g ++ [g_energy g])
  | CarpenterWall _ | PressureInlet _ => fs = [FScalar (g_density g); FVector (g_momentum g); FScalar (g_energy g)]
  | _ => True
  end.
Record face_boundaries (w : bool -> nat) (sizes : list Z) (fs : list field) (g : gas) (types : list (bcond * bcond)) : Prop := {
  fb_count : List.length types = List.length sizes;
  (* periodic on both sides or on none *)
  fb_matched : forall l r, In (l, r) types -> (l = Central Periodic <-> r = Central Periodic);
  (* the halos are not wider than the grid; there are at least two points in every direction
     and six in directions with one-sided formulas *)
  fb_wide : forall d, (d < List.length sizes)%nat -> (Z.of_nat (w false) <= nth d sizes 0 /\ 2 <= nth d sizes 0)%Z;
  fb_room : room (announced_sides types) sizes;
  fb_names : NoDup (field_names fs) /\ field_names fs <> [];
  fb_vectors : forall vs, In (FVector vs) fs -> List.length vs = List.length sizes;
  fb_gas : forall l r, In (l, r) types -> uses_gas l \/ uses_gas r ->
    NoDup (gas_names g) /\ incl (gas_names g) (field_names fs) /\ List.length (g_momentum g) = List.length sizes /\ (List.length sizes <= 10)%nat;
  fb_data : forall d l r, nth_error types d = Some (l, r) ->
    admissible (List.length sizes) fs g d l /\ admissible (List.length sizes) fs g d r }.

(* the condition on a side of direction d *)
Definition condition_at (types : list (bcond * bcond)) (d : nat) (side : bool) (c : bcond) : Prop :=
  exists l r, nth_error types d = Some (l, r) /\ c = (if side then r else l).
(* x is not on a face, nor beyond one, of a direction whose conditions are applied later *)
Definition settled (w : bool -> nat) (sizes : list Z) (d : nat) (x : list Z) : Prop :=
  around w sizes x /\ forall i, (d < i < List.length sizes)%nat -> (0 < nth i x 0 < nth i sizes 0 - 1)%Z.
Definition no_slip (c : bcond) : Prop :=
  match c with Adiabatic _ | Isothermal _ _ _ | CarpenterWall _ => True | _ => False end.

(* prg is a program generated for the problem (sys, crs) with these conditions, as BndSpec.generated *)
Definition face_generated (ts : timescheme) (J : interp R) (k : nat) (dirof : string -> nat) (h : nat -> R)
    (sizes : list Z) (fs : list field) (g : gas) (types : list (bcond * bcond)) (sys crs : list (string * expr))
    (prg : list (AlgModel.stmt fkernel)) : Prop :=
  functions J /\
  face_boundaries (fun _ => k) sizes fs g types /\
  (forall v, In v (field_names fs) <-> In v (map fst sys)) /\
  exists inv dord sord num kord known ccds vcds datasets ios rqs mon ord blk,
    (forall M x d m, value J M x (inv d m) = (/ h d ^ m)%R) /\
    (forall e, enumerates (dord e) e) /\ (forall l, Permutation l (sord l)) /\
    (forall l l', Permutation l l' -> inner_first l' -> inner_first (sord l)) /\
    (forall a b, num a = num b -> a = b) /\ (forall l, Permutation l (kord l)) /\
    periodic_problem (List.length sizes) dirof (register_of ts) sys crs known /\
    lists_derivatives (disc_eqs sys) (fun t => ~ viscous_term t) ccds /\
    lists_derivatives (disc_eqs sys) viscous_term vcds /\
    ccds <> [] /\ (vcds = [] -> forall r rhs t, In (r, rhs) (disc_eqs sys) -> In t (terms rhs) -> ~ viscous_term t) /\
    AlgProps.made_from rqs ios /\ good_order ord /\
    face_block k dirof inv dord sord num kord sizes ts sys crs known ccds vcds datasets ios ord (arrays_of (List.length sizes) fs) g types = Ok blk /\
    AlgModel.generate_solution blk mon = Ok prg.
