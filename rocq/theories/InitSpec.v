(* Specification for the initialisation (C77): what it means that the equations hold at a
   point, and which lists of equations can be read as equations. *)
From Verif Require Import Base Expr KernelModel WorkModel ShiftSpec DiscSpec DiscProps ProgModel ProgSpec ProgProps InvSpec.
From Verif Require AlgModel AlgProps AdvModel BCModel.
From Verif Require Import InitModel.
From Coq Require Import ZArith Reals Permutation.
Local Open Scope list_scope.

(* What an equation can set or use at a point: arrays and local variables. *)
Inductive slot := Array (b : string) | Local (g : string).
Definition uses (e : expr) (s : slot) : Prop :=
  match s with Array b => In b (map fst (dsets e)) | Local g => In g (syms KGridVar e) end.
Definition is_target (n : nat) (l : expr) (s : slot) : Prop :=
  match s with Array b => l = EDat b (repeat 0%Z n) | Local g => l = ESym KGridVar g end.
(* equation q, or one of its branches, sets s *)
Definition sets (n : nat) (q : keq) (s : slot) : Prop :=
  match q with
  | KEq l _ => is_target n l s
  | KGroup bs => exists es c l r, In (es, c) bs /\ In (l, r) es /\ is_target n l s
  end.
(* the expressions evaluated by q *)
Definition evaluates (q : keq) (e : expr) : Prop :=
  match q with
  | KEq _ r => e = r
  | KGroup bs => exists es c, In (es, c) bs /\ (c = Some e \/ exists l, In (l, e) es)
  end.

(* assignments one after the other, each slot set once and not used before *)
Definition straight (n : nat) (es : list (expr * expr)) : Prop :=
  forall e1 l r e2, es = e1 ++ (l, r) :: e2 ->
    (exists s, is_target n l s) /\
    (forall s, uses r s -> ~ is_target n l s) /\
    (forall s l' r', In (l', r') e2 -> is_target n l' s -> ~ is_target n l s /\ ~ uses r s).

(* The list can be read as a list of equations: arrays at the grid point and local
   variables are set, each by one equation of the list, after which its value is used. *)
Definition definitions (n : nat) (qs : kernel_eqs) : Prop :=
  (forall q, In q qs -> match q with
     | KEq l r => straight n [(l, r)]
     | KGroup bs => forall es c, In (es, c) bs -> straight n es /\ forall e s, c = Some e -> uses e s -> ~ sets n q s
     end) /\
  (forall q1 q q2 q' s, qs = q1 ++ q :: q2 -> In q' q2 -> sets n q' s -> ~ sets n q s /\ forall e, evaluates q e -> ~ uses e s).
(* arrays that are set are used at the grid point only *)
Definition local_uses (n : nat) (qs : kernel_eqs) : Prop :=
  (forall q, In q qs -> match q with
     | KEq l _ => exists s, is_target n l s
     | KGroup bs => forall es c l r, In (es, c) bs -> In (l, r) es -> exists s, is_target n l s
     end) /\
  forall q q' e b ix, In q qs -> evaluates q e -> In (b, ix) (dsets e) -> In q' qs -> sets n q' (Array b) -> ix = repeat 0%Z n.

(* ---- the equations hold at point x for the arrays M and the local variables L ---- *)
Section holds.
  Variables (J : interp R) (truth : R -> bool).
  Notation mem := (string -> list Z -> R).
  Definition value_at (M : mem) (L : string -> R) (x : list Z) (e : expr) : R :=
    BCModel.at_point (with_index J x) M L x e.
  Definition assignment_holds (M : mem) (L : string -> R) (x : list Z) (lr : expr * expr) : Prop :=
    match fst lr with
    | EDat b _ => M b x = value_at M L x (snd lr)
    | ESym KGridVar g => L g = value_at M L x (snd lr)
    | _ => False
    end.
  (* the first branch whose condition is true *)
  Definition branch (M : mem) (L : string -> R) (x : list Z) (bs : list (list (expr * expr) * option expr)) : list (expr * expr) :=
    match find (fun b => match snd b with Some c => truth (value_at M L x c) | None => true end) bs with
    | Some b => fst b
    | None => []
    end.
  Definition equation_holds (M : mem) (L : string -> R) (x : list Z) (q : keq) : Prop :=
    match q with
    | KEq l r => assignment_holds M L x (l, r)
    | KGroup bs => forall lr, In lr (branch M L x bs) -> assignment_holds M L x lr
    end.
  (* q, in its branch at this point, sets array b *)
  Definition sets_here (n : nat) (M : mem) (L : string -> R) (x : list Z) (q : keq) (b : string) : Prop :=
    match q with
    | KEq l _ => is_target n l (Array b)
    | KGroup bs => exists l r, In (l, r) (branch M L x bs) /\ is_target n l (Array b)
    end.
End holds.

(* the points of the grid and of w halos on every side *)
Definition around (w : Z) (sizes x : list Z) : Prop :=
  List.length x = List.length sizes /\
  forall d, (d < List.length sizes)%nat -> (- w <= nth d x 0 < nth d sizes 0 + w)%Z.

(* q sets array b whatever the conditions are *)
Definition surely_sets (n : nat) (q : keq) (b : string) : Prop :=
  match q with
  | KEq l _ => is_target n l (Array b)
  | KGroup bs => (exists es, In (es, None) bs) /\
                 forall es c, In (es, c) bs -> exists l r, In (l, r) es /\ is_target n l (Array b)
  end.
(* an array that is set is not used before it surely has been *)
Definition no_early_use (n : nat) (qs : kernel_eqs) : Prop :=
  forall q1 q q2 q' e b, qs = q1 ++ q :: q2 -> evaluates q e -> uses e (Array b) -> In q' qs -> sets n q' (Array b) ->
    exists q0, In q0 q1 /\ surely_sets n q0 b.

(* the number of an initialisation; 0 if none is given *)
Definition number_of (g : gridinit) : Z := match gi_order g with Some o => o | None => 0%Z end.

(* prg is a program generated for the problem (sys, crs) with these initialisations; see
   InvSpec.generated *)
Definition generated_with (ts : timescheme) (J : interp R) (k : nat) (dirof : string -> nat) (h : nat -> R)
    (sizes : list Z) (sys crs : list (string * expr)) (inits : list gridinit) (prg : list (AlgModel.stmt skernel)) : Prop :=
  real_arithmetic J /\
  (forall d, (d < List.length sizes)%nat -> (Z.of_nat k <= nth d sizes 0)%Z) /\
  exists arrange inv dord sord num kord known ccds vcds datasets ios rqs mon blk,
    (forall l, Permutation l (arrange l)) /\
    (forall M x d m, value J M x (inv d m) = (/ h d ^ m)%R) /\
    (forall e, enumerates (dord e) e) /\ (forall l, Permutation l (sord l)) /\
    (forall l l', Permutation l l' -> inner_first l' -> inner_first (sord l)) /\
    (forall a b, num a = num b -> a = b) /\ (forall l, Permutation l (kord l)) /\
    periodic_problem (List.length sizes) dirof (register_of ts) sys crs (known ++ flat_map evaluated_datasets inits) /\
    lists_derivatives (disc_eqs sys) (fun t => ~ viscous_term t) ccds /\
    lists_derivatives (disc_eqs sys) viscous_term vcds /\
    ccds <> [] /\ (vcds = [] -> forall r rhs t, In (r, rhs) (disc_eqs sys) -> In t (terms rhs) -> ~ viscous_term t) /\
    AlgProps.made_from rqs ios /\
    initialised_block arrange k dirof inv dord sord num kord sizes ts sys crs known ccds vcds datasets ios inits = Ok blk /\
    AlgModel.generate_solution blk mon = Ok prg.
