(* Specification for what the generated programs preserve: which programs are generated
   for a periodic problem, conservation laws, relations that are not circular, arrays
   that the problem is given. *)
From Verif Require Import Base Expr WorkModel ShiftSpec DiscSpec ProgModel ProgSpec.
From Verif Require Import DiscProps.
From Verif Require AdvModel AdvSpec AlgModel AlgProps RKModel.
From Verif Require Import ProgProps.
From Coq Require Import ZArith Reals Permutation.

(* prg is a program generated for the problem (sys, crs) on a block of the given sizes
   with periodic boundaries, central differences of order 2k and the time scheme ts:
   whatever the order in which Python iterates over its sets, whatever other arrays,
   output requests and monitors there are *)
Definition generated (ts : timescheme) (J : interp R) (k : nat) (dirof : string -> nat) (h : nat -> R)
    (sizes : list Z) (sys crs : list (string * expr)) (prg : list (AlgModel.stmt pkernel)) : Prop :=
  real_arithmetic J /\
  (forall d, (d < List.length sizes)%nat -> (Z.of_nat k <= nth d sizes 0)%Z) /\
  exists inv dord sord num kord known ccds vcds datasets ios rqs mon blk,
    (forall M x d m, value J M x (inv d m) = (/ h d ^ m)%R) /\
    (forall e, enumerates (dord e) e) /\ (forall l, Permutation l (sord l)) /\
    (forall l l', Permutation l l' -> inner_first l' -> inner_first (sord l)) /\
    (forall a b, num a = num b -> a = b) /\ (forall l, Permutation l (kord l)) /\
    periodic_problem (List.length sizes) dirof (register_of ts) sys crs known /\
    lists_derivatives (disc_eqs sys) (fun t => ~ viscous_term t) ccds /\
    lists_derivatives (disc_eqs sys) viscous_term vcds /\
    ccds <> [] /\ (vcds = [] -> forall r rhs t, In (r, rhs) (disc_eqs sys) -> In t (terms rhs) -> ~ viscous_term t) /\
    AlgProps.made_from rqs ios /\
    discretised_block k dirof inv dord sord num kord sizes ts sys crs known ccds vcds datasets ios = Ok blk /\
    AlgModel.generate_solution blk mon = Ok prg.

(* no relation needs its own array, directly or through others *)
Definition not_circular (crs : list (string * expr)) : Prop :=
  exists rank : string -> nat, forall b e c ix,
    In (b, e) crs -> In (c, ix) (dsets e) -> In c (map fst crs) -> (rank c < rank b)%nat.

(* arrays that the program neither advances nor computes *)
Definition given (ts : timescheme) (sys crs : list (string * expr)) (b : string) : Prop :=
  ~ In b (map fst sys) /\ ~ In b (map fst crs) /\ ~ In b (map fst (disc_eqs sys)) /\ ~ private (register_of ts) sys b.

(* a right-hand side that is a sum of derivatives, possibly multiplied by constants *)
Definition conservation_law (rhs : expr) : Prop :=
  forall t, In t (terms rhs) ->
    derivative t \/
    exists l1 v l2, t = EApp HMul (l1 ++ v :: l2) /\ derivative v /\ forall c, In c (l1 ++ l2) -> dsets c = [].

(* two memories hold the same problem: same given arrays, same values of the advanced
   arrays at grid points.  Nothing is said about halo points of the advanced arrays, work
   arrays, residuals, relations and the register of the time scheme. *)
Definition same_problem (ts : timescheme) (sizes : list Z) (sys crs : list (string * expr)) (M1 M2 : string -> list Z -> R) : Prop :=
  (forall v x, In v (map fst sys) -> grid_point sizes x -> M1 v x = M2 v x) /\
  (forall b x, given ts sys crs b -> M1 b x = M2 b x).
(* the memory M2 holds the problem of M1 moved by the vector -s *)
Definition moved_problem (ts : timescheme) (sizes : list Z) (sys crs : list (string * expr)) (s : list Z) (M1 M2 : string -> list Z -> R) : Prop :=
  (forall v x, In v (map fst sys) -> grid_point sizes x -> M2 v x = M1 v (wrap sizes (vadd x s))) /\
  (forall b x, given ts sys crs b -> List.length x = List.length sizes -> M2 b x = M1 b (vadd x s)).
