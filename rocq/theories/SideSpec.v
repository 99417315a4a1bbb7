(* Specification of the discretisation with one-sided formulas next to the boundaries (C79):
   as DiscSpec, with every derivative read as the formula that C47 is about. *)
From Verif Require Import Base Expr ShiftSpec DiscSpec OneModel SideModel.
From Coq Require Import ZArith Reals.
Local Open Scope list_scope.

(* the position with coordinate v in direction d *)
Definition at_index (d : nat) (v : Z) (x : list Z) : list Z := move d (v - nth d x 0)%Z x.
(* which formula for the m-th derivative (1 or 2 if the direction has a one-sided scheme) is
   used at the index i of a direction with n points *)
Definition difference (k m : nat) (hd : R) (b : option bscheme * option bscheme) (n : Z) (u : Z -> R) (i : Z) : R :=
  match boundary_derivative k m hd b n u i with Ok v => v | Err _ => 0%R end.

Section spec.
  Variables (J : interp R) (k : nat) (dirof : string -> nat) (h : nat -> R) (sizes : list Z) (sd : sides).
  Variable M : string -> list Z -> R.
  (* value of e at grid point x *)
  Fixpoint sem1 (e : expr) (x : list Z) : R :=
    match e with
    | ENum q => inum J q
    | ESym kd n => isym J kd n
    | EDat b ix => M b (vadd x ix)
    | EApp hd args =>
        match hd, args with
        | HCD, a :: cs =>
            let d := direction dirof cs in
            difference k (List.length cs) (h d) (sd d) (nth d sizes 0%Z) (fun i => sem1 a (at_index d i x)) (nth d x 0%Z)
        | _, _ => iapp J hd (map (fun a => sem1 a x) args)
        end
    end.
End spec.

(* In a direction with a one-sided scheme there are at least six points, and the derivatives
   are first and second ones. *)
Definition has_scheme (sd : sides) (d : nat) : Prop := sd d <> (None, None).
Definition room (sd : sides) (sizes : list Z) : Prop :=
  forall d, (d < List.length sizes)%nat -> has_scheme sd d -> (6 <= nth d sizes 0)%Z.
Definition low_orders (sd : sides) (dirof : string -> nat) (eqs : list (string * expr)) : Prop :=
  forall r rhs a n cs, In (r, rhs) eqs -> inside (EApp HCD (a :: ESym KCoord n :: cs)) rhs ->
    has_scheme sd (dirof n) -> (List.length cs <= 1)%nat.
