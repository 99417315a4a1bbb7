(* Model of the rewriting that moves an expression along the grid and of the
   discretisation of one central derivative. *)
From Verif Require Import Base Expr FDModel.
From Coq Require Import QArith ZArith.
Local Close Scope Q_scope.

(* loc[direction] = loc[direction] + value  (helperfunctions.py 43-44) *)
Fixpoint shift_ix (d : nat) (v : Z) (ix : list Z) : list Z :=
  match ix, d with
  | [], _ => []
  | i :: ix, O => (i + v)%Z :: ix
  | i :: ix, S d => i :: shift_ix d v ix
  end.
Definition shift_dset (d : nat) (v : Z) (x : dset) : dset := (fst x, shift_ix d v (snd x)).

(* helperfunctions.py 42-46, opensblifunctions.py 505-509: the loop over the data
   sets.  [order] is the iteration order of the set returned by atoms(DataSet).
   loc[direction] fails if the location has no such component. *)
Fixpoint shift_loop (d : nat) (v : Z) (order : list dset) (e : expr) : result expr :=
  match order with
  | [] => Ok e
  | x :: order =>
      if Nat.ltb d (List.length (snd x))
      then shift_loop d v order (replace1 x (EDat (fst x) (shift_ix d v (snd x))) e)
      else Err IndexErr
  end.

(* helperfunctions.py 33-47 *)
Definition increment_dataset (d : nat) (v : Z) (order : list dset) (e : expr) : result expr :=
  match syms KObj e with
  | _ :: _ => Err TypeErr
  | [] => shift_loop d v order e
  end.

(* opensblifunctions.py 485-521 without boundary modification, for a homogeneous
   derivative of order m in direction d with scheme order n; [inv] is the constant
   standing for 1/delta^m (helperfunctions.py 64-77).  [orders p] is the iteration
   order of the set at stencil point p.  Simplified: the sum is not put into
   SymPy's normal form, so the test "form == 0" (512) is modelled by its cause,
   an expression without data sets. *)
Fixpoint disc_terms (d : nat) (orders : Z -> list dset) (e : expr) (pw : list (Z * Q)) (form : expr) : result expr :=
  match pw with
  | [] => Ok form
  | (p, w) :: pw =>
      bind (shift_loop d p (orders p) e) (fun e' =>
        disc_terms d orders e pw (EApp HAdd [form; EApp HMul [ENum w; e']]))
  end.
Definition discretise_derivative (n : Z) (m : nat) (d : nat) (orders : Z -> list dset) (inv e : expr) : result expr :=
  match dsets e with
  | [] => Err ValueError
  | _ => bind (disc_terms d orders e (combine (central_points n) (generate_weights n m)) (ENum 0))
              (fun form => Ok (EApp HMul [form; inv]))
  end.
