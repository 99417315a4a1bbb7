(* The skew-symmetric operator of the parser. *)
From Verif Require Import Base EinModel.
Local Open Scope list_scope.
Local Open Scope string_scope.

(* sympy: expr.args *)
Definition args (e : ex) : list ex :=
  match e with
  | Tm _ _ | Num _ | KD _ _ | LC _ _ _ => []
  | Add es | Mul es | Fn _ es | Op _ es => es
  | Pow e p => [e; Num p]
  | Sum _ e => [e]
  end.
(* Der and Conservative: opensbli/core/parsing.py 114-139, 189-200, before differentiation *)
Definition der (e : ex) (dirs : list ex) : ex := Op "Der" (e :: dirs).
Definition conservative (e : ex) (dirs : list ex) : ex := Op "Conservative" (e :: dirs).
(* Skew.applys, parsing.py 95-111.  The scheme keyword is not modelled. *)
Definition skew (var : ex) (dirs : list ex) : result ex :=
  match args var with
  | [_] => Ok (der var dirs)
  | [a; b] => Ok (Mul [Pow (Num 2) (-1); Add [conservative var dirs; Mul [b; der a dirs]; Mul [a; der b dirs]]])
  | _ => Err ValueError
  end.
