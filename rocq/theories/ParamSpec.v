(* Specification vocabulary for the parameters of a kernel function. *)
From Verif Require Import Base Expr KernelModel KernelSpec.

(* The body of the kernel mentions the symbol [s] of class [kd]: in an assigned
   expression, in an assigned place or in a condition. *)
Definition uses (kd : kind) (k : kernel_eqs) (s : string) : Prop :=
  exists q, In q k /\
    ((exists l r, In (l, r) (assignments q) /\ (In s (syms kd l) \/ In s (syms kd r))) \/
     (exists c, In c (conditions q) /\ In s (syms kd c))).

(* [b] is the base of the indexed constant printed as [s]: the text before the first '['. *)
Definition no_bracket (b : string) : Prop := forall x y, b <> (x ++ "[" ++ y)%string.
Definition base_of (b s : string) : Prop :=
  no_bracket b /\ (s = b \/ exists r, s = (b ++ "[" ++ r)%string).
