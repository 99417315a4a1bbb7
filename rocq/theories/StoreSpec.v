(* Specification: the elements of the arrays that the kernels read and write (C16). *)
From Verif Require Import Base Expr.
From Verif Require AdvModel BCModel DiscModel ProgModel ShiftSpec.
From Coq Require Import ZArith Rdefinitions.

(* arrays of a statement of the time advancement *)
Definition stmt_arrays (s : AdvModel.stmt) : list string :=
  fst s :: match snd s with AdvModel.Axpy x _ y | AdvModel.Comb _ x _ y => [x; y] | AdvModel.Copy x => [x] end.
(* element y of array b is read or written when the kernel runs on a grid of these sizes *)
Definition touches (k : nat) (sizes : list Z) (pk : ProgModel.pkernel) (b : string) (y : list Z) : Prop :=
  match pk with
  | ProgModel.Spatial kn => exists r e x, In (r, e) (DiscModel.k_eqs kn) /\ DiscModel.in_range k sizes (DiscModel.k_ext kn) x = true /\
      ((b = r /\ y = x) \/ exists ix, In (b, ix) (dsets e) /\ y = ShiftSpec.vadd x ix)
  | ProgModel.LowStorage eqs => DiscModel.in_range k sizes [] y = true /\ In b (flat_map stmt_arrays (AdvModel.ls_kernel 0%R 0%R 0%R eqs))
  | ProgModel.SaveOld eqs => DiscModel.in_range k sizes [] y = true /\ In b (flat_map stmt_arrays (AdvModel.sbli_save eqs))
  | ProgModel.SbliUpdate eqs => DiscModel.in_range k sizes [] y = true /\ In b (flat_map stmt_arrays (AdvModel.sbli_kernels 0%R 0%R 0%R eqs))
  | ProgModel.Exchange ex => In b (BCModel.ex_arrays ex) /\
      (BCModel.in_box (BCModel.ex_to ex) (BCModel.ex_size ex) y = true \/ BCModel.in_box (BCModel.ex_from ex) (BCModel.ex_size ex) y = true)
  end.


(* w occurs in b *)
Definition contains (b w : string) : Prop := exists p q, b = (p ++ w ++ q)%string.
(* names for which no halo points are declared *)
Definition own_name (b : string) : Prop := contains b "Residual" \/ contains b "tempRK" \/ contains b "RKold".
