(* Execution of a generated program as the loops of the generated code run it:
   opsc.py 334-405 (the body of a kernel) and kernel.py (ops_par_loop: the body is executed once
   for every point of the range, statement after statement), for the programs of
   ProgModel.v.  The order in which the points of a range are visited is chosen by OPS:
   it is a parameter, and may differ from one launch of a kernel to the next. *)
From Verif Require Import Base Expr DiscModel ProgModel.
From Verif Require AdvModel AlgModel BCModel.
From Coq Require Import ZArith Reals.
Local Open Scope list_scope.

Section run.
  Variables (J : interp R) (sizes : list Z) (dt : R) (ab : list R * list R).
  Definition same_point (x y : list Z) : bool := if list_eq_dec Z.eq_dec x y then true else false.
  (* one statement of a kernel's body, at the point x *)
  Definition visit1 (x : list Z) (M : memory) (s : string * expr) : memory :=
    fun a y => if String.eqb a (fst s) && same_point x y then eval J (fun b ix => M b (at_offset x ix)) (snd s) else M a y.
  (* the body of a kernel, at the point x *)
  Definition visit (eqs : list (string * expr)) (M : memory) (x : list Z) : memory := fold_left (visit1 x) eqs M.
  Definition visit_advance (l : list AdvModel.stmt) (M : memory) (x : list Z) : memory :=
    AdvModel.run (list Z) (same_point x) l M.

  (* [pts] are the points of the range of the kernel in the order in which they are visited *)
  Definition loop_pkernel (pts : list (list Z)) (M : memory) (pk : pkernel) (stage : option Z) : memory :=
    let st := match stage with Some s => Z.to_nat s | None => 0%nat end in
    match pk with
    | Spatial kn => fold_left (visit (k_eqs kn)) pts M
    | LowStorage eqs => fold_left (visit_advance (AdvModel.ls_kernel dt (nth st (fst ab) 0%R) (nth st (snd ab) 0%R) eqs)) pts M
    | SaveOld eqs => fold_left (visit_advance (AdvModel.sbli_save eqs)) pts M
    | SbliUpdate eqs => fold_left (visit_advance (AdvModel.sbli_kernels dt (nth st (fst ab) 0%R) (nth st (snd ab) 0%R) eqs)) pts M
    | Exchange ex => BCModel.transfer ex M
    end.
  (* the directions in which the range of a kernel is extended *)
  Definition range_of (pk : pkernel) : list nat := match pk with Spatial kn => k_ext kn | _ => [] end.
  (* [order n ext]: the points of the range with extension ext, as launch number n visits them *)
  Fixpoint loop_program (order : nat -> list nat -> list (list Z)) (tr : list (AlgModel.event pkernel)) (n : nat) (M : memory) : memory :=
    match tr with
    | [] => M
    | AlgModel.EKernel pk _ stage :: tr => loop_program order tr (S n) (loop_pkernel (order n (range_of pk)) M pk stage)
    | _ :: tr => loop_program order tr (S n) M
    end.
End run.
