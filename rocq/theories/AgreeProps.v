(* C59: the schemes of the blocks of a program. *)
From Verif Require Import Base AlgModel AlgProps AgreeProofs.
Local Open Scope list_scope.

(* C59.  A program is only generated for several blocks if some block has a time
   discretisation, and all blocks have the same kind, the same number of iterations and the
   same number of stages: the one loop of the program is the loop of every block. *)
Theorem C59_schemes_agree :
  forall (K : Type) (bs : list (block K)) prg,
    spatial_solution bs = Ok prg ->
    (exists b sc, In b bs /\ In sc (bk_schemes b)) /\
    forall b sc b' sc', In b bs -> In sc (bk_schemes b) -> In b' bs -> In sc' (bk_schemes b') ->
      sc_class sc = sc_class sc' /\ sc_iter sc = sc_iter sc' /\ sc_stage sc = sc_stage sc'.
Proof. exact (fun K => @schemes_agree K). Qed.
Print Assumptions C59_schemes_agree.

Example C59_agree_nonvacuous :
  (exists prg, spatial_solution [ex_two 0; ex_two 20] = Ok prg) /\
  forall sc, In sc (bk_schemes (ex_two 0)) -> spatial_solution
    [ex_two 0; {| bk_schemes := [{| sc_class := sc_class sc; sc_stage := SNum 7; sc_iter := sc_iter sc; sc_solution := sc_solution sc |}];
                  bk_datasets := []; bk_io := [] |}] = Err ValueError.
Proof.
  split.
  - destruct C59_nonvacuous as (prg & H & _). exists prg. exact H.
  - intros sc [<-|[]]. vm_compute. reflexivity.
Qed.
