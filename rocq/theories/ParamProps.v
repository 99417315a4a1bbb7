(* C05: the parameters of a kernel function. *)
From Coq Require Import Permutation.
From Verif Require Import Base Expr KernelModel KernelSpec ParamSpec ParamProofs.
Local Open Scope string_scope.
Local Open Scope list_scope.

(* C05.  The signature has a parameter for every object the body uses and for nothing
   else: a const array for each array that is only read, an array that may be written for
   each array that is written, a value for each global value, a base for each indexed
   constant, and the index of the point exactly when the body mentions it. *)
Theorem C05_parameters :
  forall (ord : list string -> list string) (k : kernel_eqs),
    (forall l, Permutation (ord l) l) ->
    (forall d, In (FDat d true) (header_args ord k) <-> reads k d /\ ~ writes k d) /\
    (forall d, In (FDat d false) (header_args ord k) <-> writes k d) /\
    (forall g c, In (FGbl g c) (header_args ord k) <-> c = true /\ uses KGlobal k g) /\
    (forall b, In (FConst b) (header_args ord k) <-> exists s, base_of b s /\ uses KConstIx k s) /\
    (In FIdx (header_args ord k) <-> exists s, uses KGridIdx k s).
Proof.
  exact (fun ord k Hp => conj (fun d => proj1 (header_arrays ord Hp k d))
          (conj (fun d => proj2 (header_arrays ord Hp k d)) (header_others ord Hp k))).
Qed.
Print Assumptions C05_parameters.

(* A kernel with a condition on the index of the point, an indexed constant and a global
   value. *)
Definition k_all : kernel_eqs :=
  [KEq (EDat "u_B0" [0%Z]) (EApp HMul [ESym KConstIx "rknew[stage]"; EDat "r_B0" [1%Z]]);
   KGroup [([(EDat "x_B0" [0%Z], ESym KGlobal "niter")], Some (ESym KGridIdx "idx[0]"))]].
Example C05_parameters_nonvacuous :
  header_args (fun l => l) k_all =
    [FDat "r_B0" true; FDat "u_B0" false; FDat "x_B0" false; FGbl "niter" true; FConst "rknew"; FIdx] /\
  uses KGridIdx k_all "idx[0]" /\ (reads k_all "r_B0" /\ ~ writes k_all "r_B0").
Proof.
  assert (H : forall d, In (FDat d true) (header_args (fun l => l) k_all) -> reads k_all d /\ ~ writes k_all d)
    by (intros d; apply (header_arrays (fun l => l) (fun l => Permutation_refl l) k_all d)).
  split; [vm_compute; reflexivity|]. split.
  - exists (KGroup [([(EDat "x_B0" [0%Z], ESym KGlobal "niter")], Some (ESym KGridIdx "idx[0]"))]).
    split; [cbn; auto|]. right. exists (ESym KGridIdx "idx[0]"). cbn. auto.
  - apply H. vm_compute. auto.
Qed.
