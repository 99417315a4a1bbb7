(* Execution of generated programs with shock capturing and boundary conditions as the loops
   of the generated code run them: opsc.py 334-405 (the body of a kernel) and kernel.py
   (ops_par_loop: the body is executed once for every point of the range, statement after
   statement), for the programs of CapModel, FaceModel and ShkModel; as LoopModel.  Each
   launch of a kernel, including those of the boundary conditions, chooses the order in which
   it visits its points. *)
From Verif Require Import Base Expr DiscModel LLFModel HybModel ProgModel LoopModel BndModel SideModel CapModel FaceModel ShkModel.
From Verif Require AdvModel AlgModel BCModel.
From Coq Require Import ZArith Reals.
Local Open Scope list_scope.

Section run.
  Variables (J : interp R) (k : nat) (sizes : list Z) (sch : scheme) (gamma : R) (av : averaging) (solution : list string) (dt : R) (ab : list R * list R).
  (* one statement of the body of a kernel with one-sided formulas, at the point x *)
  Definition visit_form1 (x : list Z) (M : memory) (s : string * rform) : memory :=
    fun a y => if String.eqb a (fst s) && same_point x y then rvalue J M x (snd s) else M a y.
  Definition visit_forms (eqs : list (string * rform)) (M : memory) (x : list Z) : memory := fold_left (visit_form1 x) eqs M.
  (* the body of a reconstruction kernel: temporaries of the point, then the work arrays,
     weno.py 502-534, teno.py 489-520 *)
  Definition visit_flux (d : nat) (works : list string) (fluxes : list expr) (M : memory) (x : list Z) : memory :=
    fun a y => match index_of a works with
               | Some i => if same_point x y then nth i (flux_at J sizes sch gamma av solution d fluxes M x) 0%R else M a y
               | None => M a y
               end.
  (* [pts] are the points of the range of the kernel in the order in which they are visited *)
  Definition loop_gkernel (pts : list (list Z)) (M : memory) (x : gkernel) (stage : option Z) : memory :=
    match x with
    | Constituent (b, e, _) => fold_left (visit J [(b, e)]) pts M
    | Capture (HRec d works fluxes) => fold_left (visit_flux d works fluxes) pts M
    | Capture (HKer kn) => fold_left (visit J (k_eqs kn)) pts M
    | Ordinary (Difference s) => fold_left (visit_forms (sk_eqs s)) pts M
    | Ordinary (Other (Inner pk)) => loop_pkernel J dt ab pts M pk stage
    | Ordinary (Other (Wall bk)) => BCModel.run_kernel J (BCModel.bk_eqs bk) pts M
    end.
  (* the points of the range *)
  Definition points_of (x : gkernel) (y : list Z) : bool :=
    match x with
    | Constituent (_, _, ranges) => within ranges y
    | Capture (HRec d _ _) => in_range 1 sizes [d] y
    | Capture (HKer kn) => in_range k sizes (k_ext kn) y
    | Ordinary (Difference s) => in_range k sizes (sk_ext s) y
    | Ordinary (Other (Inner pk)) => in_range k sizes (range_of pk) y
    | Ordinary (Other (Wall bk)) => BCModel.bk_points bk y
    end.
  (* [order] gives the order for the n-th launch of a kernel of the program; [kind] says which
     of the kernels above the kernels of the program are *)
  Fixpoint loop_gprogram {K} (kind : K -> gkernel) (order : nat -> gkernel -> list (list Z)) (tr : list (AlgModel.event K)) (n : nat) (M : memory) : memory :=
    match tr with
    | [] => M
    | AlgModel.EKernel x _ stage :: tr => loop_gprogram kind order tr (S n) (loop_gkernel (order n (kind x)) M (kind x) stage)
    | _ :: tr => loop_gprogram kind order tr n M
    end.
End run.
(* the kernels of CapModel *)
Definition kind_of (x : ckernel) : gkernel :=
  match x with Relation r => Constituent r | Field kn => Capture kn | Step pk => Ordinary (Other (Inner pk)) end.
