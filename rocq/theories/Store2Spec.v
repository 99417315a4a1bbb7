(* Specification: the elements of the arrays that the kernels of programs with shock capturing
   and boundary conditions read and write (C86). *)
From Verif Require Import Base Expr KernelModel DiscModel LLFModel HybModel ProgModel BndModel SideModel CapModel FaceModel ShkModel StoreModel StoreSpec.
From Verif Require BCModel BCSpec ShiftSpec BndSpec.
From Coq Require Import ZArith Reals.
Local Open Scope list_scope.

(* the expression reads element y of array b when it is evaluated at x *)
Definition expr_reads (e : expr) (x : list Z) (b : string) (y : list Z) : Prop := exists ix, In (b, ix) (dsets e) /\ y = ShiftSpec.vadd x ix.
(* of the formulas of a derivative, the first whose index is that of the point, or the last *)
Definition form_reads (f : rform) (x : list Z) (b : string) (y : list Z) : Prop :=
  match f with
  | Plain e => expr_reads e x b y
  | Piecewise pairs last inv => expr_reads inv x b y \/
      match find (fun p => Z.eqb (nth (fst (snd p)) x 0%Z) (snd (snd p))) pairs with
      | Some (ts, _) => exists w t, In (w, t) ts /\ expr_reads t x b y
      | None => expr_reads last x b y
      end
  end.
(* the flow variables from which the numerical flux is computed *)
Definition flux_names (ndim : nat) : list string := ["rho"; "a"; "p"]%string ++ firstn ndim ["u0"; "u1"; "u2"]%string.
(* element y of array b is read or written when the kernel runs on a grid of these sizes *)
Definition touched (k : nat) (sizes : list Z) (sch : scheme) (solution : list string) (x : gkernel) (b : string) (y : list Z) : Prop :=
  match x with
  | Constituent (r, e, ranges) => exists z, within ranges z = true /\ ((b = r /\ y = z) \/ expr_reads e z b y)
  | Capture (HRec d works fluxes) => exists z, in_range 1 sizes [d] z = true /\
      ((In b works /\ y = z) \/
       exists j, In j (stencil_points sch) /\
         ((In b (solution ++ flux_names (List.length sizes)) /\ y = ShiftSpec.move d j z) \/
          exists f, In f fluxes /\ expr_reads f (ShiftSpec.move d j z) b y))
  | Capture (HKer kn) => touches k sizes (Spatial kn) b y
  | Ordinary (Difference s) => exists r f z, In (r, f) (sk_eqs s) /\ in_range k sizes (sk_ext s) z = true /\
      ((b = r /\ y = z) \/ form_reads f z b y)
  | Ordinary (Other (Inner pk)) => touches k sizes pk b y
  | Ordinary (Other (Wall bk)) => exists z l r, BCModel.bk_points bk z = true /\ In (KEq l r) (BCModel.bk_eqs bk) /\
      (expr_reads l z b y \/ expr_reads r z b y)
  end.

(* arrays in the data that the user gives with a boundary condition *)
Definition data_arrays (c : bcond) : list string :=
  match c with
  | Central b => flat_map (fun row => map fst (flat_map dsets row)) (BndSpec.rows_of b)
  | Dirichlet ps _ => flat_map (fun p => map fst (dsets (snd p))) ps
  | Isothermal x0 e _ => map fst (dsets x0 ++ dsets e)
  | ForcingStrip _ e1 e2 _ => map fst (dsets e1 ++ dsets e2)
  | _ => []
  end.

(* no array of the equations has one of the names that OpenSBLI gives no halo points *)
Definition names_free (sys crs : list (string * expr)) : Prop :=
  forall a rhs, In (a, rhs) (sys ++ crs) -> ~ own_name a /\ forall b ix, In (b, ix) (dsets rhs) -> ~ own_name b.
Definition data_free (types : list (bcond * bcond)) : Prop :=
  forall l r b, In (l, r) types -> In b (data_arrays l ++ data_arrays r) -> ~ own_name b.
(* what lies outside the declared storage neither matters nor changes *)
Definition confined (sizes : list Z) (run : memory -> memory) : Prop :=
  forall M M', (forall b y, stored sizes b y = true -> M b y = M' b y) ->
    (forall b y, stored sizes b y = true -> run M b y = run M' b y) /\ (forall b y, stored sizes b y = false -> run M b y = M b y).
