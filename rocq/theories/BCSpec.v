(* Specification: boundary faces, halo points and their mirror images. *)
From Verif Require Import Base Expr KernelModel ShiftSpec BCModel.
From Coq Require Import QArith ZArith Reals Qreals.
Local Close Scope Q_scope.

(* Extent of the halos registered on a block in direction i: lower (<= 0) and upper. *)
Definition lower_halo (bh : halo_ranges) (i : nat) : Z := halo_min (fst (nth i bh ([], []))).
Definition upper_halo (bh : halo_ranges) (i : nat) : Z := halo_max (snd (nth i bh ([], []))).

(* x lies on the face of direction d (lower: side = false, upper: side = true) of a
   grid with np points, extended by the halos in the other directions *)
Definition on_face (np : list Z) (bh : halo_ranges) (d : nat) (side : bool) (x : list Z) : Prop :=
  List.length x = List.length np /\
  nth d x 0%Z = (if side then nth d np 0 - 1 else 0)%Z /\
  forall i, (i < List.length np)%nat -> i <> d ->
    (lower_halo bh i <= nth i x 0 < nth i np 0 + upper_halo bh i)%Z.
(* the t-th point outwards and the t-th point inwards from a face point *)
Definition outwards (d : nat) (side : bool) (t : Z) (x : list Z) : list Z := move d (if side then t else - t)%Z x.
Definition inwards (d : nat) (side : bool) (t : Z) (x : list Z) : list Z := move d (if side then - t else t)%Z x.

(* pts lists every point satisfying P exactly once, in any order *)
Definition sweeps (pts : list (list Z)) (P : list Z -> Prop) : Prop :=
  NoDup pts /\ forall x, In x pts <-> P x.

(* real arithmetic for the operators that occur; all other functions are arbitrary *)
Record reals (J : interp R) : Prop := {
  r_num : forall q, inum J q = Q2R q;
  r_add : forall l, iapp J HAdd l = fold_right Rplus 0%R l;
  r_mul : forall l, iapp J HMul l = fold_right Rmult 1%R l;
  r_inv : forall a, iapp J HPow [a; Q2R (-1 # 1)] = (/ a)%R;
  r_sqr : forall a, iapp J HPow [a; Q2R 2] = (a * a)%R;
  r_sqrt : forall a, iapp J HPow [a; Q2R (1 # 2)] = sqrt a }.

(* vectors *)
Fixpoint vdot (u v : list R) : R := match u, v with a :: u, b :: v => (a * b + vdot u v)%R | _, _ => 0%R end.
Definition norm2 (u : list R) : R := vdot u u.
(* v - f (v.n) n / |n|^2: f = 2 reflects v in the plane with normal n, f = 1 projects it
   onto that plane *)
Fixpoint vsub (f : R) (v n : list R) : list R :=
  match v, n with a :: v, b :: n => (a - f * b)%R :: vsub f v n | _, _ => [] end.
Definition reflected (n v : list R) : list R := vsub (2 * (vdot v n / norm2 n))%R v n.
Definition projected (n v : list R) : list R := vsub (vdot v n / norm2 n)%R v n.

(* the solution: scalar fields and vector fields, on an n-dimensional grid *)
Inductive field := FScalar (s : string) | FVector (vs : list string).
Definition field_names (fs : list field) : list string :=
  flat_map (fun f => match f with FScalar s => [s] | FVector vs => vs end) fs.
(* the zero offset, and the arrays passed to a boundary condition *)
Definition here (n : nat) : list Z := repeat 0%Z n.
Definition arrays_of (n : nat) (fs : list field) : list arr :=
  map (fun f => match f with FScalar s => Scalar (EDat s (here n)) | FVector vs => Vector (map (fun v => EDat v (here n)) vs) end) fs.
(* e is evaluated from array values at the grid point itself and from constants *)
Definition local (n : nat) (e : expr) : Prop := forall b ix, In (b, ix) (dsets e) -> ix = here n.
Definition placed (n : nat) (e : expr) : Prop := local n e /\ syms KGridVar e = [] /\ syms KObj e = [].
(* the accesses of every expression are visited in some order, each once *)
Definition good_order (ord : order_of) : Prop := forall e, enumerates (ord e) e.
(* number of halo layers filled on a side *)
Definition halo_width (bh : halo_ranges) (side : bool) : Z := Z.abs (if side then upper_halo bh 0 else lower_halo bh 0).
(* the points outside the face, up to the halo width *)
Definition halo_point (np : list Z) (bh : halo_ranges) (d : nat) (side : bool) (y : list Z) : Prop :=
  exists x t, on_face np bh d side x /\ (1 <= t <= halo_width bh side)%Z /\ y = outwards d side t x.
