(* Model of the boundary conditions of core/boundary_conditions and of what the
   generated kernels and exchanges do to the arrays. *)
From Verif Require Import Base Expr KernelModel ShiftModel.
From Verif Require ShiftSpec.
From Coq Require Import QArith ZArith.
Local Close Scope Q_scope.

(* ---- lists of boundary conditions ---- *)

(* nested lists as accepted by sympy.flatten *)
Inductive nest (A : Type) := One (a : A) | Many (l : list (nest A)).
Arguments One {A} _.
Arguments Many {A} _.
Fixpoint flatten {A} (t : nest A) : list A :=
  match t with
  | One a => [a]
  | Many l => (fix go l := match l with [] => [] | x :: l => flatten x ++ go l end) l
  end.
(* list(zip(it, it)) with one iterator (bc_core.py 38-39) *)
Fixpoint pair_up {A} (l : list A) : list (A * A) :=
  match l with a :: b :: l => (a, b) :: pair_up l | _ => [] end.
(* bc_core.py 31-45; the conversion of data objects (36-37) is left out *)
Definition set_boundary_types {A} (ndim : nat) (types : nest A) : result (list (A * A)) :=
  let ts := flatten types in
  if (List.length ts =? ndim * 2)%nat then Ok (pair_up ts) else Err ValueError.

(* ---- boundary planes ---- *)

Fixpoint set_nth {A} (d : nat) (v : A) (l : list A) : list A :=
  match l, d with
  | [], _ => []
  | _ :: l, O => v :: l
  | x :: l, S d => x :: set_nth d v l
  end.

(* grid.py 138-145: block.ranges for the numbers of points np *)
Definition block_ranges (np : list Z) : list (Z * Z) := map (fun n => (0, n)%Z) np.

(* bc_core.py 128-143.  side: false is 0, true is 1; other values of side
   (UnboundLocalError at 142) are not modelled. *)
Definition set_kernel_range (np : list Z) (d : nat) (side : bool) : result (list (Z * Z)) :=
  match nth_error (block_ranges np) d with
  | None => Err IndexErr
  | Some (lo, hi) =>
      Ok (set_nth d (if side then (hi + -1, hi + 0)%Z else (lo + 0, lo + 1)%Z) (block_ranges np))
  end.

(* bc_core.py 145-156.  The loop recomputes the extremes of all directions and
   keeps those of direction 0 for every direction. *)
Definition get_halo_values (bh : halo_ranges) : list (Z * Z) :=
  map (fun _ => (nth 0 (fst (get_min_max_halo_values bh)) 0%Z, nth 0 (snd (get_min_max_halo_values bh)) 0%Z)) bh.

(* bc_core.py 158-167: ranges and halo ranges of the kernel of a full plane.
   Kernels of split boundaries (108-126), whose ranges are run-time constants,
   are not modelled. *)
Definition bc_plane_kernel (np : list Z) (bh : halo_ranges) (d : nat) (side : bool)
  : result (list (Z * Z) * halo_ranges) :=
  bind (set_kernel_range np d side) (fun ranges => Ok (ranges, set_nth d ([], []) bh)).

Record bkernel := {
  bk_ranges : list (Z * Z);
  bk_halos : halo_ranges;
  bk_eqs : kernel_eqs
}.
(* kernel.py 214-230: the points the kernel runs over *)
Definition bk_points (k : bkernel) (x : list Z) : bool :=
  let r := total_range (bk_ranges k) (bk_halos k) in
  (List.length x =? List.length r)%nat &&
  forallb (fun p => let '(i, (lo, hi)) := p in ((lo <=? i) && (i <? hi))%Z) (combine x r).

(* bc_core.py 189-197 *)
Definition set_side_factor (side : bool) : Z * Z := if side then (1, -1)%Z else (-1, 1)%Z.

(* range(1, n+1) for n = abs(halos[direction][side]) *)
Definition n_halos (bh : halo_ranges) (d : nat) (side : bool) : nat :=
  let h := nth d (get_halo_values bh) (0, 0)%Z in Z.to_nat (Z.abs (if side then snd h else fst h)).
Definition upto (n : nat) : list Z := map Z.of_nat (seq 1 n).

(* ---- relocation of expressions ---- *)

(* [ord] gives the iteration order of the set expr.atoms(DataSet). *)
Definition order_of := expr -> list dset.

(* bc_core.py 84-93 *)
Definition relocate (ord : order_of) (ix : list Z) (e : expr) : expr :=
  fold_left (fun e a => replace1 a (EDat (fst a) ix) e) (ord e) e.

(* bc_core.py 169-187 for lists of arrays *)
Definition boundary_equations_at (ord : order_of) (loc_lhs loc_rhs : list Z) (lefts rights : list expr) : kernel_eqs :=
  map (fun p => KEq (relocate ord loc_lhs (fst p)) (relocate ord loc_rhs (snd p))) (combine lefts rights).
Definition create_boundary_equations (ord : order_of) (d : nat) (lefts rights : list expr)
           (indices : list (Z * Z)) : result kernel_eqs :=
  match lefts with
  | EDat _ loc :: _ =>
      Ok (flat_map (fun i => boundary_equations_at ord (shift_ix d (fst i) loc) (shift_ix d (snd i) loc) lefts rights) indices)
  | [] => Err IndexErr          (* left_arrays[0] *)
  | _ => Err AttributeErr       (* .indices of something that is no data set *)
  end.

(* ---- building expressions ---- *)
Definition eadd (l : list expr) : expr := EApp HAdd l.
Definition emul (l : list expr) : expr := EApp HMul l.
Definition epow (a : expr) (q : Q) : expr := EApp HPow [a; ENum q].
Definition ediv (a b : expr) : expr := emul [a; epow b (-1 # 1)].
Definition eint (z : Z) : expr := ENum (z # 1).
Definition esub (a b : expr) : expr := eadd [a; emul [eint (-1); b]].
Definition econst (s : string) : expr := ESym KConst s.
Definition evar (s : string) : expr := ESym KGridVar s.
Definition inc (ord : order_of) (d : nat) (v : Z) (e : expr) : result expr := increment_dataset d v (ord e) e.

Fixpoint map_result {A B} (f : A -> result B) (l : list A) : result (list B) :=
  match l with
  | [] => Ok []
  | x :: l => bind (f x) (fun y => bind (map_result f l) (fun ys => Ok (y :: ys)))
  end.
Fixpoint map2 {A B C} (f : A -> B -> C) (l : list A) (m : list B) : list C :=
  match l, m with x :: l, y :: m => f x y :: map2 f l m | _, _ => [] end.

(* the solution arrays: scalars and vectors of components *)
Inductive arr := Scalar (e : expr) | Vector (es : list expr).
Definition flat_arrays (l : list arr) : list expr :=
  flat_map (fun a => match a with Scalar e => [e] | Vector es => es end) l.

(* ---- symmetry.py 22-49 and inviscid_wall.py 23-52 ---- *)
Definition unit_normals (row : list expr) : list expr :=
  let norm := epow (eadd (map (fun a => epow a 2) row)) (1 # 2) in
  map (fun a => ediv a norm) row.
Definition contra_variant (row es : list expr) : expr := eadd (map2 (fun u v => emul [u; v]) (unit_normals row) es).
(* Matrix(ar).T - f*contra_variant_vector*unit_normals; dot raises ShapeError,
   a ValueError, for different lengths *)
Definition remove_normal (f : Z) (row es : list expr) : result (list expr) :=
  if (List.length row =? List.length es)%nat
  then Ok (map2 (fun v u => esub v (emul [eint f; contra_variant row es; u])) es (unit_normals row))
  else Err ValueError.
Fixpoint transformed (f : Z) (row : list expr) (l : list arr) : result (list expr) :=
  match l with
  | [] => Ok []
  | Scalar e :: l => bind (transformed f row l) (fun r => Ok (e :: r))
  | Vector es :: l => bind (remove_normal f row es) (fun v => bind (transformed f row l) (fun r => Ok (v ++ r)))
  end.
Definition mirror_indices (side : bool) (n : nat) : list (Z * Z) :=
  let '(from, to) := set_side_factor side in map (fun t => (from * t, to * t)%Z) (upto n).
Definition symmetry_apply (ord : order_of) (np : list Z) (bh : halo_ranges) (d : nat) (side : bool)
           (row : list expr) (arrays : list arr) : result bkernel :=
  bind (transformed 2 row arrays) (fun rhs =>
  bind (bc_plane_kernel np bh d side) (fun k =>
  bind (create_boundary_equations ord d (flat_arrays arrays) rhs (mirror_indices side (n_halos bh d side))) (fun eqs =>
  Ok {| bk_ranges := fst k; bk_halos := snd k; bk_eqs := eqs |}))).
Definition inviscid_wall_apply (ord : order_of) (np : list Z) (bh : halo_ranges) (d : nat) (side : bool)
           (row : list expr) (arrays : list arr) : result bkernel :=
  bind (transformed 2 row arrays) (fun rhs =>
  bind (transformed 1 row arrays) (fun wall =>
  bind (bc_plane_kernel np bh d side) (fun k =>
  bind (create_boundary_equations ord d (flat_arrays arrays) rhs (mirror_indices side (n_halos bh d side))) (fun eqs =>
  bind (create_boundary_equations ord d (flat_arrays arrays) wall [(0%Z, snd (set_side_factor side))]) (fun eqs0 =>
  Ok {| bk_ranges := fst k; bk_halos := snd k; bk_eqs := eqs ++ eqs0 |}))))).

(* ---- extrapolation.py 29-58 ---- *)
Definition extrapolation_apply (ord : order_of) (np : list Z) (bh : halo_ranges) (d : nat) (side : bool)
           (order : Z) (arrays : list arr) : result bkernel :=
  bind (bc_plane_kernel np bh d side) (fun k =>
  let vars := flat_arrays arrays in
  let '(from, to) := set_side_factor side in
  bind (if (order =? 0)%Z then
          bind (map_result (fun i => create_boundary_equations ord d vars vars [(from * i, to)%Z])
                           (0%Z :: upto (n_halos bh d side))) (fun ls => Ok (List.concat ls))
        else if (order =? 1)%Z then
          bind (map_result (fun i => map_result (fun term =>
                  bind (inc ord d i term) (fun current =>
                  bind (inc ord d (if side then (i - 1) * from else (i + 1) * to)%Z term) (fun one =>
                  bind (inc ord d (if side then (i - 2) * from else (i + 2) * to)%Z term) (fun two =>
                  Ok (KEq current (esub (emul [eint 2; one]) two)))))) vars)
                (map (fun t => (from * t)%Z) (upto (n_halos bh d side)))) (fun ls => Ok (List.concat ls))
        else Err ValueError) (fun eqs =>
  Ok {| bk_ranges := fst k; bk_halos := snd k; bk_eqs := eqs |})).

(* ---- zero_gradient_outlet.py 11-24 ---- *)
Definition zero_gradient_apply (ord : order_of) (np : list Z) (bh : halo_ranges) (d : nat) (side : bool)
           (arrays : list arr) : result bkernel :=
  bind (bc_plane_kernel np bh d side) (fun k =>
  let vars := flat_arrays arrays in
  bind (create_boundary_equations ord d vars vars [(0%Z, snd (set_side_factor side))]) (fun e0 =>
  bind (create_boundary_equations ord d vars vars (mirror_indices side (n_halos bh d side))) (fun e1 =>
  Ok {| bk_ranges := fst k; bk_halos := snd k; bk_eqs := e0 ++ e1 |}))).

(* ---- inlet_transfer.py 15-32 ---- *)
Definition inlet_transfer_apply (ord : order_of) (np : list Z) (bh : halo_ranges) (d : nat) (side : bool)
           (arrays : list arr) : result bkernel :=
  if side then Err ValueError else
  bind (bc_plane_kernel np bh d side) (fun k =>
  bind (create_boundary_equations ord d (flat_arrays arrays) (flat_arrays arrays) [(0, -1)%Z]) (fun eqs =>
  Ok {| bk_ranges := fst k; bk_halos := snd k; bk_eqs := eqs |})).

(* ---- dirichlet.py 29-43: the user's equations, over the plane and the halos of this side ---- *)
Definition dirichlet_apply (np : list Z) (bh : halo_ranges) (d : nat) (side : bool) (eqs : kernel_eqs) : result bkernel :=
  bind (bc_plane_kernel np bh d side) (fun k =>
  match nth_error bh d with
  | None => Err IndexErr
  | Some (lo, hi) =>
      Ok {| bk_ranges := fst k; bk_halos := set_nth d (if side then ([], hi) else (lo, [])) (snd k); bk_eqs := eqs |}
  end).

(* ---- ns_physics.py 54-150: the Navier-Stokes variables on a block ---- *)
Record nsvars := { ns_rho : expr; ns_mom : list expr; ns_rhoE : expr }.
Definition gama := econst "gama".
Definition Minf := econst "Minf".
(* helperfunctions.py 50-60 for lists of equal length; the leading 0 disappears in SymPy *)
Definition edot (l : list expr) : expr := eadd (map (fun m => emul [m; m]) l).
(* E - 1/2 rho u.u in conservative variables *)
Definition internal (v : nsvars) : expr := esub (ns_rhoE v) (ediv (emul [ENum (1 # 2); edot (ns_mom v)]) (ns_rho v)).
(* 90-91 *)
Definition pressure_cons (v : nsvars) : expr := emul [esub gama (eint 1); internal v].
(* 95-96 *)
Definition temperature_cons (v : nsvars) : expr :=
  ediv (emul [internal v; emul [gama; esub gama (eint 1); epow Minf 2]]) (ns_rho v).

(* ---- adiabatic_wall.py 29-71 ---- *)
Definition adiabatic_apply (ord : order_of) (np : list Z) (bh : halo_ranges) (d : nat) (side : bool)
           (v : nsvars) : result bkernel :=
  bind (bc_plane_kernel np bh d side) (fun k =>
  let '(from, to) := set_side_factor side in
  bind (map_result (fun m => bind (inc ord d 0 m) (fun l => Ok (KEq l (emul [ns_rho v; eint 0])))) (ns_mom v)) (fun mom_wall =>
  bind (inc ord d to (temperature_cons v)) (fun T1 =>
  bind (inc ord d (2 * to) (temperature_cons v)) (fun T2 =>
  bind (inc ord d (3 * to) (temperature_cons v)) (fun T3 =>
  let T_wall := emul [ENum (6 # 11); esub (eadd [emul [eint 3; T1]; emul [ENum (1 # 3); T3]]) (emul [ENum (3 # 2); T2])] in
  let pressure_wall := ediv (emul [ns_rho v; T_wall]) (emul [gama; Minf; Minf]) in
  bind (inc ord d 0 (ns_rhoE v)) (fun E0 =>
  let e_wall := KEq E0 (ediv pressure_wall (esub gama (eint 1))) in
  bind (map_result (fun i =>
          bind (inc ord d (from * i) (ns_rho v)) (fun l =>
          bind (inc ord d (to * i) (ns_rho v)) (fun r => Ok (KEq l r)))) (upto (n_halos bh d side))) (fun rhos =>
  bind (map_result (fun i => map_result (fun m =>
          bind (inc ord d (from * i) m) (fun l =>
          bind (inc ord d (to * i) m) (fun r => Ok (KEq l (emul [eint (-1); r]))))) (ns_mom v)) (upto (n_halos bh d side))) (fun moms =>
  bind (map_result (fun i =>
          bind (inc ord d (from * i) (ns_rhoE v)) (fun l =>
          bind (inc ord d (to * i) (ns_rhoE v)) (fun r => Ok (KEq l r)))) (upto (n_halos bh d side))) (fun es =>
  Ok {| bk_ranges := fst k; bk_halos := snd k;
        bk_eqs := rhos ++ (mom_wall ++ List.concat moms) ++ e_wall :: es |}))))))))).

(* ---- isothermal_wall.py 32-89 ---- *)
Definition digits_name (p : string) (n : nat) : string := (p ++ dec n)%string.
Definition uname (c i : nat) : string := ("u" ++ dec c ++ dec i)%string.
Definition enum {A} (l : list A) : list (nat * A) := combine (seq 0 (List.length l)) l.
Definition isothermal_apply (ord : order_of) (np : list Z) (bh : halo_ranges) (d : nat) (side : bool)
           (v : nsvars) (x0 : expr) (equations : kernel_eqs) : result bkernel :=
  bind (bc_plane_kernel np bh d side) (fun k =>
  let '(from, to) := set_side_factor side in
  let n := n_halos bh d side in
  let wall := map (fun m => KEq m (ENum 0)) (ns_mom v) ++ equations in
  bind (inc ord d 0 (pressure_cons v)) (fun pwall =>
  (* velocities at the mirrored points, component by component *)
  bind (map_result (fun c => map_result (fun i =>
          bind (inc ord d (to * Z.of_nat i) (snd c)) (fun m =>
          bind (inc ord d (to * Z.of_nat i) (ns_rho v)) (fun r =>
          Ok (KEq (evar (uname (fst c) i)) (ediv m r))))) (seq 1 n)) (enum (ns_mom v))) (fun vels =>
  bind (inc ord d to (temperature_cons v)) (fun Tabove =>
  (* per halo point: interpolated temperature, density, momentum and energy *)
  let T_eq i := KEq (evar (digits_name "T" i))
                    (esub (emul [eint (Z.of_nat i + 1); econst "Twall"]) (emul [eint (Z.of_nat i); evar "T_above"])) in
  let rho_h i := evar (digits_name "rho_halo_" i) in
  bind (map_result (fun i => bind (inc ord d (from * Z.of_nat i) (ns_rho v)) (fun l =>
          Ok [KEq (rho_h i) (ediv (emul [evar "Pwall"; gama; Minf; Minf]) (evar (digits_name "T" i)));
              KEq l (rho_h i)])) (seq 1 n)) (fun rhos =>
  bind (map_result (fun i => map_result (fun c => bind (inc ord d (from * Z.of_nat i) (snd c)) (fun l =>
          Ok (KEq l (emul [eint (-1); rho_h i; evar (uname (fst c) i)])))) (enum (ns_mom v))) (seq 1 n)) (fun moms =>
  bind (map_result (fun i => bind (inc ord d (from * Z.of_nat i) (ns_rhoE v)) (fun l =>
          Ok [KEq l (eadd [ediv (evar "Pwall") (esub gama (eint 1));
                           emul [ENum (1 # 2); rho_h i;
                                 eadd (map (fun c => epow (evar (uname (fst c) i)) 2) (enum (ns_mom v)))]])])) (seq 1 n)) (fun es =>
  (* the lists grow with i and are added to the kernel each time (82-87) *)
  let step i := T_eq i :: List.concat (firstn i rhos) ++ List.concat (firstn i moms) ++ List.concat (firstn i es) in
  Ok {| bk_ranges := fst k; bk_halos := snd k;
        bk_eqs := KEq (evar "x0") x0 :: wall ++ [KEq (evar "Pwall") pwall] ++ List.concat vels ++
                  [KEq (evar "T_above") Tabove] ++ flat_map step (seq 1 n) |}))))))).

(* ---- pressure_outlet.py 22-58 ---- *)
Definition pressure_outlet_apply (ord : order_of) (np : list Z) (bh : halo_ranges) (d : nat) (side : bool)
           (v : nsvars) : result bkernel :=
  if side then
    bind (bc_plane_kernel np bh d side) (fun k =>
    let vars := ns_rho v :: ns_mom v ++ [ns_rhoE v] in
    let rhs := ns_rho v :: ns_mom v ++
               [eadd [ediv (econst "back_pressure") (esub gama (eint 1));
                      ediv (emul [ENum (1 # 2); edot (ns_mom v)]) (ns_rho v)]] in
    bind (map_result (fun i => create_boundary_equations ord d vars rhs [(i, -1)%Z])
                     (0%Z :: upto (n_halos bh d side))) (fun ls =>
    Ok {| bk_ranges := fst k; bk_halos := snd k;
          bk_eqs := KEq (evar "local_rhoE") (ns_rhoE v) :: List.concat ls |}))
  else Err ValueError.

(* ---- periodic.py 29-56 ---- *)
Record exchange := { ex_size : list Z; ex_from : list Z; ex_to : list Z; ex_arrays : list string }.
Definition get_transfers (np : list Z) (halos : list (Z * Z)) (d : nat) (side : bool) : list Z * list Z * list Z :=
  let h := nth d halos (0, 0)%Z in
  let n := nth d np 0%Z in
  let base := map fst halos in
  let size := map2 (fun n h => n + 0 + (Z.abs (fst h) + Z.abs (snd h)))%Z np halos in
  (set_nth d (Z.abs (if side then snd h else fst h)) size,
   set_nth d (if side then n + fst h else 0)%Z base,
   set_nth d (if side then 0 + fst h else n)%Z base).
Definition periodic_apply (np : list Z) (bh : halo_ranges) (d : nat) (side : bool) (arrays : list string) : exchange :=
  let '(s, f, t) := get_transfers np (get_halo_values bh) d side in
  {| ex_size := s; ex_from := f; ex_to := t; ex_arrays := arrays |}.
(* block.py 199-210 with periodic conditions in all directions *)
Definition periodic_all (np : list Z) (bh : halo_ranges) (arrays : list string) : list exchange :=
  flat_map (fun d => [periodic_apply np bh d false arrays; periodic_apply np bh d true arrays]) (seq 0 (List.length np)).

(* ---- what the generated code does ---- *)
Section run.
  Context {V : Type}.
  Local Notation data := (string -> list Z -> V).
  Local Notation locals := (string -> V).
  Definition upd (M : data) (b : string) (x : list Z) (v : V) : data :=
    fun b' y => if string_dec b b' then if list_eq_dec Z.eq_dec x y then v else M b' y else M b' y.
  Definition updl (L : locals) (g : string) (v : V) : locals := fun g' => if string_dec g g' then v else L g'.
  Definition with_locals (J : interp V) (L : locals) : interp V :=
    {| inum := inum J; iapp := iapp J;
       isym := fun k s => match k with KGridVar => L s | _ => isym J k s end |}.
  (* value of an expression at the grid point x: location ix is the point x + ix *)
  Definition at_point (J : interp V) (M : data) (L : locals) (x : list Z) (e : expr) : V :=
    eval (with_locals J L) (fun b ix => M b (ShiftSpec.vadd x ix)) e.
  (* one assignment of the kernel function (opsc.py 300-420) at point x *)
  Definition exec1 (J : interp V) (x : list Z) (s : data * locals) (q : keq) : data * locals :=
    match q with
    | KEq (EDat b ix) r => (upd (fst s) b (ShiftSpec.vadd x ix) (at_point J (fst s) (snd s) x r), snd s)
    | KEq (ESym KGridVar g) r => (fst s, updl (snd s) g (at_point J (fst s) (snd s) x r))
    | _ => s
    end.
  Definition run_point (J : interp V) (qs : kernel_eqs) (M : data) (x : list Z) : data * locals :=
    fold_left (exec1 J x) qs (M, isym J KGridVar).
  (* ops_par_loop over the points, in the order of the list *)
  Definition run_kernel (J : interp V) (qs : kernel_eqs) (pts : list (list Z)) (M : data) : data :=
    fold_left (fun M x => fst (run_point J qs M x)) pts M.

  (* ops_halo_transfer (opsc.py 555-593 with from_dir = to_dir = 1..ndim): the box of
     the given size at ex_from is copied to ex_to *)
  Definition in_box (base size x : list Z) : bool :=
    (List.length x =? List.length size)%nat &&
    forallb (fun p => let '(i, (b, s)) := p in ((b <=? i) && (i <? b + s))%Z) (combine x (combine base size)).
  Definition transfer (ex : exchange) (M : data) : data :=
    fun b x =>
      if in_dec string_dec b (ex_arrays ex)
      then if in_box (ex_to ex) (ex_size ex) x
           then M b (map2 (fun i p => i - fst p + snd p)%Z x (combine (ex_to ex) (ex_from ex)))
           else M b x
      else M b x.
  Definition transfers (exs : list exchange) (M : data) : data := fold_left (fun M ex => transfer ex M) exs M.
End run.
