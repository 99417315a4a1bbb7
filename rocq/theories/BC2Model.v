(* Model of further boundary conditions of core/boundary_conditions:
   adiabatic_wall_Carpenter.py, forcing_strip_wall.py, inlet_Lawal.py,
   inlet_pressure_extrapolate.py, inviscid_wall2D.py and SplitBC of bc_core.py. *)
From Verif Require Import Base Expr KernelModel ShiftModel BCModel.
From Verif Require ShiftSpec.
From Coq Require Import QArith ZArith.
Local Close Scope Q_scope.

(* ---- adiabatic_wall_Carpenter.py 26-85 ---- *)
(* carp_coefficients()[0, j] (30-50): an irrational number, written as a function of its
   column; the negation on side 1 (27) is kept *)
Definition carp_coeff (side : bool) (j : nat) : expr :=
  let c := EApp (HFun "carp_coefficients_0") [eint (Z.of_nat j)] in
  if side then emul [eint (-1); c] else c.
Definition Tvar (i : nat) : expr := evar (digits_name "T" i).
Definition carpenter_wall_apply (ord : order_of) (np : list Z) (bh : halo_ranges) (d : nat) (side : bool)
           (arrays : list arr) (v : nsvars) : result bkernel :=
  bind (bc_plane_kernel np bh d side) (fun k =>
  let '(from, to) := set_side_factor side in
  let zero := flat_map (fun a => match a with Vector es => map (fun x => KEq x (eint 0)) es | Scalar _ => [] end) arrays in
  bind (map_result (fun i => bind (inc ord d (Z.of_nat i * to) (temperature_cons v)) (fun T => Ok (KEq (Tvar i) T))) (seq 1 5)) (fun ts =>
  let deriv := eadd (map (fun i => emul [carp_coeff side (i + 1); Tvar (i + 1)]) (seq 0 5)) in
  Ok {| bk_ranges := fst k; bk_halos := snd k;
        bk_eqs := zero ++ ts ++ [KEq (Tvar 0) (ediv (emul [eint (-1); deriv]) (carp_coeff side 0));
                                 KEq (ns_rhoE v) (ediv (emul [ns_rho v; Tvar 0]) (emul [Minf; Minf; gama; esub gama (eint 1)]))] |})).

(* ---- forcing_strip_wall.py 34-92 ---- *)
(* del wall_momentum[direction] *)
Definition drop_nth {A} (i : nat) (l : list A) : list A := firstn i l ++ skipn (S i) l.
Definition rho_halo (i : nat) : expr := evar (digits_name "rho_halo_" i).
Definition uvar (c i : nat) : expr := evar (uname c i).
(* normal: the user's equation for the wall-normal momentum; shock: whether a scheme of the
   block is shock capturing *)
Definition forcing_strip_apply (ord : order_of) (np : list Z) (bh : halo_ranges) (d : nat) (side : bool) (shock : bool)
           (v : nsvars) (normal : keq) (equations : kernel_eqs) : result bkernel :=
  bind (bc_plane_kernel np bh d side) (fun k =>
  let '(from, to) := set_side_factor side in
  let n := n_halos bh d side in
  if (d <? List.length (ns_mom v))%nat then
  let wall := normal :: drop_nth d (map (fun m => KEq m (ENum 0)) (ns_mom v)) ++ equations in
  if shock then
    bind (inc ord d 0 (pressure_cons v)) (fun pwall =>
    bind (map_result (fun c => map_result (fun i =>
            bind (inc ord d (to * Z.of_nat i) (snd c)) (fun m =>
            bind (inc ord d (to * Z.of_nat i) (ns_rho v)) (fun r =>
            Ok (KEq (uvar (fst c) i) (ediv m r))))) (seq 1 n)) (enum (ns_mom v))) (fun vels =>
    bind (inc ord d to (temperature_cons v)) (fun Tabove =>
    let T_eq i := KEq (Tvar i) (esub (emul [eint (Z.of_nat i + 1); econst "Twall"]) (emul [eint (Z.of_nat i); evar "T_above"])) in
    bind (map_result (fun i => bind (inc ord d (from * Z.of_nat i) (ns_rho v)) (fun l =>
            Ok [KEq (rho_halo i) (ediv (emul [evar "Pwall"; gama; Minf; Minf]) (Tvar i)); KEq l (rho_halo i)])) (seq 1 n)) (fun rhos =>
    bind (map_result (fun i => map_result (fun c => bind (inc ord d (from * Z.of_nat i) (snd c)) (fun l =>
            Ok (KEq l (emul [eint (-1); rho_halo i; uvar (fst c) i])))) (enum (ns_mom v))) (seq 1 n)) (fun moms =>
    bind (map_result (fun i => bind (inc ord d (from * Z.of_nat i) (ns_rhoE v)) (fun l =>
            Ok (KEq l (eadd [ediv (evar "Pwall") (esub gama (eint 1));
                             emul [ENum (1 # 2); rho_halo i;
                                   eadd (map (fun c => epow (uvar (fst c) i) 2) (enum (ns_mom v)))]])))) (seq 1 n)) (fun es =>
    Ok {| bk_ranges := fst k; bk_halos := snd k;
          bk_eqs := wall ++ [KEq (evar "Pwall") pwall] ++ List.concat vels ++ [KEq (evar "T_above") Tabove] ++
                    map T_eq (seq 1 n) ++ List.concat rhos ++ List.concat moms ++ es |}))))))
  else Ok {| bk_ranges := fst k; bk_halos := snd k; bk_eqs := wall |}
  else Err IndexErr).

(* ---- inlet_Lawal.py 20-72 ---- *)
Definition u1var (c : nat) : expr := evar (digits_name "u" c).
(* a ** b with an exponent that is an expression *)
Definition epow2 (a b : expr) : expr := EApp HPow [a; b].
Definition lawal_apply (ord : order_of) (np : list Z) (bh : halo_ranges) (d : nat) (side : bool)
           (v : nsvars) : result bkernel :=
  if side then Err ValueError else
  bind (bc_plane_kernel np bh d side) (fun k =>
  let '(from, to) := set_side_factor side in
  let n := n_halos bh d side in
  bind (map_result (fun c => bind (inc ord d 1 (snd c)) (fun m => bind (inc ord d 1 (ns_rho v)) (fun r =>
          Ok (KEq (u1var (fst c)) (ediv m r))))) (enum (ns_mom v))) (fun vels =>
  let sq := eadd (map (fun c => epow (u1var (fst c)) 2) (enum (ns_mom v))) in
  let g1 := esub gama (eint 1) in
  let T := esub (eint 1) (emul [ENum (1 # 2); g1; sq]) in
  let rho := epow2 (eadd [eint 1; emul [ENum (1 # 2); g1; ediv sq T]]) (ediv (eint (-1)) g1) in
  let energy := eadd [ediv (emul [rho; T]) (emul [gama; g1]); emul [ENum (1 # 2); rho; sq]] in
  bind (map_result (fun i => bind (inc ord d (from * i) (ns_rho v)) (fun l => Ok (KEq l rho))) (0%Z :: upto n)) (fun rhos =>
  bind (map_result (fun i => map_result (fun c => bind (inc ord d (from * i) (snd c)) (fun l =>
          Ok (KEq l (emul [rho; u1var (fst c)])))) (enum (ns_mom v))) (0%Z :: upto n)) (fun moms =>
  bind (map_result (fun i => bind (inc ord d (from * i) (ns_rhoE v)) (fun l => Ok (KEq l energy))) (0%Z :: upto n)) (fun es =>
  Ok {| bk_ranges := fst k; bk_halos := snd k;
        bk_eqs := KEq (evar "local_rhoE") (ns_rhoE v) :: vels ++ rhos ++ List.concat moms ++ es |}))))).

(* ---- inlet_pressure_extrapolate.py 21-66 ---- *)
Definition etrue : expr := EApp (HFun "true") [].
Definition ege (a b : expr) : expr := EApp (HFun ">=") [a; b].
(* Piecewise((a, c), (b, True)) *)
Definition epiece (a c b : expr) : expr := EApp (HFun "Piecewise") [a; c; b; etrue].
Definition ubvar (c : nat) : expr := evar (digits_name "ub" c).
(* flatten(arrays)[-1] is the last array; grid_vels[direction] needs direction < ndim *)
Definition pressure_inlet_apply (ord : order_of) (np : list Z) (bh : halo_ranges) (d : nat) (side : bool)
           (arrays : list arr) (v : nsvars) : result bkernel :=
  if side then Err ValueError else
  bind (bc_plane_kernel np bh d side) (fun k =>
  match rev (flat_arrays arrays) with
  | [] => Err IndexErr
  | last :: _ =>
    let vels := map (fun c => KEq (ubvar (fst c)) (EApp (HFun "Abs") [ediv (snd c) (ns_rho v)])) (enum (ns_mom v)) in
    let sq := eadd (map (fun c => epow (ubvar c) 2) (seq 0 (List.length np))) in
    let locals := KEq (evar "rhob") (ns_rho v) :: vels ++
          [KEq (evar "pb") (emul [esub gama (eint 1); esub last (emul [ENum (1 # 2); evar "rhob"; sq])]);
           KEq (evar "ab") (epow (ediv (emul [gama; evar "pb"]) (evar "rhob")) (1 # 2))] in
    let fast := ege (ubvar d) (evar "ab") in
    bind (map_result (fun lhs => bind (inc ord d (-1) lhs) (fun a => bind (inc ord d 0 lhs) (fun b =>
            Ok (KEq lhs (epiece a fast b))))) (ns_rho v :: ns_mom v ++ [ns_rhoE v])) (fun face =>
    bind (map_result (fun i => bind (inc ord d (- i) (ns_rhoE v)) (fun l =>
            Ok (KEq l (epiece l fast (ns_rhoE v))))) (upto (n_halos bh 0 false))) (fun halo =>
    Ok {| bk_ranges := fst k; bk_halos := snd k; bk_eqs := locals ++ face ++ halo |}))
  end).

(* ---- inviscid_wall2D.py 28-133 ---- *)
(* GridVariable names: '%d' % (1 + tangent_index) for tangent_index = -1, 0, 1 *)
Definition thvar (j : nat) : expr := evar (digits_name "theta_" j).
Definition rvar (j : nat) : expr := evar (digits_name "rho_" j).
Definition u2name (c j : nat) : string := ("u_" ++ dec c ++ dec j)%string.
Definition u2var (c j : nat) : expr := evar (u2name c j).
Definition pvar (j : nat) : expr := evar (digits_name "p_" j).
Definition utvar (j : nat) : expr := evar (digits_name "ut_" j).
Definition efun (f : string) (l : list expr) : expr := EApp (HFun f) l.
Definition edist (a b c d : expr) : expr := epow (eadd [epow (esub a b) 2; epow (esub c d) 2]) (1 # 2).
Definition along2 (ord : order_of) (d : nat) (k : Z) (t : nat) (j : Z) (e : expr) : result expr :=
  bind (inc ord d k e) (inc ord t j).
Definition slip2d_apply (ord : order_of) (np : list Z) (bh : halo_ranges) (d : nat) (side : bool)
           (v : nsvars) (x0 x1 : expr) : result bkernel :=
  bind (bc_plane_kernel np bh d side) (fun k =>
  (* a block with a direction above 1 has three momenta, so the dot product below fails *)
  if (1 <? d)%nat then Err ValueError else
  let t := (1 - d)%nat in
  let '(from, to) := set_side_factor side in
  let n := n_halos bh d side in
  let cells := [0; 1; 2]%nat in                  (* 1 + tangent_index *)
  let off j := (Z.of_nat j - 1)%Z in             (* tangent_index *)
  (* 37-60: coordinates of the wall (moved by 0 here, not at all in the code) and of the
     first line inside *)
  bind (map_result (fun g => along2 ord d 0 t g x0) [-2; -1; 0; 1; 2]%Z) (fun xw =>
  bind (map_result (fun g => along2 ord d 0 t g x1) [-2; -1; 0; 1; 2]%Z) (fun yw =>
  bind (map_result (fun g => along2 ord d to t g x0) [-2; -1; 0; 1; 2]%Z) (fun x =>
  bind (map_result (fun g => along2 ord d to t g x1) [-2; -1; 0; 1; 2]%Z) (fun y =>
  bind (inc ord d to (ns_rho v)) (fun density_above =>
  bind (map_result (inc ord d to) (ns_mom v)) (fun momentum_above =>
  bind (inc ord d to (ns_rhoE v)) (fun energy_above =>
  bind (inc ord d to x1) (fun x1_above =>
  let nthe i (l : list expr) := nth i l (eint 0) in
  (* 62-84 *)
  let theta_calc := map (fun j => KEq (thvar j) (efun "atan2" [esub (nthe (j + 2) yw) (nthe j yw); esub (nthe (j + 2) xw) (nthe j xw)])) cells in
  bind (map_result (fun j => bind (along2 ord d to t (off j) (ns_rho v)) (fun r => Ok (KEq (rvar j) r))) cells) (fun density_calc =>
  bind (map_result (fun j => map_result (fun c => bind (along2 ord d to t (off j) (snd c)) (fun m =>
          Ok (KEq (u2var (fst c) j) (ediv m (rvar j))))) (enum (ns_mom v))) cells) (fun velocity_calc =>
  bind (map_result (fun j => bind (along2 ord d to t (off j) (pressure_cons v)) (fun p => Ok (KEq (pvar j) p))) cells) (fun pressure_calc =>
  (* 85-97; Matrix.dot raises ShapeError, a ValueError, unless there are two components *)
  if negb (List.length (ns_mom v) =? 2)%nat then Err ValueError else
  let tangent j := [efun "cos" [thvar j]; efun "sin" [thvar j]] in
  let tangent_velocity := map (fun j => KEq (utvar j) (eadd (map2 (fun a c => emul [a; u2var c j]) (tangent j) [0; 1]%nat))) cells in
  (* 98-109 *)
  let up := ege (thvar 1) (eint 0) in
  let grid_size := epiece (edist (nthe 2 y) (nthe 1 y) (nthe 2 x) (nthe 1 x)) up (edist (nthe 3 y) (nthe 2 y) (nthe 3 x) (nthe 2 x)) in
  let delta q := epiece (esub (q 1%nat) (q 0%nat)) up (esub (q 1%nat) (q 2%nat)) in
  let point := ediv (emul [esub x1_above x1; efun "sin" [thvar 1]]) grid_size in
  let density_wall := esub (rvar 1) (emul [point; delta rvar]) in
  let ut_wall := esub (utvar 1) (emul [point; delta utvar]) in
  let pressure_wall := esub (pvar 1) (emul [point; delta pvar]) in
  (* 110-131 *)
  let momentum_wall := map (fun a => emul [density_wall; emul [ut_wall; a]]) (tangent 1%nat) in
  let energy_wall := eadd [ediv pressure_wall (esub gama (eint 1)); emul [ENum (1 # 2); density_wall; epow ut_wall 2]] in
  let outside wall above i := if (i =? 0)%Z then wall else esub (emul [eint (i + 1); wall]) (emul [eint i; above]) in
  bind (map_result (fun i => bind (inc ord d (from * i) (ns_rho v)) (fun l =>
          Ok (KEq l (outside density_wall density_above i)))) (0%Z :: upto n)) (fun rhos =>
  bind (map_result (fun i => map_result (fun p => bind (inc ord d (from * i) (fst p)) (fun l =>
          Ok (KEq l (outside (fst (snd p)) (snd (snd p)) i)))) (combine (ns_mom v) (combine momentum_wall momentum_above))) (0%Z :: upto n)) (fun moms =>
  bind (map_result (fun i => bind (inc ord d (from * i) (ns_rhoE v)) (fun l =>
          Ok (KEq l (outside energy_wall energy_above i)))) (0%Z :: upto n)) (fun es =>
  Ok {| bk_ranges := fst k; bk_halos := snd k;
        bk_eqs := theta_calc ++ density_calc ++ List.concat velocity_calc ++ pressure_calc ++ tangent_velocity ++
                  rhos ++ List.concat moms ++ es |}))))))))))))))).

(* ---- SplitBC: bc_core.py 110-126 and 200-217, kernel.py 214-220 ---- *)
Record skernel := { sk_ranges : string; sk_halos : string; sk_eqs : kernel_eqs }.
Definition side_digit (side : bool) : nat := if side then 1 else 0.
(* the block is an argument of the method but not part of the names *)
Definition split_kernel (block : nat) (d : nat) (side : bool) (no : nat) (eqs : kernel_eqs) : skernel :=
  {| sk_ranges := ("split_range_" ++ dec d ++ dec (side_digit side) ++ dec no)%string;
     sk_halos := ("split_halo_range_" ++ dec d ++ dec (side_digit side) ++ dec no)%string;
     sk_eqs := eqs |}.
Definition split_apply (block : nat) (d : nat) (side : bool) (parts : list kernel_eqs) : list skernel :=
  map (fun p => split_kernel block d side (fst p) (snd p)) (enum parts).
(* the range the kernel runs over, for the run-time values of the named constants *)
Definition sk_total (env : string -> list Z) (k : skernel) : list Z :=
  map (fun p => fst p + snd p)%Z (combine (env (sk_ranges k)) (env (sk_halos k))).
