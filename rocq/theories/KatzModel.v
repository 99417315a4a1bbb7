(* Model of the boundary-layer initial conditions, utilities/katzer_init.py (class
   Initialise_Katzer: the equations; the numbers in them come from KatzNumModel) and
   utilities/simple_katzer_init.py.  Simplifications: floats are rational numbers; data
   objects are written as the data sets of the block they are converted to
   (dataobjects_to_datasets_on_block, katzer_init.py 241), without the block number in
   their names; SymPy's simplification of sums and products is left out. *)
From Verif Require Import Base Expr KernelModel BCModel BC2Model.
From Verif Require InitModel.
From Coq Require Import QArith ZArith.
Local Close Scope Q_scope.
Local Open Scope list_scope.

Definition elt (a b : expr) : expr := EApp (HFun "<") [a; b].
Definition ele (a b : expr) : expr := EApp (HFun "<=") [a; b].
Definition edat (n : nat) (b : string) : expr := EDat b (repeat 0%Z n).

(* katzer_init.py 337: the exponents, highest first *)
Definition powers {A} (cs : list A) : list nat := rev (seq 0 (List.length cs)).
(* 338: sum([coeff*coord**power for (coeff, power) in zip(coefficients, powers)]) *)
Definition polynomial (coord : expr) (cs : list Q) (ps : list nat) : expr :=
  eadd (map2 (fun c p => emul [ENum c; epow coord (Z.of_nat p # 1)]) cs ps).
(* 336-340; simple_katzer_init.py 83-86 *)
Definition form_equation (name : string) (coord : expr) (cs : list Q) (edge free : Q) : keq :=
  KEq (evar name) (epiece (polynomial coord cs (powers cs)) (elt coord (ENum edge)) (ENum free)).
(* 411-413, 449-451: gama, Minf and the total energy *)
Definition total_energy (moms : list string) : expr :=
  let rho := evar "rho" in
  let gama := econst "gama" in
  eadd [ediv (emul [rho; evar "T"]) (emul [gama; esub gama (eint 1); epow (econst "Minf") 2]);
        ediv (emul [ENum (1 # 2); eadd (map (fun m => epow (evar m) 2) moms)]) rho].
Definition store_eq (n : nat) (name : string) : keq := KEq (edat n name) (evar name).
(* coefficients, value of the coordinate at the edge and value there *)
Record fit := { fit_coeffs : list Q; fit_edge : Q; fit_free : Q }.
Definition fit_equation (name : string) (coord : expr) (f : fit) : keq :=
  form_equation name coord (fit_coeffs f) (fit_edge f) (fit_free f).
(* katzer_init.py 402-417, simple_katzer_init.py 95-110: one wall, in an n-dimensional block *)
Definition one_wall_equations (n : nat) (coord : expr) (frhou frhov fT : fit) : kernel_eqs :=
  [fit_equation "rhou0" coord frhou; fit_equation "rhou1" coord frhov; fit_equation "T" coord fT;
   KEq (evar "rho") (ediv (eint 1) (evar "T"));
   store_eq n "rho"; store_eq n "rhou0"; store_eq n "rhou1";
   KEq (edat n "rhoE") (total_energy ["rhou0"; "rhou1"]%string)]
  ++ (if (n =? 3)%nat then [KEq (edat n "rhou2") (eint 0)] else []).

(* the numbers for one of two walls: 298-307 and 354-392 *)
Record wall := { w_rhou : list Q; w_g : list Q; w_normal : list Q; w_edge : Q; w_normal_free : Q }.
(* 433: block.deltas[2]*(block.shape[2] - 1), for block number b (grid.py 128-131, 156) *)
Definition domain_length (b : nat) : expr :=
  emul [econst ("Delta2block" ++ dec b)%string; esub (econst ("block" ++ dec b ++ "np2")%string) (eint 1)].
Definition half (e : expr) : expr := ediv e (eint 2).
(* 435-438 *)
Definition local_coordinate_eq (b : nat) (z : expr) : keq :=
  KEq (evar "local_coord") (epiece z (ele z (half (domain_length b))) (esub (domain_length b) z)).
Definition side_factor_eq (b : nat) (z : expr) : keq :=
  KEq (evar "side_fact") (epiece (eint 1) (ele z (half (domain_length b))) (eint (-1))).
(* 355-393: coord1 is the coordinate of the first direction, bl_coord1 and bl_coord2 the
   edges; one list of powers is used throughout *)
Definition mixed_equations (b : nat) (coord1 : expr) (w1 w2 : wall) : kernel_eqs :=
  let ps := powers (w_rhou w1) in
  let loc := evar "local_coord" in
  let e1 := ENum (w_edge w1) in
  let e2 := ENum (w_edge w2) in
  let one := eint 1 in
  let tw := econst "Twall" in
  [KEq (evar "rhou0_1") (epiece (polynomial coord1 (w_rhou w1) ps) (elt coord1 e1) one);
   KEq (evar "rhou0_2") (epiece (polynomial loc (w_rhou w2) ps) (elt loc e2) one);
   KEq (evar "rhou0") (emul [evar "rhou0_1"; evar "rhou0_2"]);
   KEq (evar "T_1") (epiece (polynomial coord1 (w_g w1) ps) (elt coord1 e1) one);
   KEq (evar "T_2") (epiece (polynomial loc (w_g w2) ps) (elt loc e2) one);
   KEq (evar "T") (eadd [emul [evar "T_1"; evar "T_2"; esub one tw]; tw]);
   KEq (evar "rhou1") (epiece (emul [polynomial coord1 (w_normal w1) ps; evar "rhou0_2"]) (elt coord1 e1)
                              (emul [ENum (w_normal_free w1); evar "rhou0_2"]));
   KEq (evar "rhou2") (emul [evar "side_fact";
     epiece (emul [polynomial loc (w_normal w2) ps; evar "rhou0_1"]) (elt loc e2)
       (emul [ENum (w_normal_free w2);
              esub one (ediv (esub loc e2) (esub (emul [ENum (1 # 2); domain_length b]) e2)); evar "rhou0_1"])])].
(* 428-453 *)
Definition two_wall_equations (n b : nat) (coord1 z : expr) (w1 w2 : wall) : kernel_eqs :=
  [local_coordinate_eq b z; side_factor_eq b z] ++ mixed_equations b coord1 w1 w2 ++
  [KEq (evar "rho") (ediv (eint 1) (evar "T"));
   store_eq n "rho"; store_eq n "rhou0"; store_eq n "rhou1"; store_eq n "rhou2";
   KEq (edat n "rhoE") (total_energy ["rhou0"; "rhou1"; "rhou2"]%string)].

(* ---- the class ---- *)
(* 193-204: the pairs (whether the direction has a boundary layer, its coordinate), the
   number of coefficients (None for the simple variant, which has no such argument) and
   the equations for the coordinates *)
Record katzer := { kz_directions : list (bool * expr); kz_ncoeffs : option Z; kz_coordinates : option kernel_eqs }.
(* [i for i, x in enumerate(bl_directions) if x[0]] *)
Definition wall_directions (k : katzer) : list nat :=
  map fst (filter (fun p => fst (snd p)) (combine (seq 0 (List.length (kz_directions k))) (kz_directions k))).
(* 218-226; simple_katzer_init.py 27-33 *)
Definition check_inputs (n : nat) (k : katzer) : result unit :=
  if (List.length (wall_directions k) <? 1)%nat then Err ValueError
  else if negb (List.length (kz_directions k) =? n)%nat then Err ValueError
  else match kz_ncoeffs k with Some c => if (c <? 10)%Z then Err ValueError else Ok tt | None => Ok tt end.
Definition coordinate (k : katzer) (d : nat) : result expr :=
  match nth_error (map snd (kz_directions k)) d with Some e => Ok e | None => Err IndexErr end.
(* 256-311: [fits] are the three fits of one wall, [walls] the numbers for two walls *)
Definition katzer_equations (n b : nat) (k : katzer) (fits : fit * fit * fit) (walls : wall * wall) : result kernel_eqs :=
  match wall_directions k with
  | [d] => bind (coordinate k d) (fun c => let '(f0, f1, f2) := fits in Ok (one_wall_equations n c f0 f1 f2))
  | [d1; d2] => bind (coordinate k 2) (fun z => bind (coordinate k d1) (fun c => Ok (two_wall_equations n b c z (fst walls) (snd walls))))
  | _ => Err NotImplemented
  end.
(* simple_katzer_init.py 112-118: load_similarity, highest power first *)
Definition micro (z : Z) : Q := z # 1000000.
Definition simple_rhou : list Q :=
  rev (map micro [-661; 456679; -378541; 1829143; -4060705; 5261448; -4002925; 1796903; -469165; 66022; -3878]%Z).
Definition simple_rhov : list Q :=
  rev (map micro [-19; 759; -6145; 29622; -61263; 72858; -51201; 21523; -5326; 717; -41]%Z).
Definition simple_T : list Q :=
  rev (map micro [1675785; 11027; -346234; 31632; 310312; -838071; 945210; -530435; 158965; -24521; 1537]%Z).
(* 65, 96-98: the edge and the free-stream values *)
Definition simple_edge : Q := 2316 # 1000.
Definition simple_fits : fit * fit * fit :=
  ({| fit_coeffs := simple_rhou; fit_edge := simple_edge; fit_free := 1 # 1 |},
   {| fit_coeffs := simple_rhov; fit_edge := simple_edge; fit_free := 5650016 # 1000000000 |},
   {| fit_coeffs := simple_T; fit_edge := simple_edge; fit_free := 1 # 1 |}).
(* 60-72 *)
Definition simple_equations (n : nat) (k : katzer) : result kernel_eqs :=
  match wall_directions k with
  | [d] => bind (coordinate k d) (fun c => let '(f0, f1, f2) := simple_fits in Ok (one_wall_equations n c f0 f1 f2))
  | _ => Err NotImplemented
  end.

(* katzer_init.py 228-254, simple_katzer_init.py 35-58: the kernel, over the grid and the
   halos of the schemes of type "Spatial" ([halos] lists their halo types) on both sides of
   every direction *)
Definition with_coordinates (k : katzer) (eqs : kernel_eqs) : kernel_eqs :=
  match kz_coordinates k with Some cs => cs ++ eqs | None => eqs end.
Definition scheme_halos (n : nat) (halos : list halo) : halo_ranges :=
  fold_left (fun hr d => fold_left (fun hr h => set_halo_range (set_halo_range hr d false h) d true h) halos hr)
            (seq 0 n) (repeat ([], []) n).
Definition katzer_kernel_of (sizes : list Z) (halos : list halo) (k : katzer) (eqs : result kernel_eqs) : result InitModel.ikernel :=
  let n := List.length sizes in
  bind (check_inputs n k) (fun _ => bind eqs (fun eqs =>
    Ok {| InitModel.ik_eqs := with_coordinates k eqs;
          InitModel.ik_range := total_range (block_ranges sizes) (scheme_halos n halos) |})).
Definition katzer_kernel (sizes : list Z) (b : nat) (halos : list halo) (k : katzer)
    (fits : fit * fit * fit) (walls : wall * wall) : result InitModel.ikernel :=
  katzer_kernel_of sizes halos k (katzer_equations (List.length sizes) b k fits walls).
Definition simple_kernel (sizes : list Z) (halos : list halo) (k : katzer) : result InitModel.ikernel :=
  katzer_kernel_of sizes halos k (simple_equations (List.length sizes) k).
