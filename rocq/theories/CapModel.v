(* Model of the assembly of the program of one block with a shock-capturing scheme, with or
   without a central scheme for the viscous terms, a Runge-Kutta scheme in time and periodic
   boundaries: shock_capturing.py 98-158, 300-317, 371, weno.py 18-35, 385-400, 502-534,
   teno.py 18-34, opensbliequations.py 269-352, kernel.py 105-125, block.py 162-182.  The
   parts are those of HybModel, ProgModel, OrdModel, KernelModel and BCModel.
   Not modelled: curvilinear metrics, adaptive TENO, the shock filter, relations that contain
   derivatives. *)
From Verif Require Import Base Expr DiscModel KernelModel LLFModel HybModel ProgModel.
From Verif Require AdvModel AlgModel OrdModel BCModel RKModel WenoModel.
From Coq Require Import ZArith Reals.
Local Open Scope list_scope.

(* ---- the scheme ---- *)
Inductive shock :=
| Weno (fm : WenoModel.formulation) (order : nat) (eps : R)
| Teno (order : nat) (eps CT : R).
(* weno.py 385-390: self.k = int(0.5*(order+1)) *)
Definition recon (sh : shock) : scheme :=
  match sh with
  | Weno fm order eps => weno_scheme fm ((order + 1) / 2) eps
  | Teno order eps CT => teno_scheme order eps CT
  end.
(* weno.py 24-29, teno.py 24-30: WenoHalos, TenoHalos without reconstruction *)
Definition reach (sh : shock) : nat :=
  match sh with Weno _ order _ => (order + 1) / 2 | Teno order _ _ => if Nat.eqb order 8 then 4 else 3 end.
Definition shock_halo (sh : shock) : halo := (- Z.of_nat (reach sh), Z.of_nat (reach sh) + 1)%Z.
(* scheme.py 18-30 *)
Definition central_halo (k : nat) : halo := (- Z.of_nat k, Z.of_nat k)%Z.
(* the spatial schemes of the block: shock capturing first *)
Definition spatial_schemes (central : bool) : list hscheme := if central then [Shock; CentralDiff] else [Shock].

(* ---- the kernels of the constituent relations ---- *)
(* array, right-hand side, range *)
Definition rkernel : Type := string * expr * list (Z * Z).

Section spatial.
  Variables (k : nat) (sh : shock) (central : bool) (sizes : list Z) (dirof : string -> nat) (inv : nat -> nat -> expr).
  Variable dord : expr -> list dset.
  Variable sord : list (expr * string) -> list (expr * string).
  Variable worder : list expr -> list expr.
  Variable num : string -> OrdModel.key.
  Variable kord : list string -> list string.   (* order of the keys of the dictionaries *)
  Notation ndim := (List.length sizes).

  (* shock_capturing.py 311-317: the symbols of the eigensystem, whose matrices contain the
     density, all velocity components and the speed of sound, and the arrays of the fluxes *)
  Definition flux_symbols (fluxes : list expr) : list string :=
    ["rho"; "a"]%string ++ firstn ndim ["u0"; "u1"; "u2"]%string ++ flat_map arrays_in fluxes.
  (* 98-117, 371: required_constituent_relations_symbols[b] *)
  Definition shock_directions (eqs : list (string * expr)) (b : string) : list nat :=
    flat_map (fun g => if in_dec string_dec b (flux_symbols (map wd_flux (snd g))) then [fst g] else [])
             (sorted_groups (shock_groups dirof worder eqs)).
  (* 119-145: its keys, with those that check_constituent_relations adds; the equations also
     contain the arrays that they advance *)
  Definition shock_required (advanced : list string) (eqs : list (string * expr)) : list string :=
    flat_map (fun g => flux_symbols (map wd_flux (snd g))) (sorted_groups (shock_groups dirof worder eqs)) ++
    advanced ++ flat_map (fun re => arrays_in (snd re)) eqs.

  (* kernel.py 110-117 for both sides of the directions ds *)
  Definition extend (h : halo) (ds : list nat) (hr : halo_ranges) : halo_ranges :=
    fold_left (fun hr d => set_halo_range (set_halo_range hr d false h) d true h) ds hr.
  Definition no_halos : halo_ranges := repeat ([], []) ndim.
  (* shock_capturing.py 124-130, scheme.py 159-172, opensbliequations.py 301-305: the halos of
     the kernel of array b, merged if both schemes ask for it *)
  Definition relation_halos (vcds : list expr) (eqs : list (string * expr)) (b : string) : halo_ranges :=
    let hs := extend (shock_halo sh) (shock_directions eqs b) no_halos in
    if central then merge_halo_range hs (extend (central_halo k) (cr_directions dirof vcds b) no_halos) else hs.

  (* the keys of both dictionaries *)
  Definition all_required (advanced : list string) (vcds : list expr) (eqs : list (string * expr)) : list string :=
    kord (nodup string_dec (shock_required advanced eqs ++ if central then required (fun l => l) [] vcds eqs else [])).
  (* opensbliequations.py 297-312 *)
  Definition relation_kernels (advanced : list string) (crs : list (string * expr)) (vcds : list expr) (eqs : list (string * expr))
    : list (OrdModel.crkernel rkernel) :=
    flat_map (fun b => match relation crs b with
                       | Some e => [{| OrdModel.ck_base := num b; OrdModel.ck_index := repeat 0%Z ndim;
                                       OrdModel.ck_requires := map num (nodup string_dec (arrays_in e));
                                       OrdModel.ck_kernel := (b, e, total_range (map (fun n => (0, n)%Z) sizes) (relation_halos vcds eqs b)) |}]
                       | None => []
                       end) (all_required advanced vcds eqs).
  (* 313-315 *)
  Definition not_relations (advanced : list string) (crs : list (string * expr)) (vcds : list expr) (eqs : list (string * expr)) : list string :=
    filter (fun b => match relation crs b with Some _ => false | None => true end) (all_required advanced vcds eqs).

  (* 335-352, 438-439 *)
  Definition capturing_kernels (advanced : list string) (crs : list (string * expr)) (known : list string) (vcds : list expr) (eqs : list (string * expr))
    : result (list rkernel * list hkernel) :=
    bind (hybrid_discretise k ndim dirof inv dord sord worder [] vcds (spatial_schemes central) eqs) (fun ks =>
    bind (OrdModel.sort_constituents rkernel OrdModel.max_passes
            (map num (nodup string_dec (not_relations advanced crs vcds eqs ++ advanced ++ known)))
            (relation_kernels advanced crs vcds eqs)) (fun cs =>
      Ok (cs, ks))).

  (* shock_capturing.py 148-158 and scheme.py 103-109: block.boundary_halotypes *)
  Definition capturing_halos : halo_ranges :=
    let hs := if central then [shock_halo sh; central_halo k] else [shock_halo sh] in repeat (hs, hs) ndim.
End spatial.

(* ---- the program ---- *)
Inductive ckernel :=
| Relation (r : rkernel)            (* constituent relations *)
| Field (kn : hkernel)              (* reconstructions, derivatives, residuals *)
| Step (pk : pkernel).              (* time stepping and exchange *)

(* block.py 162-182, as ProgModel.discretised_block *)
Definition capturing_block (k : nat) (sh : shock) (central : bool) (dirof : string -> nat) (inv : nat -> nat -> expr)
    (dord : expr -> list dset) (sord : list (expr * string) -> list (expr * string)) (worder : list expr -> list expr)
    (num : string -> OrdModel.key) (kord : list string -> list string)
    (sizes : list Z) (ts : timescheme) (sys : system) (crs : list (string * expr)) (known : list string)
    (vcds : list expr) (datasets : list string) (ios : list AlgModel.io)
  : result (AlgModel.block ckernel) :=
  bind (coefficients ts) (fun ab =>
  bind (capturing_kernels k sh central sizes dirof inv dord sord worder num kord (map fst sys) crs known vcds (disc_eqs sys)) (fun sp =>
  Ok {| AlgModel.bk_schemes :=
          [{| AlgModel.sc_class := match ts with LS _ _ => "RungeKuttaLS" | SBLI _ => "RungeKuttaSBLI" end%string;
              AlgModel.sc_stage := AlgModel.SNum (Z.of_nat (List.length (fst ab)));
              AlgModel.sc_iter := AlgModel.SNiter;
              AlgModel.sc_solution :=
                [AlgModel.EqConstituent;
                 AlgModel.EqSim
                   {| AlgModel.sq_start := match ts with LS _ _ => [] | SBLI _ => [Step (SaveOld (adv_eqs sys))] end;
                      AlgModel.sq_end := [];
                      AlgModel.sq_advance := match ts with LS _ _ => [Step (LowStorage (adv_eqs sys))] | SBLI _ => [Step (SbliUpdate (adv_eqs sys))] end;
                      AlgModel.sq_bc := map (fun ex => Step (Exchange ex)) (BCModel.periodic_all sizes (capturing_halos k sh central sizes) (map fst sys));
                      AlgModel.sq_spatial := map Relation (fst sp) ++ map Field (snd sp) |}] |}];
        AlgModel.bk_datasets := datasets; AlgModel.bk_io := ios |})).

(* ---- execution ---- *)
Section run.
  Variables (J : interp R) (k : nat) (sizes : list Z) (sch : scheme) (g : R) (av : averaging) (solution : list string) (dt : R) (ab : list R * list R).
  Fixpoint within (ranges : list (Z * Z)) (x : list Z) : bool :=
    match ranges, x with
    | [], [] => true
    | (lo, hi) :: ranges, i :: x => (lo <=? i)%Z && (i <? hi)%Z && within ranges x
    | _, _ => false
    end.
  (* a relation reads other arrays at the point where it is evaluated *)
  Definition exec_relation (M : memory) (r : rkernel) : memory :=
    let '(b, e, ranges) := r in
    fun a x => if String.eqb a b && within ranges x then eval J (fun c ix => M c (at_offset x ix)) e else M a x.
  Definition run_ckernel (M : memory) (x : ckernel) (stage : option Z) : memory :=
    match x with
    | Relation r => exec_relation M r
    | Field kn => exec_hkernel J k sizes sch g av solution M kn
    | Step pk => run_pkernel J k sizes dt ab M pk stage
    end.
  Definition run_cevent (M : memory) (ev : AlgModel.event ckernel) : memory :=
    match ev with AlgModel.EKernel x _ stage => run_ckernel M x stage | _ => M end.
  Definition run_capturing (tr : list (AlgModel.event ckernel)) (M : memory) : memory := fold_left run_cevent tr M.
End run.
