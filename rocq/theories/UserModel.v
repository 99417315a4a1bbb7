(* Model of utilities/user_defined_kernels.py (equations evaluated where the user
   places them) with the part of scheme.py for equations that are not simulation
   equations (111-136, 299-327), weno.py 523-546 and teno.py 489-530.  Not modelled:
   derivatives inside a GroupedPiecewise, blocks that do not store derivatives
   (block.store_derivatives = False), WENO and TENO derivatives in user-defined
   equations. *)
From Verif Require Import Base Expr KernelModel WorkModel DiscModel StoreModel BCModel.
From Coq Require Import ZArith Reals.
Local Open Scope list_scope.

(* the spatial schemes of a block (block.discretisation_schemes) *)
Inductive spatial := SCentral | SWeno | STeno.
(* ranges of the kernels: the grid, extended by the halos of the central scheme in some
   directions, or given explicitly per direction *)
Inductive urange := Extended (dirs : list nat) | Explicit (r : list (Z * Z)).
Record ukernel := { u_eqs : kernel_eqs; u_range : urange }.

(* user_defined_kernels.py 79-82 with kernel.py 110-117: cls.halos holds a set of halo
   types for each side of each direction; None and [] are both false *)
Definition add_halos (hr : halo_ranges) (d : nat) (side : bool) (types : list halo) : halo_ranges :=
  fold_left (fun hr s => set_halo_range hr d side s) types hr.
Fixpoint request_halos (hr : halo_ranges) (halos : halo_ranges) (dirs : list nat) : result halo_ranges :=
  match dirs with
  | [] => Ok hr
  | d :: dirs =>
      match nth_error halos d with
      | None => Err IndexErr
      | Some (lo, hi) => request_halos (add_halos (add_halos hr d false lo) d true hi) halos dirs
      end
  end.
Definition requested_range (sizes : list Z) (halos : halo_ranges) : result (list (Z * Z)) :=
  let n := List.length sizes in
  bind (match halos with
        | [] => Ok (repeat ([], []) n)
        | _ => request_halos (repeat ([], []) n) halos (seq 0 n)
        end) (fun hr => Ok (total_range (map (fun s => (0, s)%Z) sizes) hr)).

Section scheme.
  Variable k : nat.                    (* the scheme has order 2k *)
  Variable ndim : nat.
  Variable dirof : string -> nat.
  Variable inv : nat -> nat -> expr.
  Variable dord : expr -> list dset.
  Variable sord : list (expr * string) -> list (expr * string).
  (* order in which Python iterates the set of derivatives of an equation *)
  Variable eorder : list expr -> list expr.

  (* scheme.py 138-143: the set of derivatives of one equation *)
  Definition eq_derivatives (q : keq) : list expr :=
    match q with
    | KEq l r => eorder (nodup expr_eq_dec (cds_post l ++ cds_post r))
    | KGroup _ => []
    end.
  (* scheme.py 299-327 and 119-133 for one equation: a kernel per derivative, in the order
     of the set, then the kernel of the equation.  The work arrays start again for every
     equation (store_work_index, reset_work_to_stored). *)
  Definition central_equation (q : keq) : result (list ukernel) :=
    match eq_derivatives q, q with
    | [], _ => Ok []
    | cds, KEq l r =>
        let works := assign_works 0 cds in
        let keys := map (fun v => (traverse ndim works v, lookup v works)) cds in
        bind (mapM (fun v => bind (discretise k dirof inv dord (traverse ndim works v)) (fun e =>
                Ok {| u_eqs := [KEq (here ndim (lookup v works)) e]; u_range := Extended (extended dirof cds v) |})) cds) (fun ks =>
          Ok (ks ++ [{| u_eqs := [KEq (subs ndim (sord keys) l) (subs ndim (sord keys) r)]; u_range := Extended [] |}]))
    | _, KGroup _ => Ok []
    end.
  (* weno.py 523-546: without a WENO derivative nothing is grouped and the variable
     returned at the end was never assigned; teno.py 497: nothing for other equations *)
  Definition scheme_equation (s : spatial) (q : keq) : result (list ukernel) :=
    match s with SCentral => central_equation q | SWeno => Err UnboundLocal | STeno => Ok [] end.

  (* user_defined_kernels.py 42-92 *)
  Definition user_defined (schemes : list spatial) (sizes : list Z) (halos : halo_ranges) (qs : kernel_eqs) : result (list ukernel) :=
    bind (mapM (fun q => bind (mapM (fun s => scheme_equation s q) schemes) (fun l => Ok (List.concat l))) qs) (fun kss =>
      match List.concat kss with
      | [] => bind (requested_range sizes halos) (fun r => Ok [{| u_eqs := qs; u_range := Explicit r |}])
      | ks => Ok ks
      end).
End scheme.

(* Execution of the generated loops: the points of the range of the n-th kernel, in the
   order chosen by the run-time system. *)
Section run.
  Variable J : interp R.
  Variable order : nat -> urange -> list (list Z).
  Fixpoint run_user (n : nat) (ks : list ukernel) (M : memory) : memory :=
    match ks with
    | [] => M
    | kn :: ks => run_user (S n) ks (run_kernel J (u_eqs kn) (order n (u_range kn)) M)
    end.
End run.
Definition in_urange (k : nat) (sizes : list Z) (r : urange) (x : list Z) : bool :=
  match r with Extended dirs => in_range k sizes dirs x | Explicit r => in_ranges r x end.
