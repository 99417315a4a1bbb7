(* Specification of the executed program (C17-C19, C56, C59). *)
From Coq Require Import Permutation Sorted.
From Verif Require Import Base AlgModel.
Local Open Scope list_scope.

(* The integers 0, ..., n-1. *)
Definition upto (n : Z) : list Z := map Z.of_nat (seq 0 (Z.to_nat n)).

(* Step number it + 1 is a multiple of f. *)
Definition multiple (f it : Z) : bool := ((it + 1) mod f =? 0)%Z.

(* The value of a keyword option, keys compared without case, value in lower case. *)
Definition option_value (key : string) (kwargs : list (string * string)) : option string :=
  match find (fun p => String.eqb (lower (fst p)) key) kwargs with
  | Some p => Some (lower (snd p))
  | None => None
  end.

(* A request for file input or output as the user writes it:
   iohdf5(arrays, save_every, **kwargs). *)
Record request := {
  rq_arrays : list string;
  rq_every : Z;                          (* 0: not given *)
  rq_kwargs : list (string * string);
}.
(* No option is given twice. *)
Definition distinct_options (r : request) : Prop :=
  NoDup (map (fun p => lower (fst p)) (rq_kwargs r)).
Definition is_write (r : request) : bool :=
  match rq_kwargs r with
  | [] => true
  | kw => match option_value "iotype" kw with Some t => String.eqb t "write" | None => false end
  end.
Definition final_file (r : request) : string :=
  match option_value "name" (rq_kwargs r) with
  | None => "opensbli_output.h5"
  | Some n => if substring_in ".h5" n then n else (n ++ ".h5")%string
  end.
Definition numbered_file (it : Z) : string :=
  ("opensbli_output_" ++ decpad 6 (Z.to_nat (it + 1)) ++ ".h5")%string.

Section spec.
  Variable K : Type.
  Notation event := (event K).

  (* Files written in step it, and after the last step. *)
  Definition written_in (it : Z) (r : request) : list event :=
    if is_write r && negb (rq_every r =? 0)%Z && multiple (rq_every r) it
    then [EWrite (numbered_file it) (rq_arrays r)] else [].
  Definition written_at_end (r : request) : list event :=
    if is_write r then [EWrite (final_file r) (rq_arrays r)] else [].

  Definition monitored (mon : option Z) (it : Z) : list event :=
    match mon with
    | Some f => if (it =? 0)%Z || multiple f it then [EMonitor it] else []
    | None => []
    end.

  Definition at_ (it st : option Z) (ks : list K) : list event :=
    map (fun k => EKernel k it st) ks.

  (* The work of a program, phase by phase. *)
  Record phases := {
    p_before : list K;     (* before the time loop *)
    p_bc : list K;         (* boundary conditions *)
    p_start : list K;      (* start of a time step *)
    p_spatial : list K;    (* constituent relations and residuals *)
    p_advance : list K;    (* stage update *)
    p_in : list K;         (* after the stages of each step *)
    p_end : list K;        (* end of a time step *)
    p_after : list K;      (* after the time loop *)
  }.

  Definition step (p : phases) (nst : Z) (mon : option Z) (rqs : list request) (it : Z)
    : list event :=
    at_ (Some it) None (p_bc p ++ p_start p)
    ++ flat_map (fun st => at_ (Some it) (Some st) (p_spatial p ++ p_advance p ++ p_bc p)) (upto nst)
    ++ at_ (Some it) None (p_in p)
    ++ monitored mon it
    ++ flat_map (written_in it) rqs
    ++ at_ (Some it) None (p_end p).

  Definition program_trace (p : phases) (nst niter : Z) (mon : option Z) (rqs : list request)
    : list event :=
    at_ None None (p_before p)
    ++ flat_map (step p nst mon rqs) (upto niter)
    ++ at_ None None (p_after p)
    ++ flat_map written_at_end rqs.

  (* The classes evaluated outside the stages: user equations and metrics. *)
  Definition nonsims (es : list (eqclass K)) : list (nonsim K) :=
    flat_map (fun e => match e with
                       | EqNonSim n => [n]
                       | EqMetric m => [{| ns_order := mt_order m; ns_places := mt_places m;
                                           ns_kernels := mt_fd m ++ mt_sd m |}]
                       | _ => []
                       end) es.
  Definition only_nonsims (es : list (eqclass K)) : list (nonsim K) :=
    flat_map (fun e => match e with EqNonSim n => [n] | _ => [] end) es.
  Definition metrics (es : list (eqclass K)) : list (metric K) :=
    flat_map (fun e => match e with EqMetric m => [m] | _ => [] end) es.
  Definition sims (es : list (eqclass K)) : list (simeq K) :=
    flat_map (fun e => match e with EqSim s => [s] | _ => [] end) es.

  Definition same_place (p q : place) : bool :=
    match p, q with
    | PBefore, PBefore | PAfter, PAfter => true
    | PIn f, PIn g => (f =? g)%Z
    | _, _ => false
    end.
  (* The kernels of the classes l placed at p, class by class. *)
  Definition kernels_at (p : place) (l : list (nonsim K)) : list K :=
    flat_map (fun n => flat_map (fun q => if same_place p q then ns_kernels n else [])
                                (ns_places n)) l.

  (* l' is l sorted by the attribute order, equal orders kept in sequence. *)
  Definition sorted_by_order (l l' : list (nonsim K)) : Prop :=
    Permutation l l' /\
    StronglySorted (fun x y => (ns_order x <= ns_order y)%Z) l' /\
    forall o, filter (fun x => (ns_order x =? o)%Z) l' = filter (fun x => (ns_order x =? o)%Z) l.
End spec.
Arguments written_in {K} it r. Arguments written_at_end {K} r. Arguments monitored {K} mon it.
Arguments at_ {K} it st ks. Arguments program_trace {K} p nst niter mon rqs. Arguments step {K} p nst mon rqs it.
Arguments nonsims {K} es. Arguments only_nonsims {K} es. Arguments metrics {K} es. Arguments sims {K} es.
Arguments kernels_at {K} p l. Arguments sorted_by_order {K} l l'.
Arguments p_before {K} p. Arguments p_bc {K} p. Arguments p_start {K} p. Arguments p_spatial {K} p.
Arguments p_advance {K} p. Arguments p_in {K} p. Arguments p_end {K} p. Arguments p_after {K} p.
Arguments Build_phases {K}.

(* The files written by an execution, in order. *)
Definition files {K} (tr : list (event K)) : list (string * list string) :=
  flat_map (fun e => match e with EWrite f a => [(f, a)] | _ => [] end) tr.

(* A request that can be served on a block with the given arrays. *)
Definition valid_request (known : list string) (r : request) : Prop :=
  (forall a, In a (rq_arrays r) -> In a known) /\
  (is_write r = true ->
     rq_arrays r <> [] /\
     match option_value "name" (rq_kwargs r) with
     | None => True
     | Some n => rq_every r = 0%Z /\ (substring_in "." n = true -> substring_in ".h5" n = true)
     end).

(* A write request without a file name of its own. *)
Definition unnamed_write (r : request) : bool :=
  is_write r && match option_value "name" (rq_kwargs r) with None => true | Some _ => false end.
