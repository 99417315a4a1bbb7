(* Model of the construction of the program: algorithm.py, multiblock/algorithm.py,
   io_hdf5.py.  K is the type of kernels; kernels are not inspected here. *)
From Verif Require Import Base.

(* ---- algorithm/common.py 5-35: places in the program ---- *)
(* InTheSimulation(frequency): frequency False is 0. *)
Inductive place := PBefore | PAfter | PIn (freq : Z).

(* ---- io_hdf5.py ---- *)

(* str.lower() on bytes *)
Definition lower1 (c : ascii) : ascii :=
  let n := nat_of_ascii c in
  if ((65 <=? n) && (n <=? 90))%nat then ascii_of_nat (n + 32) else c.
Fixpoint lower (s : string) : string :=
  match s with EmptyString => EmptyString | String c s => String (lower1 c) (lower s) end.

(* A dictionary filled in the order of the list: the last entry wins. *)
Fixpoint lookup (k : string) (d : list (string * string)) : option string :=
  match d with
  | [] => None
  | (k', v) :: d =>
      match lookup k d with
      | Some w => Some w
      | None => if string_dec k k' then Some v else None
      end
  end.

Record io := {
  io_kw : list (string * string);     (* lower-cased keys and values *)
  io_places : list place;
  io_arrays : list string;
  io_block : nat;                     (* block_number: 0, or set by get_io_mb *)
}.

(* 42-51: get_algorithm_location *)
Definition get_algorithm_location (save_every : Z) (kw : list (string * string))
  : result (list place) :=
  let first := if (save_every =? 0)%Z then [] else [PIn save_every] in     (* 43-44 *)
  match lookup "iotype" kw with
  | None => Err KeyErr                                                    (* 45 *)
  | Some t =>
      if string_dec t "write" then Ok (first ++ [PAfter])                 (* 45-46 *)
      else if string_dec t "read" then Ok [PBefore]                       (* 47-48 *)
      else Err ValueError                                                 (* 49-50 *)
  end.

(* 21-40: iohdf5(arrays, save_every, **kwargs); save_every None is 0 *)
Definition iohdf5 (arrays : list string) (save_every : Z) (kwargs : list (string * string))
  : result io :=
  let kw := match kwargs with
            | [] => [("iotype", "write")]%string                          (* 33 *)
            | _ => map (fun p => (lower (fst p), lower (snd p))) kwargs   (* 29-30 *)
            end in
  bind (get_algorithm_location save_every kw) (fun ps =>
  Ok {| io_kw := kw; io_places := ps; io_arrays := arrays; io_block := 0 |}).

(* 57-64: check_datasets *)
Definition check_datasets (known : list string) (i : io) : bool :=
  forallb (fun a => if in_dec string_dec a known then true else false) (io_arrays i).

(* The file written by one output statement.  FDyn is
   sprintf(name, "opensbli_output_%06d.h5", iter + 1). *)
Inductive fexpr := FStatic (s : string) | FDyn.

Record out := {
  o_var : option string;        (* the C buffer "char <var>[80];" declared here *)
  o_file : fexpr;
  o_arrays : list string;
}.

(* Is `pat` a substring of `s`? ('.h5' in name, '.' in name) *)
Fixpoint substring_in (pat s : string) : bool :=
  prefix pat s || match s with EmptyString => false | String _ s' => substring_in pat s' end.

(* 94-124: hdf5write_opsc_code; reading generates nothing (126-128). *)
Definition io_code (dynamic_fname : bool) (i : io) : result (list out) :=
  match lookup "iotype" (io_kw i) with
  | None => Err KeyErr
  | Some t =>
      if string_dec t "read" then Ok []
      else if string_dec t "write" then
        bind (match lookup "name" (io_kw i) with
              | Some n =>
                  bind (if substring_in ".h5" n then Ok n
                        else if substring_in "." n then Err ValueError
                        else Ok (n ++ ".h5")%string)
                       (fun n => if dynamic_fname then Err ValueError         (* 105-106 *)
                                 else Ok (None, FStatic n))
              | None =>
                  let var := ("name" ++ dec (io_block i))%string in
                  Ok (Some var, if dynamic_fname then FDyn
                                else FStatic "opensbli_output.h5")
              end)
             (fun '(v, f) =>
                match io_arrays i with
                | [] => Err UnboundLocal                                      (* 122 *)
                | _ => Ok [{| o_var := v; o_file := f; o_arrays := io_arrays i |}]
                end)
      else Err ValueError
  end.

(* ---- algorithm.py: components of the program ---- *)

(* SymPy Idx(label, size): lower bound 0, upper bound size - 1. *)
Inductive loopvar := VIter | VStage.
Inductive size := SNiter | SNum (n : Z).
Definition upper (niter : Z) (s : size) : Z :=
  match s with SNiter => niter - 1 | SNum n => n - 1 end.

Inductive cond :=
| CEvery (freq : Z)          (* (iter + 1) % freq == 0 *)
| CFirst                     (* iter == 0 *)
| COr (a b : cond).

Section algorithm.
  Variable K : Type.

  Inductive stmt :=
  | SKernel (k : K)
  | SWrite (o : out)
  | SMonitor
  | SFor (v : loopvar) (n : size) (b : list stmt)   (* for(int v=0; v<=n-1; v++) *)
  | SIf (c : cond) (b : list stmt)
  | STimed (b : list stmt).

  (* One SimulationEquations class together with the temporal solution made for
     it: scheme.solution[key].{start_kernels, end_kernels, kernels} and
     key.boundary_kernels, key.all_spatial_kernels(b). *)
  Record simeq := {
    sq_start : list K; sq_end : list K; sq_advance : list K;
    sq_bc : list K; sq_spatial : list K;
  }.
  Record nonsim := { ns_order : Z; ns_places : list place; ns_kernels : list K }.
  (* metric.py 20-26, 261-268: Kernels = fd_kernels + sd_kernels *)
  Record metric := { mt_order : Z; mt_places : list place; mt_fd : list K; mt_sd : list K }.

  Inductive eqclass :=
  | EqSim (s : simeq)
  | EqMetric (m : metric)
  | EqNonSim (n : nonsim)
  | EqConstituent
  | EqOther.

  (* scheme.solution is a dictionary: the list gives its iteration order. *)
  Record scheme := {
    sc_class : string; sc_stage : size; sc_iter : size; sc_solution : list eqclass;
  }.
  Record block := { bk_schemes : list scheme; bk_datasets : list string; bk_io : list io }.

  (* sorted(l, key=order) is stable. *)
  Fixpoint insert_ns (x : nonsim) (l : list nonsim) : list nonsim :=
    match l with
    | [] => [x]
    | y :: l' => if (ns_order x <=? ns_order y)%Z then x :: l else y :: insert_ns x l'
    end.
  Definition sort_ns (l : list nonsim) : list nonsim := fold_right insert_ns [] l.

  (* algorithm.py 400-415: the accumulators filled while going over the
     dictionary.  bc_kernels and spatial_kernels are assigned, not extended. *)
  Record acc := {
    a_start : list K; a_end : list K; a_adv : list K;
    a_bc : list K; a_spatial : list K; a_ns : list nonsim; a_metrics : list metric;
  }.
  Definition acc0 := {| a_start := []; a_end := []; a_adv := [];
                        a_bc := []; a_spatial := []; a_ns := []; a_metrics := [] |}.

  Definition metric_as_nonsim (m : metric) : nonsim :=
    {| ns_order := mt_order m; ns_places := mt_places m; ns_kernels := mt_fd m ++ mt_sd m |}.

  Definition gather1 (a : acc) (e : eqclass) : result acc :=
    match e with
    | EqSim s =>
        Ok {| a_start := a_start a ++ sq_start s; a_end := a_end a ++ sq_end s;
              a_adv := a_adv a ++ sq_advance s;
              a_bc := sq_bc s; a_spatial := sq_spatial s;                   (* 407-408 *)
              a_ns := a_ns a; a_metrics := a_metrics a |}
    | EqMetric m =>
        Ok {| a_start := a_start a; a_end := a_end a; a_adv := a_adv a; a_bc := a_bc a;
              a_spatial := a_spatial a; a_ns := a_ns a ++ [metric_as_nonsim m];
              a_metrics := a_metrics a |}
    | EqNonSim n =>
        Ok {| a_start := a_start a; a_end := a_end a; a_adv := a_adv a; a_bc := a_bc a;
              a_spatial := a_spatial a; a_ns := a_ns a ++ [n]; a_metrics := a_metrics a |}
    | EqConstituent => Ok a
    | EqOther => Err ValueError
    end.

  (* multiblock/algorithm.py 471-491: all accumulators are extended, metrics apart *)
  Definition gather1_mb (a : acc) (e : eqclass) : result acc :=
    match e with
    | EqSim s =>
        Ok {| a_start := a_start a ++ sq_start s; a_end := a_end a ++ sq_end s;
              a_adv := a_adv a ++ sq_advance s;
              a_bc := a_bc a ++ sq_bc s; a_spatial := a_spatial a ++ sq_spatial s;
              a_ns := a_ns a; a_metrics := a_metrics a |}
    | EqMetric m =>
        Ok {| a_start := a_start a; a_end := a_end a; a_adv := a_adv a; a_bc := a_bc a;
              a_spatial := a_spatial a; a_ns := a_ns a; a_metrics := a_metrics a ++ [m] |}
    | EqNonSim n =>
        Ok {| a_start := a_start a; a_end := a_end a; a_adv := a_adv a; a_bc := a_bc a;
              a_spatial := a_spatial a; a_ns := a_ns a ++ [n]; a_metrics := a_metrics a |}
    | EqConstituent => Ok a
    | EqOther => Err ValueError
    end.

  Fixpoint gather (g : acc -> eqclass -> result acc) (a : acc) (es : list eqclass) : result acc :=
    match es with
    | [] => Ok a
    | e :: es => bind (g a e) (fun a => gather g a es)
    end.

  (* The three lists before_time, in_time, after_time. *)
  Record times := { t_before : list stmt; t_in : list stmt; t_after : list stmt }.
  Definition kernels (ks : list K) : list stmt := map SKernel ks.
  Definition add_before (t : times) (c : list stmt) :=
    {| t_before := t_before t ++ c; t_in := t_in t; t_after := t_after t |}.
  Definition add_in (t : times) (c : list stmt) :=
    {| t_before := t_before t; t_in := t_in t ++ c; t_after := t_after t |}.
  Definition add_after (t : times) (c : list stmt) :=
    {| t_before := t_before t; t_in := t_in t; t_after := t_after t ++ c |}.

  (* algorithm.py 416-426, multiblock/algorithm.py 493-503 *)
  Fixpoint place_ns (ks : list K) (ps : list place) (t : times) : result times :=
    match ps with
    | [] => Ok t
    | PBefore :: ps => place_ns ks ps (add_before t (kernels ks))
    | PAfter :: ps => place_ns ks ps (add_after t (kernels ks))
    | PIn f :: ps =>
        if (f =? 0)%Z then place_ns ks ps (add_in t (kernels ks)) else Err NotImplemented
    end.
  Fixpoint place_all_ns (l : list nonsim) (t : times) : result times :=
    match l with
    | [] => Ok t
    | n :: l => bind (place_ns (ns_kernels n) (ns_places n) t) (place_all_ns l)
    end.

  (* algorithm.py 442-463 and get_io_mb: one output object *)
  Fixpoint place_io (i : io) (ps : list place) (t : times) : result times :=
    match ps with
    | [] => Ok t
    | p :: ps =>
        bind (match p with
              | PBefore => bind (io_code false i) (fun os => Ok (add_before t (map SWrite os)))
              | PAfter => bind (io_code false i) (fun os => Ok (add_after t (map SWrite os)))
              | PIn f => bind (io_code true i) (fun os =>
                           Ok (add_in t [SIf (CEvery f) (map SWrite os)]))
              end) (place_io i ps)
    end.
  Fixpoint place_all_io (known : list string) (l : list io) (t : times) : result times :=
    match l with
    | [] => Ok t
    | i :: l =>
        if check_datasets known i
        then bind (place_io i (io_places i) t) (place_all_io known l)
        else Err ValueError
    end.

  (* 464-472: the time loop and the program *)
  Definition assemble (a : acc) (t : times) (stage iter : size) : list stmt :=
    let inner := SFor VStage stage (kernels (a_spatial a ++ a_adv a ++ a_bc a)) in     (* 438 *)
    let tloop := SFor VIter iter
                   (kernels (a_bc a ++ a_start a) ++ [inner] ++ t_in t ++ kernels (a_end a)) in
    t_before t ++ [STimed [tloop]] ++ t_after t.

  (* 384-474: generate_solution for one block; mon is the print frequency of the
     simulation monitor, if there is one. *)
  Definition generate_solution (b : block) (mon : option Z) : result (list stmt) :=
    match bk_schemes b with
    | [] => Err IndexErr                                                    (* 428 *)
    | [sc] =>
        bind (gather gather1 acc0 (sc_solution sc)) (fun a =>
        bind (place_all_ns (sort_ns (a_ns a)) {| t_before := []; t_in := []; t_after := [] |})
             (fun t =>
        let t := match mon with
                 | Some f => add_in t [SIf (COr (CEvery f) CFirst) [SMonitor]]   (* 431-436 *)
                 | None => t
                 end in
        bind (place_all_io (bk_datasets b) (bk_io b) t) (fun t =>
        Ok (assemble a t (sc_stage sc) (sc_iter sc)))))
    | _ => Err ValueError                                                   (* 396-397 *)
    end.

  (* ---- multiblock/algorithm.py 448-533 ---- *)
  Fixpoint gather_blocks (a : acc) (bs : list block) : result acc :=
    match bs with
    | [] => Ok a
    | b :: bs =>
        bind ((fix over (a : acc) (l : list scheme) : result acc :=
                 match l with
                 | [] => Ok a
                 | sc :: l => bind (gather gather1_mb a (sc_solution sc)) (fun a => over a l)
                 end) a (bk_schemes b)) (fun a => gather_blocks a bs)
    end.

  Definition all_schemes (bs : list block) : list scheme := flat_map bk_schemes bs.

  Definition size_eqb (a b : size) : bool :=
    match a, b with
    | SNiter, SNiter => true
    | SNum x, SNum y => (x =? y)%Z
    | _, _ => false
    end.

  (* len(set(l)) == 1 *)
  Definition all_same {A} (eqb : A -> A -> bool) (l : list A) : bool :=
    match l with [] => false | x :: l => forallb (eqb x) l end.

  (* get_io_mb *)
  Fixpoint place_blocks_io (n : nat) (bs : list block) (t : times) : result times :=
    match bs with
    | [] => Ok t
    | b :: bs =>
        bind (place_all_io (bk_datasets b)
                (map (fun i => {| io_kw := io_kw i; io_places := io_places i;
                                  io_arrays := io_arrays i; io_block := n |}) (bk_io b)) t)
             (place_blocks_io (S n) bs)
    end.

  Definition spatial_solution (bs : list block) : result (list stmt) :=
    (* check_temporal_scheme *)
    if all_same String.eqb (map sc_class (all_schemes bs)) then
      bind (gather_blocks acc0 bs) (fun a =>
      bind (place_all_ns (sort_ns (a_ns a)) {| t_before := []; t_in := []; t_after := [] |})
           (fun t =>
      let t := add_before t (kernels (flat_map mt_fd (a_metrics a))) in
      let t := add_before t (kernels (flat_map mt_sd (a_metrics a))) in
      if all_same size_eqb (map sc_iter (all_schemes bs)) &&
         all_same size_eqb (map sc_stage (all_schemes bs))
      then
        match all_schemes bs with
        | [] => Err ValueError
        | sc :: _ =>
            bind (place_blocks_io 0 bs t) (fun t =>
            Ok (assemble a t (sc_stage sc) (sc_iter sc)))
        end
      else Err ValueError))
    else Err ValueError.

  (* ---- Semantics of the generated main program ---- *)

  Inductive event :=
  | EKernel (k : K) (iter stage : option Z)    (* ops_par_loop executed *)
  | EWrite (file : string) (arrays : list string)
  | EMonitor (iter : Z)
  | EUndefined.                                (* a loop counter used outside its loop *)

  Record env := { e_iter : option Z; e_stage : option Z }.
  Definition set_var (v : loopvar) (i : Z) (e : env) : env :=
    match v with
    | VIter => {| e_iter := Some i; e_stage := e_stage e |}
    | VStage => {| e_iter := e_iter e; e_stage := Some i |}
    end.

  (* the values taken by the counter of for(int i = 0; i <= hi; i++) *)
  Definition zrange (hi : Z) : list Z := map Z.of_nat (seq 0 (Z.to_nat (hi + 1))).

  Fixpoint test (iter : Z) (c : cond) : bool :=
    match c with
    | CEvery f => (Z.rem (iter + 1) f =? 0)%Z        (* fmod(1 + iter, f) == 0 *)
    | CFirst => (iter =? 0)%Z
    | COr a b => test iter a || test iter b
    end.

  Definition file_name (e : env) (f : fexpr) : option string :=
    match f with
    | FStatic s => Some s
    | FDyn => match e_iter e with
              | Some it => Some ("opensbli_output_" ++ decpad 6 (Z.to_nat (it + 1)) ++ ".h5")%string
              | None => None
              end
    end.

  Fixpoint run (niter : Z) (e : env) (s : stmt) : list event :=
    match s with
    | SKernel k => [EKernel k (e_iter e) (e_stage e)]
    | SWrite o => match file_name e (o_file o) with
                  | Some n => [EWrite n (o_arrays o)]
                  | None => [EUndefined]
                  end
    | SMonitor => match e_iter e with Some i => [EMonitor i] | None => [EUndefined] end
    | SFor v n b =>
        flat_map (fun i => flat_map (run niter (set_var v i e)) b) (zrange (upper niter n))
    | SIf c b => match e_iter e with
                 | Some i => if test i c then flat_map (run niter e) b else []
                 | None => [EUndefined]
                 end
    | STimed b => flat_map (run niter e) b
    end.

  Definition execute (niter : Z) (p : list stmt) : list event :=
    flat_map (run niter {| e_iter := None; e_stage := None |}) p.

  (* Names declared directly in a scope ("char name0[80];"); loops, conditions
     open their own scope, timers do not. *)
  Fixpoint declared (s : stmt) : list string :=
    match s with
    | SWrite o => match o_var o with Some v => [v] | None => [] end
    | STimed b => flat_map declared b
    | _ => []
    end.
End algorithm.
Arguments SKernel {K} k. Arguments SWrite {K} o. Arguments SMonitor {K}.
Arguments SFor {K} v n b. Arguments SIf {K} c b. Arguments STimed {K} b.
Arguments sq_start {K} s. Arguments sq_end {K} s. Arguments sq_advance {K} s.
Arguments sq_bc {K} s. Arguments sq_spatial {K} s.
Arguments ns_order {K} n. Arguments ns_places {K} n. Arguments ns_kernels {K} n.
Arguments mt_order {K} m. Arguments mt_places {K} m. Arguments mt_fd {K} m. Arguments mt_sd {K} m.
Arguments EqSim {K} s. Arguments EqMetric {K} m. Arguments EqNonSim {K} n.
Arguments EqConstituent {K}. Arguments EqOther {K}.
Arguments sc_class {K} s. Arguments sc_stage {K} s. Arguments sc_iter {K} s. Arguments sc_solution {K} s.
Arguments bk_schemes {K} b. Arguments bk_datasets {K} b. Arguments bk_io {K} b.
Arguments EKernel {K} k iter stage. Arguments EWrite {K} file arrays.
Arguments EMonitor {K} iter. Arguments EUndefined {K}.
Arguments generate_solution {K} b mon. Arguments spatial_solution {K} bs.
Arguments execute {K} niter p. Arguments declared {K} s.
Arguments a_start {K} a. Arguments a_end {K} a. Arguments a_adv {K} a. Arguments a_bc {K} a.
Arguments a_spatial {K} a. Arguments a_ns {K} a. Arguments a_metrics {K} a.
Arguments t_before {K} t. Arguments t_in {K} t. Arguments t_after {K} t.
