(* Model of core/diagnostics/simulation_monitors.py. *)
From Verif Require Import Base AlgModel.

(* 9-14, 30-32: one Monitor per (array, location); the probe number is the index. *)
Record monitor := { m_var : string; m_loc : list Z; m_no : nat }.

Fixpoint number_monitors (n : nat) (arrays : list string) (locs : list (list Z)) : list monitor :=
  match arrays, locs with
  | a :: arrays, l :: locs => {| m_var := a; m_loc := l; m_no := n |} :: number_monitors (S n) arrays locs
  | _, _ => []
  end.

(* 28-32: SimulationMonitor(arrays, probe_locations, ...) *)
Definition simulation_monitor (arrays : list string) (locs : list (list Z)) : result (list monitor) :=
  if (List.length arrays =? List.length locs)%nat
  then Ok (number_monitors 0 arrays locs) else Err ValueError.

(* 75-86: reduction_range.  The values of "int monitor_range_n_name[] =
   {i, i+1, j, j+1, ...}".  For ndim 2 and 3 the location is unpacked, which
   fails unless it has ndim entries; a location in one dimension is an integer,
   here a list with one entry. *)
Definition reduction_range (ndim : nat) (m : monitor) : result (list (Z * Z)) :=
  if ((1 <=? ndim) && (ndim <=? 3))%nat then
    if (List.length (m_loc m) =? ndim)%nat
    then Ok (map (fun i => (i, i + 1)%Z) (m_loc m))
    else Err ValueError
  else Err TypeErr.

(* 63-73, 96-98: names of the C variables of one monitor *)
Definition reduce_name (m : monitor) : string := ("reduce_" ++ dec (m_no m) ++ "_" ++ m_var m)%string.
Definition output_name (m : monitor) : string := (m_var m ++ "_" ++ dec (m_no m) ++ "_output")%string.
Definition range_name (m : monitor) : string := ("monitor_range_" ++ dec (m_no m) ++ "_" ++ m_var m)%string.

(* ', '.join(l) *)
Fixpoint join_comma (l : list string) : string :=
  match l with
  | [] => EmptyString
  | [a] => a
  | a :: l => (a ++ ", " ++ join_comma l)%string
  end.

(* 130-147: format_output: the format string and the arguments of ops_printf *)
Definition placeholders (precision nmon : nat) : string :=
  join_comma ("%d" :: repeat ("%." ++ dec precision ++ "f")%string (nmon + 1))%string.
(* 137-140: mean quantities are divided by the number of iterations *)
Definition printed_value (m : monitor) : string :=
  if substring_in "mean" (output_name m) then (output_name m ++ "/(iter+1)")%string else output_name m.
Definition format_output (precision : nat) (ms : list monitor) : string * list string :=
  (placeholders precision (List.length ms),
   ["iter+1"; "(iter+1)*dt"]%string ++ map printed_value ms).

(* ---- semantics of the reduction of one monitor ---- *)

(* The grid points of an iteration range, the first direction fastest. *)
Definition zseq (lo hi : Z) : list Z := map (fun n => (lo + Z.of_nat n)%Z) (seq 0 (Z.to_nat (hi - lo))).
Fixpoint points (r : list (Z * Z)) : list (list Z) :=
  match r with
  | [] => [[]]
  | (lo, hi) :: r => flat_map (fun rest => map (fun i => i :: rest) (zseq lo hi)) (points r)
  end.

(* 100-106: the kernel body is "*reduce = array[OPS_ACC0(0,...)]", executed at
   every point of the range; the result starts from 0.0. *)
Definition reduce {V} (zero : V) (field : list Z -> V) (r : list (Z * Z)) : V :=
  fold_left (fun _ p => field p) (points r) zero.
