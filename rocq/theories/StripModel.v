(* Model of postprocess/removehalos.py (Python 2): halo points removed from the
   arrays of an output file. *)
From Verif Require Import Base AlgModel.
Local Open Scope list_scope.

(* Arrays of any number of axes: numbers, or lists of arrays. *)
Inductive nd (A : Type) := Num (a : A) | Arr (l : list (nd A)).
Arguments Num {A} a.
Arguments Arr {A} l.

(* How the function ends.  SNameError: the name is not defined. *)
Inductive outcome (B : Type) := SOk (b : B) | SNameError | SNotImplemented | SIndexError.
Arguments SOk {B} b.
Arguments SNameError {B}.
Arguments SNotImplemented {B}.
Arguments SIndexError {B}.

(* l[lo:hi] for lo >= 0; a negative hi counts from the end. *)
Definition pyslice {B} (lo : nat) (hi : Z) (l : list B) : list B :=
  let h := if (hi <? 0)%Z then Z.to_nat (hi + Z.of_nat (List.length l)) else Z.to_nat hi in
  skipn lo (firstn h l).

(* x[lo0:hi0, lo1:hi1, ...] *)
Fixpoint nd_slice {A} (rs : list (nat * Z)) (x : nd A) : nd A :=
  match rs, x with
  | (lo, hi) :: rs, Arr l => Arr (map (nd_slice rs) (pyslice lo hi l))
  | _, _ => x
  end.

(* 14-28: read_dataset.  [dm] is the attribute d_m, [size] the shape of the data.
   Line 20 uses a global name that the module does not define. *)
Definition read_dataset {A} (dm : list Z) (size : list nat) (x : nd A) : outcome (nd A) :=
  let starts := map Z.abs_nat dm in                                             (* 17 *)
  let ends := map (fun p => Z.of_nat (snd p) - Z.abs (fst p))%Z (combine dm size) in  (* 18 *)
  match List.length ends with
  | 1%nat => SNameError                                                         (* 19-20 *)
  | 2%nat | 3%nat => SOk (nd_slice (combine starts ends) x)                     (* 21-24 *)
  | _ => SNotImplemented                                                        (* 25-26 *)
  end.

(* One dataset of an output file: d_m, the shape and the data. *)
Record sdata (A : Type) := { s_dm : list Z; s_shape : list nat; s_data : nd A }.
Arguments s_dm {A} _.
Arguments s_shape {A} _.
Arguments s_data {A} _.

Fixpoint strip_all {A} (l : list (string * sdata A)) : outcome (list (string * nd A)) :=
  match l with
  | [] => SOk []
  | (k, x) :: l =>
      match read_dataset (s_dm x) (s_shape x) (s_data x) with
      | SOk y => match strip_all l with
                 | SOk r => SOk ((k, y) :: r)
                 | SNameError => SNameError | SNotImplemented => SNotImplemented | SIndexError => SIndexError
                 end
      | SNameError => SNameError | SNotImplemented => SNotImplemented | SIndexError => SIndexError
      end
  end.

(* 31-41: strip_halos.  The file is its list of groups in the order of keys(). *)
Definition strip_halos {A} (groups : list (string * list (string * sdata A)))
  : outcome (list (string * nd A)) :=
  match groups with
  | [] => SIndexError                                                           (* 33 *)
  | (_, g) :: _ => strip_all g                                                  (* 34-39 *)
  end.

(* s.split(c): always at least one piece. *)
Fixpoint pysplit (c : ascii) (s : string) : list string :=
  match s with
  | EmptyString => [EmptyString]
  | String d s =>
      if ascii_dec d c then EmptyString :: pysplit c s
      else match pysplit c s with
           | [] => [String d EmptyString]
           | p :: ps => String d p :: ps
           end
  end.
(* c.join(l) *)
Fixpoint pyjoin (c : string) (l : list string) : string :=
  match l with [] => EmptyString | [s] => s | s :: l => (s ++ c ++ pyjoin c l)%string end.

(* 50-54: the name of the file to write; None is the ValueError of 52. *)
Definition output_path (path : string) : option string :=
  let a := pysplit "/" path in
  let name := last a EmptyString in
  if substring_in ".h5" name then
    Some (pyjoin "/" (removelast a ++ [(hd EmptyString (pysplit "." name) ++ "_pp.h5")%string]))
  else None.
