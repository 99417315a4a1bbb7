(* Model of the time-advancement kernels at the level of arrays:
   rk_LS.py 117-178 and rk_sbli.py 66-140, with the residual arrays of
   opensbliequations.py 238-246.  Values are real numbers. *)
From Coq Require Import Reals List String Bool.
From Verif Require Import Base.
Open Scope R_scope.
Local Open Scope list_scope.

(* A simulation equation as the time scheme sees it: the arrays of the time
   derivatives it contains (get_local_function, in the order atoms() returns
   them) and its residual array. *)
Record equation := { eq_advanced : list string; eq_residual : string }.

(* opensbliequations.py 238-246: equation number n gets the array Residual<n>
   (the block suffix is left out). *)
Definition residual_name (n : nat) : string := ("Residual" ++ dec n)%string.
Definition with_residuals (advanced : list (list string)) : list equation :=
  map (fun p => {| eq_advanced := fst p; eq_residual := residual_name (snd p) |})
      (combine advanced (seq 0 (List.length advanced))).

(* rk_LS.py 180-191, rk_sbli.py 135-140 (block suffix left out) *)
Definition temp_name (v : string) : string := ("tempRK_" ++ v)%string.
Definition old_name (v : string) : string := (v ++ "_RKold")%string.

(* Python's zip of three lists *)
Fixpoint zip3 {A B C} (x : list A) (y : list B) (z : list C) : list (A * B * C) :=
  match x, y, z with
  | a :: x, b :: y, c :: z => (a, b, c) :: zip3 x y z
  | _, _, _ => []
  end.

(* Right-hand sides: array + coefficient * array, coefficient * array + dt * array, array *)
Inductive rhs :=
| Axpy (x : string) (c : R) (y : string)            (* x + c*y *)
| Comb (a : R) (x : string) (c : R) (y : string)    (* a*x + c*y *)
| Copy (x : string).
Definition stmt := (string * rhs)%type.

Definition td_fns (eqs : list equation) : list string := flat_map eq_advanced eqs.
Definition residuals (eqs : list equation) : list string := map eq_residual eqs.

(* rk_LS.py 126-133, 155-166: a = rkA[stage], b = rkB[stage] *)
Definition ls_kernel (dt a b : R) (eqs : list equation) : list stmt :=
  flat_map (fun z => let '(tmp, new, res) := z in
                     [(tmp, Comb a tmp dt res); (new, Axpy new b tmp)])
           (zip3 (map temp_name (td_fns eqs)) (td_fns eqs) (residuals eqs)).

(* rk_sbli.py 126-133: the kernel "Save equations" *)
Definition sbli_save (eqs : list equation) : list stmt :=
  map (fun v => (old_name v, Copy v)) (td_fns eqs).
(* rk_sbli.py 100-124: stage update kernel, then solution update kernel;
   o = rkold[stage], n = rknew[stage] *)
Definition sbli_kernels (dt o n : R) (eqs : list equation) : list stmt :=
  let zipped := zip3 (map old_name (td_fns eqs)) (td_fns eqs) (residuals eqs) in
  map (fun z => let '(old, new, res) := z in (new, Axpy old (dt * n) res)) zipped ++
  map (fun z => let '(old, new, res) := z in (old, Axpy old (dt * o) res)) zipped.

(* Execution over the points of the grid range (inside); other points keep their value. *)
Definition memory (P : Type) := string -> P -> R.
Section run.
  Variable P : Type.
  Variable inside : P -> bool.
  Definition value (m : memory P) (r : rhs) (p : P) : R :=
    match r with
    | Axpy x c y => m x p + c * m y p
    | Comb a x c y => a * m x p + c * m y p
    | Copy x => m x p
    end.
  Definition run_stmt (m : memory P) (s : stmt) : memory P :=
    fun v p => if String.eqb v (fst s) then (if inside p then value m (snd s) p else m v p) else m v p.
  Definition run (l : list stmt) (m : memory P) : memory P := fold_left run_stmt l m.
End run.
