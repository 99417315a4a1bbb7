(* Model of the filters: SFD.py and binomial_filter.py.  The equations are user defined
   kernels run over the whole block at the end of every iteration.  Simplification: arrays
   carry their plain names, without the block suffix. *)
From Verif Require Import Base Expr KernelModel BCModel.
From Coq Require Import QArith ZArith.
Local Close Scope Q_scope.

Definition arr_at (n : nat) (s : string) : expr := EDat s (repeat 0%Z n).
(* SFD.py 39-45, binomial_filter.py 73-78: other dimensions leave the list unset *)
Definition cons_vars (ndim : nat) : result (list string) :=
  match ndim with
  | 2 => Ok ["rho"; "rhou0"; "rhou1"; "rhoE"]
  | 3 => Ok ["rho"; "rhou0"; "rhou1"; "rhou2"; "rhoE"]
  | _ => Err UnboundLocal
  end%string.

(* ---- SFD.py ---- *)
Definition filt (s : string) : string := (s ++ "_filt")%string.
Definition filtold (s : string) : string := (s ++ "_filtold")%string.
Definition chi := econst "chi_filt".
Definition omega := econst "omega_filt".
Definition dt := econst "dt".
(* exp(-(chi+omega)*dt) *)
Definition damping : expr := EApp (HFun "exp") [emul [eint (-1); eadd [chi; omega]; dt]].
(* 52-63 *)
Definition sfd_initial (ndim : nat) : result kernel_eqs :=
  bind (cons_vars ndim) (fun vs => Ok (map (fun v => KEq (arr_at ndim (filt v)) (arr_at ndim v)) vs)).
(* 65-86 *)
Definition sfd_new_filt (n : nat) (v : string) : expr :=
  ediv (eadd [emul [arr_at n v; esub (eint 1) damping]; emul [arr_at n (filt v); eadd [ediv chi omega; damping]]])
       (eadd [ediv chi omega; eint 1]).
Definition sfd_new_v (n : nat) (v : string) : expr :=
  ediv (eadd [emul [arr_at n v; eadd [ediv (emul [damping; chi]) omega; eint 1]];
              emul [ediv (emul [arr_at n (filtold v); chi]) omega; esub (eint 1) damping]])
       (eadd [ediv chi omega; eint 1]).
Definition sfd_eqs (ndim : nat) (vs : list string) : kernel_eqs :=
  map (fun v => KEq (arr_at ndim (filtold v)) (arr_at ndim (filt v))) vs ++
  map (fun v => KEq (arr_at ndim (filt v)) (sfd_new_filt ndim v)) vs ++
  map (fun v => KEq (arr_at ndim v) (sfd_new_v ndim v)) vs.
Definition sfd_filter (ndim : nat) : result kernel_eqs :=
  bind (cons_vars ndim) (fun vs => Ok (sfd_eqs ndim vs)).

(* ---- binomial_filter.py ---- *)
(* sympy's binomial *)
Fixpoint binomial (n k : nat) : Z :=
  match n, k with
  | _, O => 1
  | O, S _ => 0
  | S n, S k => binomial n k + binomial n (S k)
  end%Z.
(* 36-42; 2.0**N is exact.  A negative even order gives empty lists. *)
Definition filter_weights (N : Z) : list Q :=
  map (fun i => (binomial (Z.to_nat N) i # 1) / (2 ^ N # 1))%Q (seq 0 (Z.to_nat (N + 1))).
Definition filter_locations (N : Z) : list Z :=
  map (fun i => Z.of_nat i - N / 2)%Z (seq 0 (Z.to_nat (2 * (N / 2) + 1))).
(* 44-53 and 55-61: the weighted sum of one array along one direction *)
Definition filter_sum (n d : nat) (N : Z) (s : string) : expr :=
  eadd (map2 (fun w l => emul [ENum w; EDat s (ShiftModel.shift_ix d l (repeat 0%Z n))]) (filter_weights N) (filter_locations N)).
Definition axis_name (d : nat) : string := match d with 0 => "_xfiltered" | 1 => "_yfiltered" | _ => "_zfiltered" end%string.
Definition sigma_c := econst "sigma_filt".
(* 80-95 *)
Definition filter_dirs (n : nat) (N : Z) (vs : list string) : kernel_eqs :=
  flat_map (fun d => map (fun v => KEq (evar (v ++ axis_name d)) (filter_sum n d N v)) vs) (seq 0 n).
(* 96-103 *)
Definition filter_average (n : nat) (vs : list string) : kernel_eqs :=
  map (fun v => KEq (evar (v ++ "_filtered")) (ediv (eadd (map (fun d => evar (v ++ axis_name d)) (seq 0 n))) (eint (Z.of_nat n)))) vs.
(* 104-108 *)
Definition filter_blend (n : nat) (vs : list string) : kernel_eqs :=
  map (fun v => KEq (arr_at n v) (eadd [emul [esub (eint 1) sigma_c; arr_at n v]; emul [sigma_c; evar (v ++ "_filtered")]])) vs.
(* 72-112 without a grid condition (63-70 is not modelled) *)
Definition filter_eqs (n : nat) (N : Z) (vs : list string) : kernel_eqs :=
  filter_dirs n N vs ++ filter_average n vs ++ filter_blend n vs.
(* 16-34, 114-124 *)
Definition binomial_filter (ndim : nat) (order : Z) : result kernel_eqs :=
  if negb (order mod 2 =? 0)%Z then Err ValueError
  else if (10 <? order)%Z then Err ValueError
  else bind (cons_vars ndim) (fun vs => Ok (filter_eqs ndim order vs)).
