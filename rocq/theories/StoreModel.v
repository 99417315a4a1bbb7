(* Model of the storage declared for the arrays (C16), and of the ranges of the
   shock-capturing kernels. *)
From Verif Require Import Base Expr KernelModel WenoModel TenoModel LLFModel.
From Verif Require FDModel AlgModel.
From Coq Require Import ZArith.

(* ---- declaration of the arrays ---- *)
(* block.py 277-286 and scheme.py 47-57: the halos given to every array, in every
   direction and on both sides (kernel.py 307-310) *)
Definition dataset_halos (ndim : nat) : halo_ranges := repeat ([(-5, 5)%Z], [(-5, 5)%Z]) ndim.
(* opsc.py 706-711: arrays declared without halos *)
Definition no_halo (b : string) : bool :=
  AlgModel.substring_in "Residual" b || AlgModel.substring_in "tempRK" b || AlgModel.substring_in "RKold" b.
(* opsc.py 677-691, 706-719: halo_m and halo_p of the array.  Arrays read from files, whose
   size is that of the file (702-705), are not modelled. *)
Definition declared_halos (ndim : nat) (b : string) : list Z * list Z :=
  if no_halo b then (repeat 0%Z ndim, repeat 0%Z ndim) else get_min_max_halo_values (dataset_halos ndim).
(* ops_decl_dat with base 0: the elements of the array *)
Definition stored (sizes : list Z) (b : string) (x : list Z) : bool :=
  let '(m, p) := declared_halos (List.length sizes) b in
  (List.length x =? List.length sizes)%nat &&
  forallb (fun d => (nth d m 0 <=? nth d x 0)%Z && (nth d x 0 <? nth d sizes 0 + nth d p 0)%Z) (seq 0 (List.length sizes)).

(* ---- ranges of the shock-capturing kernels ---- *)
(* weno.py 23-29: k = int(0.5*(order+1)); the same k is the width of the stencils (391) *)
Definition weno_k (order : Z) : Z := FDModel.pyint_half (order + 1).
Definition weno_halos (order : Z) : halo := (- weno_k order, weno_k order + 1)%Z.
(* teno.py 24-33 *)
Definition teno_halos (order : Z) : halo := let k := (if order =? 8 then 4 else 3)%Z in (- k, k + 1)%Z.
(* weno.py 28, teno.py 32 *)
Definition reconstruction_halos : halo := (-1, 1)%Z.
(* the range of a kernel on a block (kernel.py 214-230), extended by halos h on both
   sides of the given directions *)
Definition extended_range (sizes : list Z) (h : halo) (dirs : list nat) : list (Z * Z) :=
  total_range (map (fun n => (0, n)%Z) sizes)
    (fold_left (fun hr d => set_halo_range (set_halo_range hr d false h) d true h) dirs (repeat ([], []) (List.length sizes))).
Definition in_ranges (r : list (Z * Z)) (x : list Z) : bool :=
  (List.length x =? List.length r)%nat &&
  forallb (fun p => let '(i, (lo, hi)) := p in ((lo <=? i) && (i <? hi))%Z) (combine x r).
(* shock_capturing.py 118-131: the kernel of a constituent relation used in the given directions *)
Definition relation_range (sizes : list Z) (h : halo) (dirs : list nat) : list (Z * Z) := extended_range sizes h dirs.
(* shock_capturing.py 146-155 *)
Definition reconstruction_range (sizes : list Z) (d : nat) : list (Z * Z) := extended_range sizes reconstruction_halos [d].
(* averaging.py 31-125 reads the locations 0 and 1; 450-536 the stencil points *)
Definition reconstruction_offsets (sch : scheme) : list Z := [0; 1]%Z ++ stencil_points sch.
(* opensblifunctions.py 576-597: locations of the reconstruction work array that the
   residual kernel reads *)
Definition residual_offsets : list Z := [0; -1]%Z.
