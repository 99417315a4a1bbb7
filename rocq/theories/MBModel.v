(* Interfaces between blocks: multi_block.py and the part of opsc.py that writes the
   exchange.  Modelled for one array: the other arrays of the exchange are copied by the
   same box (opsc.py 579-584).  The kernel of the exchange, names and numbers are left out. *)
From Verif Require Import Base Expr KernelModel BCModel.
From Coq Require Import ZArith.

Record iexchange := {
  ie_size : list Z;
  ie_from : list Z;            (* first point copied, in this block *)
  ie_to : list Z;              (* first point written, in the other block *)
  ie_flip : option nat         (* opsc.py 573-574: direction traversed backwards *)
}.

(* opsc.py 573: match = (block, direction, side) or with further entries; the last one
   decides *)
Definition flip_of (d2 : nat) (side2 : bool) (extra : option bool) : option nat :=
  if match extra with Some f => f | None => side2 end then Some d2 else None.

(* multi_block.py 41-92 (shared = false) and 97-149 (shared = true), with
   opsc.py 570-574.  np1, np2: numbers of points of the two blocks; bh2: the boundary
   halos of the other block (halos_block1, 50, is not used).  transfer_size is indexed with
   the direction of this block (78, 135). *)
Definition interface_apply (shared : bool) (np1 np2 : list Z) (bh2 : halo_ranges)
           (d1 : nat) (side1 : bool) (d2 : nat) (side2 : bool) (extra : option bool) : iexchange :=
  let halos := get_halo_values bh2 in
  let h := nth d2 halos (0, 0)%Z in
  let base := map fst halos in
  let one := if shared then 1%Z else 0%Z in
  {| ie_size := set_nth d1 (Z.abs (if side2 then snd h else fst h))
                  (map2 (fun n h => n + 0 + (Z.abs (fst h) + Z.abs (snd h)))%Z np2 halos);
     ie_from := set_nth d1 (if side1 then nth d1 np1 0 + fst h - one else 0 + one)%Z base;
     ie_to := if side2 then set_nth d2 (nth d2 np2 0%Z) base else base;
     ie_flip := flip_of d2 side2 extra |}.

(* ops_halo_transfer for from_dir = 1..ndim and to_dir = 1..ndim with at most one negative
   entry: the box ie_from is copied to the box ie_to, backwards in the negative direction
   (assumed behaviour of the OPS library, not part of /repo) *)
Definition ie_source (ex : iexchange) (y : list Z) : list Z :=
  map2 (fun i q => let '(y, (t, (f, s))) := q in
          if match ie_flip ex with Some d => (d =? i)%nat | None => false end
          then (f + (s - 1 - (y - t)))%Z else (f + (y - t))%Z)
       (seq 0 (List.length y)) (combine y (combine (ie_to ex) (combine (ie_from ex) (ie_size ex)))).
Definition ie_transfer {V : Type} (ex : iexchange) (M1 M2 : list Z -> V) : list Z -> V :=
  fun y => if in_box (ie_to ex) (ie_size ex) y then M1 (ie_source ex y) else M2 y.
