From Verif Require Import Base Expr ExprProofs KernelModel ShiftModel ShiftSpec ShiftProofs AlgProofs BCModel BCSpec BCProofs BCKern BCMirror BCOrder BCStm BCGasSpec.
From Coq Require Import QArith ZArith Reals Qreals Lia Lra Permutation.
Local Close Scope Q_scope.

Section gas.
  Variable J : interp R.
  Hypothesis HJ : reals J.
  Variables (n : nat) (rho : string) (moms : list string) (E : string).
  Local Notation v := (ns_arrays n rho moms E).

  Lemma placed_edot : forall l, Forall (placed n) l -> placed n (edot l).
  Proof.
    intros l H. apply placed_add. rewrite Forall_forall in *. intros e He. apply in_map_iff in He. destruct He as (a & <- & Ha).
    apply placed_mul. constructor; auto.
  Qed.
  Lemma placed_internal : placed n (internal v).
  Proof.
    apply placed_sub; [apply placed_dat|]. apply placed_div; [|apply placed_dat]. apply placed_mul. constructor; [apply placed_num|].
    constructor; auto. apply placed_edot. apply placed_dats.
  Qed.
  Lemma placed_g1 : placed n (esub gama (eint 1)).
  Proof. apply placed_sub; [apply placed_const | apply placed_int]. Qed.
  Lemma placed_pressure : placed n (pressure_cons v).
  Proof. apply placed_mul. constructor; [apply placed_g1|]. constructor; auto. apply placed_internal. Qed.
  Lemma placed_temperature : placed n (temperature_cons v).
  Proof.
    apply placed_div; [|apply placed_dat]. apply placed_mul. constructor; [apply placed_internal|]. constructor; auto.
    apply placed_mul. constructor; [apply placed_const|]. constructor; [apply placed_g1|]. constructor; auto. apply placed_pow, placed_const.
  Qed.

  Variables (M : string -> list Z -> R) (L : string -> R) (x : list Z).
  Hypothesis Lx : List.length x = n.
  Let ap := at_point J M L x.
  Lemma ap_dat : forall b, ap (EDat b (here n)) = M b x.
  Proof. intros. unfold ap, at_point. cbn [eval]. unfold here. rewrite vadd_here by auto. reflexivity. Qed.
  Lemma ap_const : forall s, ap (econst s) = const J s.
  Proof. reflexivity. Qed.
  Lemma ap_edot : ap (edot (ns_mom v)) = norm2 (map (fun m => M m x) moms).
  Proof.
    unfold ap, edot, ns_arrays. cbn [ns_mom]. rewrite (ap_add J HJ). unfold norm2. induction moms as [|m l IH]; auto.
    cbn [map fold_right vdot]. rewrite IH. f_equal. rewrite (ap_mul J HJ). cbn [map fold_right]. fold ap. rewrite ap_dat. ring.
  Qed.
  Lemma ap_internal : ap (internal v) = (M E x - norm2 (map (fun m => M m x) moms) / (2 * M rho x))%R.
  Proof.
    unfold ap, internal. rewrite (ap_sub J HJ), (ap_div J HJ), (ap_mul J HJ). cbn [map fold_right]. fold ap. rewrite ap_edot.
    cbn [ns_arrays ns_rhoE ns_rho]. rewrite !ap_dat. unfold ap. rewrite (ap_num J HJ). unfold Q2R. cbn [Qnum Qden].
    unfold Rdiv. rewrite Rinv_mult. ring.
  Qed.
  Lemma ap_pressure : ap (pressure_cons v) = p_at J M rho moms E x.
  Proof.
    unfold ap, pressure_cons. rewrite (ap_mul J HJ). cbn [map fold_right]. rewrite (ap_sub J HJ), (ap_int J HJ). fold ap.
    rewrite ap_internal. unfold gama. rewrite ap_const. unfold p_at, pressure_of. ring.
  Qed.
  Lemma ap_temperature : ap (temperature_cons v) = T_at J M rho moms E x.
  Proof.
    unfold ap, temperature_cons. rewrite (ap_div J HJ), !(ap_mul J HJ). cbn [map fold_right]. rewrite (ap_mul J HJ). cbn [map fold_right].
    rewrite (ap_sub J HJ), (ap_int J HJ), (ap_sqr J HJ). fold ap. rewrite ap_internal. unfold gama, Minf. rewrite !ap_const.
    cbn [ns_arrays ns_rho]. rewrite ap_dat. unfold T_at, temperature_of, pressure_of, Rdiv. ring.
  Qed.
End gas.

Lemma value_at : forall J (M : string -> list Z -> R) x e, placed (List.length x) e -> value J M x e = at_point J M (isym J KGridVar) x e.
Proof. intros J M x e (_ & G & _). symmetry. apply at_point_value. auto. Qed.

(* expressions reading only locations in P along the line *)
Definition offs (n d : nat) (P : string -> Z -> Prop) (e : expr) : Prop :=
  syms KGridVar e = [] /\ forall b ix, In (b, ix) (dsets e) -> exists k, ix = move d k (here n) /\ P b k.
Lemma offs_app : forall n d P h args, Forall (offs n d P) args -> offs n d P (EApp h args).
Proof.
  intros n d P h args H. rewrite Forall_forall in H. split.
  - rewrite syms_app. induction args as [|a args IH]; auto. cbn. destruct (H a) as [-> _]; [left; auto|]. apply IH. intros; apply H; right; auto.
  - intros b ix Hb. rewrite dsets_app in Hb. apply in_flat_map in Hb. destruct Hb as (a & Ha & Hb). apply (proj2 (H a Ha) b ix Hb).
Qed.
Lemma offs_num : forall n d P q, offs n d P (ENum q).
Proof. split; auto. intros ? ? []. Qed.
Lemma offs_int : forall n d P z, offs n d P (eint z).
Proof. intros. apply offs_num. Qed.
Lemma offs_const : forall n d P s, offs n d P (econst s).
Proof. split; auto. intros ? ? []. Qed.
Lemma offs_dat : forall n d (P : string -> Z -> Prop) b k, P b k -> offs n d P (EDat b (move d k (here n))).
Proof. intros n d P b k HP. split; auto. intros b' ix [H | []]. injection H as <- <-. eauto. Qed.
Lemma offs_here : forall n d (P : string -> Z -> Prop) b, P b 0%Z -> offs n d P (EDat b (here n)).
Proof. intros. rewrite (here_move n d). apply offs_dat. auto. Qed.
Lemma offs_put : forall n d (P : string -> Z -> Prop) k e, placed n e -> (forall b, P b k) -> offs n d P (put n d k e).
Proof.
  intros n d P k e (Lo & Gv & _) H. split; [rewrite put_syms; auto|]. intros b ix Hb. exists k. split; auto. apply (dsets_put_at n d k e b ix Hb).
Qed.
Lemma offs_pow : forall n d P a q, offs n d P a -> offs n d P (epow a q).
Proof. intros. apply offs_app. constructor; auto. constructor; auto. apply offs_num. Qed.
Lemma offs_mul : forall n d P l, Forall (offs n d P) l -> offs n d P (emul l).
Proof. intros. apply offs_app. auto. Qed.
Lemma offs_add : forall n d P l, Forall (offs n d P) l -> offs n d P (eadd l).
Proof. intros. apply offs_app. auto. Qed.
Lemma offs_div : forall n d P a b, offs n d P a -> offs n d P b -> offs n d P (ediv a b).
Proof. intros. apply offs_mul. constructor; auto. constructor; auto. apply offs_pow. auto. Qed.
Lemma offs_sub : forall n d P a b, offs n d P a -> offs n d P b -> offs n d P (esub a b).
Proof. intros. apply offs_add. constructor; auto. constructor; auto. apply offs_mul. constructor; auto. apply offs_int. Qed.
Create HintDb offs.
#[global] Hint Resolve offs_num offs_int offs_const offs_dat offs_here offs_put offs_pow offs_mul offs_add offs_div offs_sub Forall_cons Forall_nil : offs.

Lemma nodup3 : forall (rho : string) moms E, NoDup (rho :: moms ++ [E]) ->
  ~ In rho moms /\ rho <> E /\ ~ In E moms /\ NoDup moms.
Proof.
  intros rho moms E H. apply NoDup_cons_iff in H. destruct H as [N H]. repeat split.
  - intros I. apply N. apply in_app_iff. auto.
  - intros ->. apply N. apply in_app_iff. right. left. auto.
  - apply NoDup_remove_2 in H. rewrite app_nil_r in H. auto.
  - apply NoDup_remove_1 in H. rewrite app_nil_r in H. auto.
Qed.

(* ---- adiabatic wall ---- *)
Definition adiabatic_T_wall (n d : nat) (to : Z) (v : nsvars) : expr :=
  emul [ENum (6 # 11); esub (eadd [emul [eint 3; put n d to (temperature_cons v)]; emul [ENum (1 # 3); put n d (3 * to) (temperature_cons v)]])
     (emul [ENum (3 # 2); put n d (2 * to) (temperature_cons v)])].
Definition adiabatic_S (n d : nat) (from to : Z) (w : nat) (rho : string) (moms : list string) (E : string) : list (string * Z * expr) :=
  map (fun i => (rho, (from * i)%Z, EDat rho (move d (to * i) (here n)))) (upto w) ++
  (map (fun m => (m, 0%Z, emul [EDat rho (here n); eint 0])) moms ++
   flat_map (fun i => map (fun m => (m, (from * i)%Z, emul [eint (-1); EDat m (move d (to * i) (here n))])) moms) (upto w)) ++
  (E, 0%Z, ediv (ediv (emul [EDat rho (here n); adiabatic_T_wall n d to (ns_arrays n rho moms E)]) (emul [gama; Minf; Minf])) (esub gama (eint 1))) ::
  map (fun i => (E, (from * i)%Z, EDat E (move d (to * i) (here n)))) (upto w).
Lemma adiabatic_eqs : forall ord np bh d side rho moms E, good_order ord -> List.length bh = List.length np -> (d < List.length np)%nat ->
  adiabatic_apply ord np bh d side (ns_arrays (List.length np) rho moms E) =
  Ok {| bk_ranges := set_nth d (if side then (nth d np 0 - 1, nth d np 0) else (0, 1))%Z (block_ranges np);
        bk_halos := set_nth d ([], []) bh;
        bk_eqs := map (stm (List.length np) d) (adiabatic_S (List.length np) d (fst (set_side_factor side)) (snd (set_side_factor side))
                    (Z.to_nat (halo_width bh side)) rho moms E) |}.
Proof.
  intros ord np bh d side rho moms E Go Lb Hd. unfold adiabatic_apply. rewrite bc_plane_ok by auto. cbn [bind fst snd].
  destruct (set_side_factor side) as [from to] eqn:Es. cbn [fst snd ns_arrays ns_mom ns_rho ns_rhoE].
  rewrite n_halos_width by (rewrite Lb; auto). set (n := List.length np). set (w := Z.to_nat (halo_width bh side)).
  assert (I : forall k b, inc ord d k (EDat b (here n)) = Ok (EDat b (move d k (here n)))) by (intros; rewrite (inc_placed ord n); auto; apply placed_dat).
  assert (IT : forall k, inc ord d k (temperature_cons (ns_arrays n rho moms E)) = Ok (put n d k (temperature_cons (ns_arrays n rho moms E)))).
  { intros. apply inc_placed; auto. apply placed_temperature. }
  assert (R1 : forall (l : list string) k (f : unit -> expr),
     map_result (fun m => bind (inc ord d k m) (fun l => Ok (KEq l (f tt)))) (map (fun m => EDat m (here n)) l) =
     Ok (map (fun b => KEq (EDat b (move d k (here n))) (f tt)) l)).
  { intros l k f. rewrite (map_result_ok _ _ _ (fun e => match e with EDat b _ => KEq (EDat b (move d k (here n))) (f tt) | _ => KEq e e end)).
    - rewrite map_map. reflexivity.
    - intros a Ha. apply in_map_iff in Ha. destruct Ha as (b & <- & _). rewrite I. reflexivity. }
  rewrite (R1 moms 0%Z (fun _ => emul [EDat rho (here n); eint 0])). cbn [bind].
  rewrite !IT. cbn [bind]. rewrite I. cbn [bind].
  rewrite (map_result_ok _ _ _ (fun i => KEq (EDat rho (move d (from * i) (here n))) (EDat rho (move d (to * i) (here n))))) by (intros; rewrite !I; reflexivity).
  cbn [bind].
  rewrite (map_result_ok _ _ _ (fun i => map (fun m => KEq (EDat m (move d (from * i) (here n))) (emul [eint (-1); EDat m (move d (to * i) (here n))])) moms)).
  2:{ intros i _. rewrite (map_result_ok _ _ _ (fun e => match e with EDat m _ => KEq (EDat m (move d (from * i) (here n))) (emul [eint (-1); EDat m (move d (to * i) (here n))]) | _ => KEq e e end)).
      - rewrite map_map. reflexivity.
      - intros a Ha. apply in_map_iff in Ha. destruct Ha as (b & <- & _). rewrite !I. reflexivity. }
  cbn [bind].
  rewrite (map_result_ok _ _ _ (fun i => KEq (EDat E (move d (from * i) (here n))) (EDat E (move d (to * i) (here n))))) by (intros; rewrite !I; reflexivity).
  cbn [bind]. f_equal. f_equal. unfold adiabatic_S. rewrite !map_app. cbn [map]. rewrite !map_map. cbn [stm fst snd].
  f_equal. f_equal. f_equal. rewrite flat_map_concat_map, concat_map, map_map. f_equal. apply map_ext. intros i. rewrite map_map. reflexivity.
Qed.
Lemma in_adiabatic : forall n d from to w rho moms E b k r, In (b, k, r) (adiabatic_S n d from to w rho moms E) <->
  (exists i, (1 <= i <= Z.of_nat w)%Z /\ b = rho /\ k = (from * i)%Z /\ r = EDat rho (move d (to * i) (here n))) \/
  (In b moms /\ k = 0%Z /\ r = emul [EDat rho (here n); eint 0]) \/
  (exists i, (1 <= i <= Z.of_nat w)%Z /\ In b moms /\ k = (from * i)%Z /\ r = emul [eint (-1); EDat b (move d (to * i) (here n))]) \/
  (b = E /\ k = 0%Z /\ r = ediv (ediv (emul [EDat rho (here n); adiabatic_T_wall n d to (ns_arrays n rho moms E)]) (emul [gama; Minf; Minf])) (esub gama (eint 1))) \/
  (exists i, (1 <= i <= Z.of_nat w)%Z /\ b = E /\ k = (from * i)%Z /\ r = EDat E (move d (to * i) (here n))).
Proof.
  intros. unfold adiabatic_S. rewrite !in_app_iff. cbn [In]. rewrite !in_map_iff, in_flat_map. split.
  - intros [(i & H & Hi) | [[(m & H & Hm) | (i & Hi & H)] | [H | (i & H & Hi)]]].
    + injection H as <- <- <-. apply in_upto in Hi. left. exists i. auto 6.
    + injection H as <- <- <-. auto.
    + apply in_map_iff in H. destruct H as (m & H & Hm). injection H as <- <- <-. apply in_upto in Hi. right. right. left. exists i. auto 6.
    + injection H as <- <- <-. auto 8.
    + injection H as <- <- <-. apply in_upto in Hi. do 4 right. exists i. auto 6.
  - intros [(i & Hi & -> & -> & ->) | [(Hm & -> & ->) | [(i & Hi & Hm & -> & ->) | [(-> & -> & ->) | (i & Hi & -> & -> & ->)]]]].
    + left. exists i. split; auto. apply in_upto. auto.
    + right. left. left. exists b. auto.
    + right. left. right. exists i. split; [apply in_upto; auto|]. apply in_map_iff. exists b. auto.
    + right. right. left. auto.
    + right. right. right. exists i. split; auto. apply in_upto. auto.
Qed.
