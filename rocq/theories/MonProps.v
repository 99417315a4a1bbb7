(* C57: simulation monitors.  (When they fire is part of C17: step 1 and every
   multiple of the frequency; restated here.) *)
From Verif Require Import Base AlgModel AlgSpec AlgProofs AlgProps MonModel MonProofs.
Local Open Scope list_scope.

(* The monitor is accepted exactly for as many locations as arrays, and then
   there is one probe per pair, in order. *)
Theorem C57_one_probe_per_pair :
  forall arrays locs,
    (List.length arrays <> List.length locs -> simulation_monitor arrays locs = Err ValueError) /\
    (List.length arrays = List.length locs ->
     exists ms, simulation_monitor arrays locs = Ok ms /\
       map m_var ms = arrays /\ map m_loc ms = locs /\
       NoDup (map output_name ms) /\ NoDup (map reduce_name ms) /\ NoDup (map range_name ms)).
Proof.
  intros arrays locs. unfold simulation_monitor. split; intros H.
  - destruct (Nat.eqb_spec (List.length arrays) (List.length locs)); [contradiction|reflexivity].
  - rewrite H, Nat.eqb_refl. eexists. split; [reflexivity|].
    destruct (number_spec arrays locs 0 H) as (A & B & C).
    split; [exact A|]. split; [exact B|].
    assert (N : NoDup (map m_no (number_monitors 0 arrays locs))) by (rewrite C; apply seq_NoDup).
    split; [|split]; apply nodup_by_no; auto.
    + apply output_name_no.
    + intros m m' E. apply BaseProofs.append_cancel_l in E. apply dec_sep in E. apply E.
    + intros m m' E. apply BaseProofs.append_cancel_l in E. apply dec_sep in E. apply E.
Qed.
Print Assumptions C57_one_probe_per_pair.

(* The printed line has one placeholder per value: step, time, one per probe. *)
Theorem C57_format :
  forall precision ms,
    let '(fmt, args) := format_output precision ms in
    percents fmt = List.length args /\ List.length args = List.length ms + 2.
Proof.
  intros p ms. unfold format_output. rewrite percents_placeholders, app_length, map_length. cbn. lia.
Qed.
Print Assumptions C57_format.

(* Each probe yields the value of the field at its own location. *)
Theorem C57_probe_value :
  forall (V : Type) (zero : V) (field : list Z -> V) ndim m r,
    reduction_range ndim m = Ok r ->
    List.length (m_loc m) = ndim /\ reduce zero field r = field (m_loc m).
Proof.
  intros V zero field ndim m r H. unfold reduction_range in H.
  destruct ((1 <=? ndim)%nat && (ndim <=? 3)%nat); [|discriminate].
  destruct (Nat.eqb_spec (List.length (m_loc m)) ndim) as [E|E]; [|discriminate].
  injection H as <-. split; [exact E|]. unfold reduce. rewrite points_one. reflexivity.
Qed.
Print Assumptions C57_probe_value.

(* The monitor fires in the first step and in every step whose number is a
   multiple of the frequency, once, and in no other. *)
Theorem C57_fires :
  forall (K : Type) (b : block K) sc s f rqs prg nst niter it,
    bk_schemes b = [sc] -> sc_iter sc = SNiter -> sc_stage sc = SNum nst ->
    sims (sc_solution sc) = [s] -> made_from rqs (bk_io b) ->
    generate_solution b (Some f) = Ok prg -> f <> 0%Z ->
    (In (EMonitor it) (execute niter prg) <->
     (0 <= it < niter)%Z /\ (it = 0 \/ (f | it + 1))%Z).
Proof.
  intros K b sc s f rqs prg nst niter it H1 H2 H3 H4 H5 G Hf.
  destruct (made_from_made _ _ H5) as [D M].
  destruct (single_block_trace K b sc s (Some f) rqs prg nst niter H1 H2 H3 H4 D M G) as (ns & _ & ->).
  assert (NA : forall i st (ks : list K), ~ In (EMonitor it) (at_ i st ks)).
  { intros i st ks H. apply in_map_iff in H. destruct H as (k & E & _). discriminate. }
  unfold program_trace. rewrite !in_app_iff, !in_flat_map. split.
  - intros [H|[(i & Hi & H)|[H|(r & _ & H)]]]; try (exfalso; eapply NA; eassumption).
    + apply in_upto in Hi. unfold step in H. rewrite !in_app_iff, !in_flat_map in H.
      destruct H as [H|[(st & _ & H)|[H|[H|[(r & _ & H)|H]]]]]; try (exfalso; eapply NA; eassumption).
      * cbn in H. destruct ((i =? 0)%Z || multiple f i) eqn:E; [|destruct H].
        destruct H as [H|[]]. injection H as ->. split; auto.
        apply orb_true_iff in E. destruct E as [E|E].
        -- left. apply Z.eqb_eq in E. auto.
        -- right. unfold multiple in E. apply Z.eqb_eq in E. apply Z.mod_divide in E; auto.
      * unfold written_in in H. destruct (is_write r && _ && _); [destruct H as [H|[]]; discriminate | destruct H].
    + unfold written_at_end in H. destruct (is_write r); [destruct H as [H|[]]; discriminate | destruct H].
  - intros [Hi Hd]. right. left. exists it. split; [apply in_upto; auto|].
    unfold step. rewrite !in_app_iff. do 3 right. left. cbn.
    assert (E : (it =? 0)%Z || multiple f it = true).
    { apply orb_true_iff. destruct Hd as [-> | Hd]; [left; reflexivity|right].
      unfold multiple. apply Z.eqb_eq. apply Z.mod_divide; auto. }
    rewrite E. left. reflexivity.
Qed.
Print Assumptions C57_fires.

Example C57_nonvacuous :
  (exists ms, simulation_monitor ["rho"; "p_mean"]%string [[3; 4]; [0; 0]]%Z = Ok ms /\
    format_output 10 ms = ("%d, %.10f, %.10f, %.10f",
      ["iter+1"; "(iter+1)*dt"; "rho_0_output"; "p_mean_1_output/(iter+1)"])%string /\
    map (reduction_range 2) ms = [Ok [(3, 4); (4, 5)]; Ok [(0, 1); (0, 1)]]%Z) /\
  simulation_monitor ["rho"]%string [] = Err ValueError.
Proof. split; [eexists; split; [reflexivity|]; split; reflexivity | reflexivity]. Qed.
