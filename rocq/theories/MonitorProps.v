(** Property C33: monitor scheduling. *)
From Coq Require Import List ZArith Reals Lra Lia Bool Permutation.
From Verif Require Import Base MonitorModel MonitorSpec MonitorProofs.
Import ListNotations.
Local Open Scope R_scope.

(** For any list of monitors (position, identity, requested timestep; negative = output frequency) accepted by addMonitor
    in that order, and any output step accepted by finaliseMonitorPeriods: the resulting step times the period of each
    monitor with its own timestep is that timestep (to 2e-12 relative per operation), the monitors without one get the
    output step, and the number of steps covers the same total time. *)
Theorem C33_periods_match_timesteps : forall l nout out s s' n' step,
  Forall (fun '(_, _, t) => t <> 0) l -> 0 < out ->
  addMonitors l sched0 = Ok s -> finaliseMonitorPeriods nout out s = Ok (s', n', step) ->
  Permutation (map (fun m => (m_id m, m_t m)) (sc_mons s)) (map (fun '(_, i, t) => (i, t)) l) /\
  0 < step /\ (1 <= sc_dperiod s')%Z /\ n' = (nout * sc_dperiod s')%Z /\ close 1 (IZR (sc_dperiod s') * step) out /\
  Forall2 (fun m m' => m_id m' = m_id m /\ (1 <= m_period m')%Z /\
     (m_t m < 0 -> m_period m' = sc_dperiod s') /\
     (0 < m_t m -> m_t m' = m_t m /\ close (S (List.length l)) (IZR (m_period m') * step) (m_t m)))
   (sc_mons s) (sc_mons s').
Proof. exact periods_main. Qed.

(** Driven by [n] internal steps of length dt, a monitor of period p is called at t0 + j p dt for j = 1 .. n/p, with
    counter j-1, and at no other time. *)
Theorem C33_called_when_period_elapsed : forall m dt nout t0 n s,
  NoDup (map m_id (sc_mons s)) -> In m (sc_mons s) -> Forall (fun m => (1 <= m_period m)%Z) (sc_mons s) ->
  exists c, run_loop n 0 t0 dt nout s = Ok c /\
    filter (fun c => (c_id c =? m_id m)%nat) c =
    map (fun j => MkCall (m_id m) (t0 + INR j * (IZR (m_period m) * dt)) (Z.of_nat j - 1) (Z.quot nout (m_period m)))
        (seq 1 (Z.to_nat (Z.of_nat n / m_period m))).
Proof. exact run_schedule. Qed.

(** Partial: Solver::solve as a whole calls every monitor at multiples of its timestep when no monitor is faster than the
    output step ([sc_dperiod s' = 1]). Missing: the case of a faster monitor, where the property is false (below). *)
Theorem C33_solve_schedule_partial : forall l nout out t0 s s' n' step,
  Forall (fun '(_, _, t) => t <> 0) l -> 0 < out -> (0 <= nout)%Z -> NoDup (map (fun '(_, i, _) => i) l) ->
  addMonitors l sched0 = Ok s -> finaliseMonitorPeriods nout out s = Ok (s', n', step) -> sc_dperiod s' = 1%Z ->
  exists c, solve nout out t0 s = Ok c /\
  forall front i t, In (front, i, t) l -> exists p : Z, (1 <= p)%Z /\
    (t < 0 -> p = 1%Z) /\
    (0 < t -> close (2 + List.length l) (IZR p * out) t) /\
    filter (fun c => (c_id c =? i)%nat) c =
      map (fun j => MkCall i (t0 + INR j * (IZR p * out)) (Z.of_nat j - 1) (Z.quot nout p))
          (seq 0 (1 + Z.to_nat (nout / p))).
Proof. exact solve_schedule. Qed.

(** solve() finalises local copies, but run() reads the members set before: a monitor wanting a call every 1 time unit,
    with 5 outputs of 10, is called every 10; and the output-frequency monitor is not called again after the start. *)
Theorem C33_fast_monitor_refuted : exists s c,
  addMonitors [(false, 0%nat, -1); (false, 1%nat, 1)] sched0 = Ok s /\ solve 5 10 0 s = Ok c /\
  map c_time (filter (fun c => (c_id c =? 1)%nat) c) = map (fun j => INR j * 10) (seq 0 6) /\
  map c_time (filter (fun c => (c_id c =? 0)%nat) c) = [0].
Proof.
  destruct fast_finalise as [HA HF]. eexists.
  destruct (solve_general [(false, 0%nat, -1); (false, 1%nat, 1)] 5 10 0 _ _ _ _ ltac:(repeat (constructor; [cbn; intro; lra|]); constructor) ltac:(lra) ltac:(lia)
     ltac:(repeat constructor; cbn; intuition discriminate) HA HF) as (c & E & F).
  exists c. split; [exact HA|]. split; [exact E|].
  assert (HS : solve 5 10 0 (MkSched [MkMon 0 (-1) 1; MkMon 1 1 1] 1 1 false) = Ok c) by exact E.
  unfold solve in HS. rewrite HF in HS. cbn -[IZR Rplus INR] in HS. injection HS as <-. cbn [filter map c_id c_time Nat.eqb seq].
  split; [|reflexivity]. repeat (f_equal; [cbn [INR]; lra|]). f_equal. cbn [INR]; lra.
Qed.
(** A monitor without its own timestep is told a timestep that is not the one it is called with, when the slowest common
    step is longer than the output step: here it is called every 1 but getTimestep() says 10. *)
Theorem C33_default_monitor_timestep_refuted : exists s s' n' step,
  addMonitors [(false, 0%nat, -1); (false, 1%nat, 10)] sched0 = Ok s /\ finaliseMonitorPeriods 5 1 s = Ok (s', n', step) /\
  step = 1 /\ exists m, In m (sc_mons s') /\ m_id m = 0%nat /\ m_period m = 1%Z /\ m_t m = 10.
Proof.
  exists (MkSched [MkMon 0 (-1) 1; MkMon 1 10 1] 1 10 false), (MkSched [MkMon 0 (10 * 1) 1; MkMon 1 10 10] 1 10 false), 5%Z, 1.
  assert (E10 : rround (10 / 1) = 10%Z) by (replace (10 / 1) with (IZR 10) by lra; apply rround_int; lia).
  split.
  - unfold sched0. cbn [addMonitors]. unfold addMonitor, adjustMonitorPeriods. cbn [m_t m_id m_period sc_dperiod sc_internal sc_init sc_mons].
    destruct (Rlt_dec (-1) 0); [|lra]. cbn [bind app sc_mons sc_internal sc_init sc_dperiod negb andb].
    destruct (Rlt_dec 10 0); [lra|]. destruct (Rlt_dec (-1) 0); [|lra]. reflexivity.
  - split.
    + unfold finaliseMonitorPeriods. cbn [sc_internal sc_mons sc_init]. destruct (Rlt_dec 0 10); [|lra].
      unfold isMultiple. destruct (Rlt_dec 0 10); [|lra]. destruct (Rlt_dec 0 1); [|lra]. destruct (Rlt_dec 1 10); [|lra].
      rewrite E10. destruct (Rlt_dec (Rabs ((10 * 1 - 10) / 10)) tol) as [C|C].
      * cbn [bind negb]. destruct (Rlt_dec 10 (1 * (3 / 2))); [lra|]. unfold finalise_defaults, mul_period. cbn [sc_mons sc_dperiod sc_internal sc_init map m_t m_id m_period].
        destruct (Rlt_dec (-1) 0); [|lra]. destruct (Rlt_dec 10 0); [lra|]. reflexivity.
      * exfalso. apply C. replace ((10 * 1 - 10) / 10) with 0 by lra. rewrite Rabs_R0. apply tol_bounds.
    + split; [reflexivity|]. exists (MkMon 0 (10 * 1) 1). split; [now left|]. cbn. repeat split; lra.
Qed.

(** The hypotheses are met: two monitors, finalised with an output step of 10 (see also the refutations). *)
Example C33_case : exists s s', addMonitors [(false, 0%nat, -1); (false, 1%nat, 1)] sched0 = Ok s /\
  finaliseMonitorPeriods 5 10 s = Ok (s', 50%Z, 1) /\ NoDup (map m_id (sc_mons s')) /\ Forall (fun m => (1 <= m_period m)%Z) (sc_mons s').
Proof.
  destruct fast_finalise as [H1 H2]. eexists. eexists. split; [exact H1|]. split; [exact H2|]. cbn.
  split; [repeat constructor; cbn; intuition discriminate|repeat constructor; cbn; lia].
Qed.

Print Assumptions C33_periods_match_timesteps.
Print Assumptions C33_called_when_period_elapsed.
Print Assumptions C33_solve_schedule_partial.
Print Assumptions C33_fast_monitor_refuted.
Print Assumptions C33_default_monitor_timestep_refuted.
