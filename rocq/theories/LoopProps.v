(** C49: every output step ends exactly on the output time, tiled by the internal steps that advanced the state. *)
From Coq Require Import List Arith Reals Bool Lia Lra FunctionalExtensionality.
From Verif Require Import LoopSpec LoopModel LoopProofs.
Import ListNotations.
Local Open Scope R_scope.

(** What a run that returns has done: the monitors were called once per output step with numbers 0, 1, ... at times
    [t + output_step], [t + 2 output_step], ..., each with the state obtained from the previous one by internal steps
    that tile the interval; it stopped early only if a monitor asked for it. *)
Definition run_is_right (stepf : R -> R -> vec -> vec) (ok : R -> R -> vec -> Prop)
  (quit : R -> nat -> vec -> bool) (T : R) (n : nat) (t : R) (y : vec)
  (calls : list (R * nat * vec)) (t' : R) : Prop :=
  monitor_calls stepf ok T t 0 y calls /\ (length calls <= n)%nat /\ t' = t + INR (length calls) * T /\
  ((length calls < n)%nat -> exists tq sq yq pre, calls = pre ++ [(tq, sq, yq)] /\ quit tq sq yq = true).

Theorem C49_rk4_adaptive : forall c fuel fuel' quit T n t ts y calls t' ts' y',
  sane c -> adaptive c = true -> 0 < T -> limited c ts ->
  run_loop (rk4_internal c fuel) quit fuel' T n 0 t ts y = Done (calls, (t', ts', y')) ->
  run_is_right (half_steps (step c))
    (fun t d y => within c d /\ errnorm c (step c t d y) (half_steps (step c) t d y) < rtol c) quit T n t y calls t'.
Proof.
  intros c fuel fuel' quit T n t ts y calls t' ts' y' Hs Ha HT Hl H.
  exact (run_good _ _ _ _ (rk4_good_adaptive c fuel Hs Ha) quit fuel' T n 0 t ts y calls t' ts' y' HT Hl H).
Qed.

Theorem C49_rk4_fixed : forall c fuel quit T n t ts y,
  adaptive c = false -> limited c ts -> 0 < T <= ts * INR fuel ->
  exists calls t' ts' y',
    run_loop (rk4_internal c 1) quit fuel T n 0 t ts y = Done (calls, (t', ts', y')) /\
    run_is_right (step c) (fun _ d _ => within c d) quit T n t y calls t'.
Proof.
  intros c fuel quit T n t ts y Ha Hl HT.
  destruct (run_fixed _ quit fuel T n 0 t ts y (proj1 Hl) (rk4_fixed c 0 ts Ha) HT) as (calls & ((t' & ts') & y') & E).
  exists calls, t', ts', y'. split; [exact E|].
  exact (run_good _ _ _ _ (rk4_good_fixed c 1 Ha) quit fuel T n 0 t ts y calls t' ts' y' (proj1 HT) Hl E).
Qed.

Theorem C49_rkgeneric_adaptive : forall c alt newdt fuel fuel' quit T n t ts y calls t' ts' y',
  sane c -> (forall dt e, 0 < dt -> 0 < newdt dt e) -> adaptive c = true -> 0 < T -> limited c ts ->
  run_loop (rkgeneric_internal c alt newdt fuel) quit fuel' T n 0 t ts y = Done (calls, (t', ts', y')) ->
  run_is_right (step c) (fun t d y => within c d /\ errnorm c (step c t d y) (alt t d y) < rtol c) quit T n t y calls t'.
Proof.
  intros c alt newdt fuel fuel' quit T n t ts y calls t' ts' y' Hs Hn Ha HT Hl H.
  exact (run_good _ _ _ _ (rkgeneric_good_adaptive c alt newdt fuel Hs Hn Ha) quit fuel' T n 0 t ts y calls t' ts' y' HT Hl H).
Qed.

Theorem C49_rkgeneric_fixed : forall c alt newdt fuel quit T n t ts y,
  adaptive c = false -> limited c ts -> 0 < T <= ts * INR fuel ->
  exists calls t' ts' y',
    run_loop (rkgeneric_internal c alt newdt 1) quit fuel T n 0 t ts y = Done (calls, (t', ts', y')) /\
    run_is_right (step c) (fun _ d _ => within c d) quit T n t y calls t'.
Proof.
  intros c alt newdt fuel quit T n t ts y Ha Hl HT.
  destruct (run_fixed _ quit fuel T n 0 t ts y (proj1 Hl) (rkgeneric_fixed c alt newdt 0 ts Ha) HT) as (calls & ((t' & ts') & y') & E).
  exists calls, t', ts', y'. split; [exact E|].
  exact (run_good _ _ _ _ (rkgeneric_good_fixed c alt newdt 1 Ha) quit fuel T n 0 t ts y calls t' ts' y' (proj1 HT) Hl E).
Qed.

(** RK3SSP never adapts on its own; the right hand side may lower the step. *)
Theorem C49_rk3ssp : forall c fuel quit T n t ts y calls t' ts' y', sane c -> 0 < T -> 0 < ts ->
  run_loop (rk3ssp_internal c) quit fuel T n 0 t ts y = Done (calls, (t', ts', y')) ->
  run_is_right (step c) (fun _ _ _ => True) quit T n t y calls t'.
Proof.
  intros c fuel quit T n t ts y calls t' ts' y' Hs HT Hts H.
  exact (run_good _ _ _ _ (rk3ssp_good c Hs) quit fuel T n 0 t ts y calls t' ts' y' HT Hts H).
Qed.
Theorem C49_rk3ssp_terminates : forall c fuel quit T n t ts y, (forall t dt y x, lim c t dt y x = x) ->
  0 < ts -> 0 < T <= ts * INR fuel ->
  exists calls fin, run_loop (rk3ssp_internal c) quit fuel T n 0 t ts y = Done (calls, fin).
Proof. intros c fuel quit T n t ts y Hl Hts HT. exact (run_fixed _ quit fuel T n 0 t ts y Hts (rk3ssp_fixed c ts Hl) HT). Qed.

(** Euler: every step also respects the limit that the right hand side asks for where the step starts. *)
Theorem C49_euler : forall c reduce fuel quit T n t ts y calls t' ts' y',
  (forall t y dt d, 0 < dt -> reduce t y dt = Some d -> 0 < d) -> 0 < T -> 0 < ts ->
  run_loop (euler_internal c reduce) quit fuel T n 0 t ts y = Done (calls, (t', ts', y')) ->
  run_is_right (step c) (fun t d y => exists dt, d <= dt /\ forall d', reduce t y dt = Some d' -> d <= d') quit T n t y calls t'.
Proof.
  intros c reduce fuel quit T n t ts y calls t' ts' y' Hr HT Hts H.
  exact (run_good _ _ _ _ (euler_good c reduce Hr) quit fuel T n 0 t ts y calls t' ts' y' HT Hts H).
Qed.

(** The loops that count their steps always end: within [mxstep + 1] passes they have finished or thrown. *)
Theorem C49_counted_loops_end : forall c alt newdt reduce quit T n t ts y,
  (adaptive c = true ->
     run_loop (rk4_internal c (S (mxstep c))) quit (S (mxstep c)) T n 0 t ts y <> NoFuel /\
     run_loop (rkgeneric_internal c alt newdt (S (mxstep c))) quit (S (mxstep c)) T n 0 t ts y <> NoFuel) /\
  run_loop (euler_internal c reduce) quit (S (mxstep c)) T n 0 t ts y <> NoFuel.
Proof.
  intros c alt newdt reduce quit T n t ts y. split; [intros Ha; split|].
  - apply (run_counted _ (mxstep c)); [apply rk4_counted; [exact Ha|lia]|lia].
  - apply (run_counted _ (mxstep c)); [apply rkgeneric_counted; [exact Ha|lia]|lia].
  - apply (run_counted _ (mxstep c)); [apply euler_counted|lia].
Qed.

(** SplitRK, when the error is checked at every step (the default period). *)
Theorem C49_splitrk_every_step : forall c fuel fuel' quit T n t ts y calls t' ts' y',
  sane c -> adaptive c = true -> adapt_period c = 1%nat -> 0 < T -> limited c ts ->
  run_loop (splitrk_internal c fuel) quit fuel' T n 0 t ts y = Done (calls, (t', ts', y')) ->
  run_is_right (half_steps (step c))
    (fun t d y => within c d /\ errnorm c (step c t d y) (half_steps (step c) t d y) < rtol c) quit T n t y calls t'.
Proof.
  intros c fuel fuel' quit T n t ts y calls t' ts' y' Hs Ha Hp HT Hl H.
  exact (run_good _ _ _ _ (splitrk_every_step c fuel Hs Ha Hp) quit fuel' T n 0 t ts y calls t' ts' y' HT Hl H).
Qed.

(** SplitRK without adaptation: init makes [timestep] an integer fraction of the output step. *)
Lemma splitrk_fixed_aux : forall c ts fuel' k fuel target t y count, adaptive c = false -> 0 < ts ->
  target - t = INR (S k) * ts -> (S k <= fuel)%nat ->
  exists y', output_loop (splitrk_internal c fuel') fuel target t ts y count = Done (target, ts, y') /\
    advances (step c) (fun _ d _ => d = ts) t y (repeat ts (S k)) target y'.
Proof.
  intros c ts fuel'. induction k as [|k IH]; intros fuel target t y count Ha Hts He Hf; (destruct fuel as [|fuel]; [lia|]);
    cbn [output_loop]; unfold splitrk_internal; rewrite Ha; cbn [andb]; unfold trim; destruct (Rle_dec _ _) as [Hle|Hgt];
    cbn [i_dt i_running i_timestep i_state i_count].
  - change (INR 1) with 1 in He. eexists. split.
    + replace (t + (target - t)) with target by ring. reflexivity.
    + cbn [repeat]. constructor; [exact Hts|reflexivity|]. replace (t + ts) with target by lra. constructor.
  - change (INR 1) with 1 in He. lra.
  - rewrite S_INR in He. pose proof (pos_INR k). rewrite S_INR in He.
    assert (0 < (INR k + 1) * ts) by (apply Rmult_lt_0_compat; lra). lra.
  - assert (He' : target - (t + ts) = INR (S k) * ts) by (rewrite S_INR in He; lra).
    destruct (IH fuel target (t + ts) (step c t ts y) (S count) Ha Hts He' ltac:(lia)) as (y' & E & Hadv).
    unfold splitrk_internal in E. rewrite Ha in E. cbn [andb] in E. exists y'. split; [exact E|].
    cbn [repeat]. constructor; [exact Hts|reflexivity|exact Hadv].
Qed.
Theorem C49_splitrk_fixed : forall c fuel k fuel' T t y, adaptive c = false -> 0 < T -> (S k <= fuel)%nat ->
  exists y', output_loop (splitrk_internal c fuel') fuel (t + T) t (T / INR (S k)) y 0 = Done (t + T, T / INR (S k), y') /\
    advances (step c) (fun _ d _ => d = T / INR (S k)) t y (repeat (T / INR (S k)) (S k)) (t + T) y'.
Proof.
  intros c fuel k fuel' T t y Ha HT Hf. pose proof (lt_0_INR (S k) ltac:(lia)).
  apply splitrk_fixed_aux; [exact Ha|apply Rdiv_lt_0_compat; lra|field; lra|exact Hf].
Qed.

(** SplitRK, adaptive but with the error checked only every second step: the steps in between advance the state by
    [timestep] even when the last one was cut to land on the output time, so the state is ahead of the clock. *)
Theorem C49_splitrk_period_refuted :
  ~ (forall c fuel fuel' T t ts y t' ts' y', sane c -> adaptive c = true -> (0 < adapt_period c)%nat -> 0 < T -> limited c ts ->
       (forall t d y, step c t d y = (fun i => y i + d)) ->   (* a right hand side equal to 1 *)
       output_loop (splitrk_internal c fuel) fuel' (t + T) t ts y 0 = Done (t', ts', y') ->
       y' 0%nat - y 0%nat = t' - t).
Proof.
  intros H.
  set (c := {| step := fun _ d y i => y i + d; lim := fun _ _ _ x => x; adaptive := true; rtol := 1; max_timestep := 0;
               mxstep := 10; errnorm := fun _ _ => / 2; powfac := fun _ => 1; adapt_period := 2 |}).
  assert (E : exists y', output_loop (splitrk_internal c 1) 2 (0 + 1) 0 (3/4) (fun _ => 0) 0 = Done (0 + 3/4 + (0 + 1 - (0 + 3/4)), 3/4, y') /\ y' 0%nat = 3/2).
  { assert (E1 : splitrk_internal c 1 0 (0 + 1) (3/4) (fun _ => 0) 0
                 = Done {| i_dt := 3/4; i_running := true; i_timestep := 3/4;
                           i_state := (fun _ => 0 + 0.5 * (3/4) + 0.5 * (3/4)); i_count := 1 |}).
    { unfold splitrk_internal. change (adaptive c && (0 mod adapt_period c =? 0)%nat)%bool with true. cbv iota.
      cbn [splitrk_adapt]. unfold trim. destruct (Rle_dec (0 + 1) (0 + 3/4)) as [Hle|_]; [lra|].
      change (mxstep c <? 1)%nat with false. cbv iota. cbn [c lim errnorm rtol step powfac].
      destruct (Rlt_dec 1 (/ 2)) as [Hb|_]; [lra|]. destruct (Rlt_dec (/ 2) (0.1 * 1)) as [Hb|_]; [lra|].
      destruct (Rlt_dec (/ 2) 1) as [_|Hb]; [|lra]. reflexivity. }
    assert (E2 : forall y, splitrk_internal c 1 (0 + 3/4) (0 + 1) (3/4) y 1
                 = Done {| i_dt := 0 + 1 - (0 + 3/4); i_running := false; i_timestep := 3/4;
                           i_state := (fun i => y i + 3/4); i_count := 2 |}).
    { intros y. unfold splitrk_internal. change (adaptive c && (1 mod adapt_period c =? 0)%nat)%bool with false. cbv iota.
      unfold trim. destruct (Rle_dec (0 + 1) (0 + 3/4 + 3/4)) as [_|Hb]; [|lra]. reflexivity. }
    cbn [output_loop]. rewrite E1. cbn [i_dt i_running i_timestep i_state i_count]. rewrite E2.
    cbn [i_dt i_running i_timestep i_state i_count]. eexists. split; [reflexivity|]. cbv beta. lra. }
  destruct E as (y' & E & Ey).
  assert (Hs : sane c) by (split; cbn; intros; lra).
  specialize (H c 1%nat 2%nat 1 0 (3/4) (fun _ => 0) _ _ y' Hs eq_refl ltac:(cbn; lia) ltac:(lra) ltac:(split; cbn; lra) ltac:(reflexivity) E). cbv beta in H. lra.
Qed.

(** Non-vacuity: two output steps of length 1 with internal step 3/4, right hand side 1. *)
Example C49_case :
  let c := {| step := fun _ d y i => y i + d; lim := fun _ _ _ x => x; adaptive := false; rtol := 1; max_timestep := 3/4;
              mxstep := 10; errnorm := fun _ _ => 0; powfac := fun _ => 1; adapt_period := 1 |} in
  sane c /\ limited c (3/4) /\ 0 < 1 <= (3/4) * INR 2 /\
  exists calls fin, run_loop (rk4_internal c 1) (fun _ _ _ => false) 2 1 2 0 0 (3/4) (fun _ => 0) = Done (calls, fin).
Proof.
  cbv zeta. set (c := {| step := _ |}).
  assert (Hl : limited c (3/4)) by (split; cbn; lra).
  assert (HT : 0 < 1 <= (3/4) * INR 2) by (cbn [INR]; lra).
  split; [split; cbn; intros; lra|]. split; [exact Hl|]. split; [exact HT|].
  destruct (C49_rk4_fixed c 2 (fun _ _ _ => false) 1 2 0 (3/4) (fun _ => 0) eq_refl Hl HT) as (calls & t' & ts' & y' & E & _).
  eauto.
Qed.

Print Assumptions C49_rk4_adaptive.
Print Assumptions C49_rk4_fixed.
Print Assumptions C49_rkgeneric_adaptive.
Print Assumptions C49_rk3ssp.
Print Assumptions C49_euler.
Print Assumptions C49_counted_loops_end.
Print Assumptions C49_splitrk_every_step.
Print Assumptions C49_splitrk_fixed.
Print Assumptions C49_splitrk_period_refuted.
