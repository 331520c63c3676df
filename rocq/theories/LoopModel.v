(** Model of the time loops of the explicit solvers: EulerSolver::run, RK4Solver::run, RK3SSP::run, RKGenericSolver::run and
    SplitRK::run (src/solver/impls/{euler,rk4,rk3-ssp,rkgeneric,split-rk}).

    Simplifications.
    - [BoutReal] is [R]. The state vector is a function of the index (RkModel).
    - [take_step] is an arbitrary function [step t dt y] (C35 for the particular ones); what calls of
      [Solver::setMaxTimestep] made by the user's right hand side do to the member [timestep] during a step is an arbitrary
      function [lim].
    - The error norm (a sum over the points of all processors) is an arbitrary function of the two solutions; [pow] with
      its fractional exponents is an arbitrary function.
    - Loops take fuel; [NoFuel] is a run that has not ended within it. *)
From Coq Require Import List Arith Reals Bool.
Import ListNotations.
Local Open Scope R_scope.

Notation vec := (nat -> R).

Inductive outcome (A : Type) := Done (a : A) | Thrown | NoFuel.
Arguments Done {A} a.
Arguments Thrown {A}.
Arguments NoFuel {A}.

(** What one pass of the loop body produces: the step taken, the flag [running], the member [timestep], the new state and
    the counter [internal_steps]. *)
Record iter := { i_dt : R; i_running : bool; i_timestep : R; i_state : vec; i_count : nat }.

(** The first lines of every internal step, e.g. rk4.cxx:96-101:
    [dt = timestep; running = true; if ((simtime + dt) >= target) { dt = target - simtime; running = false; }] *)
Definition trim (simtime timestep target : R) : R * bool :=
  if Rle_dec target (simtime + timestep) then (target - simtime, false) else (timestep, true).

Record config := {
  step : R -> R -> vec -> vec;             (* take_step(curtime, dt, start, result) *)
  lim : R -> R -> vec -> R -> R;           (* effect of setMaxTimestep calls on timestep during the steps from (t, dt, y) *)
  adaptive : bool;
  rtol : R;
  max_timestep : R;
  mxstep : nat;
  errnorm : vec -> vec -> R;               (* error from the full step and the two half steps *)
  powfac : R -> R;                         (* pow(err / (0.5 * rtol), 0.2), etc. *)
  adapt_period : nat }.

(** rk4.cxx:127-130: [if ((max_timestep > 0) && (timestep > max_timestep)) timestep = max_timestep;] *)
Definition clip (c : config) (timestep : R) : R :=
  if Rlt_dec 0 (max_timestep c) then if Rlt_dec (max_timestep c) timestep then max_timestep c else timestep else timestep.

(** src/solver/impls/rk4/rk4.cxx:93-143, the inner do-while. [rtol] tests: lines 123 and 132. *)
Fixpoint rk4_internal (c : config) (fuel : nat) (simtime target timestep : R) (f0 : vec) (count : nat) : outcome iter :=
  match fuel with
  | O => NoFuel
  | S fuel =>
      let '(dt, running) := trim simtime timestep target in
      if adaptive c then
        let f1 := step c simtime (0.5 * dt) f0 in
        let f2 := step c (simtime + 0.5 * dt) (0.5 * dt) f1 in
        let f1 := step c simtime dt f0 in
        let timestep := lim c simtime dt f0 timestep in
        let err := errnorm c f1 f2 in
        let count := S count in
        if (mxstep c <? count)%nat then Thrown
        else
          let timestep :=
            if Rlt_dec (rtol c) err then clip c (timestep / powfac c err)
            else if Rlt_dec err (0.1 * rtol c) then clip c (timestep / powfac c err) else timestep in
          if Rlt_dec err (rtol c)
          then Done {| i_dt := dt; i_running := running; i_timestep := timestep; i_state := f2; i_count := count |}
          else rk4_internal c fuel simtime target timestep f0 count
      else Done {| i_dt := dt; i_running := running; i_timestep := timestep; i_state := step c simtime dt f0; i_count := count |}
  end.

(** src/solver/impls/rkgeneric/rkgeneric.cxx:101-143, the inner do-while. The solution and its error estimate come from one
    call of take_step (lines 113): [errnorm] is applied to the state followed and the alternative one, given by [alt]. *)
Fixpoint rkgeneric_internal (c : config) (alt : R -> R -> vec -> vec) (newdt : R -> R -> R) (fuel : nat)
  (simtime target timestep : R) (f0 : vec) (count : nat) : outcome iter :=
  match fuel with
  | O => NoFuel
  | S fuel =>
      let '(dt, running) := trim simtime timestep target in
      let f2 := step c simtime dt f0 in
      let err := errnorm c f2 (alt simtime dt f0) in
      let timestep := if adaptive c then lim c simtime dt f0 timestep else timestep in
      if adaptive c then
        let count := S count in
        if (mxstep c <? count)%nat then Thrown
        else
          let timestep :=
            if Rlt_dec (rtol c) err then clip c (newdt dt err)
            else if Rlt_dec err (0.1 * rtol c) then if running then clip c (newdt dt err) else timestep
            else timestep in
          if Rlt_dec err (rtol c)
          then Done {| i_dt := dt; i_running := running; i_timestep := timestep; i_state := f2; i_count := count |}
          else rkgeneric_internal c alt newdt fuel simtime target timestep f0 count
      else Done {| i_dt := dt; i_running := running; i_timestep := timestep; i_state := f2; i_count := count |}
  end.

(** src/solver/impls/rk3-ssp/rk3-ssp.cxx:75-85 *)
Definition rk3ssp_internal (c : config) (simtime target timestep : R) (f : vec) (count : nat) : outcome iter :=
  let '(dt, running) := trim simtime timestep target in
  Done {| i_dt := dt; i_running := running; i_timestep := lim c simtime dt f timestep; i_state := step c simtime dt f;
          i_count := count |}.

(** src/solver/impls/euler/euler.cxx:75-124. [reduce t y dt] is the smallest value that a processor's calls of
    setMaxTimestep (euler.cxx:26-34) leave in [timestep] when the right hand side is evaluated at [(t, y)] while the member
    is [dt], [None] when none reduced it; the second evaluation, with the smaller step, is assumed not to reduce it again
    (with the code's own rule it cannot: the new value is already below the limit). *)
Definition euler_internal (c : config) (reduce : R -> vec -> R -> option R) (simtime target timestep : R) (f0 : vec)
  (count : nat) : outcome iter :=
  let dt_limit := timestep in
  let '(timestep, running) := trim simtime timestep target in
  let old_timestep := timestep in
  let newdt := match reduce simtime f0 old_timestep with Some d => d | None => 10 * old_timestep end in
  let '(timestep, dt_limit, running) :=
    if Rlt_dec newdt old_timestep then (newdt, newdt, true) else (timestep, dt_limit, running) in
  let f1 := step c simtime timestep f0 in
  let count := S count in
  if (mxstep c <? count)%nat then Thrown
  else Done {| i_dt := timestep; i_running := running; i_timestep := dt_limit; i_state := f1; i_count := count |}.

(** src/solver/impls/split-rk/split-rk.cxx:96-180: the body of the loop over internal steps; the inner do-while of the
    adaptive branch (lines 98-163) and the other branch (lines 164-177), which steps by [timestep] and not by [dt]. *)
Fixpoint splitrk_adapt (c : config) (fuel : nat) (simtime target timestep : R) (f0 : vec) (count : nat) : outcome iter :=
  match fuel with
  | O => NoFuel
  | S fuel =>
      let '(dt, running) := trim simtime timestep target in
      let f1 := step c simtime (0.5 * dt) f0 in
      let f2 := step c (simtime + 0.5 * dt) (0.5 * dt) f1 in
      let f1 := step c simtime dt f0 in
      let timestep := lim c simtime dt f0 timestep in
      let err := errnorm c f1 f2 in
      let count := S count in
      if (mxstep c <? count)%nat then Thrown
      else
        let timestep :=
          if Rlt_dec (rtol c) err then clip c (timestep * powfac c err)
          else if Rlt_dec err (0.1 * rtol c) then clip c (timestep * powfac c err) else timestep in
        if Rlt_dec err (rtol c)
        then Done {| i_dt := dt; i_running := running; i_timestep := timestep; i_state := f2; i_count := count |}
        else splitrk_adapt c fuel simtime target timestep f0 count
  end.
Definition splitrk_internal (c : config) (fuel : nat) (simtime target timestep : R) (f0 : vec) (count : nat)
  : outcome iter :=
  if adaptive c && (count mod adapt_period c =? 0)%nat
  then splitrk_adapt c fuel simtime target timestep f0 count
  else
    let '(dt, running) := trim simtime timestep target in
    Done {| i_dt := dt; i_running := running; i_timestep := timestep; i_state := step c simtime timestep f0;
            i_count := S count |}.

(** The loop over the internal steps of one output step, common to all: e.g. rk4.cxx:90-150
    [do { ...; swap(f2, f0); simtime += dt; call_timestep_monitors(simtime, dt); } while (running);] *)
Fixpoint output_loop (internal : R -> R -> R -> vec -> nat -> outcome iter) (fuel : nat) (target simtime timestep : R)
  (y : vec) (count : nat) : outcome (R * R * vec) :=
  match fuel with
  | O => NoFuel
  | S fuel =>
      match internal simtime target timestep y count with
      | Done r =>
          let simtime := simtime + i_dt r in
          if i_running r then output_loop internal fuel target simtime (i_timestep r) (i_state r) (i_count r)
          else Done (simtime, i_timestep r, i_state r)
      | Thrown => Thrown
      | NoFuel => NoFuel
      end
  end.

(** The loop over output steps, e.g. rk4.cxx:82-163: [target = simtime + getOutputTimestep()], the internal steps, then
    [load_vars; run_rhs; if (call_monitors(simtime, s, nout)) break;]. Returns the calls of the monitors and the final
    (simtime, timestep, state); [quit] is what the monitors answer. *)
Fixpoint run_loop (internal : R -> R -> R -> vec -> nat -> outcome iter) (quit : R -> nat -> vec -> bool) (fuel : nat)
  (output_step : R) (n s : nat) (simtime timestep : R) (y : vec) : outcome (list (R * nat * vec) * (R * R * vec)) :=
  match n with
  | O => Done ([], (simtime, timestep, y))
  | S n =>
      match output_loop internal fuel (simtime + output_step) simtime timestep y 0 with
      | Done (simtime, timestep, y) =>
          if quit simtime s y then Done ([(simtime, s, y)], (simtime, timestep, y))
          else
            match run_loop internal quit fuel output_step n (S s) simtime timestep y with
            | Done (calls, fin) => Done ((simtime, s, y) :: calls, fin)
            | Thrown => Thrown
            | NoFuel => NoFuel
            end
      | Thrown => Thrown
      | NoFuel => NoFuel
      end
  end.
