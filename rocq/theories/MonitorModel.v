(** Model of the monitor scheduling of include/bout/monitor.hxx and src/solver/solver.cxx. Time steps are real numbers
    (not floating point), periods are integers that do not overflow. *)
From Coq Require Import List ZArith Reals Bool.
From Verif Require Import Base.
Import ListNotations.
Local Open Scope R_scope.

(** std::round: nearest integer, halves away from zero. *)
Definition rfloor (x : R) : Z := (up x - 1)%Z.
Definition rround (x : R) : Z := if Rlt_dec x 0 then (- rfloor (- x + / 2))%Z else rfloor (x + / 2).

(** monitor.hxx:16-25 isMultiple; the ASSERT2s throw (CHECK >= 2). *)
Definition tol : R := / 10 ^ 12.
Definition isMultiple (a b : R) : res bool :=
  if Rlt_dec 0 a then if Rlt_dec 0 b then
    let mn := if Rlt_dec b a then b else a in
    let mx := if Rlt_dec b a then a else b in
    let ratio := IZR (rround (mx / mn)) in
    let error := ratio * mn - mx in
    Ok (if Rlt_dec (Rabs (error / mx)) tol then true else false)
  else Throw else Throw.

(** monitor.hxx:72-78: id stands for the object's identity. *)
Record mon := MkMon { m_id : nat; m_t : R; m_period : Z }.
(** solver.hxx:552-554 and the list of monitors. *)
Record sched := MkSched { sc_mons : list mon; sc_dperiod : Z; sc_internal : R; sc_init : bool }.
(** solver.hxx:552-554 initial values. *)
Definition sched0 : sched := MkSched [] 1 (-1) false.

Definition mul_period (k : Z) (m : mon) : mon := MkMon (m_id m) (m_t m) (m_period m * k).

(** solver.cxx:751-799 adjustMonitorPeriods: new monitor, new list/default period, returned internal timestep. *)
Definition adjustMonitorPeriods (m : mon) (s : sched) : res (mon * sched) :=
  if Rlt_dec (m_t m) 0 then
    Ok (MkMon (m_id m) (m_t m) (sc_dperiod s), s)
  else if negb (sc_init s) && (if Rlt_dec (sc_internal s) 0 then true else false) then
    Ok (m, MkSched (sc_mons s) (sc_dperiod s) (m_t m) (sc_init s))
  else
    do mult <- isMultiple (sc_internal s) (m_t m);
    if negb mult then Throw
    else if Rlt_dec (sc_internal s * (3 / 2)) (m_t m) then
      Ok (MkMon (m_id m) (m_t m) (rround (m_t m / sc_internal s)), s)
    else if sc_init s then Throw
    else
      let k := rround (sc_internal s / m_t m) in
      Ok (m, MkSched (map (mul_period k) (sc_mons s)) (sc_dperiod s * k) (m_t m) (sc_init s)).

(** solver.cxx:837-848 addMonitor; [front] is MonitorPosition::FRONT. *)
Definition addMonitor (front : bool) (m : mon) (s : sched) : res sched :=
  do r <- adjustMonitorPeriods m s;
  let (m', s') := r in
  Ok (MkSched (if front then m' :: sc_mons s' else sc_mons s' ++ [m']) (sc_dperiod s') (sc_internal s') (sc_init s')).

(** Several addMonitor calls on freshly constructed monitors (period{1}, monitor.hxx:77). *)
Fixpoint addMonitors (l : list (bool * nat * R)) (s : sched) : res sched :=
  match l with
  | [] => Ok s
  | (front, id, t) :: r => do s' <- addMonitor front (MkMon id t 1) s; addMonitors r s'
  end.

(** solver.cxx:801-835 finaliseMonitorPeriods(NOUT, output_timestep): new state, NOUT and output_timestep. The
    time_dimension labels are not modelled. *)
Definition finalise_defaults (s : sched) : sched :=
  MkSched (map (fun m => if Rlt_dec (m_t m) 0 then MkMon (m_id m) (sc_internal s * IZR (sc_dperiod s)) (sc_dperiod s) else m)
               (sc_mons s)) (sc_dperiod s) (sc_internal s) (sc_init s).
Definition finaliseMonitorPeriods (nout : Z) (out : R) (s : sched) : res (sched * Z * R) :=
  if Rlt_dec 0 (sc_internal s) then
    do mult <- isMultiple (sc_internal s) out;
    if negb mult then Throw
    else if Rlt_dec (sc_internal s) (out * (3 / 2)) then
      let p := rround (out / sc_internal s) in
      Ok (finalise_defaults (MkSched (sc_mons s) p (sc_internal s) (sc_init s)), (nout * p)%Z, sc_internal s)
    else
      let k := rround (sc_internal s / out) in
      Ok (finalise_defaults (MkSched (map (mul_period k) (sc_mons s)) 1 (sc_internal s) (sc_init s)), nout, out)
  else Ok (finalise_defaults s, nout, out).

(** One invocation of a monitor's call(): which monitor, simulation time, iter and nout arguments. *)
Record mcall := MkCall { c_id : nat; c_time : R; c_iter : Z; c_nout : Z }.
(** solver.cxx:855-890 call_monitors(simtime, iter, NOUT), for monitors that return 0 and no abort request; the output
    files, MMS and cleanup parts are not modelled. C++ [%] and [/] truncate; a zero period is UB. *)
Fixpoint call_list (t : R) (iter nout : Z) (l : list mon) : res (list mcall) :=
  match l with
  | [] => Ok []
  | m :: r =>
    if (m_period m =? 0)%Z then UB else
    do rest <- call_list t iter nout r;
    Ok (if (Z.rem iter (m_period m) =? 0)%Z
        then MkCall (m_id m) t (Z.quot iter (m_period m) - 1) (Z.quot nout (m_period m)) :: rest else rest)
  end.
Definition call_monitors (t : R) (iter nout : Z) (s : sched) : res (list mcall) := call_list t (iter + 1)%Z nout (sc_mons s).

(** The output loop shared by the explicit solvers, e.g. euler.cxx:65-137: [n] more outputs, the next is number [i]. The
    inner steps bring simtime to simtime + getOutputTimestep(). *)
Fixpoint run_loop (n : nat) (i : Z) (t dt : R) (nout : Z) (s : sched) : res (list mcall) :=
  match n with
  | O => Ok []
  | S n' =>
    do a <- call_monitors (t + dt) i nout s;
    do b <- run_loop n' (i + 1) (t + dt) dt nout s;
    Ok (a ++ b)
  end.
(** solver.cxx:486-577 solve(nout, timestep) with nout >= 0, from simulation time [t0], writing the initial state. The
    members number_output_steps and output_timestep are set from the arguments (495-496) BEFORE
    finaliseMonitorPeriods changes the local copies (499); run() reads the members. *)
Definition solve (nout : Z) (timestep t0 : R) (s : sched) : res (list mcall) :=
  let number_output_steps := nout in
  let output_timestep := timestep in
  do r <- finaliseMonitorPeriods nout timestep s;
  let '(s', nout', _) := r in
  do a <- call_monitors t0 (-1) nout' s';
  do b <- run_loop (Z.to_nat number_output_steps) 0 t0 output_timestep number_output_steps s';
  Ok (a ++ b).
