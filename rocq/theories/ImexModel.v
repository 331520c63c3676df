(** * The IMEX-BDF2 multistep solver

    Model of src/solver/impls/imex-bdf2/imex-bdf2.cxx: the number of internal
    steps chosen by [init], the adaptive time loop of [run], the history shift
    [shuffleState], the variable-step coefficients [calculateCoeffs], the right
    hand side built by [take_step] and the initial guess of [solve_implicit].

    The arithmetic is a parameter ([ops]): the theorems are about the reals
    ([Rops]), the counterexamples are computed with rationals ([Qops]).

    Simplifications, stated once:
    - floating point is exact arithmetic: no rounding, no NaN;
    - PETSc's nonlinear solve is an oracle [imp]: given the number of the call,
      the initial guess, the right hand side, gamma and the time, it returns the
      solution of u - gamma*G(u) = rhs, or [None] if it does not converge (the
      code then throws SNESFailure).  The oracle may answer two identical calls
      differently, so the SNES objects snes and snesAlt need not be told apart;
    - the non-stiff right hand side is an oracle [conv] of time and state;
    - the step scale factor s = pow(adaptRtol*|u|/|err-u|, 1/(order-1)) is an
      oracle [scale] of the two solutions and the order;
    - a state vector is a function from the index to the value;
    - the monitors, constraints, preconditioner and output are left out. *)

From Coq Require Import List Bool Arith ZArith QArith Qround Reals.
Import ListNotations.

Set Implicit Arguments.

(** Arithmetic used by the code. *)
Record ops (F : Type) := mkops {
  o0 : F; o1 : F;
  oadd : F -> F -> F; osub : F -> F -> F;
  omul : F -> F -> F; odiv : F -> F -> F;
  olt : F -> F -> bool; oeq : F -> F -> bool;
  otrunc : F -> nat  (* static_cast<int> of a non-negative number *) }.

Definition Rltb (a b : R) : bool := if Rlt_dec a b then true else false.
Definition Reqb (a b : R) : bool := if Req_EM_T a b then true else false.

Definition Rops : ops R :=
  mkops 0%R 1%R Rplus Rminus Rmult Rdiv Rltb Reqb
        (fun x => Z.to_nat (Int_part x)).

Definition Qops : ops Q :=
  mkops 0%Q 1%Q (fun a b => Qred (a + b)) (fun a b => Qred (a - b))
        (fun a b => Qred (a * b)) (fun a b => Qred (a / b))
        (fun a b => negb (Qle_bool b a)) Qeq_bool
        (fun x => Z.to_nat (Qfloor x)).

(** Why the solver threw. *)
Inductive why := BelowMinimum | SolveFailed | TooManyFails | TooManyAdapt
  | TooManySteps | BadOrder | TooManyInternal.

(** [Ub]: an element outside a container is read or written.  [NoFuel]: the
    bound given to the model's loops ran out (the loop has not ended). *)
Inductive res (A : Type) := Ok (a : A) | Throw (w : why) | Ub | NoFuel.
Arguments Ok {A}. Arguments Throw {A}. Arguments Ub {A}. Arguments NoFuel {A}.

Definition bind A B (m : res A) (f : A -> res B) : res B :=
  match m with Ok a => f a | Throw w => Throw w | Ub => Ub | NoFuel => NoFuel end.
Notation "x <- m ;; k" := (bind m (fun x => k))
  (at level 60, m at next level, right associativity).

Section Imex.
Variable F : Type.
Variable P : ops F.

Local Notation "a + b" := (oadd P a b).
Local Notation "a - b" := (osub P a b).
Local Notation "a * b" := (omul P a b).
Local Notation "a / b" := (odiv P a b).
Local Notation "1" := (o1 P).
Local Notation "0" := (o0 P).
Local Notation "a < b" := (olt P a b).

Definition V := nat -> F.

(** Small constants. *)
Definition two : F := 1 + 1.
Definition three : F := two + 1.
Definition half : F := 1 / two.
Definition neg (a : F) : F := 0 - a.
(* 1.25 *)
Definition max_up : F := 1 + half * half.
Definition sq (a : F) : F := a * a.
Definition cube (a : F) : F := a * a * a.
Definition quart (a : F) : F := a * a * a * a.
Definition ofnat (n : nat) : F := Nat.iter n (fun x => x + 1) 0.

(** imex-bdf2.cxx:24-66: the options used by the time loop, and the output
    step (Solver::getOutputTimestep). *)
Record cfg := mkcfg {
  maxOrder : nat; userStep : F; mxstep : nat; adaptive : bool; nadapt : nat;
  mxstepAdapt : nat; cushUp : F; cushDown : F; dtMax : F; dtMinFatal : F;
  dtMin : F; outStep : F; predictor : nat }.

(** One call of the implicit solver, with its answer. *)
Record call := mkcall {
  k_no : nat; k_guess : V; k_rhs : V; k_gamma : F; k_time : F; k_out : V }.

(** An accepted internal step: time and state at its start, the non-stiff
    derivative there, the step length, the order, the call whose answer is the
    new state. *)
Record acc := mkacc {
  a_t0 : F; a_u0 : V; a_f0 : V; a_dt : F; a_order : nat; a_call : call }.

(** Members of IMEXBDF2 (imex-bdf2.hxx:100-160) and the variables of run that
    live across internal steps (imex-bdf2.cxx:754-764).  [ncall] numbers the
    implicit solves, [lastCall] is the last successful one and [log] the
    accepted steps, newest first: both are ghost variables. *)
Record st := mkst {
  u : V; uV : list V; fV : list V; ts : list F; uFac : list F; fFac : list F;
  dtImp : F; order : nat; lastOrder : option nat; lastTs : list F; dtNext : F;
  simtime : F; icount : nat;
  ncall : nat; lastCall : option call; log : list acc }.

(** imex-bdf2.cxx:183-195: the number of internal steps per output step.  A
    non-positive user timestep is not modelled. *)
Definition ninternal (c : cfg) : nat :=
  let n := otrunc P (outStep c / userStep c) in
  if Nat.eqb n 0 then S n
  else if userStep c < outStep c / ofnat n then S n else n.

(** imex-bdf2.cxx:183-228: [init], from the initial values and time. *)
Definition init (c : cfg) (u0 : V) (t0 : F) : res st :=
  let n := ninternal c in
  if Nat.ltb (mxstep c) n then Throw TooManyInternal else
  if Nat.ltb 4 (maxOrder c) then Throw BadOrder else
  let dt := outStep c / ofnat n in
  let m := maxOrder c in
  Ok (mkst u0 (repeat u0 m) (repeat (fun _ => 0) m) (repeat dt m)
           (repeat 0 m) (repeat 0 m) 0 1%nat None (repeat dt m) dt t0 0%nat
           0%nat None []).

(** std::rotate(v.begin(), v.end() - 1, v.end()) followed by an assignment of
    the first element: the last element is dropped and [x] put in front.
    imex-bdf2.cxx:1143-1147. *)
Definition shift A (x : A) (v : list A) : list A := x :: removelast v.

(** imex-bdf2.cxx:1134-1160: [shuffleState].  The first element of fV is junk
    until saveDerivs writes it; it is filled here by the caller.  The work array
    swapped into u is overwritten before it is read. *)
Definition shuffle (s : st) (f0 : V) : res st :=
  match uV s, fV s, ts s with
  | _ :: _, _ :: _, t0 :: _ :: _ =>
      Ok (mkst (u s) (shift (u s) (uV s)) (shift f0 (fV s)) (shift t0 (ts s))
               (uFac s) (fFac s) (dtImp s) (order s) (lastOrder s) (lastTs s)
               (dtNext s) (simtime s) (icount s) (ncall s) (lastCall s) (log s))
  | _, _, _ => Ub
  end.

(** imex-bdf2.cxx:1029-1103: the coefficients before the division by uCurrFac:
    (uCurrFac, uFac, fFac); dtImp is the first step. *)
Definition rawCoeffs (p : nat) (h : list F) : option (F * list F * list F) :=
  match p, h with
  | 1%nat, h0 :: _ => Some (1, [1], [h0])
  | 2%nat, h0 :: h1 :: _ =>
      let w1 := h0 / h1 in
      Some ((1 + two * w1) / (1 + w1),
            [1 + w1; neg (sq w1) / (1 + w1)],
            [h0 * (1 + w1); neg h0 * w1])
  | 3%nat, h0 :: h1 :: h2 :: _ =>
      let w1 := h1 / h2 in
      let w2 := h0 / h1 in
      Some (1 + w2 / (1 + w2) + w1 * w2 / (1 + w1 * (1 + w2)),
            [1 + w2 + w1 * w2 * (1 + w2) / (1 + w1);
             neg (sq w2) * (w1 + 1 / (1 + w2));
             cube w1 * sq w2 * (1 + w2) / ((1 + w1) * (1 + w1 + w1 * w2))],
            [h0 * (1 + w2) * (1 + w1 * (1 + w2)) / (1 + w1);
             neg h0 * w2 * (1 + w1 * (1 + w2));
             h0 * sq w1 * w2 * (1 + w2) / (1 + w1)])
  | 4%nat, h0 :: h1 :: h2 :: h3 :: _ =>
      let w1 := h2 / h3 in
      let w2 := h1 / h2 in
      let w3 := h0 / h1 in
      let A1 := 1 + w1 * (1 + w2) in
      let A2 := 1 + w2 * (1 + w3) in
      let A3 := 1 + w1 * A2 in
      Some (1 + w3 / (1 + w3) + w2 * w3 / A2 + w1 * w2 * w3 / A3,
            [1 + w3 * (1 + w2 * (1 + w3) * (1 + w1 * A2 / A1) / (1 + w2));
             neg w3 * (w3 / (1 + w3) + w2 * w3 * (A3 + w1) / (1 + w1));
             cube w2 * sq w3 * (1 + w3) * A3 / ((1 + w2) * A2);
             neg ((1 + w3) / (1 + w1)) * (A2 / A1) * quart w1 * cube w2
               * sq w3 / A3],
            [h0 * (w2 * (1 + w3) / (1 + w2))
               * ((1 + w3) * (A3 + w1) + (1 + w1) / w2) / A1;
             neg h0 * A2 * A3 * w3 / (1 + w1);
             h0 * sq w2 * w3 * A3 * (1 + w3) / (1 + w2);
             neg h0 * cube w1 * sq w2 * w3 * (A2 / A1) * (1 + w3) / (1 + w1)])
  | _, _ => None
  end.

(** imex-bdf2.cxx:1029-1103: [calculateCoeffs]: the first [p] entries of uFac
    and fFac and dtImp are replaced (gFac, always zero and never read, is left
    out).  An order above the length of the history reads outside it. *)
Definition calcCoeffs (p : nat) (s : st) : res st :=
  if (Nat.eqb p 0 || Nat.ltb 4 p)%bool then Throw BadOrder else
  if Nat.ltb (length (uFac s)) p then Ub else
  match rawCoeffs p (ts s), ts s with
  | Some (uc, a, b), h0 :: _ =>
      Ok (mkst (u s) (uV s) (fV s) (ts s)
               (map (fun x => x / uc) a ++ skipn p (uFac s))
               (map (fun x => x / uc) b ++ skipn p (fFac s))
               (h0 / uc) (order s) (lastOrder s) (lastTs s) (dtNext s)
               (simtime s) (icount s) (ncall s) (lastCall s) (log s))
  | _, _ => Ub
  end.

(** imex-bdf2.cxx:1117-1126: the right hand side. *)
Fixpoint rhsLoop (p : nat) (uv fv : list V) (a b : list F) (acc0 : F) (i : nat)
  : F :=
  match p, uv, fv, a, b with
  | S q, x :: uv', y :: fv', k :: a', l :: b' =>
      rhsLoop q uv' fv' a' b' (acc0 + (x i * k + y i * l)) i
  | _, _, _, _, _ => acc0
  end.

(** imex-bdf2.cxx:1182-1214: the initial guess. *)
Definition guess (c : cfg) (uv : list V) (rhs : V) : res V :=
  match predictor c, uv with
  | 0%nat, x :: _ => Ok x
  | 1%nat, x :: y :: _ => Ok (fun i => two * x i - y i)
  | 2%nat, x :: y :: z :: _ => Ok (fun i => three * x i - three * y i + z i)
  | 0%nat, _ | 1%nat, _ | 2%nat, _ => Ub
  | _, _ => Ok rhs
  end.

Section Run.
Variable c : cfg.
Variable imp : nat -> V -> V -> F -> F -> option V.
Variable conv : F -> V -> V.
Variable scale : V -> V -> nat -> F.

(** imex-bdf2.cxx:1115-1129 with 1172-1260: [take_step]: [None] if the implicit
    solve throws.  u is the answer. *)
Definition takeStep (p : nat) (s : st) : res (option st) :=
  if Nat.ltb (length (uV s)) p then Ub else
  match ts s with
  | [] => Ub
  | h0 :: _ =>
      let rhs := rhsLoop p (uV s) (fV s) (uFac s) (fFac s) 0 in
      g <- guess c (uV s) rhs ;;
      match imp (ncall s) g rhs (dtImp s) (simtime s + h0) with
      | None => Ok None
      | Some x =>
          Ok (Some (mkst x (uV s) (fV s) (ts s) (uFac s) (fFac s) (dtImp s)
                 (order s) (lastOrder s) (lastTs s) (dtNext s) (simtime s)
                 (icount s) (S (ncall s))
                 (Some (mkcall (ncall s) g rhs (dtImp s) (simtime s + h0) x))
                 (log s)))
      end
  end.

Definition setNext (d : F) (s : st) : st :=
  mkst (u s) (uV s) (fV s) (ts s) (uFac s) (fFac s) (dtImp s) (order s)
       (lastOrder s) (lastTs s) d (simtime s) (icount s) (ncall s)
       (lastCall s) (log s).

(* timesteps[0] = dtNext *)
Definition setStep (d : F) (s : st) : st :=
  mkst (u s) (uV s) (fV s) (d :: tl (ts s)) (uFac s) (fFac s) (dtImp s)
       (order s) (lastOrder s) (lastTs s) (dtNext s) (simtime s) (icount s)
       (ncall s) (lastCall s) (log s).

(* the failed call is counted too *)
Definition bump (s : st) : st :=
  mkst (u s) (uV s) (fV s) (ts s) (uFac s) (fFac s) (dtImp s) (order s)
       (lastOrder s) (lastTs s) (dtNext s) (simtime s) (icount s) (S (ncall s))
       (lastCall s) (log s).

(** The two catch blocks, imex-bdf2.cxx:838-852 and 873-887: state, running,
    adaptCounter, failCounter. *)
Definition failed (s : st) (d : F) (ac fc : nat) : res (st * bool * nat * nat) :=
  if negb (adaptive c) then Throw SolveFailed else
  if Nat.ltb 10 (S fc) then Throw TooManyFails else
  Ok (setNext (d * half) (bump s), true, ac, S fc).

Fixpoint eqList (a b : list F) : bool :=
  match a, b with
  | [], [] => true
  | x :: a', y :: b' => (oeq P x y && eqList a' b')%bool
  | _, _ => false
  end.

Definition eqOrder (a : nat) (b : option nat) : bool :=
  match b with Some n => Nat.eqb a n | None => false end.

(** imex-bdf2.cxx:799-806: the requested step is kept in range. *)
Definition clamp (d : F) : F :=
  if d < dtMin c then dtMin c else if dtMax c < d then dtMax c else d.

(** imex-bdf2.cxx:926-948: what to do after both solutions are known:
    running, the next step and the counter. *)
Definition judge (s : st) (low : V) (d : F) (ac fc : nat)
  : res (st * bool * nat * nat) :=
  let x := scale low (u s) (order s) in
  let '(run, d') :=
    if x < cushDown c then (true, d * x)
    else if (negb (x < cushUp c) && Nat.eqb ac 0 && Nat.eqb fc 0)%bool
    then (false, d * (if max_up < x then max_up else x))
    else (false, d) in
  if Nat.ltb (mxstepAdapt c) (S ac) then Throw TooManyAdapt
  else Ok (setNext d' s, run, S ac, fc).

(** imex-bdf2.cxx:790-970: one pass of the inner loop, [cum] being
    cumulativeTime. *)
Definition attempt (checking : bool) (cum : F) (s : st) (ac fc : nat)
  : res (st * bool * nat * nat) :=
  if dtNext s < dtMinFatal c then Throw BelowMinimum else
  let d1 := clamp (dtNext s) in
  let lim := outStep c < cum + d1 in
  let d2 := if lim then outStep c - cum else d1 in
  match ts s with
  | [] => Ub
  | _ :: _ =>
    let s1 := setStep d2 s in
    let high (s2 : st) (low : option V) :=
      s3 <- (if (negb (eqOrder (order s2) (lastOrder s2))
                 || negb (eqList (lastTs s2) (ts s2)) || checking)%bool
             then calcCoeffs (order s2) s2 else Ok s2) ;;
      r <- takeStep (order s3) s3 ;;
      match r with
      | None => failed s3 d2 ac fc
      | Some s4 =>
          match low with
          | Some l => judge s4 l d2 ac fc
          | None => Ok (setNext d1 s4, false, ac, fc)
          end
      end in
    if checking then
      s2 <- calcCoeffs (order s1 - 1) s1 ;;
      r <- takeStep (order s1 - 1) s2 ;;
      match r with
      | None => failed s2 d2 ac fc
      | Some s3 => high s3 (Some (u s3))
      end
    else high s1 None
  end.

(** imex-bdf2.cxx:790-971: the inner loop. *)
Fixpoint inner (fuel : nat) (checking : bool) (cum : F) (s : st) (ac fc : nat)
  : res st :=
  match fuel with
  | 0%nat => NoFuel
  | S k =>
      r <- attempt checking cum s ac fc ;;
      let '(s', run, ac', fc') := r in
      if (run : bool) then inner k checking cum s' ac' fc' else Ok s'
  end.

(** imex-bdf2.cxx:973-994: bookkeeping after an internal step; [t0 u0 f0] are
    the ghost values at its start. *)
Definition accept (t0 : F) (u0 f0 : V) (s : st) : res st :=
  match ts s, lastCall s with
  | h0 :: _, Some k =>
      Ok (mkst (u s) (uV s) (fV s) (ts s) (uFac s) (fFac s) (dtImp s)
            (if Nat.ltb (order s) (maxOrder c) then S (order s) else order s)
            (Some (order s)) (ts s) (dtNext s) (simtime s + h0) (S (icount s))
            (ncall s) (lastCall s)
            (mkacc t0 u0 f0 h0 (order s) k :: log s))
  | _, _ => Ub
  end.

(** imex-bdf2.cxx:785: is the error estimated on this step?  nadapt = 0 is a
    division by zero. *)
Definition checks (s : st) : res bool :=
  if adaptive c then
    (if Nat.eqb (nadapt c) 0 then Ub
     else Ok (Nat.eqb (icount s mod nadapt c) 0 && Nat.ltb 1 (order s))%bool)
  else Ok false.

(** imex-bdf2.cxx:773-1000: the internal steps of one output step; [cum] is
    cumulativeTime and [n] counter.  [fi] bounds the inner loop. *)
Fixpoint steps (fuel fi : nat) (cum : F) (n : nat) (s : st) : res st :=
  match fuel with
  | 0%nat => NoFuel
  | S k =>
      if cum < outStep c then
        let f0 := conv (simtime s) (u s) in
        s1 <- shuffle s f0 ;;
        ck <- checks s1 ;;
        s2 <- inner fi ck cum s1 0 0 ;;
        s3 <- accept (simtime s) (u s) f0 s2 ;;
        match ts s3 with
        | [] => Ub
        | h0 :: _ =>
            if Nat.ltb (mxstep c) (S n) then Throw TooManySteps
            else steps k fi (cum + h0) (S n) s3
        end
      else Ok s
  end.

(** imex-bdf2.cxx:766-1012: the output steps (no monitor asks to stop). *)
Fixpoint outputs (nout fuel fi : nat) (s : st) : res st :=
  match nout with
  | 0%nat => Ok s
  | S k => s' <- steps fuel fi 0 0 s ;; outputs k fuel fi s'
  end.

Definition run (nout fuel fi : nat) (u0 : V) (t0 : F) : res st :=
  s <- init c u0 t0 ;; outputs nout fuel fi s.

End Run.
End Imex.
