(** Model of the explicit time integrators: src/solver/impls/{euler,rk4,rk3-ssp,rkgeneric,split-rk}.

    Simplifications.
    - [BoutReal] is [R]; the coefficients written in the code (ratios of decimal integers) are exact rationals [Q].
    - A state vector of [nlocal] values is a function of the index; the loops over [i < nlocal] act on each index alone.
    - [load_vars; run_rhs; save_derivs] is the application of an arbitrary function [f] of time and state: the physics
      model's right hand side (C32 covers the packing). *)
From Coq Require Import List Arith Reals QArith Qreals.
From Verif Require Import RkSpec.
Import ListNotations.
Local Open Scope R_scope.

(** src/solver/impls/euler/euler.cxx:140-151 *)
Definition euler_step (f : rhs) (curtime dt : R) (start : vec) : vec :=
  let result := f curtime start in
  fun i => start i + dt * result i.

(** src/solver/impls/rk4/rk4.cxx:178-217 *)
Definition rk4_step (f : rhs) (curtime dt : R) (start : vec) : vec :=
  let k1 := f curtime start in
  let k5 := fun i => start i + 0.5 * dt * k1 i in
  let k2 := f (curtime + 0.5 * dt) k5 in
  let k5 := fun i => start i + 0.5 * dt * k2 i in
  let k3 := f (curtime + 0.5 * dt) k5 in
  let k5 := fun i => start i + dt * k3 i in
  let k4 := f (curtime + dt) k5 in
  fun i => start i + (1 / 6) * dt * (k1 i + 2 * k2 i + 2 * k3 i + k4 i).

(** src/solver/impls/rk3-ssp/rk3-ssp.cxx:104-133; the same code is SplitRK::take_advection_step,
    src/solver/impls/split-rk/split-rk.cxx:275-307, with run_convective. *)
Definition rk3ssp_step (f : rhs) (curtime dt : R) (start : vec) : vec :=
  let L := f curtime start in
  let u1 := fun i => start i + dt * L i in
  let L := f (curtime + dt) u1 in
  let u2 := fun i => 0.75 * start i + 0.25 * u1 i + 0.25 * dt * L i in
  let L := f (curtime + 0.5 * dt) u2 in
  fun i => (1 / 3) * start i + (2 / 3) * (u2 i + dt * L i).

(** include/bout/rkscheme.hxx: the data of a scheme. [stageCoeffs(i,j)], [resultCoeffs(i,k)] and [timeCoeffs[i]];
    entries that the constructor leaves at zero are absent or 0. *)
Record scheme := {
  numStages : nat;
  stageCoeffs : list (list Q);
  resultCoeffs : list (Q * Q);
  timeCoeffs : list Q;
  sorder : nat }.

Definition stageC (s : scheme) (i j : nat) : Q := nth j (nth i (stageCoeffs s) []) 0%Q.
Definition resultC (s : scheme) (i index : nat) : Q :=
  let p := nth i (resultCoeffs s) (0%Q, 0%Q) in
  match index with O => fst p | _ => snd p end.
Definition timeC (s : scheme) (i : nat) : Q := nth i (timeCoeffs s) 0%Q.

(** src/solver/impls/rkgeneric/impls/cashkarp/cashkarp.cxx:5-89 *)
Definition cashkarp : scheme :=
  {| numStages := 6;
     stageCoeffs := [[]; [1#5]; [3#40; 9#40]; [3#10; -9#10; 6#5]; [-11#54; 5#2; -70#27; 35#27];
                     [1631#55296; 175#512; 575#13824; 44275#110592; 253#4096]]%Q;
     resultCoeffs := [(37#378, 2825#27648); (0, 0); (250#621, 18575#48384); (125#594, 13525#55296); (0, 277#14336);
                      (512#1771, 1#4)]%Q;
     timeCoeffs := [0; 1#5; 3#10; 3#5; 1; 7#8]%Q;
     sorder := 4 |}.

(** src/solver/impls/rkgeneric/impls/rkf45/rkf45.cxx:5-89 *)
Definition rkf45 : scheme :=
  {| numStages := 6;
     stageCoeffs := [[]; [1#4]; [3#32; 9#32]; [1932#2197; -7200#2197; 7296#2197]; [439#216; -8; 3680#513; -845#4104];
                     [-8#27; 2; -3544#2565; 1859#4104; -11#40]]%Q;
     resultCoeffs := [(16#135, 25#216); (0, 0); (6656#12825, 1408#2565); (28561#56430, 2197#4104); (-9#50, -1#5);
                      (2#55, 0)]%Q;
     timeCoeffs := [0; 1#4; 3#8; 12#13; 1; 1#2]%Q;
     sorder := 4 |}.

(** src/solver/impls/rkgeneric/impls/rkf34/rkf34.cxx:5-86 *)
Definition rkf34 : scheme :=
  {| numStages := 5;
     stageCoeffs := [[]; [1#4]; [4#81; 32#81]; [57#98; -432#343; 1053#686]; [1#6; 0; 27#52; 49#156]]%Q;
     resultCoeffs := [(43#288, 1#6); (0, 0); (243#416, 27#52); (343#1872, 49#156); (1#12, 0)]%Q;
     timeCoeffs := [0; 1#4; 4#9; 6#7; 1]%Q;
     sorder := 3 |}.

(** src/solver/impls/rkgeneric/impls/rk4simple/rk4simple.cxx:5-106 *)
Definition rk4simple : scheme :=
  {| numStages := 11;
     stageCoeffs := [[]; [1#2]; [0; 1#2]; [0; 0; 1];
                     [1#4]; [0; 0; 0; 0; 1#4]; [0; 0; 0; 0; 0; 1#2];
                     [1#12; 0; 0; 0; 1#6; 1#6; 1#12];
                     [1#12; 0; 0; 0; 1#6; 1#6; 1#12; 1#4];
                     [1#12; 0; 0; 0; 1#6; 1#6; 1#12; 0; 1#4];
                     [1#12; 0; 0; 0; 1#6; 1#6; 1#12; 0; 0; 1#2]]%Q;
     resultCoeffs := [(1#12, 1#6); (0, 1#3); (0, 1#3); (0, 1#6); (1#6, 0); (1#6, 0); (1#12, 0);
                      (1#12, 0); (1#6, 0); (1#6, 0); (1#12, 0)]%Q;
     timeCoeffs := [0; 1#2; 1#2; 1; 1#4; 1#4; 1#2; (1#2) + 0; (1#2) + (1#4); (1#2) + (1#4); (1#2) + (1#2)]%Q;
     sorder := 4 |}.

(** src/solver/impls/rkgeneric/rkscheme.cxx:52-55 setCurTime *)
Definition setCurTime (s : scheme) (timeIn dt : R) (curStage : nat) : R := timeIn + dt * Q2R (timeC s curStage).

(** rkscheme.cxx:58-84 setCurState: the loop over [j < curStage]; coefficients smaller than the solver's absolute
    tolerance [atol] are skipped (line 75). *)
Fixpoint setCurState_loop (s : scheme) (atol : R) (steps : nat -> vec) (dt : R) (curStage j : nat) (out : vec) : vec :=
  match j with
  | O => out
  | S j' =>
      let out := setCurState_loop s atol steps dt curStage j' out in
      if Rlt_dec (Rabs (Q2R (stageC s curStage j'))) atol then out
      else
        let fac := Q2R (stageC s curStage j') * dt in
        fun i => out i + fac * steps j' i
  end.
Definition setCurState (s : scheme) (atol : R) (steps : nat -> vec) (start : vec) (curStage : nat) (dt : R) : vec :=
  setCurState_loop s atol steps dt curStage curStage start.

(** rkscheme.cxx:166-185 constructOutput *)
Fixpoint constructOutput_loop (s : scheme) (steps : nat -> vec) (dt : R) (index : nat) (n : nat) (sol : vec) : vec :=
  match n with
  | O => sol
  | S cur =>
      let sol := constructOutput_loop s steps dt index cur sol in
      if Req_EM_T (Q2R (resultC s cur index)) 0 then sol
      else
        let fac := dt * Q2R (resultC s cur index) in
        fun i => sol i + fac * steps cur i
  end.
Definition constructOutput (s : scheme) (steps : nat -> vec) (start : vec) (dt : R) (index : nat) : vec :=
  constructOutput_loop s steps dt index (numStages s) start.

(** rkscheme.cxx:87-124 setOutputStates: the solution followed and, when adaptive, the alternative one ([None] when not
    computed). *)
Definition setOutputStates (s : scheme) (followHighOrder adaptive : bool) (steps : nat -> vec) (start : vec) (dt : R)
  : vec * option vec :=
  let followInd := if followHighOrder then 0%nat else 1%nat in
  let altInd := if followHighOrder then 1%nat else 0%nat in
  (constructOutput s steps start dt followInd,
   if adaptive then Some (constructOutput s steps start dt altInd) else None).

(** src/solver/impls/rkgeneric/impls/rk4simple/rk4simple.cxx:108-164 its own setOutputStates. *)
Definition rk4simple_small (s : scheme) (steps : nat -> vec) (start : vec) (dt : R) : vec :=
  let r := fun i => start i + dt * (Q2R (resultC s 0 0) * steps 0%nat i + Q2R (resultC s 4 0) * steps 4%nat i
                                  + Q2R (resultC s 5 0) * steps 5%nat i + Q2R (resultC s 6 0) * steps 6%nat i) in
  fun i => r i + dt * (Q2R (resultC s 7 0) * steps 7%nat i + Q2R (resultC s 8 0) * steps 8%nat i
                     + Q2R (resultC s 9 0) * steps 9%nat i + Q2R (resultC s 10 0) * steps 10%nat i).
Definition rk4simple_large (s : scheme) (steps : nat -> vec) (start : vec) (dt : R) : vec :=
  fun i => start i + dt * (Q2R (resultC s 0 1) * steps 0%nat i + Q2R (resultC s 1 1) * steps 1%nat i
                         + Q2R (resultC s 2 1) * steps 2%nat i + Q2R (resultC s 3 1) * steps 3%nat i).
Definition rk4simple_setOutputStates (s : scheme) (followHighOrder adaptive : bool) (steps : nat -> vec) (start : vec)
  (dt : R) : vec * option vec :=
  if followHighOrder
  then (rk4simple_small s steps start dt, if adaptive then Some (rk4simple_large s steps start dt) else None)
  else (rk4simple_large s steps start dt, if adaptive then Some (rk4simple_small s steps start dt) else None).

(** src/solver/impls/rkgeneric/rkgeneric.cxx:176-185: the loop over the stages; [steps] is the array of derivatives, whose
    previous content is arbitrary. *)
Fixpoint stage_loop (s : scheme) (atol : R) (f : rhs) (timeIn dt : R) (start : vec) (n : nat) (steps : nat -> vec)
  : nat -> vec :=
  match n with
  | O => steps
  | S cur =>
      let steps := stage_loop s atol f timeIn dt start cur steps in
      let tmpState := setCurState s atol steps start cur dt in
      let d := f (setCurTime s timeIn dt cur) tmpState in
      fun j => if (j =? cur)%nat then d else steps j
  end.

(** rkgeneric.cxx:171-188 take_step *)
Definition take_step (s : scheme) (is_rk4simple : bool) (followHighOrder adaptive : bool) (atol : R) (f : rhs)
  (timeIn dt : R) (start : vec) (steps0 : nat -> vec) : vec * option vec :=
  let steps := stage_loop s atol f timeIn dt start (numStages s) steps0 in
  if is_rk4simple then rk4simple_setOutputStates s followHighOrder adaptive steps start dt
  else setOutputStates s followHighOrder adaptive steps start dt.

(** The Butcher tableau that a scheme's data describes. *)
Definition tableau_of (s : scheme) (index : nat) : butcher :=
  {| bs := numStages s; ba := stageC s; bb := fun i => resultC s i index; bc := timeC s |}.
