(** Model of the Runge-Kutta-Legendre step of the split solver: SplitRK::take_diffusion_step,
    src/solver/impls/split-rk/split-rk.cxx:211-273.

    Simplifications: as in RkModel; [run_diffusive] is an arbitrary function [f] of time and state. The cycling of the work
    arrays (lines 265-268) is the renaming of the results. *)
From Coq Require Import List Arith Reals.
From Verif Require Import RkSpec.
Local Open Scope R_scope.

(** line 241: [b_j = (SQ(j) + j - 2.0) / (2. * j * (j + 1.))] *)
Definition b_coef (j : nat) : R := (INR j * INR j + INR j - 2) / (2 * INR j * (INR j + 1)).

(** lines 239-271, the loop over stages: [n] passes remain, [j] is the current stage, [u1] and [u2] the last two stage
    results, [b_jm1] and [b_jm2] the last two coefficients. *)
Fixpoint stage_cycle (f : rhs) (curtime weight : R) (start dydt : vec) (n j : nat) (b_jm2 b_jm1 : R) (u1 u2 : vec) : vec :=
  match n with
  | O => u1
  | S n =>
      let b_j := b_coef j in
      let mu := (2 * INR j - 1) / INR j * b_j / b_jm1 in
      let nu := - (INR j - 1) / INR j * b_j / b_jm2 in
      let a_jm1 := 1 - b_jm1 in
      let u3 := f curtime u1 in
      let u3 := fun i => mu * (u1 i + weight * (u3 i - a_jm1 * dydt i)) + nu * u2 i + (1 - mu - nu) * start i in
      stage_cycle f curtime weight start dydt n (S j) b_jm1 b_j u3 u1
  end.

(** lines 211-273 *)
Definition take_diffusion_step (nstages : nat) (f : rhs) (curtime dt : R) (start : vec) : vec :=
  let weight := dt * 4 / (INR nstages * INR nstages + INR nstages - 2) in
  let dydt := f curtime start in
  let u2 := fun i => start i + (weight / 3) * dydt i in
  let u3 := f (curtime + (weight / 3) * dt) u2 in
  let u1 := fun i => 1.5 * (u2 i + weight * u3 i) - 0.5 * start i - weight * dydt i in
  stage_cycle f curtime weight start dydt (nstages - 2) 3 (1 / 3) (1 / 3) u1 u2.
