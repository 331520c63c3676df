(** Specification of a time loop: internal steps that tile the output interval. *)
From Coq Require Import List Arith Reals.
Import ListNotations.
Local Open Scope R_scope.

(** [(t', y')] is reached from [(t, y)] by positive steps [ds] of the one-step method [step], each starting where the
    previous one ended and each satisfying [ok t d y] (start, size, starting state). *)
Inductive advances (step : R -> R -> (nat -> R) -> (nat -> R)) (ok : R -> R -> (nat -> R) -> Prop) :
  R -> (nat -> R) -> list R -> R -> (nat -> R) -> Prop :=
| adv_nil : forall t y, advances step ok t y [] t y
| adv_cons : forall t y d ds t' y',
    0 < d -> ok t d y -> advances step ok (t + d) (step t d y) ds t' y' -> advances step ok t y (d :: ds) t' y'.

Fixpoint total (ds : list R) : R := match ds with [] => 0 | d :: r => d + total r end.

(** Two steps of half the size. *)
Definition half_steps (step : R -> R -> (nat -> R) -> (nat -> R)) : R -> R -> (nat -> R) -> (nat -> R) :=
  fun t d y => step (t + d / 2) (d / 2) (step t (d / 2) y).

(** The monitor calls of a run that started at time [t] with state [y]: call number [s] is made at exactly the [s]-th
    output time, with the state reached by advancing from the previous output. *)
Inductive monitor_calls (step : R -> R -> (nat -> R) -> (nat -> R)) (ok : R -> R -> (nat -> R) -> Prop) (output_step : R) :
  R -> nat -> (nat -> R) -> list (R * nat * (nat -> R)) -> Prop :=
| calls_nil : forall t s y, monitor_calls step ok output_step t s y []
| calls_cons : forall t s y ds y' l,
    ds <> [] -> advances step ok t y ds (t + output_step) y' ->
    monitor_calls step ok output_step (t + output_step) (S s) y' l ->
    monitor_calls step ok output_step t s y ((t + output_step, s, y') :: l).

(** One call per output step, numbered from 0, at times [t + k output_step]. *)
Fixpoint call_times (l : list (R * nat * (nat -> R))) : list (R * nat) :=
  match l with [] => [] | (t, s, _) :: r => (t, s) :: call_times r end.
