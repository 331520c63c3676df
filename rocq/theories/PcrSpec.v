(** Specification vocabulary for C85: what it means for a system to be dominated by its diagonal, how its rows are spread over
    the processors, and what every execution of the processors must satisfy. *)
From Coq Require Import List Arith Bool Reals.
From Verif Require Import MpiModel PcrModel SptSpec.
Import ListNotations.

(** Rows 0 ... T + 2 xs - 1, the first and last [xs] are the boundary conditions. *)
Section D.
Variable F : Type.
Variable nrm : F -> R.
Definition dominated (xs T : nat) (A B C : nat -> F) : Prop :=
  let nx := T + 2 * xs in
  let before g := if g =? 0 then 0%R else nrm (A g) in
  let behind g := if S g <? nx then nrm (C g) else 0%R in
  (forall g, g < nx -> (before g + behind g <= nrm (B g))%R) /\
  (forall g, g < xs + T -> (before g < nrm (B g))%R) /\
  (forall g, xs <= g < nx -> (behind g < nrm (B g))%R) /\
  (forall g, g = xs \/ g = xs + T - 1 -> (before g + behind g < nrm (B g))%R).
End D.

(** Processor [p] of [N], with [n] rows each: the first row it has, and how many. *)
Definition first_held (n xs p : nat) : nat := if p =? 0 then 0 else p * n + xs.
Definition rows_held (N n xs p : nat) : nat := (if p =? 0 then xs else 0) + n + (if p =? N - 1 then xs else 0).

Section E.
Variables M V : Type.
(** From [s0] every execution has at most K steps, can stop only after K, and then every processor has returned, with nothing
    pending and no message left anywhere; [good p v]: processor p may return v. *)
Definition always_returns (N : nat) (eager : chan -> nat -> bool) (s0 : state M V) (good : nat -> V -> Prop) : Prop :=
  exists K, forall k st, steps M V N eager k s0 st ->
    k <= K /\ (halted M V N eager st <-> k = K) /\
    (k = K -> (forall p, p < N -> exists v, procs st p = (Ret v, []) /\ good p v) /\ forall c, queue (chans st c) = []).
End E.
Arguments always_returns {M V}.
