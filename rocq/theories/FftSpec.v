(** Specification for the Fourier operations: functions of a periodic coordinate, and their samples. *)
From Coq Require Import List Arith Bool ZArith Reals.
Local Open Scope R_scope.

(** A trigonometric polynomial of degree at most [K] with period [L]: the constant [a 0] plus harmonics
    [a k cos(2 pi k z/L) + b k sin(2 pi k z/L)] for k = 1 .. K. *)
Fixpoint trig (a b : nat -> R) (L : R) (K : nat) (z : R) : R :=
  match K with
  | O => a 0%nat
  | S K' => trig a b L K' z + (a K * cos (2 * PI * INR K * z / L) + b K * sin (2 * PI * INR K * z / L))
  end.

(** The position of grid point [j] of [n], in a domain of length [L]. *)
Definition gridz (n : nat) (L : R) (j : nat) : R := INR j * L / INR n.

(** [x] contains the values of [f] at the grid points. *)
Definition samples (n : nat) (L : R) (f : R -> R) (x : nat -> R) : Prop :=
  forall j, (j < n)%nat -> x j = f (gridz n L j).

(** The highest mode of an even number of points: +1, -1, +1, ... The field has no such component when its alternating
    sum vanishes. *)
Fixpoint alternating (n : nat) (x : nat -> R) : R :=
  match n with O => 0 | S m => alternating m x + (if Nat.even m then x m else - x m) end.
Definition no_nyquist (n : nat) (x : nat -> R) : Prop := Nat.even n = true -> alternating n x = 0.

Definition sgn (j : nat) : R := if Nat.even j then 1 else -1.

(** [x] is the trigonometric polynomial with coefficients [a], [b] up to degree [K < n/2], plus [c] times the highest
    mode (only for an even number of points). *)
Definition row_is (n : nat) (L : R) (a b : nat -> R) (K : nat) (c : R) (x : nat -> R) : Prop :=
  (2 * K < n)%nat /\ (Nat.even n = false -> c = 0) /\
  forall j, (j < n)%nat -> x j = trig a b L K (gridz n L j) + c * sgn j.

(** The [k]-th harmonic of a trigonometric polynomial. *)
Definition harmonic (a b : nat -> R) (L : R) (k : nat) (z : R) : R :=
  a k * cos (2 * PI * INR k * z / L) + b k * sin (2 * PI * INR k * z / L).
