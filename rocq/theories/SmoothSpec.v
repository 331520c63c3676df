(** The 1-2-1 filter along a line, and two passes of the average with the four neighbours. *)
From Coq Require Import Arith Bool ZArith Reals.
From Verif Require Import Base LaplaceModel MaskModel MaskSpec.
Local Open Scope R_scope.

Definition filter121 (n : nat) (f up down : nat -> R) (i : nat) : R :=
  if (i =? 0)%nat || (i =? n - 1)%nat then f i else (down (i - 1)%nat + 2 * f i + up (i + 1)%nat) / 4.
Definition around (f : nat -> nat -> R) (x y : nat) : R := (f (x + 1)%nat y + f (x - 1)%nat y + f x (y + 1)%nat + f x (y - 1)%nat) / 4.
(** Half the value and half the average of the neighbours. *)
Definition pass (f : nat -> nat -> R) (x y : nat) : R := (f x y + around f x y) / 2.
(** Cells that a processor computes or that lie beyond the ends of the line. *)
Definition points (l : layout) : nat := (np l * mx l + 2 * g l)%nat.
Fixpoint total (n : nat) (f : nat -> R) : R := match n with O => 0 | S n => total n f + f n end.
