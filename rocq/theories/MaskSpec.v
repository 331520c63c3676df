(** What the radial masks should be: a function of the position in the whole grid, times the field. *)
From Coq Require Import Arith Bool ZArith Reals.
From Verif Require Import Base LaplaceModel MaskModel.
Local Open Scope R_scope.

(** The pieces of a field on the whole grid that the processors hold. *)
Definition spread (l : layout) (F : nat -> nat -> R) : field := fun p ix k => F (p * mx l + ix)%nat k.

(** Cells of processor [p], guard cells included. *)
Definition cell (l : layout) (p ix : nat) : Prop := (p < np l /\ ix < mx l + 2 * g l)%nat.
(** Cells of the domain (no guard cells at its ends). *)
Definition in_domain (l : layout) (p ix : nat) : Prop := (g l <= p * mx l + ix < g l + np l * mx l)%nat.
(** The point of the whole grid as far from the right end as [i] is from the left. *)
Definition mirror (l : layout) (i : nat) : nat := (np l * mx l + 2 * g l - 1 - i)%nat.

(** Normalised position: 0 and 1 are the ends of the domain, half way between cells. *)
Definition pos (l : layout) (i : nat) : R := (INR i + 1 / 2 - INR (g l)) / INR (np l * mx l).
(** With symmetricGlobalX = false. *)
Definition pos_asym (l : layout) (i : nat) : R := INR i / INR (np l * mx l).
Definition X (l : layout) (sym : bool) (i : nat) : R := if sym then pos l i else pos_asym l i.

(** A step down of width [W] at [L]. *)
Definition step (x L W : R) : R := (1 - tanh ((x - L) / W)) / 2.
