(** Specification vocabulary for monitor scheduling. *)
From Coq Require Import Reals.
Local Open Scope R_scope.
(** Two positive times that agree to within a factor (1 + 2e-12)^k. *)
Definition slack : R := 1 + 2 * / 10 ^ 12.
Definition close (k : nat) (x y : R) : Prop := x <= slack ^ k * y /\ y <= slack ^ k * x.
