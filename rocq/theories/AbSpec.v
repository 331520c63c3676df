(** Specification vocabulary for the Adams-Bashforth solver: polynomials, their integrals, distinct points. *)
From Coq Require Import List Arith Reals.
Import ListNotations.
Local Open Scope R_scope.

(** Polynomials by their coefficients, lowest degree first. *)
Fixpoint pol (p : list R) (x : R) : R := match p with [] => 0 | a :: q => a + x * pol q x end.

(** [Q] is an antiderivative of the function [f]. *)
Definition antiderivative_of (Q f : R -> R) : Prop := forall x, derivable_pt_lim Q x (f x).

(** [sum_{i<n} f i]. *)
Fixpoint sum_to (n : nat) (f : nat -> R) : R := match n with O => 0 | S m => sum_to m f + f m end.

(** The times are strictly decreasing: newest first. *)
Fixpoint newest_first (l : list R) : Prop :=
  match l with [] => True | a :: r => (match r with [] => True | b :: _ => b < a end) /\ newest_first r end.
