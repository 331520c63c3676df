(** Specification vocabulary for C82 and C83: tridiagonal systems over a field, without reference to an algorithm. *)
From Coq Require Import List Arith Bool.
Import ListNotations.

Section S.
Variable F : Type.
Variables (f0 f1 : F) (fadd fmul fsub : F -> F -> F).
(** [x] solves the system of [n] equations A_g x_(g-1) + B_g x_g + C_g x_(g+1) = R_g (without x_(-1) and x_n). *)
Definition tri_solution (n : nat) (A B C R x : nat -> F) : Prop :=
  forall g, g < n ->
    fadd (fadd (match g with O => f0 | S h => fmul (A g) (x h) end) (fmul (B g) (x g)))
         (if S g <? n then fmul (C g) (x (S g)) else f0) = R g.
(** The determinant of the leading k by k block. *)
Fixpoint minor (A B C : nat -> F) (k : nat) : F :=
  match k with
  | O => f1
  | S O => B 0
  | S ((S h) as k') => fsub (fmul (B k') (minor A B C k')) (fmul (fmul (A k') (C h)) (minor A B C h))
  end.

(** The points of a grid of N * mx + 2 * mxg points held by processor [p]: its mx points, with the boundary points at the two
    ends of the grid; local index [ix] is global index p * mx + ix. *)
Definition holds_point (N mx mxg p ix : nat) : Prop :=
  (if p =? 0 then 0 else mxg) <= ix /\ ix < (if p =? N - 1 then mx + 2 * mxg else mx + mxg).
End S.

(** The rows [a p ix], ... kept by the processors are those of the global system: for the points a processor holds, and the
    right coefficient also for the guard cell to the left of its first point. *)
Definition represents {F : Type} (N mx mxg : nat) (A B C R : nat -> F) (a b c r : nat -> nat -> F) : Prop :=
  (forall p ix, p < N -> holds_point N mx mxg p ix ->
     a p ix = A (p * mx + ix) /\ b p ix = B (p * mx + ix) /\ r p ix = R (p * mx + ix) /\ c p ix = C (p * mx + ix)) /\
  (forall p ix, p < N -> holds_point N mx mxg p (S ix) -> c p ix = C (p * mx + ix)).
