(** Specification vocabulary for the tridiagonal solver. *)
From Coq Require Import List Arith Bool.
Import ListNotations.

(** One row of a tridiagonal system: left, diagonal and right coefficient, right hand side. *)
Record trow (F : Type) := Row { ra : F; rb : F; rc : F; rr : F }.
Arguments Row {F} _ _ _ _.
Arguments ra {F} _.
Arguments rb {F} _.
Arguments rc {F} _.
Arguments rr {F} _.

Section S.
Variable F : Type.
Variables (f0 : F) (fadd fmul : F -> F -> F).

(** Neighbours of element [i] of [x]: at the ends, the other end when the system is periodic, nothing (0) when not. *)
Definition left_of (periodic : bool) (x : list F) (i : nat) : F :=
  match i with
  | O => if periodic then last x f0 else f0
  | S k => nth k x f0
  end.

Definition right_of (periodic : bool) (x : list F) (i : nat) : F :=
  if S i =? length x then (if periodic then hd f0 x else f0) else nth (S i) x f0.

(** [x] is a solution of the tridiagonal system with rows [rows]. *)
Definition solves (periodic : bool) (rows : list (trow F)) (x : list F) : Prop :=
  length x = length rows /\
  forall i r, nth_error rows i = Some r ->
    fadd (fadd (fmul (ra r) (left_of periodic x i)) (fmul (rb r) (nth i x f0))) (fmul (rc r) (right_of periodic x i)) = rr r.

(** A vector or a list of rows distributed over [n] processors, [size p] consecutive ones on processor [p]. *)
Definition distributed {A} (n : nat) (size : nat -> nat) (f : nat -> nat -> A) : list A :=
  flat_map (fun p => map (f p) (seq 0 (size p))) (seq 0 n).
End S.

From Coq Require Import Permutation.

(** A possible order in which processor [d], one of [n], receives one message from each of the others. *)
Definition arrival_order (n d : nat) (ord : list nat) : Prop :=
  Permutation ord (filter (fun p => negb (p =? d)) (seq 0 n)).

Section S2.
Variable F : Type.
Variables (f0 : F) (fadd fmul : F -> F -> F).

(** The matrix of the system is non-singular: with a zero right hand side it has only the zero solution. *)
Definition nonsingular (periodic : bool) (rows : list (trow F)) : Prop :=
  forall z, solves F f0 fadd fmul periodic (map (fun r => Row (ra r) (rb r) (rc r) f0) rows) z -> Forall (fun v => v = f0) z.
End S2.
