(** Specification vocabulary for one-step time integrators: the textbook explicit Runge-Kutta method of a Butcher tableau,
    rooted trees and the order conditions, polynomial and linear right hand sides. *)
From Coq Require Import List Arith Reals QArith Qreals.
Import ListNotations.
Local Open Scope R_scope.

(** State vectors, and right hand sides [f t y]. *)
Notation vec := (nat -> R).
Notation rhs := (R -> (nat -> R) -> (nat -> R)).

(** Sum of [f 0, ..., f (n-1)]. *)
Fixpoint rsum (n : nat) (f : nat -> R) : R :=
  match n with O => 0 | S m => rsum m f + f m end.

(** An explicit Butcher tableau: number of stages, [a i j] ([j < i]), weights [b i], nodes [c i]. *)
Record butcher := { bs : nat; ba : nat -> nat -> Q; bb : nat -> Q; bc : nat -> Q }.

(** [y'] is the result of one step of size [h] from [y] at time [t]: there are stage derivatives [k i]. *)
Definition rk_method (T : butcher) (f : rhs) (t h : R) (y y' : vec) : Prop :=
  exists k : nat -> vec,
    (forall i, (i < bs T)%nat ->
       k i = f (t + Q2R (bc T i) * h) (fun m => y m + h * rsum i (fun j => Q2R (ba T i j) * k j m))) /\
    y' = (fun m => y m + h * rsum (bs T) (fun i => Q2R (bb T i) * k i m)).

(** Rooted trees, their number of vertices and their density [gamma]. *)
Inductive tree := Node (children : list tree).

Fixpoint order (t : tree) : nat :=
  match t with Node l => S (fold_right (fun u n => (order u + n)%nat) 0%nat l) end.

Fixpoint gamma (t : tree) : Q :=
  match t with
  | Node l => inject_Z (Z.of_nat (order (Node l))) * fold_right (fun u q => (gamma u * q)%Q) 1%Q l
  end.

(** Sum over [Q]. *)
Fixpoint qsum (n : nat) (f : nat -> Q) : Q :=
  match n with O => 0%Q | S m => (qsum m f + f m)%Q end.

(** Elementary weight of a tree at stage [i]: the product over the children [u] of [sum_j a_ij weight_j(u)]. *)
Fixpoint weight (T : butcher) (t : tree) (i : nat) : Q :=
  match t with
  | Node l => fold_right (fun u q => (qsum i (fun j => ba T i j * weight T u j) * q)%Q) 1%Q l
  end.

(** Butcher's conditions for order [p]: the nodes are the row sums, and for every rooted tree with at most [p] vertices
    the weighted sum of the elementary weights is the reciprocal of the density. *)
Definition has_order (T : butcher) (p : nat) : Prop :=
  (forall i, (i < bs T)%nat -> bc T i == qsum i (ba T i))%Q /\
  (forall t, (order t <= p)%nat -> qsum (bs T) (fun i => bb T i * weight T t i) == / gamma t)%Q.

(** Polynomials by their coefficients, lowest degree first. *)
Fixpoint peval (p : list R) (x : R) : R :=
  match p with [] => 0 | a :: q => a + x * peval q x end.

(** A right hand side that depends on time only, each component polynomial of degree less than [p]. *)
Definition poly_rhs (p : nat) (f : rhs) : Prop :=
  forall m, exists q, (length q <= p)%nat /\ forall t y, f t y m = peval q t.

(** [sol] is the solution of [dy/dt = f t y] with [sol t0 = y0]. *)
Definition is_solution (f : rhs) (t0 : R) (y0 : vec) (sol : R -> vec) : Prop :=
  (forall m, sol t0 m = y0 m) /\
  forall t m, derivable_pt_lim (fun s => sol s m) t (f t (sol t) m).

(** The tableaus in the literature. *)
Definition lower (rows : list (list Q)) (i j : nat) : Q := nth j (nth i rows []) 0%Q.
Definition tableau (rows : list (list Q)) (b c : list Q) : butcher :=
  {| bs := length c; ba := lower rows; bb := fun i => nth i b 0%Q; bc := fun i => nth i c 0%Q |}.

Definition forward_euler : butcher := tableau [[]] [1%Q] [0%Q].
Definition classical_rk4 : butcher :=
  tableau [[]; [1#2]; [0; 1#2]; [0; 0; 1]]%Q [1#6; 1#3; 1#3; 1#6]%Q [0; 1#2; 1#2; 1]%Q.
(** Shu and Osher's third order strong stability preserving method. *)
Definition ssp_rk3 : butcher := tableau [[]; [1]; [1#4; 1#4]]%Q [1#6; 1#6; 2#3]%Q [0; 1; 1#2]%Q.

(** Polynomial right hand sides: every component is a finite sum of terms [c * z v1 * ... * z vk], where [z 0] is the time
    and [z (S m)] is the [m]-th component of the state. *)
Definition time_state (t : R) (y : vec) : vec := fun v => match v with O => t | S m => y m end.
Definition poly_value (z : vec) (p : list (R * list nat)) : R :=
  fold_right (fun cl q => fst cl * fold_right (fun v r => z v * r) 1 (snd cl) + q) 0 p.
Definition polynomial_rhs (f : rhs) : Prop :=
  exists F : nat -> list (R * list nat), forall t y m, f t y m = poly_value (time_state t y) (F m).

(** [sol] solves the initial value problem on [(t0 - delta, t0 + delta)]. *)
Definition local_solution (f : rhs) (t0 : R) (y0 : vec) (delta : R) (sol : R -> vec) : Prop :=
  (forall m, sol t0 m = y0 m) /\
  forall t m, Rabs (t - t0) < delta -> derivable_pt_lim (fun s => sol s m) t (f t (sol t) m).

(** The local error of a one-step scheme is of order [p]: over every time interval [[t0, t0 + d]] inside the interval of
    existence, the error of one step of size [h <= d] is at most [C h^(p+1)]. *)
Definition local_error_order (p : nat) (f : rhs) (step : R -> R -> vec -> vec) : Prop :=
  forall t0 y0 delta sol m d, local_solution f t0 y0 delta sol -> 0 < d < delta ->
    exists C, forall h, 0 <= h <= d -> Rabs (step t0 h y0 m - sol (t0 + h) m) <= C * h ^ S p.
