(** What LaplaceNaulin should solve: the operator with coefficients that depend on z. *)
From Coq Require Import List Arith Bool Reals.
From Verif Require Import Base FftModel LaplaceModel LaplaceSpec NaulinModel.
Import ListNotations.
Local Open Scope R_scope.

(** D Laplace_perp(u) + (1/C1) Grad_perp(C2).Grad_perp(u) + A u at one point, with the derivatives of LaplaceSpec (central
    in x, Fourier in z); only x and z components. *)
Definition operator (m : mesh) (p : problem) (o : opts) (U : field3) (y i j : nat) : R :=
  let M := met m y in
  let X := fun f : field3 => Dx M (f y) i j in
  let Z := fun f : field3 => Dz (mz m) (zlen m) (f y) i j in
  let d2x := D2x M (U y) i j
             - when (nonuniform o) ((dx M (i + 1)%nat - dx M (i - 1)%nat) / (2 * dx M i * dx M i) * X U) in
  Dcoef p y i j *
    (g11 M i * d2x + g33 M i * D2z (mz m) (zlen m) (U y) i j
     + 2 * g13 M i * Dx M (Dz (mz m) (zlen m) (U y)) i j
     + when (all_terms o) (G1 M i * X U + G3 M i * Z U))
  + (g11 M i * X (C2coef p) * X U + g33 M i * Z (C2coef p) * Z U
     + g13 M i * (X (C2coef p) * Z U + Z (C2coef p) * X U)) / C1coef p y i j
  + Acoef p y i j * U y i j.

(** The points of the domain. *)
Definition in_domain (m : mesh) (y i j : nat) : Prop :=
  In y (ys m) /\ (g (lay m) <= i < g (lay m) + np (lay m) * mx (lay m))%nat /\ (j < mz m)%nat.

(** The direct solver does what C60 says of it: at every y of the domain, its result is the inversion with the averaged
    coefficients, for the right hand side and boundary values it was given. *)
Definition direct (m : mesh) (p : problem) (o : opts) (inv : nat -> field3 -> field3 -> option field3) : Prop :=
  forall n b x u, inv n b x = Some u ->
  forall y, In y (ys m) -> solved (lay m) o (mz m) (zlen m) (direct_data m p y) (b y) (x y) (u y).

(** All modes are kept, and the highest mode of an even number of points, which has no derivative, meets no odd
    derivative. *)
Definition all_modes (m : mesh) (o : opts) : Prop :=
  zero_DC o = false /\ (mz m / 2 <= maxmode o)%nat /\
  ((2 * maxmode o < mz m)%nat \/
   forall y i, In y (ys m) -> g13 (met m y) i = 0 /\ when (all_terms o) (G3 (met m y) i) = 0).

Definition plain_mesh (m : mesh) (o : opts) : Prop :=
  IncIntShear o = false /\
  forall y i, In y (ys m) -> dx (met m y) i <> 0.

Definition good_coefs (m : mesh) (p : problem) : Prop :=
  forall y i, In y (ys m) ->
    dc_row (mz m) (fun j => C1coef p y i j * Dcoef p y i j) <> 0 /\
    forall j, (j < mz m)%nat -> Dcoef p y i j <> 0 /\ C1coef p y i j <> 0.

(** Largest absolute value over the domain. *)
Definition bound (m : mesh) (f : field3) (e : R) : Prop := forall y i j, in_domain m y i j -> Rabs (f y i j) <= e.
(** Root mean square over the domain (as a number [r]). *)
Definition is_rms (m : mesh) (f : field3) (r : R) : Prop := 0 <= r /\
  r * r * (INR (length (ys m)) * INR (np (lay m) * mx (lay m)) * INR (mz m)) =
  fold_right Rplus 0 (map (fun y => fold_right Rplus 0 (map (fun i => fold_right Rplus 0 (map (fun j => f y i j * f y i j)
    (seq 0 (mz m)))) (seq (g (lay m)) (np (lay m) * mx (lay m))))) (ys m)).

(** The right hand side of the direct solve that follows the field [u]: what the averaged operator would have to give for
    the whole equation, divided by D, to be satisfied. *)
Definition lagged (m : mesh) (p : problem) (o : opts) (rhs u : field3) : field3 := fun y i j =>
  (rhs y i j - operator m p o u y i j) / Dcoef p y i j + Lop o (direct_data m p y) (mz m) (zlen m) (u y) i j.

Definition minus3 (a b : field3) : field3 := fun y i j => a y i j - b y i j.

(** [xg] has the boundary values of [x0], which are needed if a flag SET is used. *)
Definition has_boundary (m : mesh) (o : opts) (x0 xg : field3) : Prop :=
  (b_set (inner o) || b_set (outer o))%bool = true ->
  forall y i j, In y (ys m) -> (i < g (lay m) \/ g (lay m) + np (lay m) * mx (lay m) <= i)%nat -> xg y i j = x0 y i j.

(** Each direct solve reduces the difference of two right hand sides, to a fraction [q] at least. *)
Definition contracts (m : mesh) (p : problem) (o : opts) (inv : nat -> field3 -> field3 -> option field3) (rhs x0 : field3) (q : R) : Prop :=
  forall n n' b b' xg xg' u u' e, has_boundary m o x0 xg -> has_boundary m o x0 xg' -> inv n b xg = Some u -> inv n' b' xg' = Some u' ->
  bound m (minus3 b b') e -> bound m (minus3 (lagged m p o rhs u) (lagged m p o rhs u')) (q * e).

(** The coefficients do not depend on z. *)
Definition constant_in_z (m : mesh) (f : field3) : Prop :=
  forall y i j, In y (ys m) -> (j < mz m)%nat -> f y i j = f y i 0%nat.

(** Mean of a list of numbers. *)
Definition mean_of (l : list nat) (a : R) : Prop := a * INR (length l) = INR (fold_right Nat.add 0%nat l).
