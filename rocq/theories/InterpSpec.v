(** Specification vocabulary of C36. *)
From Coq Require Import Reals ZArith List.
From Verif Require Import Base DerivSpec InterpModel.
Import ListNotations.
Local Open Scope R_scope.

(** [g] is a polynomial of degree at most [d] in one variable. *)
Definition polynomial (d : nat) (g : R -> R) : Prop := exists a, degree_le d a /\ forall x, g x = peval a x.
(** [F] is a polynomial of degree at most [d] in each of its two variables. *)
Definition polynomial2 (d : nat) (F : R -> R -> R) : Prop :=
  (forall X, polynomial d (F X)) /\ (forall Z, polynomial d (fun X => F X Z)).

(** On columns [i0..i1] and periodic rows [k0..k1] the field is sampled from [F]: row [k] is stored at [k mod LocalNz]. *)
Definition sampled (m : lmesh) (f : plane) (F : R -> R -> R) (i0 i1 k0 k1 : Z) : Prop :=
  forall i k, (i0 <= i <= i1)%Z -> (k0 <= k <= k1)%Z -> f i (k mod LocalNz m)%Z = F (IZR i) (IZR k).

(** All the values of the field in columns [i0..i1] and periodic rows [k0..k1] lie between [lo] and [hi]. *)
Definition bounded_by (m : lmesh) (f : plane) (i0 i1 k0 k1 : Z) (lo hi : R) : Prop :=
  forall i k, (i0 <= i <= i1)%Z -> (k0 <= k <= k1)%Z -> lo <= f i (k mod LocalNz m)%Z <= hi.

(** The four ways to interpolate one point at the (absolute) index position [(dx, dz)]. *)
Definition bilinear (m : lmesh) (f : plane) (dx dz : R) : res R := do w <- bilinear_weights dx dz; bilinear_point m f w.
Definition lagrange (m : lmesh) (f : plane) (dx dz : R) : res R := do w <- lagrange_weights m dx dz; lagrange_point m f w.
Definition spline (m : lmesh) (f : plane) (dx dz : R) : res R := do w <- hermite_weights m dx dz; spline_point m f w.
Definition monotonic (m : lmesh) (f : plane) (dx dz : R) : res R := do w <- hermite_weights m dx dz; monotonic_point m f w.
Definition zspline (m : lmesh) (f : plane) (i : Z) (dz : R) : res R := do w <- zspline_weights m dz; zspline_point m f i w.

(** The mesh has X guard cells on both sides and at least two non-boundary X points. *)
Definition has_guards (m : lmesh) : Prop :=
  (1 <= xstart m)%Z /\ (xstart m < xend m)%Z /\ (xend m <= LocalNx m - 2)%Z /\ (1 <= LocalNz m)%Z.
(** [dx] limited to the range of non-boundary X points. *)
Definition clamp (m : lmesh) (dx : R) : R := Rmax (IZR (xstart m)) (Rmin dx (IZR (xend m))).

(** A weighted sum of field values. *)
Definition weighted (f : Z -> R) (l : list (Z * R)) : R := fold_right (fun pw s => snd pw * f (fst pw) + s) 0 l.
