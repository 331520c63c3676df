(** What the theorems about Poisson brackets say. *)
From Coq Require Import Reals ZArith List.
From Verif Require Import BracketModel.
Import ListNotations.
Local Open Scope R_scope.

(** Sum of h a + h (a+1) + ... + h (b-1). *)
Definition sumR (a b : Z) (h : Z -> R) : R := fold_right Rplus 0 (map h (zrange a b)).
(** Sum over the interior cells of one X-Z plane. *)
Definition plane_sum (m : pmesh) (h : Z -> Z -> R) : R :=
  sumR (xstart m) (xend m + 1) (fun x => sumR 0 (LocalNz m) (fun z => h x z)).
(** The value of a result that must be set. *)
Definition val (o : option R) : R := match o with Some v => v | None => 0 end.
(** Interior cells. *)
Definition interior (m : pmesh) (x y z : Z) : Prop :=
  (xstart m <= x <= xend m /\ ystart m <= y <= yend m /\ 0 <= z < LocalNz m)%Z.
(** The X guard cells of f next to the domain hold the values from the other end. *)
Definition periodic_x (m : pmesh) (f : field3) : Prop :=
  forall y z, f (xstart m - 1)%Z y z = f (xend m) y z /\ f (xend m + 1)%Z y z = f (xstart m) y z.

(** Arakawa's Jacobian as a mean of three approximations of f_z g_x - f_x g_z (A. Arakawa, J. Comput. Phys. 1 (1966)),
    with grid spacings hx, hz, on an unbounded plane. *)
Definition dX (hx : R) (h : Z -> Z -> R) (i k : Z) : R := (h (i + 1)%Z k - h (i - 1)%Z k) / (2 * hx).
Definition dZ (hz : R) (h : Z -> Z -> R) (i k : Z) : R := (h i (k + 1)%Z - h i (k - 1)%Z) / (2 * hz).
Definition jacobian (hx hz : R) (f g : Z -> Z -> R) (i k : Z) : R :=
  ((dZ hz f i k * dX hx g i k - dX hx f i k * dZ hz g i k)
   + (dX hx (fun i k => g i k * dZ hz f i k) i k - dZ hz (fun i k => g i k * dX hx f i k) i k)
   + (dZ hz (fun i k => f i k * dX hx g i k) i k - dX hx (fun i k => f i k * dZ hz g i k) i k)) / 3.

(** Lift of a two-dimensional field. *)
Definition lift (f : field2) : field3 := fun x y _ => f x y.
(** f seen on the plane y, with z taken modulo nz. *)
Definition wrapz (nz : Z) (f : field3) (y : Z) : Z -> Z -> R := fun x z => f x y (z mod nz)%Z.
