(** Linear smoothing: src/physics/smoothing.cxx (smooth_x, smooth_y, smoothXY).

    Simplifications.  Exact arithmetic.  The processors of a line hold arrays with the local index along the line and any other
    indices [k]; the exchange of guard cells is the one of MaskModel, which for y means one line of processors, open or closed.
    The parallel slices of the argument of smooth_y are given. *)
From Coq Require Import Arith Bool ZArith Reals.
From Verif Require Import Base LaplaceModel MaskModel.
Local Open Scope R_scope.

Section Smooth.
Variables (l : layout) (per : bool).
(** smoothing.cxx:48-77 *)
Definition smooth_x (f : field) : field :=
  communicate l per (fun p jx k =>
    if (jx =? 0)%nat || (jx =? LocalNx l - 1)%nat then f p jx k
    else 0.5 * f p jx k + 0.25 * (f p (jx - 1)%nat k + f p (jx + 1)%nat k)).
(** 79-109; [l]: the processors along y, [jy] the local y index. *)
Definition smooth_y (f yup ydown : field) : field :=
  communicate l per (fun p jy k =>
    if (jy =? 0)%nat || (jy =? LocalNx l - 1)%nat then f p jy k
    else 0.5 * f p jy k + 0.25 * (ydown p (jy - 1)%nat k + yup p (jy + 1)%nat k)).
End Smooth.

(** 374-402: one processor, one z; None: not set (emptyFrom). *)
Definition smoothXY (LocalNx LocalNy : nat) (f : nat -> nat -> R) : nat -> nat -> option R := fun x y =>
  if (2 <=? x)%nat && (x <? LocalNx - 2)%nat && (2 <=? y)%nat && (y <? LocalNy - 2)%nat then
    Some (0.5 * f x y
      + 0.125 * (0.5 * f (x + 1)%nat y + 0.125 * (f (x + 2)%nat y + f x y + f (x + 1)%nat (y - 1)%nat + f (x + 1)%nat (y + 1)%nat)
        + 0.5 * f (x - 1)%nat y + 0.125 * (f x y + f (x - 2)%nat y + f (x - 1)%nat (y - 1)%nat + f (x - 1)%nat (y + 1)%nat)
        + 0.5 * f x (y - 1)%nat + 0.125 * (f (x + 1)%nat (y - 1)%nat + f (x - 1)%nat (y - 1)%nat + f x (y - 2)%nat + f x y)
        + 0.5 * f x (y + 1)%nat + 0.125 * (f (x + 1)%nat (y + 1)%nat + f (x - 1)%nat (y + 1)%nat + f x y + f x (y + 2)%nat)))
  else None.
