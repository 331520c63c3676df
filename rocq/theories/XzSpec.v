(** What LaplaceXZcyclic should solve. *)
From Coq Require Import List Arith Bool Reals.
From Coquelicot Require Import Complex.
From Verif Require Import Base CyclicModel CyclicSpec FftModel LaplaceModel LaplaceSpec XzModel.
Import ListNotations.
Local Open Scope R_scope.

Definition half_sum (f : nat -> R) (i : nat) : R := (f i + f (i + 1)%nat) / 2.

(** The flux A J g^xx du/dx between the points [i] and [i+1]. *)
Definition flux (M : xzmesh) (A : field2) (U : field3d) (y i j : nat) : R :=
  half_sum (A y) i * half_sum (mJ M y) i * half_sum (mg11 M y) i * ((U y (i + 1)%nat j - U y i j) / half_sum (mdx M y) i).

(** Div(A Grad_perp u) + B u without the mixed terms:  (1/J) d/dx(J A g^xx du/dx) + A g^zz d2u/dz2 + B u. *)
Definition xz_operator (M : xzmesh) (A B : field2) (U : field3d) (y i j : nat) : R :=
  (flux M A U y i j - flux M A U y (i - 1) j) / mdx M y i / mJ M y i
  + A y i * mg33 M y i * D2z (xnz M) (xzl M) (U y) i j + B y i * U y i j.

(** x indices of the domain: from [first] to [last]; the boundary cells are [first - 1] and [last + 1]. *)
Definition first (M : xzmesh) : nat := g (xl M).
Definition last_x (M : xzmesh) : nat := (g (xl M) + np (xl M) * mx (xl M) - 1)%nat.

(** The coefficients set last, at first A = 1 and B = 0. *)
Definition current (l : list (field2 * field2)) : field2 * field2 := last l (fun _ _ => 1, fun _ _ => 0).

(** The equation is elliptic: A, J, g^xx and dx positive (boundary cells included), g^zz not negative, B not positive. *)
Definition elliptic (M : xzmesh) (A B : field2) : Prop :=
  forall y, (y < nys M)%nat ->
    (forall i, (first M - 1 <= i <= last_x M + 1)%nat -> 0 < A y i /\ 0 < mJ M y i /\ 0 < mg11 M y i /\ 0 < mdx M y i) /\
    (forall i, (first M <= i <= last_x M)%nat -> 0 <= mg33 M y i /\ B y i <= 0).

(** Where the gradient is given on both sides, something else fixes the solution: for the average over z B somewhere, for
    the rest B or g^zz somewhere. *)
Definition definite (M : xzmesh) (fin fout : bflags) (B : field2) : Prop :=
  forall y, (y < nys M)%nat ->
    (b_dc_grad fin = true -> b_dc_grad fout = true -> exists i, (first M <= i <= last_x M)%nat /\ B y i < 0) /\
    (b_ac_grad fin = true -> b_ac_grad fout = true -> exists i, (first M <= i <= last_x M)%nat /\ (B y i < 0 \/ 0 < mg33 M y i)).

(** [U] is returned by [solve] after the calls [l] of [setCoefs], whatever the order of messages and contents of memory;
    [U] collects the rows written by all processors. *)
Definition xz_solved (M : xzmesh) (fin fout : bflags) (l : list (field2 * field2)) (rhs x0 U : field3d) : Prop :=
  well_laid (xl M) /\ (1 <= xnz M)%nat /\ xzl M <> 0 /\
  exists ord1 ord2 mem u,
    (forall p, (p < np (xl M))%nat -> arrival_order (np (xl M)) p (ord1 p)) /\
    (forall p, (p < np (xl M))%nat -> arrival_order (np (xl M)) p (ord2 p)) /\
    xzsolve M fin fout (after M fin fout l) rhs x0 ord1 ord2 mem = Ok u /\
    forall p y ix j, (p < np (xl M))%nat -> (y < nys M)%nat -> (xstart M p <= ix <= xend M p)%nat -> (j < xnz M)%nat ->
      u p y ix j = U y (p * mx (xl M) + ix)%nat j.

(** A boundary condition on the values [b] of the boundary cell and [d] of the domain cell next to it: on their
    difference, or on the value half way between. *)
Definition edge (gradient : bool) (b d : R) : R := if gradient then b - d else (b + d) / 2.

(** Where the boundary values come from: flag SET: the second argument of solve; flag RHS: the first; otherwise zero. *)
Definition given (fl : bflags) (rhs x0 : field3d) : field3d :=
  if b_set fl then x0 else if b_rhs fl then rhs else fun _ _ _ => 0.
