(** Specification vocabulary for finite-difference schemes. *)
From Coq Require Import Reals ZArith List Lia.
From Verif Require Import DerivModel.
Local Open Scope R_scope.
Import ListNotations.

(** Polynomials by their coefficients, lowest degree first, and their derivative. *)
Fixpoint peval (a : list R) (x : R) : R := match a with [] => 0 | a0 :: r => a0 + x * peval r x end.
Fixpoint pderiv_from (n : R) (a : list R) : list R := match a with [] => [] | a0 :: r => n * a0 :: pderiv_from (n + 1) r end.
Definition pderiv (a : list R) : list R := match a with [] => [] | _ :: r => pderiv_from 1 r end.
Definition degree_le (d : nat) (a : list R) : Prop := (length a <= S d)%nat.
(** The field obtained by sampling a polynomial at the positions x0 + h*(i + shift). *)
Definition sample (a : list R) (x0 h shift : R) : Z -> R := fun i => peval a (x0 + h * (IZR i + shift)).
(** Where a staggered input and the output live, in units of the cell width: C2L takes centre values (0) to the lower face
    (-1/2); L2C the other way. *)
Definition loc_in (s : stagger) : R := match s with SNone => 0 | C2L => 0 | L2C => - (1 / 2) end.
Definition loc_out (s : stagger) : R := match s with SNone => 0 | C2L => - (1 / 2) | L2C => 0 end.

(** A scheme for the d-th derivative (per unit h^k) is exact up to degree d. *)
Definition exact_deriv (func : stencil -> R) (s : stagger) (k d : nat) : Prop :=
  forall a x0 h i, degree_le d a ->
    standard func s (sample a x0 h (loc_in s)) i = h ^ k * peval (Nat.iter k pderiv a) (x0 + h * (IZR i + loc_out s)).
(** v df/dx, with v known at the output point. *)
Definition exact_upwind (func : R -> stencil -> R) (d : nat) : Prop :=
  forall (v : Z -> R) a x0 h i, degree_le d a ->
    upwind func v (sample a x0 h 0) i = v i * (h * peval (pderiv a) (x0 + h * IZR i)).

(** Sum over the cells first, first+1, ..., first+n-1. *)
Fixpoint sum_line (g : Z -> R) (first : Z) (n : nat) : R :=
  match n with O => 0 | S n => g first + sum_line g (first + 1)%Z n end.
Definition periodic (n : Z) (g : Z -> R) : Prop := forall i, g (i + n)%Z = g i.
(** A scheme in conservation form: the value in cell i is (flux through its upper face) - (flux through its lower face), where the
    flux through the face between i-1 and i is computed by [F] from the four nearest cells (and vel from the same places). *)
Definition conservation_form (g : (Z -> R) -> (Z -> R) -> Z -> R) : Prop :=
  exists F : (Z -> R) -> (Z -> R) -> Z -> R,
    (forall v f i, g v f i = F v f (i + 1)%Z - F v f i) /\
    (forall v f v' f' i j, (forall k, (-2 <= k <= 1)%Z -> v (i + k)%Z = v' (j + k)%Z /\ f (i + k)%Z = f' (j + k)%Z) -> F v f i = F v' f' j) /\
    (forall v0 f0 i, F (fun _ => v0) (fun _ => f0) i = v0 * f0).
(** Reflection of a line. *)
Definition mirror (f : stencil) : stencil := St (pp f) (p f) (c f) (m f) (mm f).
Definition neg (f : stencil) : stencil := St (- mm f) (- m f) (- c f) (- p f) (- pp f).
Definition lin (a b : R) (f g : stencil) : stencil :=
  St (a * mm f + b * mm g) (a * m f + b * m g) (a * c f + b * c g) (a * p f + b * p g) (a * pp f + b * pp g).
Definition linear (func : stencil -> R) : Prop := forall a b f g, func (lin a b f g) = a * func f + b * func g.
Definition between (a x b : R) : Prop := Rmin a b <= x <= Rmax a b.
Definition total_variation (u : Z -> R) (first : Z) (n : nat) : R := sum_line (fun i => Rabs (u (i + 1)%Z - u i)) first n.
(** Two-field schemes d(vf)/dx and v df/dx: v of degree dv, f of degree df. The velocity lives half a cell away when staggered. *)
Definition exact_flux (func : stencil -> stencil -> R) (s : stagger) (dv df : nat) : Prop :=
  forall b a x0 h i, degree_le dv b -> degree_le df a ->
    flux func s (sample b x0 h (loc_in s - loc_out s)) (sample a x0 h 0) i =
    h * (peval b (x0 + h * IZR i) * peval (pderiv a) (x0 + h * IZR i) + peval (pderiv b) (x0 + h * IZR i) * peval a (x0 + h * IZR i)).
Definition exact_advect (func : stencil -> stencil -> R) (s : stagger) (dv df : nat) : Prop :=
  forall b a x0 h i, degree_le dv b -> degree_le df a ->
    flux func s (sample b x0 h (loc_in s - loc_out s)) (sample a x0 h 0) i =
    h * (peval b (x0 + h * IZR i) * peval (pderiv a) (x0 + h * IZR i)).
(** A line of equal values. *)
Definition const_st (k : R) : stencil := St k k k k k.
(** The value does not depend on the second neighbours, which are not filled in when one guard cell is used. *)
Definition needs_one_guard (func : stencil -> R) : Prop := forall f x y, func (St x (m f) (c f) (p f) y) = func f.
Definition needs_one_guard2 (func : stencil -> stencil -> R) : Prop :=
  forall v f x y x' y', func (St x (m v) (c v) (p v) y) (St x' (m f) (c f) (p f) y') = func v f.
(** One explicit Euler step of du/dt + du/dx = 0, lam = dt/dx, with the flux taken from the upwind (left) cell's right edge value. *)
Definition recon (lim : stencil -> edges) (u : Z -> R) (i : Z) : edges := lim (populate SNone u i).
Definition euler_step (lim : stencil -> edges) (lam : R) (u : Z -> R) : Z -> R :=
  fun i => u i - lam * (eR (recon lim u i) - eR (recon lim u (i - 1)%Z)).

