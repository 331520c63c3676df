(** Specification for the inversion of parallel derivatives: the operators in real space. *)
From Coq Require Import List Arith Bool ZArith Reals.
From Coquelicot Require Import Complex.
From Verif Require Import Base CyclicModel CyclicSpec FftModel FftSpec LaplaceModel LaplaceSpec ParInvModel.
Local Open Scope R_scope.

(** A field on the whole surface, [U i j] at the global y index [i] (guard cells included) and the z index [j], in
    field-aligned coordinates. [LaplaceSpec.plane] and the derivatives in z, [Dz] and [D2z], are used again. *)

(** Derivatives in y: DDY and D2DY2, with the correction for a non-uniform mesh (derivs.cxx:190-222). *)
Definition Dy (M : ydata) (U : plane) : plane := fun i j => (U (i + 1)%nat j - U (i - 1)%nat j) / (2 * ydy M i).
Definition D2y (non_uniform : bool) (M : ydata) (U : plane) (i j : nat) : R :=
  (U (i + 1)%nat j - 2 * U i j + U (i - 1)%nat j) / (ydy M i * ydy M i)
  + when non_uniform (yd1 M i * Dy M U i j).

(** The second derivative along the field, coordinates.cxx:1622-1639:
    (1/sqrt(g_22)) d/dy (1/sqrt(g_22)) d/dy, with the product rule applied. *)
Definition inv_sqrt_g22 (M : ydata) : plane := fun i _ => 1 / sqrt (yg22 M i).
Definition Grad2_par2 (non_uniform : bool) (M : ydata) (U : plane) (i j : nat) : R :=
  inv_sqrt_g22 M i j * Dy M (inv_sqrt_g22 M) i j * Dy M U i j + D2y non_uniform M U i j / yg22 M i.

(** A + B Grad2_par2 + C D2DYDZ + D D2DZ2 + E DDY. *)
Definition Lpar (non_uniform : bool) (M : ydata) (nz : nat) (zlength : R) (U : plane) (i j : nat) : R :=
  yA M i * U i j + yB M i * Grad2_par2 non_uniform M U i j + yC M i * Dz nz zlength (Dy M U) i j
  + yD M i * D2z nz zlength U i j + yE M i * Dy M U i j.

(** A + Div_par(B Grad_par): the flux through the face between [i] and [i + 1], and its divergence. *)
Definition mean (f : nat -> R) (i : nat) : R := (f i + f (i + 1)%nat) / 2.
Definition flux (M : ydata) (U : plane) (i j : nat) : R :=
  mean (yB M) i * mean (yJ M) i / mean (yg22 M) i * ((U (i + 1)%nat j - U i j) / mean (ydy M) i).
Definition Ldiv (M : ydata) (U : plane) (i j : nat) : R :=
  yA M i * U i j + (flux M U i j - flux M U (i - 1)%nat j) / (yJ M i * ydy M i).

(** The points of a surface: [first] is the first one at which the equation is solved, [past] comes after the last. At
    CELL_YLOW the first point of an open surface is a boundary point. *)
Definition first (s : surface) : nat := if (negb (closed s) && ylow s)%bool then (gd s + 1)%nat else gd s.
Definition past (s : surface) : nat := (gd s + np s * my s)%nat.
Definition is_inside (s : surface) (i : nat) : Prop := (first s <= i < past s)%nat.
Definition well_formed (s : surface) : Prop := (1 <= np s /\ 1 <= my s /\ 1 <= gd s /\ first s < past s)%nat.

(** [U] collects the pieces held by the processors. *)
Definition collects (s : surface) (nz : nat) (u : nat -> nat -> nat -> R) (U : plane) : Prop :=
  forall p y j, (p < np s)%nat -> (gd s <= y < gd s + my s)%nat -> (first s <= p * my s + y)%nat -> (j < nz)%nat ->
    u p y j = U (p * my s + y)%nat j.

(** The neighbours of the first and the last point. On a closed surface they are the last and the first point, shifted
    in z by the twist-shift angle, as communication does it (boutmesh.cxx:1409-1455); on an open surface the gradient
    at the ends is zero. *)
Definition has_guards (s : surface) (nz : nat) (zlength : R) (U : plane) : Prop :=
  forall j, (j < nz)%nat ->
  if closed s then U (first s - 1)%nat j = shiftZ_row nz zlength (ts s) (U (past s - 1)%nat) j /\
                   U (past s) j = shiftZ_row nz zlength (- ts s) (U (first s)) j
  else U (first s - 1)%nat j = U (first s) j /\ U (past s) j = U (past s - 1)%nat j.

(** The rows of the tridiagonal system of mode [k], and the assumption that no mode has a singular matrix. *)
Definition system_rows (s : surface) (nz : nat) (zl : R) (co : nat -> nat -> R -> coef3) (rows : nat -> nat -> nat -> R)
    (old : nat -> nat -> tvec) (k : nat) : list (trow C) :=
  distributed (np s) (size s) (fun p i => let t := system s p nz zl (co p) (rows p) (old p k) k in Row (va t i) (vb t i) (vc t i) (vk t i)).
Definition modes_nonsingular (s : surface) (nz : nat) (zl : R) (co : nat -> nat -> R -> coef3) (rows : nat -> nat -> nat -> R)
    (old : nat -> nat -> tvec) : Prop :=
  forall k, (k <= nz / 2)%nat -> nonsingular C (RtoC 0) Cplus Cmult (closed s) (system_rows s nz zl co rows old k).

(** [U] is the field returned by [solve] for the right hand side [F], transformed to field-aligned coordinates and with
    its guard cells; whatever the order of messages and the contents of memory, no mode being singular. *)
Definition solved (s : surface) (nz : nat) (zl : R) (tr : option (nat -> R)) (co : nat -> nat -> R -> coef3) (F U : plane) : Prop :=
  well_formed s /\ (1 <= nz)%nat /\ zl <> 0 /\
  exists f old ord1 ord2 mem u,
    collects s nz f F /\
    (forall p, (p < np s)%nat -> arrival_order (np s) p (ord1 p)) /\
    (forall p, (p < np s)%nat -> arrival_order (np s) p (ord2 p)) /\
    modes_nonsingular s nz zl co (fun p y => to_row nz zl tr (p * my s + y) (f p y)) old /\
    solve s nz zl tr co f old ord1 ord2 mem = Ok u /\
    collects s nz (fun p y => to_row nz zl tr (p * my s + y) (u p y)) U /\
    has_guards s nz zl U.
Definition par_solved (s : surface) nz zl tr (non_uniform : bool) (M : ydata) : plane -> plane -> Prop :=
  solved s nz zl tr (fun p => par_coefs non_uniform (yview (p * my s) M)).
Definition div_solved (s : surface) nz zl tr (M : ydata) : plane -> plane -> Prop :=
  solved s nz zl tr (fun p => div_coefs (yview (p * my s) M)).
