(** Specification for the perpendicular Laplacian: the operator in real space. *)
From Coq Require Import List Arith Bool ZArith Reals.
From Coquelicot Require Import Complex.
From Verif Require Import Base CyclicSpec FftModel LaplaceModel.
Local Open Scope R_scope.

(** A field on the whole x-z plane: [U i j] at the global x index [i] and the z index [j]. *)
Definition plane := nat -> nat -> R.

(** Central differences in x. *)
Definition Dx (M : xdata) (U : plane) (i j : nat) : R := (U (i + 1)%nat j - U (i - 1)%nat j) / (2 * dx M i).
Definition D2x (M : xdata) (U : plane) (i j : nat) : R :=
  (U (i + 1)%nat j - 2 * U i j + U (i - 1)%nat j) / (dx M i * dx M i).

(** Derivatives in z by Fourier transform: [DDZ] and [D2DZ2] with the FFT method (C59), grid spacing
    [zlength / nz]. *)
Definition Dz (nz : nat) (zlength : R) (U : plane) : plane := fun i j => fft_ddz_row nz 0 (U i) j / (zlength / INR nz).
Definition D2z (nz : nat) (zlength : R) (U : plane) : plane :=
  fun i j => fft_d2dz2_row nz (U i) j / ((zlength / INR nz) * (zlength / INR nz)).

Definition when (b : bool) (v : R) : R := if b then v else 0.

(** The operator  D Laplace_perp(u) + (1/C1) Grad_perp(C2) . Grad_perp(u) + A u  of the documentation, where
      Laplace_perp = G1 d/dx + G3 d/dz + g11 d2/dx2 + g33 d2/dz2 + 2 g13 d2/dxdz
    with the first derivatives only when all_terms is set; with a non-uniform mesh the second x derivative has a
    correction proportional to the first; with integrated shear the mixed derivative cancels and the d2/dz2 term gets
    g11 I^2. *)
Definition Lop (o : opts) (M : xdata) (nz : nat) (zlength : R) (U : plane) (i j : nat) : R :=
  let DZ := Dz nz zlength U in
  let d2x := D2x M U i j - when (nonuniform o) ((dx M (i + 1)%nat - dx M (i - 1)%nat) / (2 * dx M i * dx M i) * Dx M U i j) in
  cD M i * (g11 M i * d2x
            + g33 M i * D2z nz zlength U i j
            + when (negb (IncIntShear o)) (2 * g13 M i * Dx M DZ i j)
            + when (all_terms o) (G1 M i * Dx M U i j + G3 M i * DZ i j))
  + when (IncIntShear o) (g11 M i * Ishear M i ^ 2 * D2z nz zlength U i j)
  + (cC2 M (i + 1)%nat - cC2 M (i - 1)%nat) / (2 * dx M i) / cC1 M i * (g11 M i * Dx M U i j + g13 M i * DZ i j)
  + cA M i * U i j.

(** The total number of x points, boundaries included. *)
Definition NX (l : layout) : nat := (np l * mx l + 2 * g l)%nat.

(** [U] collects the pieces held by the processors: row [ix] of processor [p], for the rows it is responsible for. *)
Definition gathers (l : layout) (o : opts) (nz : nat) (u : nat -> nat -> nat -> R) (U : plane) : Prop :=
  forall p ix j, (p < np l)%nat -> (xs l o p <= ix <= xe l o p)%nat -> (j < nz)%nat ->
    u p ix j = U (p * mx l + ix)%nat j.

(** The rows of the tridiagonal system of mode [kz], in order of x, and the assumption that no mode has a singular
    matrix. *)
Definition system_rows (l : layout) (o : opts) (mats : nat -> nat -> tvec) (kz : nat) : list (trow C) :=
  distributed (np l) (nrows l o) (fun p i => Row (va (mats p kz) i) (vb (mats p kz) i) (vc (mats p kz) i) (vk (mats p kz) i)).
Definition modes_nonsingular (l : layout) (o : opts) (nz : nat) (zlength : R) (M : xdata) (rhs x0 : nat -> nat -> nat -> R) : Prop :=
  forall mats, all_matrices l o nz zlength M rhs x0 = Ok mats -> forall kz, (kz <= maxmode o)%nat ->
    nonsingular C (RtoC 0) Cplus Cmult (periodicX o) (system_rows l o mats kz).

(** The value imposed in the boundary row [i]: taken from [x0] (flag SET), from the right hand side (flag RHS), or
    zero. *)
Definition imposed (fl : bflags) (F X0 : plane) (i : nat) : nat -> R :=
  if b_set fl then X0 i else if b_rhs fl then F i else fun _ => 0.

(** The part of a row which varies in z. *)
Definition deviation (nz : nat) (x : nat -> R) (j : nat) : R := x j - dc_row nz x.

(** A decomposition with at least one processor, one point each and one guard cell. *)
Definition well_laid (l : layout) : Prop := (1 <= np l /\ 1 <= mx l /\ 1 <= g l)%nat.

(** [u] is returned by [solve] for the right hand side [F] and the boundary values [X0] (given in pieces [rhs], [x0]), in
    a domain that is not periodic in x, with whatever order of messages and memory contents, no mode being singular;
    [U] is the result on the whole plane. *)
Definition solved (l : layout) (o : opts) (nz : nat) (zlength : R) (M : xdata) (F X0 U : plane) : Prop :=
  well_laid l /\ periodicX o = false /\ (1 <= nz)%nat /\ zlength <> 0 /\
  exists rhs x0 ord1 ord2 mem u,
    gathers l o nz rhs F /\ gathers l o nz x0 X0 /\
    (forall p, (p < np l)%nat -> arrival_order (np l) p (ord1 p)) /\
    (forall p, (p < np l)%nat -> arrival_order (np l) p (ord2 p)) /\
    modes_nonsingular l o nz zlength M rhs x0 /\
    solve l o nz zlength M rhs x0 ord1 ord2 mem = Ok u /\
    gathers l o nz u U.

(** Points at which the equation is solved. *)
Definition is_interior (l : layout) (o : opts) (i : nat) : Prop :=
  (inbndry o (g l) <= i /\ i + Nat.max (inbndry o (g l)) (outbndry o (g l)) < NX l)%nat.

(** The same in a domain periodic in x: [U] includes the guard cells, filled by communication. *)
Definition ncells (l : layout) : nat := (np l * mx l)%nat.
Definition wraps (l : layout) (nz : nat) (U : plane) : Prop :=
  forall j, (j < nz)%nat -> U (g l - 1)%nat j = U (g l + ncells l - 1)%nat j /\ U (g l + ncells l)%nat j = U (g l) j.
Definition solved_periodic (l : layout) (o : opts) (nz : nat) (zlength : R) (M : xdata) (F U : plane) : Prop :=
  well_laid l /\ periodicX o = true /\ (1 <= nz)%nat /\ zlength <> 0 /\
  exists rhs x0 ord1 ord2 mem u,
    gathers l o nz rhs F /\
    (forall p, (p < np l)%nat -> arrival_order (np l) p (ord1 p)) /\
    (forall p, (p < np l)%nat -> arrival_order (np l) p (ord2 p)) /\
    modes_nonsingular l o nz zlength M rhs x0 /\
    solve l o nz zlength M rhs x0 ord1 ord2 mem = Ok u /\
    gathers l o nz u U /\ wraps l nz U.
