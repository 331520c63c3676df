(** Gyro-averaging operators: src/physics/gyro_average.cxx, include/bout/gyro_average.hxx.

    Simplifications.  One y index at a time (the inversion and Delp2 act on x-z planes), exact real arithmetic.  Fields are
    functions of the global x index and the z index, so that communicate does nothing.  The default Laplacian is of type cyclic (the
    default); its solve is a parameter [inv] (None: it threw), whose properties are those of C60.  The boundary
    condition applied at the end of gyroPade2 is a parameter [bc].  The timer and the cell locations are left out. *)
From Coq Require Import List Arith Bool ZArith Reals.
From Coquelicot Require Import Complex.
From Verif Require Import Base FftModel LaplaceModel LaplaceSpec.
Local Open Scope R_scope.

(** invert_laplace.hxx:238-336, cyclic_laplace.hxx:66-116: the state of a Laplacian: options and flags, mesh and coefficients. *)
Record lap := Lap { lo : opts; lM : xdata }.

(** cyclic_laplace.hxx:67-94 and invert_laplace.hxx:238-239; setCoefC sets both C1 and C2. *)
Definition setCoefA (v : nat -> R) (s : lap) : lap := let m := lM s in
  Lap (lo s) (XData (g11 m) (g33 m) (g13 m) (G1 m) (G3 m) (g_11 m) (g_22 m) (dx m) (Ishear m) v (cC1 m) (cC2 m) (cD m)).
Definition setCoefC (v : nat -> R) (s : lap) : lap := let m := lM s in
  Lap (lo s) (XData (g11 m) (g33 m) (g13 m) (G1 m) (G3 m) (g_11 m) (g_22 m) (dx m) (Ishear m) (cA m) v v (cD m)).
Definition setCoefD (v : nat -> R) (s : lap) : lap := let m := lM s in
  Lap (lo s) (XData (g11 m) (g33 m) (g13 m) (G1 m) (G3 m) (g_11 m) (g_22 m) (dx m) (Ishear m) (cA m) (cC1 m) (cC2 m) v).
Definition setInner (f : bflags) (s : lap) : lap := let o := lo s in
  Lap (Opts (all_terms o) (nonuniform o) (IncIntShear o) (periodicX o) (zero_DC o) (both_one o) f (outer o) (maxmode o)) (lM s).
Definition setOuter (f : bflags) (s : lap) : lap := let o := lo s in
  Lap (Opts (all_terms o) (nonuniform o) (IncIntShear o) (periodicX o) (zero_DC o) (both_one o) (inner o) f (maxmode o)) (lM s).

(** gyro_average.hxx:40: INVERT_BNDRY_ONE + INVERT_RHS. *)
Definition GYRO_FLAGS : bflags := BFlags false false false false false false false false true true.

Section Gyro.
Variables (l : layout) (nz : nat) (zl : R).
Variable inv : opts -> xdata -> plane -> plane -> option plane.
Variable bc : plane -> plane.

(** cyclic_laplace.hxx:105: the right hand side is also the boundary value. *)
Definition invert (s : lap) (f : plane) : option (plane * lap) :=
  match inv (lo s) (lM s) f f with Some g => Some (g, s) | None => None end.

(** gyro_average.cxx:42-81 *)
Definition gyroPade0_const (f : plane) (rho : R) (fin fout : bflags) (s : lap) : option (plane * lap) :=
  let a := fun _ : nat => 1 in
  let d := fun _ : nat => - rho * rho in
  invert (setOuter fout (setInner fin (setCoefD d (setCoefC (fun _ => 1) (setCoefA a s))))) f.
Definition gyroPade0_2D (f : plane) (rho : nat -> R) (fin fout : bflags) (s : lap) : option (plane * lap) :=
  let a := fun _ : nat => 1 in
  let d := fun i => - rho i * rho i in
  invert (setOuter fout (setInner fin (setCoefD d (setCoefC (fun _ => 1) (setCoefA a s))))) f.
(** 83-87; DC (field3d.cxx:769) *)
Definition DC (rho : plane) : nat -> R := fun i => dc_row nz (rho i).
Definition gyroPade0_3D (f rho : plane) (fin fout : bflags) (s : lap) : option (plane * lap) := gyroPade0_2D f (DC rho) fin fout s.

(** 89-130 *)
Definition gyroPade1_const (f : plane) (rho : R) (fin fout : bflags) (s : lap) : option (plane * lap) :=
  let a := fun _ : nat => 1 in
  let d := fun _ : nat => -0.5 * rho * rho in
  invert (setOuter fout (setInner fin (setCoefD d (setCoefC (fun _ => 1) (setCoefA a s))))) f.
Definition gyroPade1_2D (f : plane) (rho : nat -> R) (fin fout : bflags) (s : lap) : option (plane * lap) :=
  let a := fun _ : nat => 1 in
  let d := fun i => -0.5 * rho i * rho i in
  invert (setOuter fout (setInner fin (setCoefD d (setCoefC (fun _ => 1) (setCoefA a s))))) f.
Definition gyroPade1_3D (f rho : plane) (fin fout : bflags) (s : lap) : option (plane * lap) := gyroPade1_2D f (DC rho) fin fout s.
(** 132-138: Field2D argument *)
Definition gyroPade1_Field2D (f rho : nat -> R) (fin fout : bflags) (s : lap) : option ((nat -> R) * lap) :=
  match gyroPade1_2D (fun i _ => f i) rho fin fout s with Some (tmp, s) => Some (DC tmp, s) | None => None end.

(** coordinates.cxx:1656-1714 (LaplaceModel), with the options of the default Laplacian; the processor which holds
    the point [i]. *)
Definition Delp2 (s : lap) (U : plane) : plane := fun i j =>
  let p := ((i - g l) / mx l)%nat in
  let jx := (g l + (i - g l) mod mx l)%nat in
  delp2_row (lo s) (LocalNx l) nz zl (view (p * mx l) (lM s)) (fun ix => U (p * mx l + ix)%nat) jx j.

(** 38-40 *)
Definition gyroTaylor0 (f rho : plane) (s : lap) : plane := fun i j => f i j + rho i j * rho i j * Delp2 s f i j.

(** 140-170 *)
Definition gyroPade2_const (f : plane) (rho : R) (fin fout : bflags) (s : lap) : option (plane * lap) :=
  match gyroPade1_const f rho fin fout s with None => None | Some (r1, s) =>
  match gyroPade1_const r1 rho fin fout s with None => None | Some (r2, s) =>
    Some (bc (fun i j => 0.5 * rho * rho * Delp2 s r2 i j), s) end end.
Definition gyroPade2_2D (f : plane) (rho : nat -> R) (fin fout : bflags) (s : lap) : option (plane * lap) :=
  match gyroPade1_2D f rho fin fout s with None => None | Some (r1, s) =>
  match gyroPade1_2D r1 rho fin fout s with None => None | Some (r2, s) =>
    Some (bc (fun i j => 0.5 * rho i * rho i * Delp2 s r2 i j), s) end end.
Definition gyroPade2_3D (f rho : plane) (fin fout : bflags) (s : lap) : option (plane * lap) := gyroPade2_2D f (DC rho) fin fout s.
End Gyro.
