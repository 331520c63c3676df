(** What the gyro-averaging operators should compute. *)
From Coq Require Import List Arith Bool ZArith Reals.
From Coquelicot Require Import Complex.
From Verif Require Import Base FftModel LaplaceModel LaplaceSpec GyroModel.
Local Open Scope R_scope.

(** The perpendicular Laplacian of the documentation: central differences in x, Fourier derivatives in z. *)
Definition Lperp (nonunif : bool) (M : xdata) (nz : nat) (zl : R) (U : plane) (i j : nat) : R :=
  G1 M i * Dx M U i j + G3 M i * Dz nz zl U i j
  + g11 M i * (D2x M U i j - when nonunif ((dx M (i + 1)%nat - dx M (i - 1)%nat) / (2 * dx M i * dx M i) * Dx M U i j))
  + g33 M i * D2z nz zl U i j + 2 * g13 M i * Dx M (Dz nz zl U) i j.

(** Points of the domain: no guard cells. *)
Definition inside (l : layout) (i : nat) : Prop := (g l <= i < g l + np l * mx l)%nat.

(** The solver has the properties of C60. *)
Definition is_solver (l : layout) (nz : nat) (zl : R) (inv : opts -> xdata -> plane -> plane -> option plane) : Prop :=
  forall o M F X0 U, inv o M F X0 = Some U -> solved l o nz zl M F X0 U.

(** Default options: all terms, all modes, no integrated shear. *)
Definition default_options (o : opts) (nz : nat) : Prop :=
  all_terms o = true /\ IncIntShear o = false /\ zero_DC o = false /\ (nz / 2 <= maxmode o)%nat.
(** No trouble with the highest frequency of an even number of z points. *)
Definition mesh_ok (l : layout) (M : xdata) (nz : nat) : Prop :=
  forall i, inside l i -> dx M i <> 0 /\ (Nat.odd nz = true \/ g13 M i = 0 /\ G3 M i = 0).

(** Two Laplacians on the same mesh, made with the same options: flags and coefficients may differ. *)
Definition same_make (s s' : lap) : Prop :=
  let o := lo s in let o' := lo s' in let m := lM s in let m' := lM s' in
  (all_terms o = all_terms o' /\ nonuniform o = nonuniform o' /\ IncIntShear o = IncIntShear o' /\ periodicX o = periodicX o' /\
   zero_DC o = zero_DC o' /\ both_one o = both_one o' /\ maxmode o = maxmode o') /\
  (g11 m = g11 m' /\ g33 m = g33 m' /\ g13 m = g13 m' /\ G1 m = G1 m' /\ G3 m = G3 m' /\ g_11 m = g_11 m' /\ g_22 m = g_22 m' /\
   dx m = dx m' /\ Ishear m = Ishear m').

(** Programs: calls of the operators, and of the setters by other parts of the program, one after the other. *)
Inductive call :=
| Pade0 (f : plane) (rho : nat -> R) (fin fout : bflags)
| Pade1 (f : plane) (rho : nat -> R) (fin fout : bflags)
| Pade2 (f : plane) (rho : nat -> R) (fin fout : bflags)
| OtherUse (A C D : nat -> R) (fin fout : bflags).
Definition perform (l : layout) (nz : nat) (zl : R) inv bc (c : call) (s : lap) : option (plane * lap) :=
  match c with
  | Pade0 f rho a b => gyroPade0_2D inv f rho a b s
  | Pade1 f rho a b => gyroPade1_2D inv f rho a b s
  | Pade2 f rho a b => gyroPade2_2D l nz zl inv bc f rho a b s
  | OtherUse A C D a b => Some (fun _ _ => 0, setOuter b (setInner a (setCoefD D (setCoefC C (setCoefA A s)))))
  end.
Fixpoint run (l : layout) (nz : nat) (zl : R) inv bc (cs : list call) (s : lap) : option lap :=
  match cs with
  | nil => Some s
  | cons c cs => match perform l nz zl inv bc c s with Some (_, s) => run l nz zl inv bc cs s | None => None end
  end.
