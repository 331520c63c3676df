(** What the SNB model should compute (Schurtz, Nicolai, Busquet; with separate electron-electron and electron-ion mean
    free paths). *)
From Coq Require Import List Arith Bool ZArith Reals.
From Coquelicot Require Import Coquelicot.
From Verif Require Import Base FftModel FvModel ParInvModel ParInvSpec SnbModel.
Import ListNotations.
Local Open Scope R_scope.

(** Div_par(k Grad_par U) by finite volumes: the difference of the fluxes through the two faces of the cell [i]. *)
Definition half (f : nat -> R) (i : nat) : R := (f i + f (i + 1)%nat) / 2.
Definition face_flux (m : ydata) (k : nat -> R) (U : plane) (i j : nat) : R :=
  half k i * half (yJ m) i / half (yg22 m) i * ((U (i + 1)%nat j - U i j) / half (ydy m) i).
Definition Div_par (m : ydata) (k : nat -> R) (U : plane) (i j : nat) : R :=
  (face_flux m k U i j - face_flux m k U (i - 1) j) / (yJ m i * ydy m i).

(** Mean free path of thermal electrons: v^4 / (Y n ln Lambda), v^2 = 2 e T / m. *)
Definition ln_lambda (T n : R) : R := 6.6 - / 2 * ln (n / 10 ^ 20) + 3 / 2 * ln T.
Definition mfp (c : consts) (T n : R) : R :=
  (2 * qe c * T / Me c) ^ 2 / ((qe c ^ 2 / (e0 c * Me c)) ^ 2 / (4 * PI) * n * ln_lambda T n).

(** Spitzer-Harm conductivity, proportional to T^(5/2) / ln Lambda: the density cancels. *)
Definition spitzer (c : consts) (Zn : R) (T n : R) : R :=
  3 * sqrt PI / 8 * 13.58 * (Zn + 0.24) / (Zn + 4.2) / Zn * sqrt (2 * qe c * T / Me c) ^ 5
  / ((qe c ^ 2 / (e0 c * Me c)) ^ 2 / (4 * PI) * ln_lambda T n).

(** [ngroups] equal groups from 0 to [beta_max]; upper limit and weight of group [g]. *)
Definition limit_of (o : snb) (g : nat) : R := INR g * (beta_max o / INR (ngroups o)).
Definition weight_of (o : snb) (g : nat) : R :=
  / 24 * RInt (fun b => b ^ 4 * exp (- b)) (limit_of o g) (limit_of o (S g)).
(** Mean free paths of group [g]. *)
Definition lam_ee (c : consts) (o : snb) (Te Ne : plane) (g i j : nat) : R := limit_of o (S g) ^ 2 * mfp c (Te i j) (Ne i j) / rscale o.
Definition lam_ei (c : consts) (o : snb) (Te Ne : plane) (g i j : nat) : R :=
  limit_of o (S g) ^ 2 * (mfp c (Te i j) (Ne i j) / Zi o) * ((Zi o + 0.25) / (Zi o + 4.2)).

(** Divergence of the Spitzer-Harm heat flux. *)
Definition DivQ_SH (c : consts) (o : snb) (m : ydata) (Te Ne : plane) (i j : nat) : R :=
  - Div_par m (fun i => spitzer c (Zi o) (Te i j) (Ne i j)) Te i j.

(** [Q] is returned, with a solver that has the properties of C89. *)
Definition snb_run (s : surface) (zl : R) (c : consts) (o : snb) (nz : nat) (m : ydata) (Te Ne Q : plane) : Prop :=
  exists yl inv, (forall M F U, inv M F = Some U -> div_solved s nz zl None M F U) /\
    divHeatFlux c o nz m yl Te Ne inv = Some Q.

Definition axisymmetric (f : plane) : Prop := forall i j, f i j = f i 0%nat.
(** The guard cells of a closed surface hold the values of the other end. *)
Definition wraps (s : surface) (f : nat -> R) : Prop := f (first s - 1)%nat = f (past s - 1)%nat /\ f (past s) = f (first s).
(** Positive data. *)
Definition physical (c : consts) (o : snb) (Te Ne : plane) : Prop :=
  0 < qe c /\ 0 < Me c /\ 0 < e0 c /\ 0 < Zi o /\ 0 < rscale o /\ 0 < beta_max o /\ (1 <= ngroups o)%nat /\
  forall i j, 0 < Te i j /\ 0 < Ne i j /\ 0 < ln_lambda (Te i j) (Ne i j).
(** Integral over the surface. *)
Definition total (s : surface) (nz : nat) (m : ydata) (f : plane) : R :=
  rsum (past s - first s) (fun q => let i := (first s + q)%nat in rsum nz (fun j => yJ m i * ydy m i * f i j)).
