(** The SNB model of non-local heat flux: src/physics/snb.cxx, include/bout/snb.hxx.

    Simplifications.  Exact real arithmetic.  The operators act along the magnetic field only, so one surface (one x) at
    a time: fields are functions of the global y index (all processors along y, guard cells included) and the z index;
    metrics depend on y only; identity parallel transform, so that a field and its field-aligned form are the same.  The
    solver InvertParDiv is a parameter [inv] (None: it threw); its properties are those of C89.  Reading of the options
    left out (the four values are parameters). *)
From Coq Require Import List Arith Bool ZArith Reals.
From Coquelicot Require Import Complex.
From Verif Require Import Base FftModel FvModel ParInvModel.
Import ListNotations.
Local Open Scope R_scope.

Definition plane := nat -> nat -> R.

(** constants.hxx:20-22 *)
Record consts := Consts { qe : R; Me : R; e0 : R }.
(** snb.hxx:64-67 (default values 1, 2, 10, 40) *)
Record snb := Snb { Zi : R; rscale : R; beta_max : R; ngroups : nat }.

(** snb.hxx:69-78 *)
Definition int_beta4_exp (beta : R) : R := - exp (- beta) * (24 + beta * (24 + beta * (12 + beta * (4 + beta)))).
Definition groupWeight (bmin bmax : R) : R := (1 / 24) * (int_beta4_exp bmax - int_beta4_exp bmin).

Section Snb.
Variables (c : consts) (o : snb) (nz : nat) (m : ydata) (yl : yline) (Te Ne : plane).
Variable inv : ydata -> plane -> option plane.

(** snb.cxx:14-30 *)
Definition SQr (x : R) : R := x * x.
Definition thermal_speed : plane := fun i j => sqrt (2 * qe c * Te i j / Me c).
Definition Yc : R := SQr (SQr (qe c) / (e0 c * Me c)) / (4 * PI).
Definition coulomb_log : plane := fun i j => 6.6 - 0.5 * ln (Ne i j * (/ 10 ^ 20)) + 1.5 * ln (Te i j).
Definition lambda_ee_T : plane := fun i j => thermal_speed i j ^ 4 / (Yc * Ne i j * coulomb_log i j).
Definition lambda_ei_T : plane := fun i j => lambda_ee_T i j / Zi o.
Definition tau_ei_T : plane := fun i j => lambda_ei_T i j / thermal_speed i j.
(** 32-40; the flux through the boundary faces is included (third argument left at its default). *)
Definition kappa : plane := fun i j =>
  (Ne i j * qe c * Te i j / Me c) * (0.25 * 3 * sqrt PI * tau_ei_T i j) * 13.58 * (Zi o + 0.24) / (Zi o + 4.2).
Definition line (f : nat -> R) : Z -> R := fun k => f (Z.to_nat k).
Definition Div_Q_SH : plane := fun i j =>
  - K_Grad_par yl (Metric (line (yJ m)) (line (ydy m)) (line (yg22 m))) (line (fun i => kappa i j)) (line (fun i => Te i j)) true (Z.of_nat i).
(** 46-47 *)
Definition lambda_ee_Tprime : plane := fun i j => lambda_ee_T i j / rscale o.
Definition lambda_ei_Tprime : plane := fun i j => lambda_ei_T i j * ((Zi o + 0.25) / (Zi o + 4.2)).

(** invert_pardiv.hxx:134, 145: coefficients that depend on z are averaged over z. *)
Definition with_coefs (A B : plane) : ydata :=
  YData (fun i => dc_row nz (A i)) (fun i => dc_row nz (B i)) (yC m) (yD m) (yE m) (yg22 m) (ydy m) (yd1 m) (yJ m).

(** 49-83 *)
Definition dbeta : R := beta_max o / INR (ngroups o).
Fixpoint groups (n : nat) (beta_last : R) (Div_Q : plane) : option plane :=
  match n with
  | O => Some Div_Q
  | S n =>
    let beta := beta_last + dbeta in
    let weight := groupWeight beta_last beta in
    let lambda_g_ee := fun i j => SQr beta * lambda_ee_Tprime i j in
    let lambda_g_ei := fun i j => SQr beta * lambda_ei_Tprime i j in
    let coefB := fun i j => (-1 / 3) * lambda_g_ei i j in
    match inv (with_coefs (fun i j => 1 / lambda_g_ee i j) coefB) (fun i j => (- weight) * Div_Q_SH i j) with
    | None => None
    | Some H_g => groups n beta (fun i j => Div_Q i j - (weight * Div_Q_SH i j + H_g i j / lambda_g_ee i j))
    end
  end.
Definition divHeatFlux : option plane := groups (ngroups o) 0 Div_Q_SH.
End Snb.
