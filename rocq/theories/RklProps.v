(** C51: the Runge-Kutta-Legendre (diffusion) step of the split solver. The notions of order and of the method of a tableau
    are those of RkSpec. *)
From Coq Require Import List Arith Lia Reals QArith Qreals Lra.
From Verif Require Import RkSpec RkModel RkProofs RkOrder RkLocal RklModel RklProofs.
Import ListNotations.
Local Open Scope R_scope.

(** A right hand side that does not depend on time. *)
Definition autonomous (f : rhs) : Prop := forall t t' y, f t y = f t' y.

(** For every number of stages (at least 2) the step has a local error of second order, for every autonomous polynomial
    system. *)
Theorem C51_second_order : forall s f, (2 <= s)%nat -> autonomous f -> polynomial_rhs f ->
  local_error_order 2 f (fun t h y => take_diffusion_step s f t h y).
Proof.
  intros s f Hs Ha Hf. apply (local_error (rkl2 s)); [apply rkl2_order; exact Hs|exact Hf|].
  intros t h y. apply diffusion_is; assumption.
Qed.

(** It is one step of an explicit Runge-Kutta method with [s] stages (so [s] evaluations of the right hand side), of second
    order for all trees, not only for polynomial systems. *)
Theorem C51_is_runge_kutta : forall s, (2 <= s)%nat -> exists T, bs T = s /\ has_order T 2 /\
  forall f t h y, autonomous f -> rk_method T f t h y (take_diffusion_step s f t h y).
Proof.
  intros s Hs. exists (rkl2 s). split; [reflexivity|]. split; [apply rkl2_order; exact Hs|].
  intros f t h y Ha. apply diffusion_is; assumption.
Qed.

(** A steady state is kept, whatever the number of stages. *)
Theorem C51_steady_state : forall s f t h y, (2 <= s)%nat -> autonomous f -> (forall m, f t y m = 0) ->
  forall m, take_diffusion_step s f t h y m = y m.
Proof.
  intros s f t h y Hs Ha H0 m. destruct (diffusion_is s Hs f Ha t h y) as (k & Hk & ->).
  assert (Z : forall n i, (i < n)%nat -> (i < s)%nat -> forall m, k i m = 0).
  { induction n as [|n IH]; intros i Hi His m'; [lia|]. rewrite (Hk i His).
    rewrite (Ha _ t). rewrite <- (H0 m'). f_equal. apply FunctionalExtensionality.functional_extensionality. intros q.
    rewrite rsum_0; [ring|]. intros j Hj. rewrite (IH j ltac:(lia) ltac:(lia)). ring. }
  rewrite rsum_0; [ring|]. intros i Hi. rewrite (Z (S i) i ltac:(lia) Hi). ring.
Qed.

(** With a right hand side that depends on time the step is not even of first order: the second stage is evaluated at
    [t + (weight/3) * dt], with a factor [dt] too many, and the later ones at the start of the step. *)
Theorem C51_time_dependent_refuted :
  ~ (forall s f, (2 <= s)%nat -> polynomial_rhs f -> local_error_order 2 f (fun t h y => take_diffusion_step s f t h y)).
Proof.
  intros H. set (f := fun (t : R) (y : vec) (m : nat) => t).
  assert (Hf : polynomial_rhs f).
  { exists (fun m => [(1, [0%nat])]). intros t y m. unfold f; cbn [poly_value fold_right fst snd time_state]. ring. }
  set (sol := fun (t : R) (m : nat) => t ^ 2 / 2).
  assert (Hs : local_solution f 0 (fun _ => 0) 2 sol).
  { split; [intros m; unfold sol; field|]. intros t m _. unfold f.
    replace t with (/ 2 * (INR 2 * t ^ Nat.pred 2)) at 2 by (cbn [INR Nat.pred pow]; field).
    apply (derivable_pt_lim_ext (fun s => / 2 * s ^ 2)%R); [intros; unfold sol; field|].
    apply (derivable_pt_lim_scal (fun s => s ^ 2)). apply derivable_pt_lim_pow. }
  destruct (H 2%nat f ltac:(lia) Hf 0 (fun _ => 0) 2 sol 0%nat 1 Hs ltac:(lra)) as (C & HC).
  assert (E : forall h, take_diffusion_step 2 f 0 h (fun _ => 0) 0%nat = h ^ 3 / 2).
  { intros h. unfold take_diffusion_step, f. cbv zeta. cbn [Nat.sub stage_cycle INR].
    replace 1.5 with (3 / 2) by lra. field. }
  set (h := / (2 * Rabs C + 2)).
  assert (P : 0 < 2 * Rabs C + 2) by (pose proof (Rabs_pos C); lra).
  assert (Hh0 : 0 < h) by (apply Rinv_0_lt_compat; exact P).
  assert (Hh1 : h * (2 * Rabs C + 2) = 1) by (unfold h; field; lra).
  assert (Hq : 0 <= Rabs C * h) by (apply Rmult_le_pos; [apply Rabs_pos|lra]).
  assert (Hq1 : 2 * (Rabs C * h) + 2 * h = 1) by (rewrite <- Hh1; ring).
  assert (Hh2 : h <= 1) by lra.
  specialize (HC h ltac:(lra)). cbv beta in HC. rewrite E in HC. unfold sol in HC. rewrite Rplus_0_l in HC.
  assert (HC2 : h ^ 2 / 2 - h ^ 3 / 2 <= Rabs C * h ^ 3).
  { pose proof (Rle_abs (- (h ^ 3 / 2 - h ^ 2 / 2))) as A. rewrite Rabs_Ropp in A.
    pose proof (Rle_abs C) as A2. pose proof (pow_lt h 3 Hh0) as A3.
    assert (C * h ^ 3 <= Rabs C * h ^ 3) by (apply Rmult_le_compat_r; lra). lra. }
  assert (S : 0 < h ^ 2) by (apply pow_lt; exact Hh0).
  replace (h ^ 3) with (h ^ 2 * h) in HC2 by ring.
  replace (Rabs C * (h ^ 2 * h)) with (h ^ 2 * (Rabs C * h)) in HC2 by ring.
  assert (h ^ 2 * (1 / 2 - h / 2 - Rabs C * h) <= 0) by lra.
  assert (0 < 1 / 2 - h / 2 - Rabs C * h) by lra.
  pose proof (Rmult_lt_0_compat _ _ S H1). lra.
Qed.

(** Non-vacuity: decay [y' = -y] with two and three stages; both agree with [exp(-h)] up to second order. *)
Example C51_case :
  autonomous (fun _ y m => - y m) /\ polynomial_rhs (fun _ y m => - y m) /\
  (forall h, take_diffusion_step 2 (fun _ y m => - y m) 0 h (fun _ => 1) 0%nat = 1 - h + h ^ 2 / 2) /\
  (forall h, take_diffusion_step 3 (fun _ y m => - y m) 0 h (fun _ => 1) 0%nat = 1 - h + h ^ 2 / 2 - h ^ 3 / 15).
Proof.
  split; [intros t t' y; reflexivity|]. split.
  { exists (fun m => [(-1, [S m])]). intros t y m. cbn [poly_value fold_right fst snd time_state]. ring. }
  split; intros h; unfold take_diffusion_step; cbv zeta; cbn [Nat.sub stage_cycle]; cbv zeta; unfold b_coef; cbn [INR];
    replace 1.5 with (3 / 2) by lra; replace 0.5 with (1 / 2) by lra; field.
Qed.

Print Assumptions C51_second_order.
Print Assumptions C51_is_runge_kutta.
Print Assumptions C51_steady_state.
Print Assumptions C51_time_dependent_refuted.
