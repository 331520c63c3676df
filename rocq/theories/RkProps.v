(** C35: the explicit Runge-Kutta integrators are the methods of their tableaus and have the order of accuracy claimed. *)
From Coq Require Import List Arith Bool Lia Reals QArith Qreals Lra FunctionalExtensionality.
From Verif Require Import RkSpec RkModel RkProofs RkOrder RkLocal.
Import ListNotations.
Local Open Scope R_scope.

(** Each step is the textbook method of its tableau, for every right hand side. *)
Theorem C35_steps_are_their_tableaus : forall f t h y,
  rk_method forward_euler f t h y (euler_step f t h y) /\
  rk_method classical_rk4 f t h y (rk4_step f t h y) /\
  rk_method ssp_rk3 f t h y (rk3ssp_step f t h y).
Proof. intros. split; [|split]; [apply euler_is|apply rk4_is|apply rk3ssp_is]. Qed.

(** A method is a function: given the starting point, there is exactly one result. *)
Theorem C35_method_deterministic : forall T f t h y,
  exists y', rk_method T f t h y y' /\ forall y'', rk_method T f t h y y'' -> y'' = y'.
Proof.
  intros T f t h y. destruct (rk_method_total T f t h y) as (y' & H). exists y'. split; [exact H|].
  intros y'' H'. exact (rk_method_functional T f t h y y'' y' H' H).
Qed.

(** Butcher's order conditions, over all rooted trees. *)
Theorem C35_order_conditions :
  has_order forward_euler 1 /\ has_order classical_rk4 4 /\ has_order ssp_rk3 3 /\
  has_order (tableau_of cashkarp 0) 5 /\ has_order (tableau_of cashkarp 1) 4 /\
  has_order (tableau_of rkf45 0) 5 /\ has_order (tableau_of rkf45 1) 4 /\
  has_order (tableau_of rkf34 0) 4 /\ has_order (tableau_of rkf34 1) 3 /\
  has_order (tableau_of rk4simple 0) 4 /\ has_order (tableau_of rk4simple 1) 4.
Proof. repeat match goal with |- _ /\ _ => split end; apply order_ok_sound; vm_compute; reflexivity. Qed.

(** The order conditions give the order of accuracy, for every right hand side polynomial in time and state. *)
Theorem C35_order_conditions_give_accuracy : forall T p f step, has_order T p -> polynomial_rhs f ->
  (forall t h y, rk_method T f t h y (step t h y)) -> local_error_order p f step.
Proof. exact local_error. Qed.

(** A right hand side that depends on time only, as a polynomial of degree less than the order, is integrated exactly. *)
Theorem C35_exact_for_time_polynomials : forall T p f t h y y' sol, has_order T p -> poly_rhs p f ->
  is_solution f t y sol -> 0 <= h -> rk_method T f t h y y' -> forall m, y' m = sol (t + h) m.
Proof. exact time_polynomial_exact. Qed.

Theorem C35_euler_rk4_rk3ssp_accuracy : forall f, polynomial_rhs f ->
  local_error_order 1 f (euler_step f) /\ local_error_order 4 f (rk4_step f) /\ local_error_order 3 f (rk3ssp_step f).
Proof.
  intros f Hf. destruct C35_order_conditions as (H1 & H2 & H3 & _).
  split; [|split].
  - apply (local_error forward_euler); [assumption|assumption|]. intros. apply euler_is.
  - apply (local_error classical_rk4); [assumption|assumption|]. intros. apply rk4_is.
  - apply (local_error ssp_rk3); [assumption|assumption|]. intros. apply rk3ssp_is.
Qed.

(** The generic solver: the step actually followed, and (when adaptive) the embedded solution used for the error estimate,
    are the results of the scheme's two tableaus, whatever was left in the work arrays, provided the absolute tolerance is
    at most 1/40. *)
Definition generic_schemes : list (scheme * bool * nat * nat) :=
  [(cashkarp, false, 5, 4); (rkf45, false, 5, 4); (rkf34, false, 4, 3); (rk4simple, true, 4, 4)]%nat.

Lemma small_atol : forall s r p q atol, In (s, r, p, q) generic_schemes -> atol <= 1 / 40 -> atol_ok s atol.
Proof.
  assert (H : forall s, (forall i j, (j < i)%nat -> (i < numStages s)%nat ->
              (Qeq_bool (stageC s i j) 0 || Qle_bool (1#40) (Qabs.Qabs (stageC s i j)))%bool = true) ->
              forall atol, atol <= 1/40 -> atol_ok s atol).
  { intros s H atol Ha i j Hj Hi. specialize (H i j Hj Hi). apply orb_prop in H. destruct H as [H|H].
    - left. apply Qeq_bool_eq in H. rewrite (Qeq_eqR _ _ H). apply Q2R_0.
    - right. apply Qle_bool_imp_le in H. apply Qle_Rle in H.
      assert (E : Q2R (Qabs.Qabs (stageC s i j)) = Rabs (Q2R (stageC s i j))).
      { unfold Q2R, Qabs.Qabs. destruct (stageC s i j) as [n dd]. cbn [Qnum Qden].
        rewrite Rabs_mult, (Rabs_right (/ IZR (Z.pos dd))).
        - rewrite abs_IZR. reflexivity.
        - apply Rle_ge. left. apply Rinv_0_lt_compat. apply IZR_lt. lia. }
      rewrite E in H. unfold Q2R in H at 1. cbn [Qnum Qden] in H. lra. }
  intros s r p q atol Hin Ha. apply H; [|exact Ha]. clear H Ha. intros i j Hj Hi.
  assert (HH : forallb (fun i => forallb (fun j =>
      (Qeq_bool (stageC s i j) 0 || Qle_bool (1#40) (Qabs.Qabs (stageC s i j)))%bool) (seq 0 i)) (seq 0 (numStages s)) = true).
  { destruct Hin as [E|[E|[E|[E|[]]]]]; injection E as <- _ _ _; vm_compute; reflexivity. }
  rewrite forallb_forall in HH. specialize (HH i ltac:(apply in_seq; lia)). rewrite forallb_forall in HH.
  apply HH. apply in_seq. lia.
Qed.

Theorem C35_generic_is_its_tableau : forall s r (p q : nat) (follow adaptive : bool) atol f t h y steps0 y' alt,
  In (s, r, p, q) generic_schemes -> atol <= 1 / 40 ->
  take_step s r follow adaptive atol f t h y steps0 = (y', alt) ->
  rk_method (tableau_of s (if follow then 0 else 1)) f t h y y' /\
  (if adaptive then exists a, alt = Some a /\ rk_method (tableau_of s (if follow then 1 else 0)) f t h y a else alt = None).
Proof.
  intros s r p q follow adaptive atol f t h y steps0 y' alt Hin Ha H.
  apply (generic_is s follow adaptive atol f t h y steps0 y' alt).
  - exact (small_atol s r p q atol Hin Ha).
  - rewrite <- H. destruct Hin as [E|[E|[E|[E|[]]]]]; injection E as <- <- _ _; try reflexivity.
    symmetry. apply rk4simple_take.
Qed.

Theorem C35_generic_accuracy : forall s r (p q : nat) (follow adaptive : bool) atol f steps0,
  In (s, r, p, q) generic_schemes -> atol <= 1 / 40 -> polynomial_rhs f ->
  local_error_order (if follow then p else q) f (fun t h y => fst (take_step s r follow adaptive atol f t h y steps0)).
Proof.
  intros s r p q follow adaptive atol f steps0 Hin Ha Hf.
  apply (local_error (tableau_of s (if follow then 0 else 1))); [|exact Hf|].
  - destruct C35_order_conditions as (_ & _ & _ & A1 & A2 & B1 & B2 & D1 & D2 & E1 & E2).
    destruct Hin as [E|[E|[E|[E|[]]]]]; injection E as <- _ <- <-; destruct follow; assumption.
  - intros t h y. destruct (take_step s r follow adaptive atol f t h y steps0) as (y', alt) eqn:E. cbn [fst].
    exact (proj1 (C35_generic_is_its_tableau s r p q follow adaptive atol f t h y steps0 y' alt Hin Ha E)).
Qed.

(** The error estimate: the difference of the two solutions is itself of the lower order. *)
Theorem C35_error_estimate_order : forall s r (p q : nat) (follow : bool) atol f steps0 t0 y0 delta sol m d,
  In (s, r, p, q) generic_schemes -> atol <= 1 / 40 -> polynomial_rhs f ->
  local_solution f t0 y0 delta sol -> 0 < d < delta ->
  exists C, forall h y' a, 0 <= h <= d -> take_step s r follow true atol f t0 h y0 steps0 = (y', Some a) ->
    Rabs (y' m - a m) <= C * h ^ S q.
Proof.
  intros s r p q follow atol f steps0 t0 y0 delta sol m d Hin Ha Hf Hs Hd.
  pose proof (C35_generic_accuracy s r p q true true atol f steps0 Hin Ha Hf t0 y0 delta sol m d Hs Hd) as (C1 & H1).
  pose proof (C35_generic_accuracy s r p q false true atol f steps0 Hin Ha Hf t0 y0 delta sol m d Hs Hd) as (C2 & H2).
  cbv beta in H1, H2.
  assert (Hpq : (q <= p)%nat) by (destruct Hin as [E|[E|[E|[E|[]]]]]; injection E as _ _ <- <-; lia).
  exists (Rabs C1 * d ^ (p - q) + C2). intros h y' a Hh Ht.
  specialize (H1 h Hh). specialize (H2 h Hh).
  assert (E : forall fo, exists y1 a1, take_step s r fo true atol f t0 h y0 steps0 = (y1, Some a1) /\
             a1 = fst (take_step s r (negb fo) true atol f t0 h y0 steps0)).
  { intros fo. unfold take_step. destruct r; unfold rk4simple_setOutputStates, setOutputStates; destruct fo; cbn [fst negb]; eauto. }
  assert (Hk : h ^ S p <= d ^ (p - q) * h ^ S q).
  { replace (S p) with ((p - q) + S q)%nat by lia. rewrite pow_add. apply Rmult_le_compat_r; [apply pow_le; lra|].
    apply pow_incr. lra. }
  assert (Hk' : C1 * h ^ S p <= Rabs C1 * d ^ (p - q) * h ^ S q).
  { eapply Rle_trans; [apply Rmult_le_compat_r; [apply pow_le; lra|apply Rle_abs]|].
    rewrite Rmult_assoc. apply Rmult_le_compat_l; [apply Rabs_pos|exact Hk]. }
  destruct (E follow) as (y1 & a1 & E1 & E2). rewrite Ht in E1. injection E1 as <- <-.
  assert (E3 : y' = fst (take_step s r follow true atol f t0 h y0 steps0)) by (rewrite Ht; reflexivity).
  rewrite E2, E3.
  set (u := fst (take_step s r true true atol f t0 h y0 steps0) m) in *.
  set (v := fst (take_step s r false true atol f t0 h y0 steps0) m) in *.
  assert (Hd2 : Rabs (u - v) <= (Rabs C1 * d ^ (p - q) + C2) * h ^ S q).
  { replace (u - v) with ((u - sol (t0 + h) m) + (sol (t0 + h) m - v)) by ring.
    eapply Rle_trans; [apply Rabs_triang|]. rewrite (Rabs_minus_sym (sol (t0 + h) m) v). lra. }
  destruct follow; cbn [negb]; fold u v; [exact Hd2|]. rewrite Rabs_minus_sym. exact Hd2.
Qed.

(** Not for every tolerance: coefficients below the absolute tolerance are dropped from the tableau, and with a tolerance
    above all of them the followed solution of the fifth order scheme is not even second order. *)
Theorem C35_any_tolerance_refuted :
  ~ (forall atol f steps0, polynomial_rhs f ->
       local_error_order 2 f (fun t h y => fst (take_step cashkarp false true false atol f t h y steps0))).
Proof.
  intros H.
  set (f := fun (t : R) (y : vec) (m : nat) => match m with 0%nat => y 1%nat | 1%nat => 1 | _ => 0 end).
  assert (Hf : polynomial_rhs f).
  { exists (fun m => match m with 0%nat => [(1, [2%nat])] | 1%nat => [(1, [])] | _ => [] end).
    intros t y [|[|m]]; cbn [f poly_value fold_right fst snd time_state]; ring. }
  set (sol := fun (t : R) (m : nat) => match m with 0%nat => t ^ 2 / 2 | 1%nat => t | _ => 0 end).
  assert (Hs : local_solution f 0 (fun _ => 0) 2 sol).
  { split.
    - intros [|[|m]]; cbn [sol]; [field|reflexivity|reflexivity].
    - intros t [|[|m]] _; cbn [f sol].
      + replace t with (/ 2 * (INR 2 * t ^ Nat.pred 2)) at 2 by (cbn [INR Nat.pred pow]; field).
        apply (derivable_pt_lim_ext (fun s => / 2 * s ^ 2)%R); [intros; field|].
        apply (derivable_pt_lim_scal (fun s => s ^ 2)). apply derivable_pt_lim_pow.
      + apply derivable_pt_lim_id.
      + apply derivable_pt_lim_const. }
  destruct (H 3 f (fun _ _ => 0) Hf 0 (fun _ => 0) 2 sol 0%nat 1 Hs ltac:(lra)) as (C & HC).
  assert (Z : forall h, fst (take_step cashkarp false true false 3 f 0 h (fun _ => 0) (fun _ _ => 0)) 0%nat = 0).
  { intros h. cbn [take_step setOutputStates fst]. rewrite constructOutput_eq. rewrite Rplus_0_l.
    rewrite (rsum_0 (numStages cashkarp)); [ring|]. intros i Hi.
    replace (stage_loop cashkarp 3 f 0 h (fun _ => 0) (numStages cashkarp) (fun _ _ => 0) i 0%nat) with 0; [ring|].
    symmetry.
    assert (HL : forall n steps, (n <= numStages cashkarp)%nat -> (i < n)%nat -> stage_loop cashkarp 3 f 0 h (fun _ => 0) n steps i 0%nat = 0).
    { induction n as [|n IH]; intros steps Hn Hin; [lia|]. cbn [stage_loop].
      destruct (Nat.eqb_spec i n) as [->|Hne]; [|apply IH; lia].
      cbn [f].
      assert (HS : forall j out, (j <= n)%nat -> setCurState_loop cashkarp 3 (stage_loop cashkarp 3 f 0 h (fun _ => 0) n steps) h n j out = out).
      { induction j as [|j IHj]; intros out Hj; [reflexivity|]. cbn [setCurState_loop].
        rewrite IHj by lia. destruct (Rlt_dec _ _) as [_|Hge]; [reflexivity|]. exfalso. apply Hge.
        cbn [cashkarp numStages] in Hn.
        do 6 (destruct n as [|n]; [do 6 (destruct j as [|j]; [try lia; cbn [stageC cashkarp stageCoeffs nth]; unfold Q2R; cbn [Qnum Qden]; unfold Rabs; destruct Rcase_abs; lra|]); lia|]).
        lia. }
      unfold setCurState. rewrite HS by lia. reflexivity. }
    apply HL; [lia|exact Hi]. }
  set (h := / (2 * Rabs C + 2)).
  assert (P : 0 < 2 * Rabs C + 2) by (pose proof (Rabs_pos C); lra).
  assert (Hh0 : 0 < h) by (apply Rinv_0_lt_compat; exact P).
  assert (Hh1 : h * (2 * Rabs C + 2) = 1) by (unfold h; field; lra).
  assert (Hq : 0 <= Rabs C * h) by (apply Rmult_le_pos; [apply Rabs_pos|lra]).
  assert (Hq1 : 2 * (Rabs C * h) + 2 * h = 1) by (rewrite <- Hh1; ring).
  assert (Hh2 : h <= 1) by lra.
  specialize (HC h ltac:(lra)). cbv beta in HC. rewrite Z in HC. cbn [sol] in HC. rewrite Rplus_0_l in HC.
  replace (0 - h ^ 2 / 2) with (- (h ^ 2 / 2)) in HC by ring. rewrite Rabs_Ropp, Rabs_right in HC by (pose proof (pow_lt h 2 Hh0); lra).
  pose proof (Rle_abs C). cbn [pow] in HC.
  assert (A1 : (h * h) * (1 / 2) <= (h * h) * (Rabs C * h)).
  { apply Rle_trans with (C * (h * (h * (h * 1)))); [lra|].
    replace ((h * h) * (Rabs C * h)) with (Rabs C * (h * (h * (h * 1)))) by ring.
    apply Rmult_le_compat_r; [|exact H0]. apply Rmult_le_pos; [lra|]. apply Rmult_le_pos; [lra|]. lra. }
  apply Rmult_le_reg_l in A1; [lra|]. apply Rmult_lt_0_compat; exact Hh0.
Qed.

(** Non-vacuity: the logistic equation, with its solution, meets the hypotheses; and a concrete step. *)
Example C35_case :
  let f : rhs := fun t y m => match m with O => y 0%nat - y 0%nat * y 0%nat | _ => 0 end in
  let sol : R -> vec := fun t m => match m with O => / (1 + exp (- t)) | _ => 0 end in
  polynomial_rhs f /\
  local_solution f 0 (fun m => match m with O => / 2 | _ => 0 end) 5 sol /\
  euler_step f 0 1 (fun m => match m with O => / 2 | _ => 0 end) 0%nat = 3 / 4 /\
  In (cashkarp, false, 5%nat, 4%nat) generic_schemes.
Proof.
  cbv zeta. split; [|split; [split|split]].
  - exists (fun m => match m with O => [(1, [1%nat]); (-1, [1%nat; 1%nat])] | _ => [] end).
    intros t y [|m]; cbn [poly_value fold_right fst snd time_state]; ring.
  - intros [|m]; [|reflexivity]. rewrite Ropp_0, exp_0. field.
  - intros t [|m] _; [|apply derivable_pt_lim_const].
    pose proof (exp_pos (- t)) as P.
    apply (derivable_pt_lim_ext (fun s => 1 / (1 + exp (- s)))%R); [intros; field; pose proof (exp_pos (- z)); lra|].
    replace (/ (1 + exp (- t)) - / (1 + exp (- t)) * / (1 + exp (- t)))
      with ((0 * (1 + exp (- t)) - (0 + exp (- t) * - (1)) * 1) / Rsqr (1 + exp (- t))) by (unfold Rsqr; field; lra).
    apply (derivable_pt_lim_div (fun _ => 1) (fun s => 1 + exp (- s))); [apply derivable_pt_lim_const| |lra].
    apply (derivable_pt_lim_plus (fun _ => 1) (fun s => exp (- s))); [apply derivable_pt_lim_const|].
    apply (derivable_pt_lim_comp (fun s => - s) exp); [|apply derivable_pt_lim_exp].
    apply (derivable_pt_lim_opp (fun s => s) t 1). apply derivable_pt_lim_id.
  - unfold euler_step. cbv beta zeta iota. field.
  - left. reflexivity.
Qed.

Print Assumptions C35_order_conditions.
Print Assumptions C35_order_conditions_give_accuracy.
Print Assumptions C35_exact_for_time_polynomials.
Print Assumptions C35_generic_accuracy.
Print Assumptions C35_error_estimate_order.
Print Assumptions C35_any_tolerance_refuted.
