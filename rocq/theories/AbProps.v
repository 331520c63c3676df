(** C50: the Adams-Bashforth integration. *)
From Coq Require Import List Arith Reals Bool Lia Lra.
From Verif Require Import AbSpec AbModel AbProofs.
Import ListNotations.
Local Open Scope R_scope.

(** For orders 1 to 8 and any distinct points, the coefficients integrate every polynomial of degree below the order exactly
    from the newest point to the next time. *)
Theorem C50_coefficients_exact : forall k points nextPoint q Q, (1 <= k <= 8)%nat ->
  (forall i j, (i < j)%nat -> (j < k)%nat -> nth i points 0 <> nth j points 0) ->
  (length q <= k)%nat -> antiderivative_of Q (pol q) ->
  sum_to k (fun i => nth i (get_adams_bashforth_coefficients nextPoint points k) 0 * pol q (nth i points 0))
  = Q nextPoint - Q (nth 0 points 0).
Proof. exact coefficients_exact. Qed.

(** One step from the newest point is exact when the stored derivatives are samples of a polynomial in time of degree below
    the order. *)
Theorem C50_step_exact : forall k times history timeIn dt current (q : nat -> list R) (sol : nat -> R -> R),
  (1 <= k <= 8)%nat -> (k <= length times)%nat -> newest_first times -> nth 0 times 0 = timeIn ->
  (forall m, (length (q m) <= k)%nat) -> (forall m, antiderivative_of (sol m) (pol (q m))) ->
  (forall j m, (j < k)%nat -> nth j history (fun _ => 0) m = pol (q m) (nth j times 0)) ->
  (forall m, current m = sol m timeIn) ->
  forall m, take_step_fixed timeIn dt times history k current m = sol m (timeIn + dt).
Proof.
  intros k times history timeIn dt current q sol Hk Hlen Hn H0 Hq Hs Hh Hc m.
  unfold take_step_fixed, AB_integrate, AB_integrate_update. rewrite update_loop_sum, Hc.
  rewrite (sum_ext k _ (fun j => nth j (get_adams_bashforth_coefficients (timeIn + dt) times k) 0 * pol (q m) (nth j times 0))).
  - rewrite (coefficients_exact k times (timeIn + dt) (q m) (sol m)); [rewrite H0; ring|exact Hk| |apply Hq|apply Hs].
    intros i j Hi Hj. pose proof (newest_lt times i j Hn Hi ltac:(lia)). lra.
  - intros j Hj. rewrite Hh by exact Hj. ring.
Qed.

(** In every run, whatever the step sizes and the choices of order, the order used never exceeds the number of stored
    points, there are never more than [maximum_order] of them, derivatives and times stay paired, and the points are
    distinct, newest first, the newest being the current time. *)
Theorem C50_history : forall maximum_order t0 derivs lower dts n, (1 <= maximum_order)%nat -> (forall m, 0 < dts m) ->
  let h := before_step maximum_order t0 derivs lower dts n in
  (1 <= h_order h <= length (h_times h))%nat /\ length (h_times h) = length (h_derivs h) /\
  length (h_times h) = Nat.min (S n) maximum_order /\ newest_first (h_times h) /\ nth 0 (h_times h) 0 = h_simtime h.
Proof.
  intros mx t0 derivs lower dts n Hmx Hd h.
  destruct (before_step_ok mx t0 derivs lower dts n Hmx Hd) as ((Ho & Hl & Hm & Hn & Hh) & Hlen). fold h in Ho, Hl, Hm, Hn, Hh, Hlen.
  split; [exact Ho|]. split; [exact Hl|]. split; [exact Hlen|]. split; [exact Hn|].
  destruct (h_times h) as [|a r]; [discriminate|]. injection Hh as ->. reflexivity.
Qed.

(** The stored derivatives are those computed at the stored times: position [j] holds the derivative of internal step
    [n - j] and its time. *)
Fixpoint time_of (t0 : R) (dts : nat -> R) (n : nat) : R := match n with O => t0 | S m => time_of t0 dts m + dts m end.

Lemma nth_pop_back : forall {A} (l : list A) d j, (j < length l - 1)%nat -> nth j (pop_back l) d = nth j l d.
Proof.
  intros A l d. unfold pop_back. generalize (length l - 1)%nat as n. intros n. revert l. induction n as [|n IH]; intros l j Hj; [lia|].
  destruct l as [|a r]; [destruct j; reflexivity|]. cbn [firstn]. destruct j as [|j]; [reflexivity|]. cbn [nth]. apply IH. lia.
Qed.
Theorem C50_history_content : forall maximum_order t0 derivs lower dts n j, (1 <= maximum_order)%nat -> (forall m, 0 < dts m) ->
  (j < Nat.min (S n) maximum_order)%nat ->
  let h := before_step maximum_order t0 derivs lower dts n in
  nth j (h_derivs h) (fun _ => 0) = derivs (n - j)%nat /\ nth j (h_times h) 0 = time_of t0 dts (n - j).
Proof.
  intros mx t0 derivs lower dts n. 
  assert (Ht : forall n, h_simtime (before_step mx t0 derivs lower dts n) = time_of t0 dts n).
  { induction n0 as [|n0 IH]; [reflexivity|]. cbn [before_step push finish h_simtime time_of]. rewrite IH. reflexivity. }
  induction n as [|n IH]; intros j Hmx Hd Hj; cbv zeta.
  - assert (j = 0)%nat as -> by lia. split; reflexivity.
  - cbv zeta in IH.
    destruct (before_step_ok mx t0 derivs lower dts n Hmx Hd) as ((_ & Hl & _) & Hlen).
    destruct j as [|j].
    + cbn [before_step push h_derivs h_times nth Nat.sub finish h_simtime]. split; [reflexivity|].
      rewrite Ht. reflexivity.
    + cbn [before_step push h_derivs h_times nth Nat.sub].
      destruct (IH j Hmx Hd ltac:(lia)) as (H1 & H2). cbn [finish h_derivs h_times].
      split.
      * rewrite <- H1. destruct (Nat.eqb_spec (length (h_derivs (before_step mx t0 derivs lower dts n))) mx) as [E|E]; [|reflexivity].
        apply nth_pop_back. lia.
      * rewrite <- H2. destruct (Nat.eqb_spec (length (h_times (before_step mx t0 derivs lower dts n))) mx) as [E|E]; [|reflexivity].
        apply nth_pop_back. lia.
Qed.

(** Orders above 8 are accepted by the options but are not even consistent: the rule for them has 9 nodes and interpolates
    through 8 points only, yet there are as many coefficients as the order. *)
Theorem C50_order_nine_refuted :
  ~ (forall points nextPoint, (forall i j, (i < j)%nat -> (j < 9)%nat -> nth i points 0 <> nth j points 0) ->
       sum_to 9 (fun i => nth i (get_adams_bashforth_coefficients nextPoint points 9) 0) = nextPoint - nth 0 points 0).
Proof.
  intros H. set (pts := [0; -1; -2; -3; -4; -5; -6; -7; -8]).
  assert (D : forall i j, (i < j)%nat -> (j < 9)%nat -> nth i pts 0 <> nth j pts 0).
  { intros i j Hi Hj. do 9 (destruct i as [|i]; [do 9 (destruct j as [|j]; [try lia; cbn [nth pts]; try lra|]); lia|]); lia. }
  specialize (H pts 1 D).
  assert (E8 : sum_to 8 (fun i => nth i (get_adams_bashforth_coefficients 1 pts 9) 0) = 1 - nth 0 pts 0).
  { rewrite <- (coefficients_exact 8 pts 1 [1] (fun x => x)); [| lia| intros; apply D; lia|cbn; lia|].
    - apply sum_ext. intros i Hi. rewrite !coeffs_nth by lia. cbn [pol].
      change (integrate_lagrange_curve (nth 0 pts 0) 1 pts i 9) with (integrate_lagrange_curve (nth 0 pts 0) 1 pts i 8). ring.
    - intros x. replace (pol [1] x) with 1 by (cbn [pol]; ring). apply derivable_pt_lim_id. }
  cbn [sum_to] in H. cbn [sum_to] in E8. rewrite E8 in H.
  rewrite coeffs_nth in H by lia.
  assert (N : integrate_lagrange_curve (nth 0 pts 0) 1 pts 8 9 <> 0).
  { unfold integrate_lagrange_curve, lagrange_interpolate, rule, nc9, scaled. cbv zeta. cbn [map length Nat.sub interpolate_loop lagrange_numerator lagrange_denominator Nat.eqb nth pts INR].
    apply Rmult_integral_contrapositive. split; [|].
    - lra.
    - repeat (unfold Rdiv; apply Rmult_integral_contrapositive_currified; [|apply Rinv_neq_0_compat; lra]). lra. }
  lra.
Qed.

(** Non-vacuity: the classical two-step coefficients 3/2 and -1/2 on equidistant points; a third order step. *)
Example C50_case :
  get_adams_bashforth_coefficients 1 [0; -1] 2 = [3 / 2; - (1 / 2)] /\
  take_step_fixed 0 2 [0; -1; -3] [(fun _ => 0); (fun _ => 3); (fun _ => 27)] 3 (fun _ => 0) 0%nat = 8 /\
  newest_first [0; -1; -3].
Proof.
  split; [|split].
  - unfold get_adams_bashforth_coefficients. cbn [seq map]. unfold integrate_lagrange_curve, rule, nc3, lagrange_interpolate, scaled.
    cbn [map length Nat.sub interpolate_loop lagrange_numerator lagrange_denominator Nat.eqb nth INR]. f_equal; [field|f_equal; field].
  - rewrite (C50_step_exact 3 [0; -1; -3] _ 0 2 (fun _ => 0) (fun _ => [0; 0; 3]) (fun _ x => x ^ 3)); [ring|lia|cbn; lia| |reflexivity| | | |].
    + cbn [newest_first]. lra.
    + intros; cbn; lia.
    + intros m x. replace (pol [0; 0; 3] x) with (INR 3 * x ^ Nat.pred 3) by (cbn [pol INR Nat.pred pow]; ring). apply derivable_pt_lim_pow.
    + intros [|[|[|j]]] m Hj; [cbn [nth pol]; ring|cbn [nth pol]; ring|cbn [nth pol]; ring|lia].
    + intros m. ring.
  - cbn [newest_first]. lra.
Qed.

Print Assumptions C50_coefficients_exact.
Print Assumptions C50_step_exact.
Print Assumptions C50_history.
Print Assumptions C50_history_content.
Print Assumptions C50_order_nine_refuted.
