(** * C87: the IMEX-BDF2 multistep solver

    Properties of [ImexModel] stated with [ImexSpec]. *)
From Coq Require Import List Bool Arith ZArith QArith Reals Lra Lia.
From Verif Require Import ImexModel ImexSpec ImexCoef ImexCoef4 ImexProofs ImexRun ImexTop.
Import ListNotations.
Local Open Scope R_scope.

(** Options a user can expect to work. *)
Definition sane (c : cfg R) : Prop :=
  (2 <= maxOrder c <= 4)%nat /\ 0 < dtMinFatal c /\ dtMin c <= dtMax c /\
  0 < dtMax c /\ 0 < outStep c /\
  (predictor c = 2%nat -> (3 <= maxOrder c)%nat) /\
  (adaptive c = true -> nadapt c <> 0%nat).

(** The coefficients computed for any positive step sizes are those of a formula
    of the requested order. *)
Theorem C87_order : forall p h tn, (1 <= p <= 4)%nat -> (p <= length h)%nat ->
  Forall (fun x => 0 < x) (firstn p h) ->
  exists uc a b, rawCoeffs Rops p h = Some (uc, a, b) /\ 0 < uc /\
    of_order p tn (fun j => tn - fold_right Rplus 0 (firstn (S j) h))
      (fun j => nth j a 0 / uc) (fun j => nth j b 0 / uc) (hd 0 h / uc).
Proof.
  intros p h tn Hp Hl Hf.
  destruct (coeffs_all p h Hp Hl Hf) as (uc&a&b&h0&t&E&Eh&U&La&Lb&M).
  exists uc, a, b. split; [exact E|]. split; [exact U|].
  replace (hd 0 h) with h0 by (rewrite Eh; reflexivity). apply moments_order.
  apply (moments_ext p (back h)); [|exact M]. intros j _. unfold back. ring.
Qed.

(** Every accepted step starts where the last one ended, uses the non-stiff
    derivative of its start, ends in the answer of a converged implicit solve at
    its end time, and the order ramps up from 1 so that only points of the
    solution are used. *)
Theorem C87_history : forall c imp conv scale nout fuel fi u0 t0 s, sane c ->
  run Rops c imp conv scale nout fuel fi u0 t0 = Ok s ->
  forall newer e older, log s = newer ++ e :: older ->
  chained imp conv u0 t0 e older /\
  a_order e = Nat.min (S (length older)) (maxOrder c).
Proof.
  intros c imp conv scale nout fuel fi u0 t0 s (H1&H2&H3&H4&H5&H6&H7) Hr newer e older Hl.
  destruct (@run_spec c imp conv scale (maxOrder c) eq_refl H1 u0 t0 H2 H3 H4 nout fuel fi H5)
    as [[w E]|[[E _]|[[E _]|(s'&gs&E&I&_)]]]; rewrite E in Hr; try discriminate.
  injection Hr as ->.
  destruct (@good_split _ _ _ _ eq_refl H1 _ _ _ (i_log _ _ _ _ _ _ _ I) _ _ _ Hl) as (A&_&B).
  split; [exact A|exact B].
Qed.

(** ... and is the solution of an IMEX-BDF formula of its order through the
    actual previous points, provided the run is not adaptive, or checks the
    error on every step, or no implicit solve fails.  Missing: adaptive runs
    with nadapt > 1 in which a solve fails; [C87_stale_refuted] is one where the
    claim is false. *)
Theorem C87_formula_partial : forall c imp conv scale nout fuel fi u0 t0 s, sane c ->
  (adaptive c = false \/ nadapt c = 1%nat \/ forall n g r a t, imp n g r a t <> None) ->
  run Rops c imp conv scale nout fuel fi u0 t0 = Ok s ->
  forall newer e older, log s = newer ++ e :: older -> imex_step e older.
Proof.
  intros c imp conv scale nout fuel fi u0 t0 s (H1&H2&H3&H4&H5&H6&H7) Hf Hr newer e older Hl.
  destruct (@run_spec c imp conv scale (maxOrder c) eq_refl H1 u0 t0 H2 H3 H4 nout fuel fi H5)
    as [[w E]|[[E _]|[[E _]|(s'&gs&E&I&_)]]]; rewrite E in Hr; try discriminate.
  injection Hr as ->.
  destruct (@good_split _ _ _ _ eq_refl H1 _ _ _ (i_log _ _ _ _ _ _ _ I) _ _ _ Hl) as (_&A&_).
  exact (A Hf).
Qed.

(** The accepted steps tile the output steps exactly: they are positive, at most
    dtMax and mxstep in number, at least dtMin except the last before an output,
    and the state returned is the last accepted one. *)
Theorem C87_tiling : forall c imp conv scale nout fuel fi u0 t0 s, sane c ->
  run Rops c imp conv scale nout fuel fi u0 t0 = Ok s ->
  (exists groups, rev (log s) = concat groups /\ length groups = nout /\
     Forall (covers c) groups) /\
  match log s with
  | [] => u s = u0 /\ simtime s = t0
  | e :: _ => u s = k_out (a_call e) /\ simtime s = a_t0 e + a_dt e
  end.
Proof.
  intros c imp conv scale nout fuel fi u0 t0 s (H1&H2&H3&H4&H5&H6&H7) Hr.
  destruct (@run_spec c imp conv scale (maxOrder c) eq_refl H1 u0 t0 H2 H3 H4 nout fuel fi H5)
    as [[w E]|[[E _]|[[E _]|(s'&gs&E&I&L&N&F)]]]; rewrite E in Hr; try discriminate.
  injection Hr as ->. split.
  - exists gs. rewrite L, rev_involutive. repeat split; assumption.
  - pose proof (i_last _ _ _ _ _ _ _ I) as Q. destruct (log s) as [|e l].
    + destruct Q as (_&A&B). split; assumption.
    + destruct Q as (_&_&_&A&B). split; assumption.
Qed.

(** The solver always stops: within mxstep + 1 passes of its step loop and
    mxstepAdapt + 11 attempts per step it returns or throws, and it never reads
    outside its histories. *)
Theorem C87_terminates : forall c imp conv scale nout u0 t0, sane c ->
  (exists s, run Rops c imp conv scale nout (mxstep c + 1) (mxstepAdapt c + 11) u0 t0 = Ok s) \/
  (exists w, run Rops c imp conv scale nout (mxstep c + 1) (mxstepAdapt c + 11) u0 t0 = Throw w).
Proof.
  intros c imp conv scale nout u0 t0 (H1&H2&H3&H4&H5&H6&H7).
  destruct (@run_spec c imp conv scale (maxOrder c) eq_refl H1 u0 t0 H2 H3 H4 nout
    (mxstep c + 1) (mxstepAdapt c + 11) H5)
    as [[w E]|[[E Hn]|[[E Hlt]|(s'&gs&E&_)]]]; rewrite E.
  - right. exists w. reflexivity.
  - exfalso. apply Hn. split; [exact H6|exact H7].
  - exfalso. lia.
  - left. exists s'. reflexivity.
Qed.

(** Without adaptation (and if every solve converges) each output step is
    divided into [ninternal] equal steps... *)
Theorem C87_fixed_steps : forall c imp conv scale nout u0 t0, sane c ->
  adaptive c = false -> (forall n g r a t, imp n g r a t <> None) ->
  let n := ninternal Rops c in
  let h := outStep c / INR n in
  (n <= mxstep c)%nat -> dtMinFatal c <= h -> dtMin c <= h <= dtMax c ->
  exists s, run Rops c imp conv scale nout (n + 1) 1 u0 t0 = Ok s /\
    length (log s) = (nout * n)%nat /\ forall e, In e (log s) -> a_dt e = h.
Proof.
  intros c imp conv scale nout u0 t0 (H1&H2&H3&H4&H5&H6&H7) Ha Hi n h Hn Hf Hd.
  exact (run_fixed c imp conv scale H1 H6 u0 t0 H2 H5 Ha Hi Hn (conj Hf Hd) nout (n + 1) 1
    ltac:(lia) ltac:(unfold n; lia)).
Qed.

(** ... the smallest number for which they do not exceed the requested step. *)
Theorem C87_internal_steps : forall c : cfg R, 0 < outStep c -> 0 < userStep c ->
  let n := ninternal Rops c in
  outStep c / INR n <= userStep c /\ (0 < n)%nat /\
  (forall k, (0 < k < n)%nat -> userStep c < outStep c / INR k).
Proof. exact ninternal_spec. Qed.

(** ** Counterexamples, computed with rationals *)

Definition zeroQ : V Q := fun _ => 0%Q.

(** Output step 7, steps of 1 = dtMin, order 2, error checked every fourth
    step. *)
Definition cfgStale : cfg Q :=
  mkcfg 2 1%Q 100 true 4 100 (3 # 2)%Q 1%Q 10%Q (1 # 10)%Q 1%Q 7%Q 1.

(** The seventh implicit solve (a step of 5/4) fails; it is retried with
    dtMin = 1, equal to the steps before: the coefficients are not recomputed
    and stay those for the step of 5/4.  The gamma of a formula of order 2 for
    equal steps of 1 is 2/3; 45/56 is used. *)
Theorem C87_stale_refuted :
  (exists s newer e e' older,
    run Qops cfgStale (fun n _ r _ _ => if Nat.eqb n 6 then None else Some r)
        (fun _ _ => zeroQ) (fun _ _ _ => 2%Q) 1 101 111 zeroQ 0%Q = Ok s /\
    log s = newer ++ e :: e' :: older /\
    a_order e = 2%nat /\ a_dt e = 1%Q /\ a_dt e' = 1%Q /\
    k_gamma (a_call e) = (45 # 56)%Q) /\
  (forall tn a b g, of_order 2 tn (fun j => tn - 1 - INR j) a b g -> g = 2 / 3).
Proof.
  split.
  - destruct (run Qops cfgStale (fun n _ r _ _ => if Nat.eqb n 6 then None else Some r)
        (fun _ _ => zeroQ) (fun _ _ _ => 2%Q) 1 101 111 zeroQ 0%Q) as [s|w| |] eqn:E;
      [|vm_compute in E; discriminate|vm_compute in E; discriminate|vm_compute in E; discriminate].
    assert (HL : match run Qops cfgStale (fun n _ r _ _ => if Nat.eqb n 6 then None else Some r)
        (fun _ _ => zeroQ) (fun _ _ _ => 2%Q) 1 101 111 zeroQ 0%Q with
        | Ok s => match log s with
                  | _ :: e :: e' :: _ => (a_order e, a_dt e, a_dt e', k_gamma (a_call e)) = (2%nat, 1%Q, 1%Q, (45 # 56)%Q)
                  | _ => False end
        | _ => False end) by (vm_compute; reflexivity).
    rewrite E in HL. destruct (log s) as [|e0 [|e [|e' older]]] eqn:El; try contradiction.
    injection HL as A B C D.
    exists s, [e0], e, e', older. repeat split; assumption.
  - intros tn a b g [H _].
    pose proof (H [(tn - 1) * (tn - 2); - (2 * tn - 3); 1] 3 ltac:(cbn [length]; lia)) as Q.
    pose proof (dpoly_ok [(tn - 1) * (tn - 2); - (2 * tn - 3); 1] tn) as D.
    replace (dpoly [(tn - 1) * (tn - 2); - (2 * tn - 3); 1] tn) with 3 in D
      by (cbn [dpoly poly]; ring).
    specialize (Q D). cbn [sumn poly] in Q. cbn [INR] in Q. ring_simplify in Q. lra.
Qed.

(** An error-checked step shortened to end at an output time leaves its short
    length as the next step, so that the run aborts although every solve
    converges and no error estimate asks for less than 19/20 of a step: output
    step 2, steps 1, 19/20, 1/20 and then an abort, dtMinFatal being 1/10. *)
Definition cfgAbort : cfg Q :=
  mkcfg 2 1%Q 100 true 1 100 (3 # 2)%Q 1%Q 10%Q (1 # 10)%Q (1 # 10)%Q 2%Q 0.

Definition numbered (n : nat) (_ _ : V Q) (_ _ : Q) : option (V Q) :=
  Some (fun _ => inject_Z (Z.of_nat n)).

Definition mildly (_ high : V Q) (_ : nat) : Q :=
  if Qeq_bool (high 0%nat) 2 then (19 # 20)%Q else (6 # 5)%Q.

Theorem C87_remainder_refuted :
  (exists s, run Qops cfgAbort numbered (fun _ _ => zeroQ) mildly 1 101 111 zeroQ 0%Q = Ok s /\
     map (@a_dt Q) (log s) = [(1 # 20)%Q; (19 # 20)%Q; 1%Q]) /\
  run Qops cfgAbort numbered (fun _ _ => zeroQ) mildly 2 101 111 zeroQ 0%Q
    = Throw BelowMinimum.
Proof.
  split; [|vm_compute; reflexivity].
  destruct (run Qops cfgAbort numbered (fun _ _ => zeroQ) mildly 1 101 111 zeroQ 0%Q)
    as [s|w| |] eqn:E;
    [|vm_compute in E; discriminate|vm_compute in E; discriminate|vm_compute in E; discriminate].
  exists s. split; [reflexivity|].
  assert (HL : match run Qops cfgAbort numbered (fun _ _ => zeroQ) mildly 1 101 111 zeroQ 0%Q with
     | Ok s => map (@a_dt Q) (log s) = [(1 # 20)%Q; (19 # 20)%Q; 1%Q] | _ => False end)
    by (vm_compute; reflexivity).
  rewrite E in HL. exact HL.
Qed.

(** maxOrder = 1 reads a second element of one-element histories, and
    predictor = 2 a third element of two-element ones, whatever the problem. *)
Theorem C87_order_one_refuted : forall F (P : ops F) c imp conv scale nout fuel fi u0 t0 s,
  maxOrder c = 1%nat -> init P c u0 t0 = Ok s -> olt P (o0 P) (outStep c) = true ->
  run P c imp conv scale (S nout) (S fuel) fi u0 t0 = Ub.
Proof.
  intros F P c imp conv scale nout fuel fi u0 t0 s Hm Hi Hlt. unfold run. rewrite Hi.
  cbn [bind ImexModel.outputs ImexModel.steps]. rewrite Hlt.
  revert Hi. unfold init. cbv zeta.
  destruct (Nat.ltb (mxstep c) (ninternal P c)); [discriminate|].
  destruct (Nat.ltb 4 (maxOrder c)); [discriminate|]. intro E. injection E as <-.
  unfold shuffle. cbn [uV fV ts]. rewrite Hm. cbn [repeat bind]. reflexivity.
Qed.

Theorem C87_quadratic_predictor_refuted :
  run Qops (mkcfg 2 1%Q 100 true 4 100 (3 # 2)%Q 1%Q 10%Q (1 # 10)%Q (1 # 10)%Q 1%Q 2)
    (fun _ _ r _ _ => Some r) (fun _ _ => zeroQ) (fun _ _ _ => 1%Q) 1 101 111 zeroQ 0%Q = Ub.
Proof. vm_compute. reflexivity. Qed.

(** ** The hypotheses are met *)

Definition cfgCase : cfg R := mkcfg 3 1 10 false 1 10 (3 / 2) 1 1 (1 / 10) (1 / 10) 1 0.

Example C87_case : forall conv u0,
  exists s, run Rops cfgCase (fun _ _ r _ _ => Some r) conv (fun _ _ _ => 1) 5 2 1 u0 0 = Ok s /\
    length (log s) = 5%nat /\
    exists e older, log s = e :: older /\ a_order e = 3%nat /\ a_dt e = 1 /\ imex_step e older.
Proof.
  intros conv u0.
  assert (Hs : sane cfgCase) by (unfold sane, cfgCase; cbn; repeat split; try lia; try lra; discriminate).
  assert (Hn : ninternal Rops cfgCase = 1%nat).
  { destruct (C87_internal_steps cfgCase) as (_&A&B); [cbn; lra|cbn; lra|].
    destruct (Nat.eq_dec (ninternal Rops cfgCase) 1) as [E|E]; [exact E|].
    specialize (B 1%nat ltac:(lia)). cbn [userStep outStep cfgCase INR] in B. lra. }
  destruct (C87_fixed_steps cfgCase (fun _ _ r _ _ => Some r) conv (fun _ _ _ => 1) 5 u0 0 Hs eq_refl)
    as (s&E&L&D); try (rewrite ?Hn; cbn; try lia; try lra; discriminate).
  rewrite Hn in E, L, D. exists s. split; [exact E|]. split; [exact L|].
  destruct (log s) as [|e older] eqn:El; [discriminate|].
  exists e, older. split; [reflexivity|].
  pose proof (C87_history _ _ _ _ _ _ _ _ _ _ Hs E [] e older El) as [_ O].
  split; [rewrite O; cbn [length] in L; injection L as ->; reflexivity|].
  split; [rewrite (D e (or_introl eq_refl)); cbn; lra|].
  apply (C87_formula_partial _ _ _ _ _ _ _ _ _ _ Hs (or_introl eq_refl) E [] e older El).
Qed.

Print Assumptions C87_order.
Print Assumptions C87_history.
Print Assumptions C87_formula_partial.
Print Assumptions C87_tiling.
Print Assumptions C87_terminates.
Print Assumptions C87_fixed_steps.
Print Assumptions C87_internal_steps.
Print Assumptions C87_stale_refuted.
Print Assumptions C87_remainder_refuted.
Print Assumptions C87_order_one_refuted.
Print Assumptions C87_quadratic_predictor_refuted.
