(** C93: LaplaceNaulin. *)
From Coq Require Import List Arith Bool ZArith Reals Lia Lra.
From Verif Require Import Base FftModel FftSpec LaplaceModel LaplaceSpec LaplaceProofs3 LaplaceProofs9 LaplaceProofs10 LaplaceProps
  NaulinModel NaulinSpec NaulinProofs NaulinProofs2 NaulinProofs3.
Import ListNotations.
Local Open Scope R_scope.

(** The result satisfies the equation with the coefficients that depend on z, up to the tolerance: at every point of the
    domain the residual divided by D is at most [e], where e < atol or e < rtol * (root mean square of rhs/D). *)
Theorem C93_equation : forall m p o inv rhs x0 x c under,
  naulin m p o inv rhs x0 = NOk x c under -> direct m p o inv -> all_modes m o -> plain_mesh m o -> good_coefs m p ->
  exists e r, bound m (fun y i j => (operator m p o x y i j - rhs y i j) / Dcoef p y i j) e /\
    is_rms m (fun y i j => rhs y i j / Dcoef p y i j) r /\ (e < atol p \/ e < rtol p * r).
Proof. exact naulin_equation. Qed.
Print Assumptions C93_equation.

(** The result is a result of the direct solver, so it satisfies the boundary conditions of that solver; if a flag SET is
    used, with the values in the boundary cells of the initial guess. *)
Theorem C93_boundary : forall m p o inv rhs x0 x c under,
  naulin m p o inv rhs x0 = NOk x c under -> direct m p o inv ->
  exists b X, has_boundary m o x0 X /\
    forall y, In y (ys m) -> solved (lay m) o (mz m) (zlen m) (direct_data m p y) (b y) (X y) (x y).
Proof.
  intros m p o inv rhs x0 x c under H HD. apply naulin_result in H as (_ & b & (n & xg & Hi) & _). cbn [fst snd] in Hi.
  exists b, (guess m o x0 xg). split.
  - intros E y i j Hy Hg. unfold guess. rewrite E. apply copy_rows; auto.
  - intros y Hy. exact (HD n b _ x Hi y Hy).
Qed.
Print Assumptions C93_boundary.

Lemma SET_value : forall m p o inv rhs x0 x c under,
  naulin m p o inv rhs x0 = NOk x c under -> direct m p o inv -> zero_DC o = false -> dc_inner_default o -> b_set (inner o) = true ->
  forall y i, In y (ys m) -> (i < inbndry o (g (lay m)))%nat ->
  (dc_row (mz m) (x y i) + dc_row (mz m) (x y (i + 1)%nat)) / 2 = dc_row (mz m) (x0 y i).
Proof.
  intros m p o inv rhs x0 x c under H HD Hz Hdef Hset y i Hy Hi.
  destruct (C93_boundary _ _ _ _ _ _ _ _ _ H HD) as (b & X & HX & HS). specialize (HS y Hy).
  rewrite (C60_inner_dc_dirichlet _ _ _ _ _ _ _ _ HS Hz Hdef i Hi). unfold imposed. rewrite Hset.
  pose proof HS as ((_ & _ & L3) & _). destruct (bndry_ge1 o (g (lay m)) L3) as (B1 & _).
  unfold dc_row. f_equal. apply FftProofs.rsum_ext. intros j _. apply HX; [rewrite Hset; reflexivity|exact Hy|left; lia].
Qed.
(** For example: a Dirichlet condition on the average at the inner boundary, with a given value. *)
Theorem C93_boundary_value : forall m p o inv rhs x0 x c under,
  naulin m p o inv rhs x0 = NOk x c under -> direct m p o inv -> zero_DC o = false -> dc_inner_default o -> b_set (inner o) = true ->
  forall y i, In y (ys m) -> (i < inbndry o (g (lay m)))%nat ->
  (dc_row (mz m) (x y i) + dc_row (mz m) (x y (i + 1)%nat)) / 2 = dc_row (mz m) (x0 y i).
Proof. exact SET_value. Qed.
Print Assumptions C93_boundary_value.

(** The two nested loops end: with the result after at most maxits iterations, or with an exception. *)
Theorem C93_terminates : forall m p o inv rhs x0,
  (exists x c under, naulin m p o inv rhs x0 = NOk x c under /\ (c <= maxits p)%nat) \/ naulin m p o inv rhs x0 = NThrow.
Proof.
  intros m p o inv rhs x0. destruct (naulin m p o inv rhs x0) as [x c under| |] eqn:E; [left|right; reflexivity|destruct (naulin_not_fuel _ _ _ _ _ _ E)].
  exists x, c, under. split; [reflexivity|]. apply naulin_result in E. tauto.
Qed.
Print Assumptions C93_terminates.

(** With coefficients that do not depend on z the result is that of one direct solve. *)
Theorem C93_constant : forall m p o inv rhs x0,
  constant_in_z m (Acoef p) -> constant_in_z m (C1coef p) -> constant_in_z m (C2coef p) -> constant_in_z m (Dcoef p) -> 0 < atol p ->
  exists b xg, (forall y i j, In y (ys m) -> (j < mz m)%nat -> b y i j = rhs y i j / Dcoef p y i j) /\
    (forall y i j, xg y i j = x0 y i j) /\
    naulin m p o inv rhs x0 = match inv 0%nat b xg with Some u => NOk u 0 0 | None => NThrow end.
Proof. exact naulin_const. Qed.
Print Assumptions C93_constant.

Lemma lagged_guess : forall m p o rhs u y i j, plain_mesh m o -> good_coefs m p -> in_domain m y i j ->
  lagged m p o rhs u y i j = calc_b_guess m p (fun y i j => rhs y i j / Dcoef p y i j) u y i j.
Proof.
  intros m p o rhs u y i j HP HG (Hy & _ & Hj). unfold lagged.
  pose proof (defect m p o u y i j (fun y i j => rhs y i j / Dcoef p y i j) HP HG Hy Hj) as D.
  destruct (proj2 (HG y i Hy) j Hj) as (HD & _). cbv beta in D.
  replace ((rhs y i j - operator m p o u y i j) / Dcoef p y i j) with (rhs y i j / Dcoef p y i j - operator m p o u y i j / Dcoef p y i j) by (field; auto).
  lra.
Qed.

(** If the direct solver never throws and the iteration contracts, it is never underrelaxed and converges, as long as
    the first error is at most 1e20 and enough iterations are allowed. *)
Theorem C93_converges : forall m p o inv rhs x0 q e0,
  plain_mesh m o -> good_coefs m p -> (forall n b xg, inv n b xg <> None) -> 0 <= q < 1 -> contracts m p o inv rhs x0 q ->
  initial_underrelax p = 1 ->
  0 <= e0 -> (forall n xg u, inv n (calc_b_guess m p (fun y i j => rhs y i j / Dcoef p y i j) x0) xg = Some u ->
                bound m (minus3 (lagged m p o rhs x0) (lagged m p o rhs u)) e0) ->
  e0 <= 10 ^ 20 -> q ^ maxits p * e0 < atol p ->
  exists x c, naulin m p o inv rhs x0 = NOk x c 0.
Proof.
  intros m p o inv rhs x0 q e0 HP HG Htot Hq Hcon Hu He0 H0 Hbig Hm. set (rD := fun y i j => rhs y i j / Dcoef p y i j) in *.
  assert (HL : forall u y i j, in_domain m y i j -> lagged m p o rhs u y i j = calc_b_guess m p rD u y i j).
  { intros. apply lagged_guess; auto. }
  assert (HB : forall xg, has_boundary m o x0 (guess m o x0 xg)).
  { intros xg E y i j Hy Hg. unfold guess. rewrite E. apply copy_rows; auto. }
  assert (Hcon' : forall n b xg u n' b' xg' u', inv n b (guess m o x0 xg) = Some u -> inv n' b' (guess m o x0 xg') = Some u' ->
    maxabs m (fun y i j => calc_b_guess m p rD u y i j - calc_b_guess m p rD u' y i j) <= q * maxabs m (fun y i j => b y i j - b' y i j)).
  { intros n b xg u n' b' xg' u' E E'. apply maxabs_le.
    - apply Rmult_le_pos; [lra|apply maxabs_pos].
    - intros y i j Hp. rewrite <- (HL u), <- (HL u') by auto.
      exact (Hcon n n' b b' _ _ u u' _ (HB xg) (HB xg') E E' (maxabs_bound m (minus3 b b')) y i j Hp). }
  unfold naulin. fold rD. destruct (calc_b_x_pair m o inv x0 (calc_b_guess m p rD x0) x0 0) as [pr|] eqn:E.
  2:{ exfalso. unfold calc_b_x_pair in E. fold (guess m o x0 x0) in E. destruct (inv _ _ _) eqn:E'; [discriminate|]. exact (Htot _ _ _ E'). }
  pose proof (pair_came m o inv x0 _ _ _ _ E) as (HC & HF).
  assert (HE : error3D m p rD pr <= e0).
  { unfold error3D. apply maxabs_le; [exact He0|]. intros y i j Hp. rewrite HF. destruct HC as (n & xg & HC). rewrite HF in HC.
    pose proof (H0 _ _ _ HC y i j Hp) as Hb. unfold minus3 in Hb. rewrite !HL in Hb by auto. exact Hb. }
  rewrite Hu. apply (iterate_conv m p o inv rD x0 q Htot Hq Hcon'); auto; try lia; [lra|].
  rewrite Nat.sub_0_r. eapply Rle_lt_trans; [|exact Hm]. apply Rmult_le_compat_l; [apply pow_le; lra|exact HE].
Qed.
Print Assumptions C93_converges.

(** The mean numbers reported are the means over the calls made. *)
Theorem C93_mean : forall calls, let s := fold_left (fun s c => add_call s (fst c) (snd c)) calls stats0 in
  mean_of (map fst calls) (mean_its s) /\ mean_of (map snd calls) (mean_under s).
Proof.
  intros calls s. destruct (add_calls calls stats0 (fun _ => I)) as (_ & H1 & H2). fold s in H1, H2.
  cbn [stats0 ncalls mean_its mean_under Nat.add] in H1, H2. unfold mean_of. rewrite !map_length. cbn [INR] in H1, H2. rewrite H1, H2.
  split; rewrite Rmult_0_r, Rplus_0_l; f_equal; clear; induction calls as [|(a, b) l IH]; cbn [map fold_right fst snd]; auto.
Qed.
Print Assumptions C93_mean.

(** Not so after [resetMeanIterations]: it does not reset the number of calls. After a call with 4 iterations, a reset
    and another call with 4 iterations the mean reported is 2. *)
Theorem C93_reset_refuted : exists before after, ~ mean_of (map fst after)
  (mean_its (fold_left (fun s c => add_call s (fst c) (snd c)) after
     (resetMeanIterations (fold_left (fun s c => add_call s (fst c) (snd c)) before stats0)))).
Proof.
  exists [(4, 0)%nat], [(4, 0)%nat]. unfold mean_of. cbn. lra.
Qed.
Print Assumptions C93_reset_refuted.

(** The hypotheses are met by a problem with A depending on z and the solver of C60, and C93_converges by a problem
    whose direct solver divides by two. *)
Example C93_case : (forall rhs x0, exists a x, naulin exmesh (exprob a) exdir exinv rhs x0 = NOk x 0 0 /\
    direct exmesh (exprob a) exdir exinv /\ all_modes exmesh exdir /\ plain_mesh exmesh exdir /\ good_coefs exmesh (exprob a)) /\
  (forall rhs x0 a, contracts exmesh (exprob a) exdir half_inv rhs x0 (/ 10)) /\
  ~ constant_in_z exmesh (Acoef (exprob 1)).
Proof.
  split; [|split].
  - intros rhs x0. destruct (ex_accepts rhs x0) as (a & x & H). exists a, x. split; [exact H|].
    split; [apply ex_direct|]. split; [apply ex_modes|]. split; [apply ex_plain|]. apply ex_coefs.
  - intros rhs x0 a n n' b b' xg xg' u u' e _ _ E E' HB y i j Hp. unfold half_inv in E, E'. injection E as <-. injection E' as <-.
    unfold minus3. rewrite !lagged_guess; auto using ex_plain, ex_coefs.
    specialize (HB y i j Hp). unfold minus3 in HB. pose proof Hp as (_ & _ & Hj). cbn [exmesh mz] in Hj.
    assert (EG : forall r f, calc_b_guess exmesh (exprob a) r f y i j = r y i j - wave j * f y i j).
    { intros r f. unfold calc_b_guess.
      assert (E1 : coef_z exmesh (exprob a) y i j = 0).
      { unfold coef_z, ddz. rewrite ddz_const; [unfold Rdiv; ring|cbn; lia|reflexivity]. }
      assert (E2 : coef_x_AC exmesh (exprob a) y i j = 0).
      { unfold coef_x_AC, coef_x, C1coefTimesD_DC, C2coef_DC, C1TimesD, ddx, dc, dc_row. cbn [exprob C1coef C2coef Dcoef exmesh met unitM dx]. lra. }
      assert (E3 : AOverD_AC exmesh (exprob a) y i j = wave j).
      { unfold AOverD_AC, AOverD_DC, AOverD, dc, dc_row. cbn [exprob Acoef Dcoef exmesh mz]. cbn [rsum INR]. unfold wave at 2 3 4. lra. }
      rewrite E1, E2, E3. ring. }
    rewrite !EG. match goal with |- Rabs ?t <= _ => replace t with (- (wave j / 2) * (b y i j - b' y i j)) by lra end.
    rewrite Rabs_mult. assert (HW : Rabs (- (wave j / 2)) <= / 10).
    { destruct j as [|[|[|j]]]; [| | |lia]; unfold wave; apply Rabs_le; lra. }
    apply Rmult_le_compat; auto using Rabs_pos.
  - intros H. specialize (H 0%nat 0%nat 1%nat (or_introl eq_refl) ltac:(cbn; lia)). cbn in H. lra.
Qed.
