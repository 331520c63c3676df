(** LaplaceNaulin: coefficients constant in z, convergence, boundary values, statistics. *)
From Coq Require Import List Arith Bool ZArith Reals Lia Lra.
From Coquelicot Require Import Coquelicot.
From Verif Require Import Base FftModel FftSpec FftProofs FftProofs2 FftProofs4 FftProofs5 LaplaceModel LaplaceSpec LaplaceProofs3 NaulinModel NaulinSpec NaulinProofs.
Import ListNotations.
Local Open Scope R_scope.

(** * A row that is constant in z *)
Lemma dc_const : forall n x j, (j < n)%nat -> (forall j, (j < n)%nat -> x j = x 0%nat) -> dc_row n x = x j.
Proof.
  intros n x j Hj H. rewrite (H j Hj). unfold dc_row. rewrite (rsum_ext n x (fun _ => x 0%nat)) by exact H. rewrite rsum_const. field. apply not_0_INR. lia.
Qed.
Lemma ddz_const : forall n x j, (1 <= n)%nat -> (forall j, (j < n)%nat -> x j = x 0%nat) -> fft_ddz_row n 0 x j = 0.
Proof.
  intros n x j Hn H. replace 0 with (1 / INR n * 0) at 2 by (unfold Rdiv; apply Rmult_0_r).
  apply (ddz_of_row n 1 (fun _ => x 0%nat) (fun _ => 0) 0 0 x 0 j 0); [exact Hn|lra| |].
  - split; [lia|]. split; [reflexivity|]. intros i Hi. cbn [trig]. rewrite (H i Hi). ring.
  - rewrite Nat.min_0_l. cbn [trig]. apply (is_derive_const (x 0%nat)).
Qed.

Definition z_constant (m : mesh) (f : field3) : Prop :=
  forall y i j, In y (ys m) -> (j < mz m)%nat -> f y i j = f y i 0%nat.

Lemma guess_const : forall m p r x y i j, z_constant m (Acoef p) -> z_constant m (C1coef p) -> z_constant m (C2coef p) -> z_constant m (Dcoef p) ->
  In y (ys m) -> (j < mz m)%nat -> calc_b_guess m p r x y i j = r y i j.
Proof.
  intros m p r x y i j HA H1 H2 HD Hy Hj. unfold calc_b_guess.
  assert (E1 : coef_z m p y i j = 0).
  { unfold coef_z, ddz. rewrite ddz_const; [unfold Rdiv; ring|lia|]. intros k Hk. apply H2; auto. }
  assert (E2 : coef_x_AC m p y i j = 0).
  { unfold coef_x_AC, coef_x, C1coefTimesD_DC, C2coef_DC, ddx, dc. 
    rewrite (dc_const (mz m) (C1TimesD p y i) j) by (auto; intros k Hk; unfold C1TimesD; rewrite H1, HD by auto; reflexivity).
    rewrite !(dc_const (mz m) (C2coef p y _) j) by (auto; intros k Hk; apply H2; auto). ring. }
  assert (E3 : AOverD_AC m p y i j = 0).
  { unfold AOverD_AC, AOverD_DC, dc.
    rewrite (dc_const (mz m) (AOverD p y i) j) by (auto; intros k Hk; unfold AOverD; rewrite HA, HD by auto; reflexivity). ring. }
  rewrite E1, E2, E3. ring.
Qed.

Lemma copy_self : forall m x0 y i j, copy_x_boundaries m x0 x0 y i j = x0 y i j.
Proof. intros. unfold copy_x_boundaries. destruct (existsb _ _); [destruct (_ || _)%bool|]; reflexivity. Qed.

Lemma naulin_const : forall m p o inv rhs x0,
  z_constant m (Acoef p) -> z_constant m (C1coef p) -> z_constant m (C2coef p) -> z_constant m (Dcoef p) -> 0 < atol p ->
  exists b xg, (forall y i j, In y (ys m) -> (j < mz m)%nat -> b y i j = rhs y i j / Dcoef p y i j) /\
    (forall y i j, xg y i j = x0 y i j) /\
    naulin m p o inv rhs x0 = match inv 0%nat b xg with Some u => NOk u 0 0 | None => NThrow end.
Proof.
  intros m p o inv rhs x0 HA H1 H2 HD Ha. set (rD := fun y i j => rhs y i j / Dcoef p y i j).
  exists (calc_b_guess m p rD x0), (guess m o x0 x0). split; [|split].
  - intros y i j Hy Hj. apply guess_const; auto.
  - intros y i j. unfold guess. destruct (_ || _)%bool; [apply copy_self|reflexivity].
  - unfold naulin. fold rD. unfold calc_b_x_pair. fold (guess m o x0 x0). destruct (inv 0%nat _ _) as [u|]; [|reflexivity].
    cbn [iterate]. replace (accepted p (rms m rD) (error3D m p rD (calc_b_guess m p rD x0, u))) with true; [reflexivity|].
    assert (E : error3D m p rD (calc_b_guess m p rD x0, u) <= 0).
    { unfold error3D. apply maxabs_le; [lra|]. intros y i j (Hy & _ & Hj). cbn [fst snd]. rewrite !guess_const by auto. rewrite Rminus_diag_eq, Rabs_R0 by reflexivity. lra. }
    unfold accepted. destruct (Rlt_dec _ (atol p)) as [L|L]; [rewrite orb_true_r; reflexivity|]. lra.
Qed.

(** * Convergence *)
Section Conv.
Variables (m : mesh) (p : problem) (o : opts).
Variable inv : nat -> field3 -> field3 -> option field3.
Variables (r x0 : field3) (q : R).
Hypothesis Htot : forall n b xg, inv n b xg <> None.
Hypothesis Hq : 0 <= q < 1.
Hypothesis Hcon : forall n b xg u n' b' xg' u', inv n b (guess m o x0 xg) = Some u -> inv n' b' (guess m o x0 xg') = Some u' ->
  maxabs m (fun y i j => calc_b_guess m p r u y i j - calc_b_guess m p r u' y i j) <= q * maxabs m (fun y i j => b y i j - b' y i j).

Lemma maxabs_ext : forall f f', (forall y i j, f y i j = f' y i j) -> maxabs m f = maxabs m f'.
Proof.
  intros f f' H. unfold maxabs. induction (points m) as [|((y, i), j) l IH]; cbn [fold_right]; [reflexivity|]. rewrite IH. unfold at_pt. rewrite H. reflexivity.
Qed.

Lemma step_error : forall pr n, came m o inv x0 pr -> exists pr', calc_b_x_pair m o inv x0 (mix 1 (calc_b_guess m p r (snd pr)) (fst pr)) (snd pr) n = Some pr' /\
  came m o inv x0 pr' /\ error3D m p r pr' <= q * error3D m p r pr.
Proof.
  intros (b, u) n (n0 & xg & Hc). cbn [fst snd] in *. unfold calc_b_x_pair. fold (guess m o x0 u).
  destruct (inv n _ _) as [u'|] eqn:E; [|destruct (Htot _ _ _ E)].
  eexists. split; [reflexivity|]. split; [exists n, u; exact E|].
  unfold error3D. cbn [fst snd].
  rewrite (maxabs_ext _ (fun y i j => calc_b_guess m p r u y i j - calc_b_guess m p r u' y i j)) by (intros; unfold mix; ring).
  eapply Rle_trans; [exact (Hcon _ _ _ _ _ _ _ _ Hc E)|]. apply Req_le. f_equal.
  apply maxabs_ext. intros. unfold mix. ring.
Qed.

Lemma error_pos : forall pr, 0 <= error3D m p r pr.
Proof. intros. apply maxabs_pos. Qed.

Lemma iterate_conv : forall fuel RMS pr old last c n, came m o inv x0 pr -> (maxits p < fuel + c)%nat -> (c <= maxits p)%nat ->
  error3D m p r pr <= last -> q ^ (maxits p - c) * error3D m p r pr < atol p ->
  exists x c', iterate m p o inv fuel r x0 RMS pr old last 1 c 0 n = NOk x c' 0.
Proof.
  induction fuel as [|fuel IH]; intros RMS pr old last c n HC HF Hc HL HQ.
  - lia.
  - cbn [iterate]. destruct (accepted p RMS (error3D m p r pr)) eqn:A; [eauto|].
    assert (NA : ~ error3D m p r pr < atol p).
    { intros L. unfold accepted in A. destruct (Rlt_dec (error3D m p r pr) (atol p)); [rewrite orb_true_r in A; discriminate|auto]. }
    assert (Hc1 : (S c <= maxits p)%nat).
    { destruct (Nat.eq_dec c (maxits p)) as [->|]; [|lia]. rewrite Nat.sub_diag in HQ. cbn [pow] in HQ. lra. }
    destruct (maxits p <? S c)%nat eqn:M; [apply Nat.ltb_lt in M; lia|].
    assert (ED : diverging m p o inv (S (maxits p)) r x0 old last (pr, error3D m p r pr, 1, S c, 0%nat, n) = IOk (pr, error3D m p r pr, 1, S c, 0%nat, n)).
    { cbn [diverging]. destruct (Rlt_dec last (error3D m p r pr)); [lra|reflexivity]. }
    rewrite ED, A. destruct (step_error pr n HC) as (pr' & -> & HC' & HE). pose proof (error_pos pr) as P0. pose proof (error_pos pr') as P1.
    apply IH; auto; [lia| |].
    + apply Rle_trans with (q * error3D m p r pr); [exact HE|]. rewrite <- (Rmult_1_l (error3D m p r pr)) at 2. apply Rmult_le_compat_r; lra.
    + eapply Rle_lt_trans; [|exact HQ]. replace (maxits p - c)%nat with (S (maxits p - S c)) by lia. cbn [pow].
      rewrite (Rmult_comm q), Rmult_assoc. apply Rmult_le_compat_l; [apply pow_le; lra|exact HE].
Qed.
End Conv.

(** * Boundary values *)
Lemma copy_rows : forall m x x0 y i j, In y (ys m) -> (i < g (lay m) \/ g (lay m) + np (lay m) * mx (lay m) <= i)%nat ->
  copy_x_boundaries m x x0 y i j = x0 y i j.
Proof.
  intros m x x0 y i j Hy Hi. unfold copy_x_boundaries. replace (existsb (Nat.eqb y) (ys m)) with true.
  2:{ symmetry. apply existsb_exists. exists y. split; [exact Hy|apply Nat.eqb_refl]. }
  replace ((i <? g (lay m)) || (g (lay m) + np (lay m) * mx (lay m) <=? i))%nat%bool with true; [reflexivity|]. symmetry. apply orb_true_iff.
  destruct Hi; [left; apply Nat.ltb_lt|right; apply Nat.leb_le]; auto.
Qed.

(** * Statistics *)
Lemma add_calls : forall l s, (0 <= mean_its s * INR (ncalls s) -> True) -> ncalls (fold_left (fun s c => add_call s (fst c) (snd c)) l s) = (ncalls s + length l)%nat /\
  (mean_its (fold_left (fun s c => add_call s (fst c) (snd c)) l s) * INR (ncalls s + length l) = mean_its s * INR (ncalls s) + INR (fold_right (fun c a => (fst c + a)%nat) 0%nat l)) /\
  (mean_under (fold_left (fun s c => add_call s (fst c) (snd c)) l s) * INR (ncalls s + length l) = mean_under s * INR (ncalls s) + INR (fold_right (fun c a => (snd c + a)%nat) 0%nat l)).
Proof.
  induction l as [|(c, u) l IH]; intros s _; cbn [fold_left length fold_right fst snd].
  - rewrite Nat.add_0_r. cbn [INR]. repeat split; ring.
  - destruct (IH (add_call s c u) (fun _ => I)) as (H1 & H2 & H3). rewrite H1.
    replace (ncalls (add_call s c u)) with (S (ncalls s)) in * by reflexivity.
    replace (ncalls s + S (length l))%nat with (S (ncalls s) + length l)%nat by lia.
    split; [reflexivity|]. rewrite H2, H3. unfold add_call. cbn [mean_its mean_under]. rewrite !plus_INR, S_INR.
    assert (INR (ncalls s) + 1 <> 0) by (pose proof (pos_INR (ncalls s)); lra). split; field; auto.
Qed.
