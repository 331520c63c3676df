(** Trigonometric sums and the two inversion theorems of the discrete Fourier transform. *)
From Coq Require Import List Arith Bool ZArith Reals Lia Lra.
From Coquelicot Require Import Complex.
From Verif Require Import Base FftModel FftSpec.
Local Open Scope R_scope.

(** * Finite sums *)
Lemma rsum_ext : forall n f g, (forall i, (i < n)%nat -> f i = g i) -> rsum n f = rsum n g.
Proof. induction n; intros f g H; cbn [rsum]; [reflexivity|]. rewrite (IHn f g), (H n); auto. Qed.
Lemma rsum_plus : forall n f g, rsum n (fun i => f i + g i) = rsum n f + rsum n g.
Proof. induction n; intros; cbn [rsum]; [lra|]. rewrite IHn. lra. Qed.
Lemma rsum_minus : forall n f g, rsum n (fun i => f i - g i) = rsum n f - rsum n g.
Proof. induction n; intros; cbn [rsum]; [lra|]. rewrite IHn. lra. Qed.
Lemma rsum_scal : forall n c f, rsum n (fun i => c * f i) = c * rsum n f.
Proof. induction n; intros; cbn [rsum]; [lra|]. rewrite IHn. lra. Qed.
Lemma rsum_scal_r : forall n c f, rsum n (fun i => f i * c) = rsum n f * c.
Proof. induction n; intros; cbn [rsum]; [lra|]. rewrite IHn. lra. Qed.
Lemma rsum_const : forall n c, rsum n (fun _ => c) = INR n * c.
Proof. induction n; intros; cbn [rsum]; [cbn; lra|]. rewrite IHn, S_INR. lra. Qed.
Lemma rsum_0 : forall n f, (forall i, (i < n)%nat -> f i = 0) -> rsum n f = 0.
Proof. intros. rewrite (rsum_ext n f (fun _ => 0)) by auto. rewrite rsum_const. lra. Qed.
Lemma rsum_swap : forall n m f, rsum n (fun i => rsum m (fun j => f i j)) = rsum m (fun j => rsum n (fun i => f i j)).
Proof.
  induction n; intros; cbn [rsum].
  - symmetry. apply rsum_0. reflexivity.
  - rewrite IHn, <- rsum_plus. reflexivity.
Qed.
Lemma rsum_one : forall n f j, (j < n)%nat -> (forall i, (i < n)%nat -> i <> j -> f i = 0) -> rsum n f = f j.
Proof.
  induction n; intros f j Hj H; [lia|]. cbn [rsum]. destruct (Nat.eq_dec j n) as [->|Hn].
  - rewrite rsum_0; [lra|]. intros i Hi. apply H; lia.
  - rewrite (IHn f j); [|lia|intros; apply H; lia]. rewrite (H n); [lra|lia|lia].
Qed.

(** * Sums of sines and cosines *)
Lemma two_cos_sin : forall a b, 2 * cos a * sin b = sin (a + b) - sin (a - b).
Proof. intros. rewrite sin_plus, sin_minus. ring. Qed.
Lemma two_sin_sin : forall a b, 2 * sin a * sin b = cos (a - b) - cos (a + b).
Proof. intros. rewrite cos_plus, cos_minus. ring. Qed.
Lemma two_cos_cos : forall a b, 2 * cos a * cos b = cos (a - b) + cos (a + b).
Proof. intros. rewrite cos_plus, cos_minus. ring. Qed.
Lemma two_sin_cos : forall a b, 2 * sin a * cos b = sin (a - b) + sin (a + b).
Proof. intros. rewrite sin_plus, sin_minus. ring. Qed.

Lemma dirichlet : forall K p,
  sin (p / 2) * (1 + rsum K (fun i => 2 * cos (INR (S i) * p))) = sin ((INR K + / 2) * p).
Proof.
  induction K; intros p.
  - cbn [rsum INR]. replace ((0 + / 2) * p) with (p / 2) by field. ring.
  - cbn [rsum]. rewrite <- Rplus_assoc, Rmult_plus_distr_l, IHK.
    replace (sin (p / 2) * (2 * cos (INR (S K) * p))) with (2 * cos (INR (S K) * p) * sin (p / 2)) by ring.
    rewrite two_cos_sin.
    replace (INR (S K) * p + p / 2) with ((INR (S K) + / 2) * p) by field.
    replace (INR (S K) * p - p / 2) with ((INR K + / 2) * p) by (rewrite S_INR; field). ring.
Qed.
Lemma sum_cos : forall n p, 2 * sin (p / 2) * rsum n (fun j => cos (INR j * p)) = sin ((INR n - / 2) * p) + sin (p / 2).
Proof.
  induction n; intros p.
  - cbn [rsum INR]. replace ((0 - / 2) * p) with (- (p / 2)) by field. rewrite sin_neg. ring.
  - cbn [rsum]. rewrite Rmult_plus_distr_l, IHn.
    replace (2 * sin (p / 2) * cos (INR n * p)) with (2 * cos (INR n * p) * sin (p / 2)) by ring.
    rewrite two_cos_sin.
    replace (INR n * p + p / 2) with ((INR (S n) - / 2) * p) by (rewrite S_INR; field).
    replace (INR n * p - p / 2) with ((INR n - / 2) * p) by field. ring.
Qed.
Lemma sum_sin : forall n p, 2 * sin (p / 2) * rsum n (fun j => sin (INR j * p)) = cos (p / 2) - cos ((INR n - / 2) * p).
Proof.
  induction n; intros p.
  - cbn [rsum INR]. replace ((0 - / 2) * p) with (- (p / 2)) by field. rewrite cos_neg. ring.
  - cbn [rsum]. rewrite Rmult_plus_distr_l, IHn.
    replace (2 * sin (p / 2) * sin (INR n * p)) with (2 * sin (INR n * p) * sin (p / 2)) by ring.
    rewrite two_sin_sin.
    replace (INR n * p + p / 2) with ((INR (S n) - / 2) * p) by (rewrite S_INR; field).
    replace (INR n * p - p / 2) with ((INR n - / 2) * p) by field. ring.
Qed.

Lemma sin_Zpi : forall d, sin (IZR d * PI) = 0.
Proof. intros d. apply sin_eq_0_1. exists d. reflexivity. Qed.
Lemma cos_2Zpi : forall d, cos (IZR d * (2 * PI)) = 1.
Proof.
  intros d. replace (IZR d * (2 * PI)) with (2 * (IZR d * PI)) by ring.
  rewrite cos_2a_sin, sin_Zpi. ring.
Qed.
Lemma sin_2Zpi : forall d, sin (IZR d * (2 * PI)) = 0.
Proof. intros d. replace (IZR d * (2 * PI)) with (IZR (d * 2) * PI) by (rewrite mult_IZR; ring). apply sin_Zpi. Qed.

Lemma sin_frac_neq0 : forall (n : nat) d, (0 < Z.abs d < Z.of_nat n)%Z -> sin (IZR d * PI / INR n) <> 0.
Proof.
  intros n d Hd H. apply sin_eq_0_0 in H. destruct H as [k Hk].
  assert (Hn : INR n <> 0) by (apply not_0_INR; intros ->; cbn in Hd; lia).
  assert (E : IZR d = IZR (k * Z.of_nat n)).
  { rewrite mult_IZR, <- INR_IZR_INZ. apply (Rmult_eq_reg_r (PI / INR n)).
    - replace (IZR d * (PI / INR n)) with (IZR d * PI / INR n) by (field; auto). rewrite Hk. field. auto.
    - pose proof PI_RGT_0. unfold Rdiv. apply Rmult_integral_contrapositive. split; [lra|]. apply Rinv_neq_0_compat; auto. }
  apply eq_IZR in E. subst d. rewrite Z.abs_mul, (Z.abs_eq (Z.of_nat n)) in Hd by lia.
  clear -Hd. pose proof (Z.abs_nonneg k). destruct (Z.eq_dec (Z.abs k) 0) as [E|E]; [rewrite E in Hd; lia|].
  assert (1 <= Z.abs k)%Z by lia. assert (1 * Z.of_nat n <= Z.abs k * Z.of_nat n)%Z by (apply Z.mul_le_mono_nonneg_r; lia). lia.
Qed.

(** Sums over a full period. *)
Lemma period_cos : forall (n : nat) d, (0 < Z.abs d < Z.of_nat n)%Z ->
  rsum n (fun j => cos (INR j * (IZR d * (2 * PI) / INR n))) = 0.
Proof.
  intros n d Hd. pose proof (sin_frac_neq0 n d Hd) as Hs.
  assert (Hn : INR n <> 0) by (apply not_0_INR; intros ->; cbn in Hd; lia).
  pose proof (sum_cos n (IZR d * (2 * PI) / INR n)) as H.
  replace (IZR d * (2 * PI) / INR n / 2) with (IZR d * PI / INR n) in H by (field; auto).
  replace ((INR n - / 2) * (IZR d * (2 * PI) / INR n)) with (IZR d * (2 * PI) - IZR d * PI / INR n) in H by (field; auto).
  rewrite sin_minus, cos_2Zpi, sin_2Zpi in H.
  replace (0 * cos (IZR d * PI / INR n) - 1 * sin (IZR d * PI / INR n) + sin (IZR d * PI / INR n)) with 0 in H by ring.
  apply Rmult_integral in H. destruct H as [H|H]; [|exact H]. exfalso. apply Hs. lra.
Qed.
Lemma period_sin : forall (n : nat) d, (0 < Z.abs d < Z.of_nat n)%Z ->
  rsum n (fun j => sin (INR j * (IZR d * (2 * PI) / INR n))) = 0.
Proof.
  intros n d Hd. pose proof (sin_frac_neq0 n d Hd) as Hs.
  assert (Hn : INR n <> 0) by (apply not_0_INR; intros ->; cbn in Hd; lia).
  pose proof (sum_sin n (IZR d * (2 * PI) / INR n)) as H.
  replace (IZR d * (2 * PI) / INR n / 2) with (IZR d * PI / INR n) in H by (field; auto).
  replace ((INR n - / 2) * (IZR d * (2 * PI) / INR n)) with (IZR d * (2 * PI) - IZR d * PI / INR n) in H by (field; auto).
  rewrite cos_minus, cos_2Zpi, sin_2Zpi in H.
  replace (cos (IZR d * PI / INR n) - (1 * cos (IZR d * PI / INR n) + 0 * sin (IZR d * PI / INR n))) with 0 in H by ring.
  apply Rmult_integral in H. destruct H as [H|H]; [|exact H]. exfalso. apply Hs. lra.
Qed.

(** The kernel of the inverse transform. *)
Definition half (n : nat) : nat := ((n - 1) / 2)%nat.
Definition kern (n : nat) (t : R) : R :=
  1 + rsum (half n) (fun i => 2 * cos (INR (S i) * t)) + (if Nat.even n then cos (INR (n / 2) * t) else 0).

Lemma half_odd : forall n, Nat.even n = false -> n = (2 * half n + 1)%nat.
Proof.
  intros n H. unfold half. assert (Ho : Nat.odd n = true) by (unfold Nat.odd; rewrite H; reflexivity).
  apply Nat.odd_spec in Ho. destruct Ho as [m ->]. replace (2 * m + 1 - 1)%nat with (m * 2)%nat by lia.
  rewrite Nat.div_mul; lia.
Qed.
Lemma half_even : forall n, (1 <= n)%nat -> Nat.even n = true -> n = (2 * (half n + 1))%nat /\ (n / 2 = half n + 1)%nat.
Proof.
  intros n Hn H. unfold half. apply Nat.even_spec in H. destruct H as [m ->].
  assert (H1 : (2 * m / 2 = m)%nat) by (replace (2 * m)%nat with (m * 2)%nat by lia; apply Nat.div_mul; lia).
  assert (H2 : ((2 * m - 1) / 2 = m - 1)%nat).
  { replace (2 * m - 1)%nat with (1 + (m - 1) * 2)%nat by lia. rewrite Nat.div_add by lia. reflexivity. }
  rewrite H1, H2. lia.
Qed.
Lemma half_odd2 : forall n, Nat.even n = false -> (n / 2 = half n)%nat.
Proof.
  intros n H. pose proof (half_odd n H) as E. rewrite E at 1. replace (2 * half n + 1)%nat with (1 + half n * 2)%nat by lia.
  rewrite Nat.div_add by lia. reflexivity.
Qed.

Lemma kern_0 : forall n, (1 <= n)%nat -> kern n 0 = INR n.
Proof.
  intros n Hn. unfold kern.
  rewrite (rsum_ext _ _ (fun _ => 2)) by (intros; rewrite Rmult_0_r, cos_0; ring).
  rewrite rsum_const. destruct (Nat.even n) eqn:E.
  - destruct (half_even n Hn E) as [H1 _]. rewrite Rmult_0_r, cos_0. rewrite H1 at 2.
    rewrite mult_INR, plus_INR. cbn [INR]. ring.
  - rewrite (half_odd n E) at 2. rewrite plus_INR, mult_INR. cbn [INR]. ring.
Qed.
Lemma kern_d : forall (n : nat) d, (1 <= n)%nat -> (0 < Z.abs d < Z.of_nat n)%Z ->
  kern n (IZR d * (2 * PI) / INR n) = 0.
Proof.
  intros n d Hn Hd. pose proof (sin_frac_neq0 n d Hd) as Hs.
  assert (Hn0 : INR n <> 0) by (apply not_0_INR; lia).
  pose proof (dirichlet (half n) (IZR d * (2 * PI) / INR n)) as H. unfold kern.
  replace (IZR d * (2 * PI) / INR n / 2) with (IZR d * PI / INR n) in H by (field; auto).
  set (s := 1 + _) in *.
  assert (E : sin (IZR d * PI / INR n) * (s + (if Nat.even n then cos (INR (n / 2) * (IZR d * (2 * PI) / INR n)) else 0)) = 0).
  { rewrite Rmult_plus_distr_l, H. destruct (Nat.even n) eqn:Ev.
    - destruct (half_even n Hn Ev) as [H1 H2].
      assert (Hm : INR (n / 2) = INR n / 2).
      { rewrite H2. replace (INR n) with (INR (2 * (half n + 1))) by (f_equal; lia). rewrite mult_INR. cbn [INR]. field. }
      assert (Hh : INR (half n) + 1 = INR (n / 2)) by (rewrite H2, plus_INR; reflexivity).
      replace ((INR (half n) + / 2) * (IZR d * (2 * PI) / INR n)) with (IZR d * PI - IZR d * PI / INR n).
      2:{ replace (INR (half n)) with (INR n / 2 - 1) by lra. field. auto. }
      replace (INR (n / 2) * (IZR d * (2 * PI) / INR n)) with (IZR d * PI) by (rewrite Hm; field; auto).
      rewrite sin_minus, sin_Zpi. ring.
    - assert (Hh : INR (half n) = (INR n - 1) / 2).
      { replace (INR n) with (INR (2 * half n + 1)) by (f_equal; symmetry; apply half_odd; auto).
        rewrite plus_INR, mult_INR. cbn [INR]. field. }
      replace ((INR (half n) + / 2) * (IZR d * (2 * PI) / INR n)) with (IZR d * PI) by (rewrite Hh; field; auto).
      rewrite sin_Zpi. ring. }
  apply Rmult_integral in E. destruct E as [E|E]; [contradiction|exact E].
Qed.

(** * The inverse transform of the transform *)
Lemma rfft_re : forall n x k, fst (rfft n x k) = rsum n (fun j => x j * cos (ang n j k)) / INR n.
Proof. intros. unfold rfft, fftw_r2c. cbn [fst snd Cmult RtoC]. unfold Rdiv. ring. Qed.
Lemma rfft_im : forall n x k, snd (rfft n x k) = - rsum n (fun j => x j * sin (ang n j k)) / INR n.
Proof. intros. unfold rfft, fftw_r2c. cbn [fst snd Cmult RtoC]. unfold Rdiv. ring. Qed.

Lemma ang_0 : forall n j, ang n j 0 = 0.
Proof. intros. unfold ang. cbn [INR]. unfold Rdiv. ring. Qed.
Lemma ang_diff : forall n j m k, (1 <= n)%nat ->
  ang n j k - ang n m k = INR k * (IZR (Z.of_nat j - Z.of_nat m) * (2 * PI) / INR n).
Proof.
  intros. unfold ang. rewrite minus_IZR, <- !INR_IZR_INZ. field. apply not_0_INR. lia.
Qed.
Lemma ang_nyq : forall n j, (1 <= n)%nat -> Nat.even n = true -> ang n j (n / 2) = IZR (Z.of_nat j) * PI.
Proof.
  intros n j Hn E. destruct (half_even n Hn E) as [H1 H2]. unfold ang. rewrite H2, <- INR_IZR_INZ.
  assert (INR n <> 0) by (apply not_0_INR; lia).
  replace (INR (half n + 1)) with (INR n / 2). { field. auto. }
  rewrite H1 at 1. rewrite mult_INR. cbn [INR]. field.
Qed.

Lemma irfft_rfft : forall n x j, (1 <= n)%nat -> (j < n)%nat -> irfft n (rfft n x) j = x j.
Proof.
  intros n x j Hn Hj. assert (Hn0 : INR n <> 0) by (apply not_0_INR; lia).
  assert (E : irfft n (rfft n x) j = rsum n (fun m => x m * kern n (IZR (Z.of_nat j - Z.of_nat m) * (2 * PI) / INR n)) / INR n).
  { unfold irfft, fftw_c2r, kern. fold (half n).
    rewrite (rsum_ext (half n) _ (fun i => rsum n (fun m => x m * (2 * cos (INR (S i) * (IZR (Z.of_nat j - Z.of_nat m) * (2 * PI) / INR n)))) * / INR n)).
    2:{ intros i Hi. rewrite rfft_re, rfft_im.
        replace (2 * _) with ((rsum n (fun m => x m * cos (ang n m (S i))) * (2 * cos (ang n j (S i)))
                                + rsum n (fun m => x m * sin (ang n m (S i))) * (2 * sin (ang n j (S i)))) / INR n) by (field; auto).
        rewrite <- (rsum_scal_r n (2 * cos (ang n j (S i)))), <- (rsum_scal_r n (2 * sin (ang n j (S i)))), <- rsum_plus. unfold Rdiv at 1. f_equal. apply rsum_ext. intros m Hm.
        rewrite <- ang_diff by auto. rewrite cos_minus. ring. }
    rewrite (rsum_scal_r (half n) (/ INR n)). rewrite rsum_swap.
    rewrite rfft_re. rewrite (rsum_ext n (fun j0 => x j0 * cos (ang n j0 0)) x) by (intros; rewrite ang_0, cos_0; ring).
    destruct (Nat.even n) eqn:Ev.
    - rewrite rfft_re.
      rewrite (rsum_ext n (fun m => x m * (_ + _ + _))
        (fun m => x m + rsum (half n) (fun i => x m * (2 * cos (INR (S i) * (IZR (Z.of_nat j - Z.of_nat m) * (2 * PI) / INR n))))
                  + x m * cos (ang n m (n / 2)) * cos (ang n j (n / 2)))).
      2:{ intros m Hm. rewrite (rsum_scal (half n) (x m)). rewrite <- (ang_diff n j m (n / 2)) by auto. rewrite cos_minus.
          rewrite !ang_nyq by auto. rewrite !sin_Zpi. ring. }
      rewrite !rsum_plus, rsum_scal_r. field. auto.
    - rewrite (rsum_ext n (fun m => x m * (_ + _ + _))
        (fun m => x m + rsum (half n) (fun i => x m * (2 * cos (INR (S i) * (IZR (Z.of_nat j - Z.of_nat m) * (2 * PI) / INR n)))))).
      2:{ intros m Hm. rewrite (rsum_scal (half n) (x m)). ring. }
      rewrite !rsum_plus. field. auto. }
  rewrite E. rewrite (rsum_one n _ j); auto.
  - rewrite Z.sub_diag. replace (0 * (2 * PI) / INR n) with 0 by (field; auto). rewrite kern_0 by auto. field. auto.
  - intros i Hi Hij. rewrite kern_d; [ring|auto|lia].
Qed.
