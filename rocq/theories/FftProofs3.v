(** Trigonometric polynomials: their spectra, and what multiplying every mode does to them. *)
From Coq Require Import List Arith Bool ZArith Reals Lia Lra.
From Coquelicot Require Import Complex Derive.
From Verif Require Import Base FftModel FftSpec FftProofs FftProofs2.
Local Open Scope R_scope.

Lemma trig_ext : forall a b a' b' L K z, (forall k, (k <= K)%nat -> a k = a' k) -> (forall k, (1 <= k <= K)%nat -> b k = b' k) ->
  trig a b L K z = trig a' b' L K z.
Proof.
  induction K; intros z Ha Hb; cbn [trig].
  - apply Ha. lia.
  - rewrite IHK; [|intros; apply Ha; lia|intros; apply Hb; lia]. rewrite Ha, Hb by lia. reflexivity.
Qed.
Lemma trig_extend : forall a b L K m z, (forall k, (K < k)%nat -> a k = 0 /\ b k = 0) -> trig a b L (K + m) z = trig a b L K z.
Proof.
  induction m; intros z H; [rewrite Nat.add_0_r; reflexivity|].
  rewrite Nat.add_succ_r. cbn [trig]. rewrite IHm by auto. destruct (H (S (K + m)) ltac:(lia)) as [-> ->]. ring.
Qed.
Definition tspec (a b : nat -> R) (K : nat) (k : nat) : C :=
  if Nat.eqb k 0 then (a 0%nat, 0) else if Nat.leb k K then (a k / 2, - b k / 2) else RtoC 0.

Lemma ang_grid : forall n L j k, (1 <= n)%nat -> L <> 0 -> ang n j k = 2 * PI * INR k * gridz n L j / L.
Proof. intros. assert (INR n <> 0) by (apply not_0_INR; lia). unfold ang, gridz. field. auto. Qed.

Lemma half_lt : forall n K, (1 <= n)%nat -> (2 * K < n)%nat <-> (K <= half n)%nat.
Proof.
  intros n K Hn. destruct (Nat.even n) eqn:Ev; [destruct (half_even n Hn Ev)|pose proof (half_odd n Ev)]; lia.
Qed.

Lemma trig_as_sum : forall a b L K z, trig a b L K z
  = a 0%nat + rsum K (fun i => a (S i) * cos (2 * PI * INR (S i) * z / L) + b (S i) * sin (2 * PI * INR (S i) * z / L)).
Proof. induction K; intros z; cbn [trig rsum]; [ring|]. rewrite IHK. ring. Qed.
Lemma rsum_extend : forall K m f, (forall i, (K <= i)%nat -> f i = 0) -> rsum (K + m) f = rsum K f.
Proof.
  induction m; intros f H; [rewrite Nat.add_0_r; reflexivity|].
  rewrite Nat.add_succ_r. cbn [rsum]. rewrite IHm by auto. rewrite H by lia. ring.
Qed.

Lemma irfft_tspec : forall n L a b K j, (1 <= n)%nat -> L <> 0 -> (2 * K < n)%nat ->
  irfft n (tspec a b K) j = trig a b L K (gridz n L j).
Proof.
  intros n L a b K j Hn HL HK. apply half_lt in HK; auto. rewrite trig_as_sum.
  unfold irfft, fftw_c2r. fold (half n).
  replace (fst (tspec a b K 0)) with (a 0%nat) by reflexivity.
  assert (Hny : (if Nat.even n then fst (tspec a b K (n / 2)%nat) * cos (ang n j (n / 2)) else 0) = 0).
  { destruct (Nat.even n) eqn:Ev; [|reflexivity]. destruct (half_even n Hn Ev). unfold tspec.
    rewrite (proj2 (Nat.eqb_neq (n / 2) 0)), (proj2 (Nat.leb_gt (n / 2) K)) by lia. cbn [fst RtoC]. ring. }
  rewrite Hny, Rplus_0_r. f_equal.
  replace (half n) with (K + (half n - K))%nat by lia. rewrite rsum_extend.
  - apply rsum_ext. intros i Hi. rewrite (ang_grid n L) by auto. unfold tspec.
    rewrite (proj2 (Nat.eqb_neq (S i) 0)), (proj2 (Nat.leb_le (S i) K)) by lia. cbn [fst snd]. field. auto.
  - intros i Hi. unfold tspec. rewrite (proj2 (Nat.eqb_neq (S i) 0)), (proj2 (Nat.leb_gt (S i) K)) by lia.
    cbn [fst snd RtoC]. ring.
Qed.

Lemma keep_tspec : forall n a b K k, (2 * K < n)%nat -> keep n (tspec a b K) k = tspec a b K k.
Proof.
  intros n a b K k HK. unfold keep, tspec. destruct (Nat.eqb_spec k 0) as [->|H0]; [reflexivity|].
  destruct (Nat.eqb_spec (2 * k) n) as [E|E]; [|reflexivity]. rewrite (proj2 (Nat.leb_gt k K)) by lia. reflexivity.
Qed.
Lemma rfft_trig : forall n L a b K x k, (1 <= n)%nat -> L <> 0 -> (2 * K < n)%nat -> (k <= n / 2)%nat ->
  samples n L (trig a b L K) x -> rfft n x k = tspec a b K k.
Proof.
  intros n L a b K x k Hn HL HK Hk Hs. rewrite (rfft_ext n x (irfft n (tspec a b K))).
  - rewrite rfft_irfft by auto. apply keep_tspec. auto.
  - intros j Hj. rewrite (irfft_tspec n L) by auto. apply Hs. auto.
Qed.

(** Coefficients after multiplication of mode [k] with [M k]. *)
Definition mulA (a b : nat -> R) (M : nat -> C) (k : nat) : R :=
  if Nat.eqb k 0 then a 0%nat * fst (M 0%nat) else a k * fst (M k) + b k * snd (M k).
Definition mulB (a b : nat -> R) (M : nat -> C) (k : nat) : R := b k * fst (M k) - a k * snd (M k).

Lemma irfft_mul_tspec : forall n a b K M j L, (1 <= n)%nat -> L <> 0 -> (2 * K < n)%nat ->
  irfft n (fun k => Cmult (tspec a b K k) (M k)) j = trig (mulA a b M) (mulB a b M) L K (gridz n L j).
Proof.
  intros n a b K M j L Hn HL HK. rewrite <- irfft_tspec by auto. apply irfft_ext; auto. intros k Hk.
  unfold keep, tspec, mulA, mulB. destruct (Nat.eqb_spec k 0) as [->|H0].
  - apply C_eq; cbn [fst snd Cmult Nat.eqb]; ring.
  - destruct (Nat.leb_spec k K).
    + rewrite (proj2 (Nat.eqb_neq (2 * k) n)) by lia. apply C_eq; cbn [fst snd Cmult]; field.
    + destruct (Nat.eqb (2 * k) n); apply C_eq; cbn [fst snd Cmult RtoC]; ring.
Qed.
Lemma spectral_trig : forall n L a b K M x j, (1 <= n)%nat -> L <> 0 -> (2 * K < n)%nat ->
  samples n L (trig a b L K) x -> spectral n M x j = trig (mulA a b M) (mulB a b M) L K (gridz n L j).
Proof.
  intros n L a b K M x j Hn HL HK Hs. rewrite <- irfft_mul_tspec by auto. unfold spectral. apply irfft_ext; auto.
  intros k Hk. unfold keep. rewrite (rfft_trig n L a b K x) by auto. reflexivity.
Qed.

(** * The highest mode *)
Lemma cos_npi : forall m, cos (IZR (Z.of_nat m) * PI) = if Nat.even m then 1 else -1.
Proof.
  induction m.
  - cbn [Z.of_nat Nat.even]. rewrite Rmult_0_l. apply cos_0.
  - rewrite Nat.even_succ, <- Nat.negb_even. rewrite Nat2Z.inj_succ, succ_IZR, Rmult_plus_distr_r, Rmult_1_l, neg_cos, IHm.
    destruct (Nat.even m); cbn [negb]; lra.
Qed.
Lemma alternating_sum : forall n m x, (1 <= n)%nat -> Nat.even n = true ->
  rsum m (fun j => x j * cos (ang n j (n / 2))) = alternating m x.
Proof.
  induction m; intros x Hn Hev; cbn [rsum alternating]; [reflexivity|]. rewrite IHm by auto.
  rewrite ang_nyq, cos_npi by auto. destruct (Nat.even m); ring.
Qed.
Lemma rfft_nyq : forall n x, (1 <= n)%nat -> Nat.even n = true -> fst (rfft n x (n / 2)) = alternating n x / INR n.
Proof. intros. rewrite rfft_re, alternating_sum by auto. reflexivity. Qed.

(** Every row is the samples of a trigonometric polynomial of degree below n/2, plus a multiple of (+1, -1, ...). *)
Definition trA (n : nat) (x : nat -> R) (k : nat) : R := (if Nat.eqb k 0 then 1 else 2) * fst (rfft n x k).
Definition trB (n : nat) (x : nat -> R) (k : nat) : R := - 2 * snd (rfft n x k).
Definition nyq (n : nat) (x : nat -> R) : R := if Nat.even n then alternating n x / INR n else 0.

Lemma decompose : forall n L x j, (1 <= n)%nat -> L <> 0 -> (j < n)%nat ->
  x j = trig (trA n x) (trB n x) L (half n) (gridz n L j) + nyq n x * (if Nat.even j then 1 else -1).
Proof.
  intros n L x j Hn HL Hj. rewrite <- (irfft_rfft n x j) at 1 by auto. rewrite <- irfft_tspec by (auto; apply half_lt; auto).
  unfold irfft, fftw_c2r. fold (half n).
  assert (E0 : fst (rfft n x 0) = fst (tspec (trA n x) (trB n x) (half n) 0)).
  { unfold tspec, trA. cbn [Nat.eqb fst]. ring. }
  rewrite E0. rewrite (rsum_ext (half n) _ (fun i =>
   2 * (fst (tspec (trA n x) (trB n x) (half n) (S i)) * cos (ang n j (S i)) - snd (tspec (trA n x) (trB n x) (half n) (S i)) * sin (ang n j (S i))))).
  2:{ intros i Hi. unfold tspec, trA, trB. rewrite (proj2 (Nat.eqb_neq (S i) 0)), (proj2 (Nat.leb_le (S i) (half n))) by lia.
      cbn [fst snd]. field. }
  unfold nyq. destruct (Nat.even n) eqn:Ev.
  - destruct (half_even n Hn Ev). rewrite rfft_nyq by auto. rewrite ang_nyq, cos_npi by auto.
    assert (Et : tspec (trA n x) (trB n x) (half n) (n / 2) = RtoC 0).
    { unfold tspec. rewrite (proj2 (Nat.eqb_neq (n / 2) 0)), (proj2 (Nat.leb_gt (n / 2) (half n))) by lia. reflexivity. }
    rewrite Et. cbn [fst RtoC]. ring.
  - ring.
Qed.
Lemma no_nyq : forall n x, no_nyquist n x -> nyq n x = 0.
Proof. intros n x H. unfold nyq. destruct (Nat.even n) eqn:E; [|reflexivity]. rewrite H by auto. unfold Rdiv. ring. Qed.
Lemma no_nyq_trig : forall n L x, (1 <= n)%nat -> L <> 0 -> no_nyquist n x ->
  samples n L (trig (trA n x) (trB n x) L (half n)) x.
Proof. intros n L x Hn HL H j Hj. rewrite (decompose n L x j) at 1 by auto. rewrite no_nyq by auto. ring. Qed.
Lemma trig_no_nyq : forall n L a b K x, (1 <= n)%nat -> L <> 0 -> (2 * K < n)%nat -> samples n L (trig a b L K) x -> no_nyquist n x.
Proof.
  intros n L a b K x Hn HL HK Hs Hev. assert (INR n <> 0) by (apply not_0_INR; lia). destruct (half_even n Hn Hev).
  pose proof (rfft_nyq n x Hn Hev) as E. rewrite (rfft_trig n L a b K) in E by (auto; lia).
  unfold tspec in E. rewrite (proj2 (Nat.eqb_neq (n / 2) 0)), (proj2 (Nat.leb_gt (n / 2) K)) in E by lia.
  cbn [fst RtoC] in E. apply (Rmult_eq_reg_r (/ INR n)); [|apply Rinv_neq_0_compat; auto]. unfold Rdiv in E. rewrite <- E. ring.
Qed.

(** * Shifts *)
Definition shiftM (L s : R) (k : nat) : C := (cos (kwave L k * s), - sin (kwave L k * s)).
Lemma shift_spectral : forall n phs x j, fst (phs 0%nat) = 1 -> snd (phs 0%nat) = 0 -> shift_phases n phs x j = spectral n phs x j.
Proof.
  intros n phs x j H1 H2. assert (E : phs 0%nat = RtoC 1) by (apply C_eq; auto).
  unfold shift_phases, spectral, irfft, fftw_c2r. do 2 f_equal.
  - rewrite E, Cmult_1_r. reflexivity.
  - destruct (Nat.even n); [|reflexivity]. destruct (n / 2)%nat; [rewrite E, Cmult_1_r|]; reflexivity.
Qed.
Lemma shiftM_0 : forall L s, shiftM L s 0 = RtoC 1.
Proof.
  intros. unfold shiftM, kwave. cbn [INR]. replace (0 * 2 * PI / L * s) with 0 by (unfold Rdiv; ring).
  rewrite cos_0, sin_0, Ropp_0. reflexivity.
Qed.
Lemma trig_shift : forall a b L K s z, L <> 0 ->
  trig (mulA a b (shiftM L s)) (mulB a b (shiftM L s)) L K z = trig a b L K (z - s).
Proof.
  induction K; intros s z HL; cbn [trig].
  - unfold mulA. cbn [Nat.eqb]. rewrite shiftM_0. cbn [fst RtoC]. ring.
  - rewrite IHK by auto. f_equal. unfold mulA, mulB. rewrite (proj2 (Nat.eqb_neq (S K) 0)) by lia.
    unfold shiftM, kwave. cbn [fst snd].
    replace (2 * PI * INR (S K) * (z - s) / L) with (2 * PI * INR (S K) * z / L - INR (S K) * 2 * PI / L * s) by (field; auto).
    rewrite cos_minus, sin_minus. ring.
Qed.
Lemma shiftM_add : forall L s t k, Cmult (shiftM L s k) (shiftM L t k) = shiftM L (s + t) k.
Proof.
  intros. unfold shiftM. rewrite Rmult_plus_distr_l, cos_plus, sin_plus. apply C_eq; cbn [fst snd Cmult]; ring.
Qed.
Lemma shiftM_zero : forall L k, shiftM L 0 k = RtoC 1.
Proof. intros. unfold shiftM. rewrite Rmult_0_r, cos_0, sin_0, Ropp_0. reflexivity. Qed.

(** Rows without the highest mode: multiplying that mode with anything makes no difference. *)
Lemma spectral_no_nyq : forall n M N x j, (1 <= n)%nat -> no_nyquist n x ->
  (forall k, (k <= half n)%nat -> M k = N k) -> spectral n M x j = spectral n N x j.
Proof.
  intros n M N x j Hn Hx H. assert (H1 : 1 <> 0) by lra. assert (HK : (2 * half n < n)%nat) by (apply half_lt; auto).
  pose proof (no_nyq_trig n 1 x Hn H1 Hx) as Hs.
  rewrite (spectral_trig n 1 _ _ _ M x j Hn H1 HK Hs), (spectral_trig n 1 _ _ _ N x j Hn H1 HK Hs).
  apply trig_ext; intros k Hk.
  - unfold mulA. destruct (Nat.eqb_spec k 0) as [->|]; rewrite H by lia; reflexivity.
  - unfold mulB. rewrite H by lia. reflexivity.
Qed.
Lemma keep_le_half : forall n M k, (1 <= n)%nat -> (1 <= k <= half n)%nat -> keep n M k = M k.
Proof.
  intros n M k Hn Hk. unfold keep. rewrite (proj2 (Nat.eqb_neq k 0)) by lia.
  destruct (Nat.eqb_spec (2 * k) n); [|reflexivity]. exfalso. pose proof (proj2 (half_lt n k Hn)). lia.
Qed.
Lemma spectral_keeps_no_nyq : forall n M x, (1 <= n)%nat -> no_nyquist n x -> no_nyquist n (spectral n M x).
Proof.
  intros n M x Hn Hx. assert (H1 : 1 <> 0) by lra. assert (HK : (2 * half n < n)%nat) by (apply half_lt; auto).
  pose proof (no_nyq_trig n 1 x Hn H1 Hx) as Hs.
  refine (trig_no_nyq n 1 (mulA (trA n x) (trB n x) M) (mulB (trA n x) (trB n x) M) (half n) _ Hn H1 HK _).
  intros j Hj. exact (spectral_trig n 1 _ _ _ M x j Hn H1 HK Hs).
Qed.
Lemma spectral_comp_no_nyq : forall n M1 M2 x j, (1 <= n)%nat -> no_nyquist n x -> snd (M1 0%nat) = 0 -> snd (M2 0%nat) = 0 ->
  spectral n M2 (spectral n M1 x) j = spectral n (fun k => Cmult (M1 k) (M2 k)) x j.
Proof.
  intros n M1 M2 x j Hn Hx H1 H2. rewrite spectral_comp by auto. apply spectral_no_nyq; auto. intros k Hk.
  destruct (Nat.eq_dec k 0) as [->|Hk0].
  - unfold keep. cbn [Nat.eqb]. destruct (M1 0%nat) as [p q], (M2 0%nat) as [r t]. cbn [fst snd] in *. rewrite H1, H2. reflexivity.
  - rewrite !keep_le_half by (auto; lia). reflexivity.
Qed.
