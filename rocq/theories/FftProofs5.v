(** Call histories, energy, fields, whole cells and derivative theorems. *)
From Coq Require Import List Arith Bool ZArith Reals Lia Lra.
From Coquelicot Require Import Complex Derive Hierarchy AutoDerive.
From Verif Require Import Base FftModel FftSpec FftProofs FftProofs2 FftProofs3 FftProofs4.
Import ListNotations.
Local Open Scope R_scope.

(** * Histories of calls *)
Definition plan_ok (st : plan) : Prop := (p_n st = 0%nat /\ p_plan st = None) \/ ((1 <= p_n st)%nat /\ p_plan st = Some (p_n st)).
Lemma replan_ok : forall n st, (1 <= n)%nat -> plan_ok st -> p_n (replan n st) = n /\ p_plan (replan n st) = Some n.
Proof.
  intros n st Hn [[H1 H2]|[H1 H2]]; unfold replan; destruct (Nat.eqb_spec n (p_n st)) as [E|E]; try (split; reflexivity).
  - lia.
  - rewrite H2, <- E. auto.
Qed.
Lemma fftw_c2r_ext : forall n X Y j, (1 <= n)%nat -> (forall k, (k < n / 2 + 1)%nat -> X k = Y k) -> fftw_c2r n X j = fftw_c2r n Y j.
Proof. intros n X Y j Hn H. apply (irfft_ext0 n X Y j Hn). intros k Hk. apply H. lia. Qed.
Lemma rfft_call_ok : forall n x st, (1 <= n)%nat -> plan_ok st ->
  exists r st', rfft_call n x st = Ok (r, st') /\ plan_ok st' /\ forall k, r k = rfft n x k.
Proof.
  intros n x st Hn Hp. destruct (replan_ok n st Hn Hp) as [H1 H2]. unfold rfft_call. rewrite H2, H1. cbv zeta.
  eexists; eexists; split; [reflexivity|]. split; [right; cbn [p_n p_plan]; auto|].
  intros k. cbv beta.
  rewrite <- (rfft_ext n (fun i => if Nat.ltb i n then x i else p_in (replan n st) i) x k).
  - reflexivity.
  - intros j Hj. rewrite (proj2 (Nat.ltb_lt j n)) by auto. reflexivity.
Qed.
Lemma irfft_call_ok : forall n X st, (1 <= n)%nat -> plan_ok st ->
  exists r st', irfft_call n X st = Ok (r, st') /\ plan_ok st' /\ forall j, r j = irfft n X j.
Proof.
  intros n X st Hn Hp. destruct (replan_ok n st Hn Hp) as [H1 H2]. unfold irfft_call. rewrite H2, H1. cbv zeta.
  eexists; eexists; split; [reflexivity|]. split; [right; cbn [p_n p_plan]; auto|].
  intros j. cbv beta. unfold irfft. apply fftw_c2r_ext; auto. intros k Hk. rewrite (proj2 (Nat.ltb_lt k (n / 2 + 1))) by auto. reflexivity.
Qed.

(** * Energy *)
Lemma parseval : forall n x, (1 <= n)%nat ->
  rsum n (fun j => x j * x j) / INR n
  = Cmod (rfft n x 0) ^ 2 + 2 * rsum (half n) (fun i => Cmod (rfft n x (S i)) ^ 2)
    + (if Nat.even n then Cmod (rfft n x (n / 2)) ^ 2 else 0).
Proof.
  intros n x Hn. assert (Hn0 : INR n <> 0) by (apply not_0_INR; lia).
  assert (Hm : forall c, Cmod c ^ 2 = fst c * fst c + snd c * snd c).
  { intros c. unfold Cmod. rewrite pow2_sqrt; [ring|]. apply Rplus_le_le_0_compat; apply pow2_ge_0. }
  rewrite (rsum_ext n (fun j => x j * x j) (fun j => x j * irfft n (rfft n x) j)) by (intros; rewrite irfft_rfft by auto; reflexivity).
  unfold irfft, fftw_c2r. fold (half n).
  rewrite (rsum_ext n _ (fun j => x j * cos (ang n j 0) * fst (rfft n x 0)
     + rsum (half n) (fun i => 2 * fst (rfft n x (S i)) * (x j * cos (ang n j (S i))) - 2 * snd (rfft n x (S i)) * (x j * sin (ang n j (S i))))
     + (if Nat.even n then fst (rfft n x (n / 2)) else 0) * (x j * cos (ang n j (n / 2))))).
  2:{ intros j _. rewrite !Rmult_plus_distr_l. f_equal; [f_equal|].
      - rewrite ang_0, cos_0. ring.
      - rewrite <- rsum_scal. apply rsum_ext. intros i _. ring.
      - destruct (Nat.even n); ring. }
  rewrite !rsum_plus, rsum_swap, rsum_scal_r, rsum_scal.
  assert (Hc : forall k, rsum n (fun j => x j * cos (ang n j k)) = INR n * fst (rfft n x k)) by (intros; rewrite rfft_re; field; auto).
  assert (Hs : forall k, rsum n (fun j => x j * sin (ang n j k)) = - INR n * snd (rfft n x k)) by (intros; rewrite rfft_im; field; auto).
  rewrite (rsum_ext (half n) _ (fun i => INR n * (2 * (Cmod (rfft n x (S i)) ^ 2)))).
  2:{ intros i _. rewrite rsum_minus, !rsum_scal, Hc, Hs, Hm. ring. }
  rewrite !rsum_scal, !Hc, !Hm.
  assert (E0 : snd (rfft n x 0) = 0).
  { pose proof (keep_rfft n x 0 Hn ltac:(lia)) as E. unfold keep in E. cbn [Nat.eqb] in E. rewrite <- E. reflexivity. }
  rewrite E0. destruct (Nat.even n) eqn:Ev.
  - rewrite ?Hm. assert (E1 : snd (rfft n x (n / 2)) = 0).
    { destruct (half_even n Hn Ev). pose proof (keep_rfft n x (n / 2) Hn ltac:(lia)) as E. unfold keep in E.
      rewrite (proj2 (Nat.eqb_neq (n / 2) 0)), (proj2 (Nat.eqb_eq (2 * (n / 2)) n)) in E by lia. rewrite <- E. reflexivity. }
    rewrite E1. field. auto.
  - field. auto.
Qed.

(** * Shifts of rows and fields *)
Lemma trig_periodic : forall a b L K z q, L <> 0 -> trig a b L K (z + IZR q * L) = trig a b L K z.
Proof.
  induction K; intros z q HL; cbn [trig]; [reflexivity|]. rewrite IHK by auto. f_equal.
  replace (2 * PI * INR (S K) * (z + IZR q * L) / L) with (2 * PI * INR (S K) * z / L + IZR (Z.of_nat (S K) * q) * (2 * PI)).
  2:{ rewrite mult_IZR, <- INR_IZR_INZ. field. auto. }
  rewrite cos_plus, sin_plus, cos_2Zpi, sin_2Zpi. ring.
Qed.
Lemma sgn_cos : forall j, sgn j = cos (IZR (Z.of_nat j) * PI).
Proof. intros. rewrite cos_npi. reflexivity. Qed.

Lemma shift_cells : forall n L m x j, (1 <= n)%nat -> L <> 0 -> (j < n)%nat ->
  shiftZ_row n L (IZR m * L / INR n) x j = x (Z.to_nat ((Z.of_nat j - m) mod Z.of_nat n)).
Proof.
  intros n L m x j Hn HL Hj. assert (Hn0 : INR n <> 0) by (apply not_0_INR; lia).
  pose proof (row_exists n L x Hn HL) as Hr. rewrite (shift_of_row n L _ _ _ _ x _ j Hn HL Hr Hj).
  set (j' := Z.to_nat ((Z.of_nat j - m) mod Z.of_nat n)).
  pose proof (Z.mod_pos_bound (Z.of_nat j - m) (Z.of_nat n) ltac:(lia)) as Hb.
  pose proof (Z.div_mod (Z.of_nat j - m) (Z.of_nat n) ltac:(lia)) as Hd.
  set (q := ((Z.of_nat j - m) / Z.of_nat n)%Z) in *.
  assert (Hj' : (j' < n)%nat) by (unfold j'; lia).
  assert (Ej : (Z.of_nat j - m = Z.of_nat n * q + Z.of_nat j')%Z) by (unfold j'; lia).
  destruct Hr as (_ & Hc & Hx). rewrite (Hx j' Hj'). f_equal.
  - rewrite <- (trig_periodic _ _ L (half n) (gridz n L j') q) by auto. f_equal. unfold gridz.
    assert (ER : INR j - IZR m = INR n * IZR q + INR j').
    { rewrite !INR_IZR_INZ, <- mult_IZR, <- minus_IZR, <- plus_IZR, Ej. reflexivity. }
    apply (Rmult_eq_reg_r (INR n / L)); [|unfold Rdiv; apply Rmult_integral_contrapositive; split; [auto|apply Rinv_neq_0_compat; auto]].
    transitivity (INR j - IZR m); [field; auto|]. rewrite ER. field. auto.
  - destruct (Nat.even n) eqn:Ev; [|rewrite Hc by auto; ring].
    rewrite Rmult_assoc. f_equal. replace (PI * INR n * (IZR m * L / INR n) / L) with (IZR m * PI) by (field; auto).
    rewrite !sgn_cos. apply Nat.even_spec in Ev. destruct Ev as [h Hh].
    assert (E1 : cos (IZR (Z.of_nat j - m) * PI) = cos (IZR m * PI) * cos (IZR (Z.of_nat j) * PI)).
    { rewrite minus_IZR, Rmult_minus_distr_r, cos_minus, !sin_Zpi. ring. }
    rewrite <- E1, Ej, Hh. rewrite plus_IZR, Rmult_plus_distr_r.
    replace (IZR (Z.of_nat (2 * h) * q) * PI) with (IZR (Z.of_nat h * q) * (2 * PI)).
    2:{ rewrite Nat2Z.inj_mul, !mult_IZR. cbn [Z.of_nat Pos.of_succ_nat Pos.succ]. ring. }
    rewrite cos_plus, cos_2Zpi, sin_2Zpi. ring.
Qed.

Definition backM (L s : R) (k : nat) : C := (cos (kwave L k * s), sin (kwave L k * s)).
Lemma backM_shiftM : forall L s k, backM L s k = shiftM L (- s) k.
Proof.
  intros. unfold backM, shiftM. replace (kwave L k * - s) with (- (kwave L k * s)) by ring. rewrite cos_neg, sin_neg, Ropp_involutive. reflexivity.
Qed.
Lemma backM_0 : forall L s, backM L s 0 = RtoC 1.
Proof. intros. rewrite backM_shiftM. apply shiftM_0. Qed.

Lemma shift_phases_ext : forall n p x y j, (forall i, (i < n)%nat -> x i = y i) -> shift_phases n p x j = shift_phases n p y j.
Proof.
  intros n p x y j H. assert (E : forall k, rfft n x k = rfft n y k) by (intros; apply rfft_ext; auto).
  unfold shift_phases, irfft, fftw_c2r. rewrite !E.
  rewrite (rsum_ext _ _ (fun i => 2 * (fst (rfft n y (S i) * p (S i))%C * cos (ang n j (S i)) - snd (rfft n y (S i) * p (S i))%C * sin (ang n j (S i)))))
    by (intros; rewrite E; reflexivity).
  destruct (Nat.even n); [|reflexivity]. destruct (n / 2)%nat; rewrite ?E; reflexivity.
Qed.
Lemma shift_twice : forall n L s t x j, (1 <= n)%nat -> no_nyquist n x ->
  shift_phases n (shiftM L t) (shift_phases n (shiftM L s) x) j = shift_phases n (shiftM L (s + t)) x j.
Proof.
  intros n L s t x j Hn Hx.
  rewrite (shift_phases_ext n (shiftM L t) _ (spectral n (shiftM L s) x)) by (intros; apply shift_spectral; rewrite shiftM_0; reflexivity).
  rewrite !shift_spectral by (rewrite shiftM_0; reflexivity).
  rewrite spectral_comp_no_nyq; auto; try (rewrite shiftM_0; reflexivity).
  apply spectral_ext; auto. intros k Hk. unfold keep. rewrite shiftM_add. reflexivity.
Qed.
Lemma phases_ext : forall n p q x j, (forall k, p k = q k) -> shift_phases n p x j = shift_phases n q x j.
Proof.
  intros n p q x j H. unfold shift_phases, irfft, fftw_c2r.
  rewrite (rsum_ext _ _ (fun i => 2 * (fst (rfft n x (S i) * q (S i))%C * cos (ang n j (S i)) - snd (rfft n x (S i) * q (S i))%C * sin (ang n j (S i)))))
    by (intros; rewrite H; reflexivity).
  destruct (Nat.even n); [|reflexivity]. destruct (n / 2)%nat; rewrite ?H; reflexivity.
Qed.
Lemma shift_zero : forall n L x j, (1 <= n)%nat -> (j < n)%nat -> shift_phases n (shiftM L 0) x j = x j.
Proof.
  intros n L x j Hn Hj. rewrite shift_spectral by (rewrite shiftM_0; reflexivity).
  rewrite <- (spectral_1 n x j) by auto. apply spectral_ext; auto. intros k Hk. unfold keep. rewrite shiftM_zero. reflexivity.
Qed.
Lemma to_shift : forall n L s x j, shift_phases n (toAlignedPhs L s) x j = shift_phases n (shiftM L (- s)) x j.
Proof. intros. apply phases_ext. intros k. apply backM_shiftM. Qed.
Lemma from_shift : forall n L s x j, shift_phases n (fromAlignedPhs L s) x j = shift_phases n (shiftM L s) x j.
Proof. intros. apply phases_ext. intros k. reflexivity. Qed.
Lemma shift_keeps_no_nyq : forall n L s x, (1 <= n)%nat -> no_nyquist n x -> no_nyquist n (shift_phases n (shiftM L s) x).
Proof.
  intros n L s x Hn Hx Hev. pose proof (spectral_keeps_no_nyq n (shiftM L s) x Hn Hx Hev) as H.
  assert (E : forall m f g, (forall j, f j = g j) -> alternating m f = alternating m g).
  { induction m; intros f g Hfg; cbn [alternating]; [reflexivity|]. rewrite (IHm f g) by auto. rewrite Hfg. reflexivity. }
  rewrite <- H. apply E. intros j. apply shift_spectral; rewrite shiftM_0; reflexivity.
Qed.

(** * Derivatives *)
Lemma ddz_of_row : forall n L a b K c x filt j d, (1 <= n)%nat -> L <> 0 -> row_is n L a b K c x ->
  is_derive (trig a b L (Nat.min K (kmax n filt))) (gridz n L j) d ->
  fft_ddz_row n filt x j = L / INR n * d.
Proof.
  intros n L a b K c x filt j d Hn HL Hr Hd. pose proof Hr as (HK & Hc & _).
  set (P := fun k => if Nat.leb k (kmax n filt) then ((0, INR k * (2 * PI / INR n)) : C) else RtoC 0).
  assert (E : fft_ddz_row n filt x j = spectral n P x j).
  { unfold fft_ddz_row, spectral. apply irfft_ext0; auto. intros k Hk. unfold P. destruct (Nat.leb k (kmax n filt)); [reflexivity|].
    rewrite Cmult_0_r. reflexivity. }
  rewrite E, (spectral_row n L a b K c) by auto.
  replace (fst (P (n / 2)%nat)) with 0 by (unfold P; destruct (Nat.leb (n / 2) (kmax n filt)); reflexivity).
  rewrite Rmult_0_r, Rmult_0_l, Rplus_0_r.
  set (Kc := Nat.min K (kmax n filt)) in *.
  assert (E1 : trig (mulA a b P) (mulB a b P) L K (gridz n L j) = trig (mulA a b P) (mulB a b P) L Kc (gridz n L j)).
  { rewrite !trig_as_sum. f_equal. replace K with (Kc + (K - Kc))%nat by (unfold Kc; lia).
    destruct (Nat.le_gt_cases K (kmax n filt)) as [Hle|Hgt].
    - replace (K - Kc)%nat with 0%nat by (unfold Kc; lia). rewrite Nat.add_0_r. reflexivity.
    - assert (Kc = kmax n filt) by (unfold Kc; lia). apply rsum_extend. intros i Hi. unfold mulA, mulB, P.
      rewrite (proj2 (Nat.leb_gt (S i) (kmax n filt))), (proj2 (Nat.eqb_neq (S i) 0)) by lia. cbn [fst snd RtoC]. ring. }
  rewrite E1. rewrite (derive_mulA n) by (auto; intros k Hk; unfold P; rewrite (proj2 (Nat.leb_le k (kmax n filt))) by (unfold Kc in Hk; lia); reflexivity).
  f_equal. pose proof (is_derive_trig a b L Kc (gridz n L j) HL) as Hd'. apply is_derive_unique in Hd. apply is_derive_unique in Hd'.
  rewrite <- Hd. symmetry. exact Hd'.
Qed.
Lemma d2dz2_of_row : forall n L a b K c x j f' d, (1 <= n)%nat -> L <> 0 -> row_is n L a b K c x ->
  (forall z, is_derive (trig a b L K) z (f' z)) -> is_derive f' (gridz n L j) d ->
  fft_d2dz2_row n x j = (L / INR n) ^ 2 * d - c * PI ^ 2 * sgn j.
Proof.
  intros n L a b K c x j f' d Hn HL Hr H1 H2. pose proof Hr as (HK & Hc & _). assert (Hn0 : INR n <> 0) by (apply not_0_INR; lia).
  set (P := fun k => RtoC (- (INR k * (2 * PI / INR n)) * (INR k * (2 * PI / INR n)))).
  assert (E : fft_d2dz2_row n x j = spectral n P x j) by reflexivity.
  rewrite E, (spectral_row n L a b K c) by auto.
  set (a1 := fun k => if Nat.eqb k 0 then 0 else b k * (2 * PI * INR k / L)). set (b1 := fun k => - a k * (2 * PI * INR k / L)).
  assert (Hf : forall z, f' z = trig a1 b1 L K z).
  { intros z. pose proof (is_derive_trig a b L K z HL) as Hd. specialize (H1 z). apply is_derive_unique in H1. apply is_derive_unique in Hd.
    rewrite <- H1. exact Hd. }
  assert (Hd : d = trig (fun k => if Nat.eqb k 0 then 0 else b1 k * (2 * PI * INR k / L)) (fun k => - a1 k * (2 * PI * INR k / L)) L K (gridz n L j)).
  { pose proof (is_derive_trig a1 b1 L K (gridz n L j) HL) as Hd. apply (is_derive_ext f' (trig a1 b1 L K)) in H2; [|exact Hf].
    apply is_derive_unique in H2. apply is_derive_unique in Hd. rewrite <- H2. exact Hd. }
  rewrite Hd. unfold Rminus. f_equal.
  - rewrite !trig_as_sum, Rmult_plus_distr_l. f_equal.
    + unfold mulA, P. cbn [Nat.eqb fst RtoC INR]. ring.
    + rewrite <- rsum_scal. apply rsum_ext. intros i _. unfold mulA, mulB, P, a1, b1. rewrite (proj2 (Nat.eqb_neq (S i) 0)) by lia.
      cbn [fst snd RtoC]. field. auto.
  - destruct (Nat.even n) eqn:Ev; [|rewrite Hc by auto; ring]. destruct (half_even n Hn Ev) as [Hh1 Hh2].
    assert (Hm : INR (n / 2) = INR n / 2).
    { replace (INR n) with (INR (2 * (n / 2))) by (f_equal; lia). rewrite mult_INR. cbn [INR]. field. }
    unfold P. cbn [fst RtoC]. rewrite Hm. field. auto.
Qed.

Lemma kfilter_spec : forall n filt, 0 <= filt <= 1 -> INR (kfilter n filt) <= filt * INR n / 2 < INR (kfilter n filt) + 1.
Proof.
  intros n filt Hf. pose proof (pos_INR n) as Hn. unfold kfilter. cbv zeta. set (v := filt * INR n / 2).
  assert (Hv : 0 <= v) by (unfold v; nra).
  assert (Hv2 : v <= INR n / 2) by (unfold v; nra).
  destruct (Rlt_dec v 1) as [H|H].
  - rewrite Nat.min_0_l. cbn [INR]. lra.
  - pose proof (archimed v) as [Ha1 Ha2].
    assert (Hup : (2 <= up v)%Z). { assert (IZR 1 < IZR (up v)) by lra. apply lt_IZR in H0. lia. }
    assert (Hle : (Z.to_nat (up v - 1) <= n / 2)%nat).
    { assert (Hz : IZR (2 * (up v - 1)) <= IZR (Z.of_nat n)). { rewrite mult_IZR, minus_IZR, <- INR_IZR_INZ. lra. }
      apply le_IZR in Hz. apply Nat.div_le_lower_bound; lia. }
    rewrite Nat.min_l by auto. rewrite INR_IZR_INZ, Z2Nat.id, minus_IZR by lia. lra.
Qed.
