(** Rows with all their modes; filters, shifts and derivatives. *)
From Coq Require Import List Arith Bool ZArith Reals Lia Lra.
From Coquelicot Require Import Complex Derive Hierarchy AutoDerive.
From Verif Require Import Base FftModel FftSpec FftProofs FftProofs2 FftProofs3.
Local Open Scope R_scope.

Definition nspec (n : nat) (a b : nat -> R) (K : nat) (c : R) (k : nat) : C :=
  if Nat.eqb (2 * k) n then RtoC c else tspec a b K k.

Lemma irfft_split : forall n X j, (1 <= n)%nat ->
  irfft n X j = irfft n (fun k => if Nat.eqb (2 * k) n then RtoC 0 else X k) j
                + (if Nat.even n then fst (X (n / 2)%nat) * sgn j else 0).
Proof.
  intros n X j Hn. set (Y := fun k => if Nat.eqb (2 * k) n then RtoC 0 else X k). unfold irfft, fftw_c2r. fold (half n).
  assert (E0 : Y 0%nat = X 0%nat) by (unfold Y; rewrite (proj2 (Nat.eqb_neq (2 * 0) n)) by lia; reflexivity).
  rewrite E0.
  assert (E : rsum (half n) (fun i => 2 * (fst (X (S i)) * cos (ang n j (S i)) - snd (X (S i)) * sin (ang n j (S i))))
     = rsum (half n) (fun i => 2 * (fst (Y (S i)) * cos (ang n j (S i)) - snd (Y (S i)) * sin (ang n j (S i))))).
  { apply rsum_ext. intros i Hi. unfold Y. rewrite (proj2 (Nat.eqb_neq (2 * S i) n)); [reflexivity|]. pose proof (proj2 (half_lt n (S i) Hn)). lia. }
  rewrite E. destruct (Nat.even n) eqn:Ev; [|ring]. destruct (half_even n Hn Ev).
  assert (E1 : Y (n / 2)%nat = RtoC 0) by (unfold Y; rewrite (proj2 (Nat.eqb_eq (2 * (n / 2)) n)) by lia; reflexivity).
  rewrite E1. rewrite ang_nyq, cos_npi by auto. unfold sgn. cbn [fst RtoC]. ring.
Qed.
Lemma irfft_nspec : forall n L a b K c M j, (1 <= n)%nat -> L <> 0 -> (2 * K < n)%nat -> (Nat.even n = false -> c = 0) ->
  irfft n (fun k => Cmult (nspec n a b K c k) (M k)) j
  = trig (mulA a b M) (mulB a b M) L K (gridz n L j) + c * fst (M (n / 2)%nat) * sgn j.
Proof.
  intros n L a b K c M j Hn HL HK Hc. rewrite irfft_split, <- irfft_mul_tspec by auto. f_equal.
  - apply irfft_ext; auto. intros k Hk. unfold keep, nspec. destruct (Nat.eqb_spec (2 * k) n) as [E|E]; [|reflexivity].
    unfold tspec. rewrite (proj2 (Nat.eqb_neq k 0)), (proj2 (Nat.leb_gt k K)) by lia. apply C_eq; cbn [fst snd RtoC Cmult]; ring.
  - destruct (Nat.even n) eqn:Ev.
    + unfold nspec. destruct (half_even n Hn Ev). rewrite (proj2 (Nat.eqb_eq (2 * (n / 2)) n)) by lia. cbn [fst snd RtoC Cmult]. ring.
    + rewrite Hc by auto. ring.
Qed.
Lemma trig_mul_1 : forall a b L K z, trig (mulA a b (fun _ => RtoC 1)) (mulB a b (fun _ => RtoC 1)) L K z = trig a b L K z.
Proof.
  intros. apply trig_ext; intros k Hk; unfold mulA, mulB; cbn [fst snd RtoC].
  - destruct (Nat.eqb_spec k 0) as [->|]; ring.
  - ring.
Qed.
Lemma rfft_row : forall n L a b K c x k, (1 <= n)%nat -> L <> 0 -> row_is n L a b K c x -> (k <= n / 2)%nat ->
  rfft n x k = nspec n a b K c k.
Proof.
  intros n L a b K c x k Hn HL (HK & Hc & Hx) Hk.
  rewrite (rfft_ext n x (irfft n (nspec n a b K c))).
  - rewrite rfft_irfft by auto. unfold keep, nspec, tspec. destruct (Nat.eqb_spec k 0) as [->|Hk0].
    + rewrite (proj2 (Nat.eqb_neq (2 * 0) n)) by lia. reflexivity.
    + destruct (Nat.eqb (2 * k) n); reflexivity.
  - intros j Hj. rewrite Hx by auto.
    pose proof (irfft_nspec n L a b K c (fun _ => RtoC 1) j Hn HL HK Hc) as E. rewrite trig_mul_1 in E.
    cbn [fst RtoC] in E. rewrite Rmult_1_r in E. rewrite <- E. apply irfft_ext; auto. intros m Hm. unfold keep. rewrite Cmult_1_r. reflexivity.
Qed.
Lemma spectral_row : forall n L a b K c M x j, (1 <= n)%nat -> L <> 0 -> row_is n L a b K c x ->
  spectral n M x j = trig (mulA a b M) (mulB a b M) L K (gridz n L j) + c * fst (M (n / 2)%nat) * sgn j.
Proof.
  intros n L a b K c M x j Hn HL Hr. pose proof Hr as (HK & Hc & _). rewrite <- irfft_nspec by auto.
  unfold spectral. apply irfft_ext; auto. intros k Hk. unfold keep. rewrite (rfft_row n L a b K c) by auto. reflexivity.
Qed.
Lemma row_exists : forall n L x, (1 <= n)%nat -> L <> 0 -> row_is n L (trA n x) (trB n x) (half n) (nyq n x) x.
Proof.
  intros n L x Hn HL. split; [apply half_lt; auto|split].
  - intros E. unfold nyq. rewrite E. reflexivity.
  - intros j Hj. apply decompose; auto.
Qed.

(** * Mean *)
Lemma dc_rfft : forall n x, dc_row n x = fst (rfft n x 0).
Proof. intros. unfold dc_row. rewrite rfft_re. f_equal. apply rsum_ext. intros. rewrite ang_0, cos_0. ring. Qed.
Lemma dc_of_row : forall n L a b K c x, (1 <= n)%nat -> L <> 0 -> row_is n L a b K c x -> dc_row n x = a 0%nat.
Proof.
  intros n L a b K c x Hn HL Hr. rewrite dc_rfft, (rfft_row n L a b K c) by (auto; lia).
  unfold nspec, tspec. rewrite (proj2 (Nat.eqb_neq (2 * 0) n)) by lia. reflexivity.
Qed.

(** * Filters *)
Definition pick (p : nat -> bool) (k : nat) : C := if p k then RtoC 1 else RtoC 0.
Lemma irfft_ext0 : forall n X Y j, (1 <= n)%nat -> (forall k, (k <= n / 2)%nat -> X k = Y k) -> irfft n X j = irfft n Y j.
Proof. intros n X Y j Hn H. apply irfft_ext; auto. intros k Hk. unfold keep. rewrite H by auto. reflexivity. Qed.
Lemma trig_pick : forall a b L K p z, trig (mulA a b (pick p)) (mulB a b (pick p)) L K z
  = (if p 0%nat then a 0%nat else 0) + rsum K (fun i => if p (S i) then harmonic a b L (S i) z else 0).
Proof.
  intros. rewrite trig_as_sum. f_equal.
  - unfold mulA, pick. cbn [Nat.eqb]. destruct (p 0%nat); cbn [fst RtoC]; ring.
  - apply rsum_ext. intros i _. unfold mulA, mulB, pick, harmonic. rewrite (proj2 (Nat.eqb_neq (S i) 0)) by lia.
    destruct (p (S i)); cbn [fst snd RtoC]; ring.
Qed.

Lemma filter_of_row : forall n L a b K c x N0 j, (1 <= n)%nat -> L <> 0 -> row_is n L a b K c x ->
  filter_row n (Z.of_nat N0) x j =
    if Nat.eqb N0 0 then a 0%nat
    else if Nat.leb N0 K then harmonic a b L N0 (gridz n L j)
    else if Nat.eqb (2 * N0) n then c * sgn j
    else 0.
Proof.
  intros n L a b K c x N0 j Hn HL Hr. pose proof Hr as (HK & Hc & _).
  assert (E : filter_row n (Z.of_nat N0) x j = spectral n (pick (fun k => Nat.eqb N0 k)) x j).
  { unfold filter_row, spectral. apply irfft_ext0; auto. intros k Hk. unfold pick.
    destruct (Nat.eqb_spec N0 k) as [->|H].
    - rewrite Z.eqb_refl, Cmult_1_r. reflexivity.
    - rewrite (proj2 (Z.eqb_neq (Z.of_nat k) (Z.of_nat N0))) by lia. rewrite Cmult_0_r. reflexivity. }
  rewrite E, (spectral_row n L a b K c) by auto. rewrite trig_pick.
  rewrite (rsum_pick K (fun i => harmonic a b L (S i) (gridz n L j))). unfold pick.
  destruct (Nat.eqb_spec N0 0) as [->|H0].
  - cbn [Nat.leb andb]. destruct (Nat.eqb_spec 0 (n / 2)) as [E0|E0]; cbn [fst RtoC]; [|ring].
    destruct (Nat.even n) eqn:Ev; [destruct (half_even n Hn Ev); lia|]. rewrite Hc by auto. ring.
  - rewrite (proj2 (Nat.leb_le 1 N0)) by lia. cbn [andb]. destruct (Nat.leb_spec N0 K) as [H1|H1].
    + replace (S (N0 - 1)) with N0 by lia. destruct (Nat.eqb_spec N0 (n / 2)) as [E1|E1]; cbn [fst RtoC]; [|ring].
      destruct (Nat.even n) eqn:Ev; [destruct (half_even n Hn Ev); lia|]. rewrite Hc by auto. ring.
    + destruct (Nat.eqb_spec (2 * N0) n) as [E2|E2].
      * assert (Ev : Nat.even n = true) by (rewrite <- E2; apply Nat.even_spec; exists N0; lia).
        destruct (half_even n Hn Ev). rewrite (proj2 (Nat.eqb_eq N0 (n / 2))) by lia. cbn [fst RtoC]. ring.
      * destruct (Nat.eqb_spec N0 (n / 2)) as [E1|E1]; cbn [fst RtoC]; [|ring].
        destruct (Nat.even n) eqn:Ev; [destruct (half_even n Hn Ev); lia|]. rewrite Hc by auto. ring.
Qed.
Lemma filter_other : forall n N0 x j, (1 <= n)%nat -> (N0 < 0 \/ Z.of_nat n < 2 * N0)%Z -> filter_row n N0 x j = 0.
Proof.
  intros n N0 x j Hn HN. unfold filter_row. rewrite (irfft_ext0 n _ (fun _ => RtoC 0)) by
    (auto; intros k Hk; assert (2 * (n / 2) <= n)%nat by (apply Nat.mul_div_le; lia);
     rewrite (proj2 (Z.eqb_neq (Z.of_nat k) N0)) by lia; reflexivity).
  unfold irfft, fftw_c2r. rewrite rsum_0 by (intros; cbn [fst snd RtoC]; ring). cbn [fst snd RtoC].
  destruct (Nat.even n); ring.
Qed.

Definition lowP (zmax : nat) (keep_zonal : bool) (k : nat) : bool :=
  (if Nat.eqb k 0 then keep_zonal else true) && Nat.leb k zmax.
Lemma lowPass_of_row : forall n L a b K c x zmax kz, (1 <= n)%nat -> L <> 0 -> row_is n L a b K c x ->
  exists y, lowPass_row n (Z.of_nat zmax) kz x = Ok y /\
  forall j, (j < n)%nat -> y j = trig (fun k => if Nat.eqb k 0 then (if kz then a 0%nat else 0) else a k) b L (Nat.min K zmax) (gridz n L j)
              + (if Nat.leb n (2 * zmax) then c * sgn j else 0).
Proof.
  intros n L a b K c x zmax kz Hn HL Hr. pose proof Hr as (HK & Hc & Hx). unfold lowPass_row.
  assert (Hdiv : (2 * (n / 2) <= n < 2 * (n / 2) + 2)%nat).
  { pose proof (Nat.div_mod n 2 ltac:(lia)). pose proof (Nat.mod_upper_bound n 2 ltac:(lia)). lia. }
  destruct ((Z.leb (Z.of_nat (n / 2)) (Z.of_nat zmax) || Z.ltb (Z.of_nat zmax) 0) && kz)%bool eqn:E.
  - apply andb_true_iff in E. destruct E as [E ->]. exists x. split; [reflexivity|]. intros j Hj. rewrite Hx by auto.
    apply orb_true_iff in E. destruct E as [E|E]; [apply Z.leb_le in E|apply Z.ltb_lt in E; lia].
    rewrite (Nat.min_l K zmax) by lia. f_equal.
    + apply trig_ext; [|reflexivity]. intros k Hk. destruct (Nat.eqb_spec k 0) as [->|]; reflexivity.
    + destruct (Nat.leb_spec n (2 * zmax)); [reflexivity|]. destruct (Nat.even n) eqn:Ev; [destruct (half_even n Hn Ev); lia|].
      rewrite Hc by auto. ring.
  - rewrite (proj2 (Z.ltb_ge (Z.of_nat zmax + 1) 0)) by lia. eexists. split; [reflexivity|]. intros j Hj. cbv beta.
    assert (E1 : irfft n (fun k : nat => if (Nat.eqb k 0 && negb kz)%bool then RtoC 0
         else if Z.leb (Z.of_nat zmax + 1) (Z.of_nat k) then RtoC 0 else rfft n x k) j = spectral n (pick (lowP zmax kz)) x j).
    { unfold spectral. apply irfft_ext0; auto. intros k Hk. unfold pick, lowP. destruct (Nat.eqb k 0), kz; cbn [andb negb];
      try (rewrite Cmult_0_r; reflexivity);
      destruct (Nat.leb_spec k zmax); [rewrite (proj2 (Z.leb_gt _ _)), Cmult_1_r by lia; reflexivity
        |rewrite (proj2 (Z.leb_le _ _)), Cmult_0_r by lia; reflexivity
        |rewrite (proj2 (Z.leb_gt _ _)), Cmult_1_r by lia; reflexivity
        |rewrite (proj2 (Z.leb_le _ _)), Cmult_0_r by lia; reflexivity
        |rewrite (proj2 (Z.leb_gt _ _)), Cmult_1_r by lia; reflexivity
        |rewrite (proj2 (Z.leb_le _ _)), Cmult_0_r by lia; reflexivity]. }
    rewrite E1, (spectral_row n L a b K c) by auto. rewrite trig_pick, trig_as_sum. f_equal; [f_equal|].
    + unfold lowP. cbn [Nat.eqb Nat.leb]. rewrite andb_true_r. reflexivity.
    + destruct (Nat.le_gt_cases K zmax) as [H|H].
      * rewrite Nat.min_l by lia. apply rsum_ext. intros i Hi. unfold lowP. rewrite (proj2 (Nat.eqb_neq (S i) 0)), (proj2 (Nat.leb_le (S i) zmax)) by lia. reflexivity.
      * rewrite Nat.min_r by lia. replace K with (zmax + (K - zmax))%nat at 1 by lia. rewrite rsum_extend.
        -- apply rsum_ext. intros i Hi. unfold lowP. rewrite (proj2 (Nat.eqb_neq (S i) 0)), (proj2 (Nat.leb_le (S i) zmax)) by lia. reflexivity.
        -- intros i Hi. unfold lowP. rewrite (proj2 (Nat.eqb_neq (S i) 0)), (proj2 (Nat.leb_gt (S i) zmax)) by lia. reflexivity.
    + destruct (Nat.even n) eqn:Ev.
      * destruct (half_even n Hn Ev). unfold pick, lowP. rewrite (proj2 (Nat.eqb_neq (n / 2) 0)) by lia. cbn [andb].
        destruct (Nat.leb_spec (n / 2) zmax), (Nat.leb_spec n (2 * zmax)); cbn [fst RtoC]; try lia; ring.
      * rewrite Hc by auto. destruct (Nat.leb n (2 * zmax)); ring.
Qed.

(** * Shifts *)
Lemma shift_row_spectral : forall n L s x j, (1 <= n)%nat -> (j < n)%nat -> shiftZ_row n L s x j = spectral n (shiftM L s) x j.
Proof.
  intros n L s x j Hn Hj. unfold shiftZ_row. destruct (Nat.eqb_spec n 1) as [->|H1].
  - rewrite <- (spectral_1 1 x j) at 1 by auto. apply spectral_ext; auto. intros k Hk. cbn in Hk.
    replace k with 0%nat by lia. unfold keep. cbn [Nat.eqb]. rewrite shiftM_0. reflexivity.
  - apply (shift_spectral n (shiftM L s)); rewrite shiftM_0; reflexivity.
Qed.
Lemma shift_of_row : forall n L a b K c x s j, (1 <= n)%nat -> L <> 0 -> row_is n L a b K c x -> (j < n)%nat ->
  shiftZ_row n L s x j = trig a b L K (gridz n L j - s) + c * cos (PI * INR n * s / L) * sgn j.
Proof.
  intros n L a b K c x s j Hn HL Hr Hj. pose proof Hr as (HK & Hc & _).
  rewrite shift_row_spectral, (spectral_row n L a b K c), trig_shift by auto. f_equal.
  destruct (Nat.even n) eqn:Ev; [|rewrite Hc by auto; ring]. destruct (half_even n Hn Ev) as [H1 H2].
  f_equal. f_equal. unfold shiftM, kwave. cbn [fst]. f_equal.
  replace (INR n) with (2 * INR (n / 2)). { field. auto. }
  replace n with (2 * (n / 2))%nat at 2 by lia. rewrite mult_INR. reflexivity.
Qed.

(** * Derivatives *)
Lemma is_derive_trig : forall a b L K z, L <> 0 -> is_derive (trig a b L K) z
  (trig (fun k => if Nat.eqb k 0 then 0 else b k * (2 * PI * INR k / L)) (fun k => - a k * (2 * PI * INR k / L)) L K z).
Proof.
  induction K; intros z HL; cbn [trig].
  - cbn [Nat.eqb]. apply is_derive_ext with (f := fun _ => a 0%nat); [reflexivity|]. apply (is_derive_const (a 0%nat)).
  - apply (is_derive_ext (fun t => plus (trig a b L K t) (a (S K) * cos (2 * PI * INR (S K) * t / L) + b (S K) * sin (2 * PI * INR (S K) * t / L)))).
    { reflexivity. }
    apply (is_derive_plus (trig a b L K)). { apply IHK. auto. }
    rewrite (proj2 (Nat.eqb_neq (S K) 0)) by lia.
    generalize (INR (S K)) (a (S K)) (b (S K)). intros w A B.
    apply (is_derive_ext (fun t => A * cos (2 * PI * w / L * t) + B * sin (2 * PI * w / L * t))).
    { intros t. replace (2 * PI * w * t / L) with (2 * PI * w / L * t) by (field; auto). reflexivity. }
    replace (2 * PI * w * z / L) with (2 * PI * w / L * z) by (field; auto). generalize (2 * PI * w / L). intros v.
    auto_derive. { auto. } ring.
Qed.
Lemma derive_mulA : forall n a b L K M z, (1 <= n)%nat -> L <> 0 ->
  (forall k, (k <= K)%nat -> M k = (0, INR k * (2 * PI / INR n))) ->
  trig (mulA a b M) (mulB a b M) L K z
  = L / INR n * trig (fun k => if Nat.eqb k 0 then 0 else b k * (2 * PI * INR k / L)) (fun k => - a k * (2 * PI * INR k / L)) L K z.
Proof.
  intros n a b L K M z Hn HL HM. assert (INR n <> 0) by (apply not_0_INR; lia). rewrite !trig_as_sum.
  unfold mulA at 1. cbn [Nat.eqb]. rewrite HM by lia. cbn [fst]. rewrite Rmult_plus_distr_l, <- rsum_scal. f_equal; [ring|].
  apply rsum_ext. intros i Hi. unfold mulA, mulB. rewrite (proj2 (Nat.eqb_neq (S i) 0)) by lia. rewrite HM by lia. cbn [fst snd]. field. auto.
Qed.
