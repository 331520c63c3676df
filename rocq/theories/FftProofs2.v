(** The transform of the inverse transform, and operations that multiply each mode. *)
From Coq Require Import List Arith Bool ZArith Reals Lia Lra.
From Coquelicot Require Import Complex.
From Verif Require Import Base FftModel FftSpec FftProofs.
Local Open Scope R_scope.

Lemma half_le : forall n, (1 <= n)%nat -> (n / 2 + half n < n)%nat /\ (half n <= n / 2)%nat.
Proof.
  intros n Hn. destruct (Nat.even n) eqn:E.
  - destruct (half_even n Hn E). lia.
  - pose proof (half_odd n E). pose proof (half_odd2 n E). lia.
Qed.

Definition Cs (n : nat) (d : Z) : R := rsum n (fun j => cos (INR j * (IZR d * (2 * PI) / INR n))).
Definition Ss (n : nat) (d : Z) : R := rsum n (fun j => sin (INR j * (IZR d * (2 * PI) / INR n))).

Lemma Cs_0 : forall n, Cs n 0 = INR n.
Proof.
  intros n. unfold Cs. rewrite (rsum_ext n _ (fun _ => 1)).
  - rewrite rsum_const. ring.
  - intros j _. replace (INR j * (0 * (2 * PI) / INR n)) with 0 by (unfold Rdiv; ring). apply cos_0.
Qed.
Lemma Cs_n : forall n, (1 <= n)%nat -> Cs n (Z.of_nat n) = INR n.
Proof.
  intros n Hn. assert (INR n <> 0) by (apply not_0_INR; lia). unfold Cs. rewrite (rsum_ext n _ (fun _ => 1)).
  - rewrite rsum_const. ring.
  - intros j _. rewrite <- INR_IZR_INZ. replace (INR j * (INR n * (2 * PI) / INR n)) with (IZR (Z.of_nat j) * (2 * PI)).
    + apply cos_2Zpi.
    + rewrite <- INR_IZR_INZ. field. auto.
Qed.
Lemma Ss_any : forall n d, (1 <= n)%nat -> (Z.abs d <= Z.of_nat n)%Z -> Ss n d = 0.
Proof.
  intros n d Hn Hd. assert (INR n <> 0) by (apply not_0_INR; lia).
  destruct (Z.eq_dec d 0) as [->|H0].
  { apply rsum_0. intros j _. replace (INR j * (0 * (2 * PI) / INR n)) with 0 by (unfold Rdiv; ring). apply sin_0. }
  destruct (Z.eq_dec (Z.abs d) (Z.of_nat n)) as [E|E].
  { apply rsum_0. intros j _.
    assert (exists s, d = (s * Z.of_nat n)%Z) as [s ->].
    { destruct (Z_le_gt_dec 0 d); [exists 1%Z|exists (-1)%Z]; lia. }
    rewrite mult_IZR, <- INR_IZR_INZ.
    replace (INR j * (IZR s * INR n * (2 * PI) / INR n)) with (IZR (Z.of_nat j * s) * (2 * PI)).
    - apply sin_2Zpi.
    - rewrite mult_IZR, <- INR_IZR_INZ. field. auto. }
  apply period_sin. lia.
Qed.
Lemma Cs_d : forall n d, (0 < Z.abs d < Z.of_nat n)%Z -> Cs n d = 0.
Proof. intros. apply period_cos. auto. Qed.

Lemma ang_minus : forall n j k l, (1 <= n)%nat ->
  ang n j k - ang n j l = INR j * (IZR (Z.of_nat k - Z.of_nat l) * (2 * PI) / INR n).
Proof. intros. unfold ang. rewrite minus_IZR, <- !INR_IZR_INZ. field. apply not_0_INR. lia. Qed.
Lemma ang_plus : forall n j k l, (1 <= n)%nat ->
  ang n j k + ang n j l = INR j * (IZR (Z.of_nat k + Z.of_nat l) * (2 * PI) / INR n).
Proof. intros. unfold ang. rewrite plus_IZR, <- !INR_IZR_INZ. field. apply not_0_INR. lia. Qed.

Lemma sum_cc : forall n k l, (1 <= n)%nat ->
  rsum n (fun j => cos (ang n j k) * cos (ang n j l)) = (Cs n (Z.of_nat k - Z.of_nat l) + Cs n (Z.of_nat k + Z.of_nat l)) / 2.
Proof.
  intros n k l Hn. unfold Cs. rewrite <- rsum_plus. unfold Rdiv at 1. rewrite <- rsum_scal_r. apply rsum_ext. intros j _.
  rewrite <- ang_minus, <- ang_plus by auto. rewrite <- two_cos_cos. field.
Qed.
Lemma sum_ss : forall n k l, (1 <= n)%nat ->
  rsum n (fun j => sin (ang n j k) * sin (ang n j l)) = (Cs n (Z.of_nat k - Z.of_nat l) - Cs n (Z.of_nat k + Z.of_nat l)) / 2.
Proof.
  intros n k l Hn. unfold Cs. rewrite <- rsum_minus. unfold Rdiv at 1. rewrite <- rsum_scal_r. apply rsum_ext. intros j _.
  rewrite <- ang_minus, <- ang_plus by auto. rewrite <- two_sin_sin. field.
Qed.
Lemma sum_sc : forall n k l, (1 <= n)%nat -> (k <= n / 2)%nat -> (l <= n / 2)%nat ->
  rsum n (fun j => sin (ang n j k) * cos (ang n j l)) = 0.
Proof.
  intros n k l Hn Hk Hl.
  assert (Hd : (2 * (n / 2) <= n)%nat) by (apply Nat.mul_div_le; lia).
  replace 0 with ((Ss n (Z.of_nat k - Z.of_nat l) + Ss n (Z.of_nat k + Z.of_nat l)) / 2).
  2:{ rewrite !Ss_any by lia. field. }
  unfold Ss. rewrite <- rsum_plus. unfold Rdiv at 1. rewrite <- rsum_scal_r. apply rsum_ext. intros j _.
  rewrite <- ang_minus, <- ang_plus by auto. rewrite <- two_sin_cos. field.
Qed.

(** What survives a round trip: everything except the imaginary parts of the constant mode and of the last mode of an
    even number of points. *)
Definition keep (n : nat) (X : nat -> C) (k : nat) : C :=
  if Nat.eqb k 0 then (fst (X k), 0) else if Nat.eqb (2 * k) n then (fst (X k), 0) else X k.

Lemma sum_cc0 : forall n k, (1 <= n)%nat -> (k <= n / 2)%nat ->
  rsum n (fun j => cos (ang n j k)) = if Nat.eqb k 0 then INR n else 0.
Proof.
  intros n k Hn Hk. assert (Hd : (2 * (n / 2) <= n)%nat) by (apply Nat.mul_div_le; lia).
  rewrite (rsum_ext n _ (fun j => cos (ang n j k) * cos (ang n j 0))) by (intros; rewrite ang_0, cos_0; ring).
  rewrite sum_cc by auto. destruct (Nat.eqb_spec k 0) as [->|H].
  - cbn [Z.of_nat Z.sub Z.add Z.opp]. rewrite Cs_0. field.
  - rewrite !Cs_d by lia. field.
Qed.
Lemma sum_ccl : forall n k l, (1 <= n)%nat -> (k <= n / 2)%nat -> (1 <= l <= half n)%nat ->
  rsum n (fun j => cos (ang n j k) * cos (ang n j l)) = if Nat.eqb k l then INR n / 2 else 0.
Proof.
  intros n k l Hn Hk Hl. pose proof (half_le n Hn).
  rewrite sum_cc by auto. rewrite (Cs_d n (Z.of_nat k + Z.of_nat l)) by lia. destruct (Nat.eqb_spec k l) as [->|E].
  - rewrite Z.sub_diag, Cs_0. field.
  - rewrite Cs_d by lia. field.
Qed.
Lemma sum_ssl : forall n k l, (1 <= n)%nat -> (k <= n / 2)%nat -> (1 <= l <= half n)%nat ->
  rsum n (fun j => sin (ang n j k) * sin (ang n j l)) = if Nat.eqb k l then INR n / 2 else 0.
Proof.
  intros n k l Hn Hk Hl. pose proof (half_le n Hn).
  rewrite sum_ss by auto. rewrite (Cs_d n (Z.of_nat k + Z.of_nat l)) by lia. destruct (Nat.eqb_spec k l) as [->|E].
  - rewrite Z.sub_diag, Cs_0. field.
  - rewrite Cs_d by lia. field.
Qed.
Lemma sum_ccn : forall n k, (1 <= n)%nat -> Nat.even n = true -> (k <= n / 2)%nat ->
  rsum n (fun j => cos (ang n j k) * cos (ang n j (n / 2))) = if Nat.eqb k (n / 2) then INR n else 0.
Proof.
  intros n k Hn E Hk. destruct (half_even n Hn E) as [H1 H2].
  rewrite sum_cc by auto. destruct (Nat.eqb_spec k (n / 2)) as [->|H].
  - rewrite Z.sub_diag, Cs_0. replace (Z.of_nat (n / 2) + Z.of_nat (n / 2))%Z with (Z.of_nat n) by lia. rewrite Cs_n by auto. field.
  - rewrite !Cs_d by lia. field.
Qed.

Lemma rsum_pick : forall K f k, rsum K (fun i => if Nat.eqb k (S i) then f i else 0)
  = if (Nat.leb 1 k && Nat.leb k K)%bool then f (k - 1)%nat else 0.
Proof.
  intros K f k. destruct (Nat.leb_spec 1 k) as [H1|H1]; cbn [andb].
  - destruct (Nat.leb_spec k K) as [H2|H2].
    + rewrite (rsum_one K _ (k - 1)%nat); [|lia|].
      * rewrite (proj2 (Nat.eqb_eq k (S (k - 1)))) by lia. reflexivity.
      * intros i Hi Hne. destruct (Nat.eqb_spec k (S i)); [lia|reflexivity].
    + apply rsum_0. intros i Hi. destruct (Nat.eqb_spec k (S i)); [lia|reflexivity].
  - apply rsum_0. intros i Hi. destruct (Nat.eqb_spec k (S i)); [lia|reflexivity].
Qed.

Lemma irfft_dot_cos : forall n X k, (1 <= n)%nat -> (k <= n / 2)%nat ->
  rsum n (fun j => irfft n X j * cos (ang n j k)) = INR n * fst (keep n X k).
Proof.
  intros n X k Hn Hk. pose proof (half_le n Hn) as Hh. unfold irfft, fftw_c2r. fold (half n).
  rewrite (rsum_ext n _ (fun j => fst (X 0%nat) * cos (ang n j k)
     + rsum (half n) (fun i => 2 * fst (X (S i)) * (cos (ang n j k) * cos (ang n j (S i)))
                              - 2 * snd (X (S i)) * (sin (ang n j (S i)) * cos (ang n j k)))
     + (if Nat.even n then fst (X (n / 2)%nat) else 0) * (cos (ang n j k) * cos (ang n j (n / 2))))).
  2:{ intros j _. rewrite !Rmult_plus_distr_r. f_equal; [f_equal|].
      - rewrite <- rsum_scal_r. apply rsum_ext. intros i _. ring.
      - destruct (Nat.even n); ring. }
  rewrite !rsum_plus, rsum_swap, !rsum_scal, sum_cc0 by auto.
  rewrite (rsum_ext (half n) _ (fun i => if Nat.eqb k (S i) then INR n * fst (X (S i)) else 0)).
  2:{ intros i Hi. rewrite rsum_minus, !rsum_scal, sum_ccl, sum_sc by lia. destruct (Nat.eqb_spec k (S i)); field. }
  rewrite rsum_pick. unfold keep. destruct (Nat.even n) eqn:Ev.
  - rewrite sum_ccn by auto. destruct (half_even n Hn Ev) as [H1 H2].
    destruct (Nat.eqb_spec k 0) as [->|Hk0].
    + rewrite (proj2 (Nat.eqb_neq 0 (n / 2))) by lia. cbn [Nat.leb andb fst]. ring.
    + destruct (Nat.eqb_spec k (n / 2)) as [->|Hkn].
      * rewrite (proj2 (Nat.eqb_eq (2 * (n / 2)) n)) by lia.
        destruct (Nat.leb_spec (n / 2) (half n)); [lia|]. rewrite andb_false_r. cbn [fst]. ring.
      * rewrite (proj2 (Nat.eqb_neq (2 * k) n)) by lia.
        rewrite (proj2 (Nat.leb_le 1 k)), (proj2 (Nat.leb_le k (half n))) by lia. cbn [andb].
        replace (S (k - 1)) with k by lia. ring.
  - pose proof (half_odd n Ev). pose proof (half_odd2 n Ev). rewrite Rmult_0_l.
    rewrite (proj2 (Nat.eqb_neq (2 * k) n)) by lia.
    destruct (Nat.eqb_spec k 0) as [->|Hk0].
    + cbn [Nat.leb andb fst]. ring.
    + rewrite (proj2 (Nat.leb_le 1 k)), (proj2 (Nat.leb_le k (half n))) by lia. cbn [andb].
      replace (S (k - 1)) with k by lia. ring.
Qed.

Lemma sum_s0 : forall n k, (1 <= n)%nat -> (k <= n / 2)%nat -> rsum n (fun j => sin (ang n j k)) = 0.
Proof.
  intros n k Hn Hk. rewrite (rsum_ext n _ (fun j => sin (ang n j k) * cos (ang n j 0))) by (intros; rewrite ang_0, cos_0; ring).
  apply sum_sc; lia.
Qed.

Lemma irfft_dot_sin : forall n X k, (1 <= n)%nat -> (k <= n / 2)%nat ->
  rsum n (fun j => irfft n X j * sin (ang n j k)) = - INR n * snd (keep n X k).
Proof.
  intros n X k Hn Hk. pose proof (half_le n Hn) as Hh. unfold irfft, fftw_c2r. fold (half n).
  rewrite (rsum_ext n _ (fun j => fst (X 0%nat) * sin (ang n j k)
     + rsum (half n) (fun i => 2 * fst (X (S i)) * (sin (ang n j k) * cos (ang n j (S i)))
                              - 2 * snd (X (S i)) * (sin (ang n j k) * sin (ang n j (S i))))
     + (if Nat.even n then fst (X (n / 2)%nat) else 0) * (sin (ang n j k) * cos (ang n j (n / 2))))).
  2:{ intros j _. rewrite !Rmult_plus_distr_r. f_equal; [f_equal|].
      - rewrite <- rsum_scal_r. apply rsum_ext. intros i _. ring.
      - destruct (Nat.even n); ring. }
  rewrite !rsum_plus, rsum_swap, !rsum_scal, sum_s0, sum_sc by lia.
  rewrite (rsum_ext (half n) _ (fun i => if Nat.eqb k (S i) then - INR n * snd (X (S i)) else 0)).
  2:{ intros i Hi. rewrite rsum_minus, !rsum_scal, sum_ssl, sum_sc by lia. destruct (Nat.eqb_spec k (S i)); field. }
  rewrite rsum_pick. unfold keep.
  destruct (Nat.eqb_spec k 0) as [->|Hk0].
  - cbn [Nat.leb andb snd]. ring.
  - rewrite (proj2 (Nat.leb_le 1 k)) by lia. cbn [andb]. destruct (Nat.eqb_spec (2 * k) n) as [E|E].
    + destruct (Nat.leb_spec k (half n)); [lia|]. cbn [snd]. ring.
    + destruct (Nat.leb_spec k (half n)).
      * replace (S (k - 1)) with k by lia. ring.
      * exfalso. destruct (Nat.even n) eqn:Ev.
        -- destruct (half_even n Hn Ev). lia.
        -- pose proof (half_odd n Ev). pose proof (half_odd2 n Ev). lia.
Qed.

Lemma C_eq : forall a b : C, fst a = fst b -> snd a = snd b -> a = b.
Proof. intros [a1 a2] [b1 b2]; cbn; intros -> ->; reflexivity. Qed.

Lemma rfft_irfft : forall n X k, (1 <= n)%nat -> (k <= n / 2)%nat -> rfft n (irfft n X) k = keep n X k.
Proof.
  intros n X k Hn Hk. assert (INR n <> 0) by (apply not_0_INR; lia). apply C_eq.
  - rewrite rfft_re, irfft_dot_cos by auto. field. auto.
  - rewrite rfft_im, irfft_dot_sin by auto. field. auto.
Qed.

Lemma rfft_ext : forall n x y k, (forall j, (j < n)%nat -> x j = y j) -> rfft n x k = rfft n y k.
Proof.
  intros n x y k H. apply C_eq; rewrite ?rfft_re, ?rfft_im.
  - rewrite (rsum_ext n _ (fun j => y j * cos (ang n j k))); [reflexivity|]. intros j Hj; rewrite (H j Hj); reflexivity.
  - rewrite (rsum_ext n _ (fun j => y j * sin (ang n j k))); [reflexivity|]. intros j Hj; rewrite (H j Hj); reflexivity.
Qed.
Lemma irfft_ext : forall n X Y j, (1 <= n)%nat -> (forall k, (k <= n / 2)%nat -> keep n X k = keep n Y k) -> irfft n X j = irfft n Y j.
Proof.
  intros n X Y j Hn H. pose proof (half_le n Hn) as Hh. unfold irfft, fftw_c2r. fold (half n).
  assert (Hf : forall k, (k <= n / 2)%nat -> fst (X k) = fst (Y k)).
  { intros k Hk. specialize (H k Hk). unfold keep in H. destruct (Nat.eqb k 0); [congruence|]. destruct (Nat.eqb (2 * k) n); congruence. }
  f_equal; [f_equal|].
  - apply Hf; lia.
  - apply rsum_ext. intros i Hi. assert (E : X (S i) = Y (S i)).
    { specialize (H (S i) ltac:(lia)). unfold keep in H. rewrite (proj2 (Nat.eqb_neq (S i) 0)) in H by lia.
      destruct (Nat.eqb_spec (2 * S i) n); [|exact H]. exfalso.
      destruct (Nat.even n) eqn:Ev; [destruct (half_even n Hn Ev)|pose proof (half_odd n Ev); pose proof (half_odd2 n Ev)]; lia. }
    rewrite E. reflexivity.
  - destruct (Nat.even n); [|reflexivity]. rewrite Hf; auto.
Qed.
(** The spectrum of a real row needs no correction. *)
Lemma keep_rfft : forall n x k, (1 <= n)%nat -> (k <= n / 2)%nat -> keep n (rfft n x) k = rfft n x k.
Proof.
  intros n x k Hn Hk. rewrite <- (rfft_irfft n (rfft n x) k) by auto.
  apply rfft_ext. intros j Hj. apply irfft_rfft; auto.
Qed.

(** * Multiplying every mode *)
Definition spectral (n : nat) (M : nat -> C) (x : nat -> R) : nat -> R := irfft n (fun k => Cmult (rfft n x k) (M k)).

Definition realM (n : nat) (M : nat -> C) : Prop := forall k, (k <= n / 2)%nat -> (k = 0 \/ 2 * k = n)%nat -> snd (M k) = 0.

Lemma keep_mult : forall n x M k, (1 <= n)%nat -> (k <= n / 2)%nat ->
  keep n (fun k => Cmult (rfft n x k) (M k)) k = Cmult (rfft n x k) (keep n M k).
Proof.
  intros n x M k Hn Hk. pose proof (keep_rfft n x k Hn Hk) as E. unfold keep in *.
  destruct (Nat.eqb k 0); [|destruct (Nat.eqb (2 * k) n); [|reflexivity]].
  - apply C_eq; rewrite <- E; cbn [fst snd Cmult]; ring.
  - apply C_eq; rewrite <- E; cbn [fst snd Cmult]; ring.
Qed.
Lemma rfft_spectral : forall n M x k, (1 <= n)%nat -> (k <= n / 2)%nat ->
  rfft n (spectral n M x) k = Cmult (rfft n x k) (keep n M k).
Proof. intros. unfold spectral. rewrite rfft_irfft by auto. apply keep_mult; auto. Qed.
Lemma spectral_comp : forall n M1 M2 x j, (1 <= n)%nat ->
  spectral n M2 (spectral n M1 x) j = spectral n (fun k => Cmult (keep n M1 k) (keep n M2 k)) x j.
Proof.
  intros n M1 M2 x j Hn. unfold spectral at 1 3. apply irfft_ext; auto. intros k Hk.
  rewrite !keep_mult by auto. rewrite rfft_spectral by auto. rewrite <- Cmult_assoc. f_equal.
  unfold keep. destruct (Nat.eqb k 0); [|destruct (Nat.eqb (2 * k) n); [|reflexivity]]; apply C_eq; cbn [fst snd Cmult]; ring.
Qed.
Lemma spectral_ext : forall n M N x j, (1 <= n)%nat -> (forall k, (k <= n / 2)%nat -> keep n M k = keep n N k) ->
  spectral n M x j = spectral n N x j.
Proof. intros n M N x j Hn H. unfold spectral. apply irfft_ext; auto. intros k Hk. rewrite !keep_mult, H by auto. reflexivity. Qed.
Lemma spectral_1 : forall n x j, (1 <= n)%nat -> (j < n)%nat -> spectral n (fun _ => RtoC 1) x j = x j.
Proof.
  intros n x j Hn Hj. transitivity (irfft n (rfft n x) j); [|apply irfft_rfft; auto]. unfold spectral. apply irfft_ext; auto.
  intros k Hk. unfold keep. rewrite Cmult_1_r. reflexivity.
Qed.
Lemma spectral_arg_ext : forall n M x y j, (forall j, (j < n)%nat -> x j = y j) -> spectral n M x j = spectral n M y j.
Proof.
  intros n M x y j H. assert (E : forall k, rfft n x k = rfft n y k) by (intros; apply rfft_ext; auto).
  unfold spectral, irfft, fftw_c2r. rewrite !E. do 2 f_equal. apply rsum_ext. intros i _. rewrite E. reflexivity.
Qed.
