(** Inversion of parallel derivatives: the equation in real space. *)
From Coq Require Import List Arith Bool ZArith Reals Lia Lra.
From Coquelicot Require Import Complex.
From Verif Require Import Base CyclicModel CyclicSpec CyclicProofs2 CyclicProofs3 CyclicProps FftModel FftSpec FftProofs FftProofs2 FftProofs3 FftProofs4 FftProofs5
  LaplaceModel LaplaceSpec LaplaceProofs ParInvModel ParInvSpec ParInvProofs.
Import ListNotations.
Local Open Scope R_scope.

Definition rs (c : coef3) (XL X0 XR : C) : C :=
  Cplus (Cplus (Cmult (fst (fst c)) XL) (Cmult (snd (fst c)) X0)) (Cmult (snd c) XR).

Lemma irfft_minus : forall n X Y j, irfft n (fun k => Cminus (X k) (Y k)) j = irfft n X j - irfft n Y j.
Proof.
  intros n X Y j. transitivity (irfft n (fun k => Cplus (X k) (Cmult (RtoC (-1)) (Y k))) j).
  - unfold irfft, fftw_c2r. cbn [Cplus Cminus Copp Cmult RtoC fst snd].
    rewrite (rsum_ext _ _ (fun i => 2 * ((fst (X (S i)) + (-1 * fst (Y (S i)) - 0 * snd (Y (S i)))) * cos (ang n j (S i)) - (snd (X (S i)) + (-1 * snd (Y (S i)) + 0 * fst (Y (S i)))) * sin (ang n j (S i))))).
    2:{ intros. cbn [Cplus Cminus Copp Cmult RtoC fst snd]. ring. }
    destruct (Nat.even n); ring.
  - rewrite irfft_plus, irfft_scal. ring.
Qed.

Lemma Lpar_modes : forall nu M n zl U i j, (1 <= n)%nat -> zl <> 0 -> ydy M i <> 0 -> (1 <= i)%nat -> (j < n)%nat ->
  Lpar nu M n zl U i j = irfft n (fun k => rs (par_coefs nu M i (kwave zl k)) (rfft n (U (i - 1)%nat) k) (rfft n (U i) k) (rfft n (U (i + 1)%nat) k)) j.
Proof.
  intros nu M n zl U i j Hn Hz Hdy Hi Hj.
  set (XL := rfft n (U (i - 1)%nat)). set (X0 := rfft n (U i)). set (XR := rfft n (U (i + 1)%nat)).
  assert (HL : forall j, (j < n)%nat -> U (i - 1)%nat j = irfft n XL j) by (intros; symmetry; apply irfft_rfft; auto).
  assert (H0 : forall j, (j < n)%nat -> U i j = irfft n X0 j) by (intros; symmetry; apply irfft_rfft; auto).
  assert (HR : forall j, (j < n)%nat -> U (i + 1)%nat j = irfft n XR j) by (intros; symmetry; apply irfft_rfft; auto).
  assert (EZ : Dz n zl (Dy M U) i j = / (2 * ydy M i) * (irfft n (fun k => Cmult (ik zl k) (XR k)) j - irfft n (fun k => Cmult (ik zl k) (XL k)) j)).
  { rewrite (Dz_irfft n zl (Dy M U) i (fun k => Cmult (RtoC (/ (2 * ydy M i))) (Cminus (XR k) (XL k))) j); auto.
    - rewrite <- irfft_minus, <- irfft_scal. apply irfft_ext0; auto. intros k _. apply C_eq; cbn [Cplus Cminus Copp Cmult RtoC fst snd]; ring.
    - intros j' Hj'. rewrite (irfft_scal n (/ (2 * ydy M i)) (fun k => Cminus (XR k) (XL k))), irfft_minus. unfold Dy. rewrite HL, HR by auto. unfold Rdiv. ring.
    - intros Ev. pose proof (rfft_ny n (U (i - 1)%nat) Hn Ev) as A. pose proof (rfft_ny n (U (i + 1)%nat) Hn Ev) as B. fold XL in A. fold XR in B.
      cbn [Cplus Cminus Copp Cmult RtoC fst snd]. rewrite A, B. ring. }
  unfold Lpar. rewrite EZ, (D2z_irfft n zl U i X0) by auto. unfold Grad2_par2, D2y, Dy, inv_sqrt_g22. rewrite HL, H0, HR by auto. clear EZ HL H0 HR.
  transitivity (let c := yA M i in let b := yB M i / yg22 M i / (ydy M i * ydy M i) in
    let e := (yE M i + sg M i * yB M i + when nu (yB M i / yg22 M i * yd1 M i)) / ydy M i in
    (b - /2 * e) * irfft n XL j + (- (/2 * (yC M i / ydy M i))) * irfft n (fun k => Cmult (ik zl k) (XL k)) j
    + ((c - 2 * b) * irfft n X0 j + yD M i * irfft n (fun k => Cmult (RtoC (- (kwave zl k * kwave zl k))) (X0 k)) j)
    + ((b + /2 * e) * irfft n XR j + /2 * (yC M i / ydy M i) * irfft n (fun k => Cmult (ik zl k) (XR k)) j)).
  - cbv zeta. unfold sg.
    generalize (irfft n (fun k => Cmult (RtoC (- (kwave zl k * kwave zl k))) (X0 k)) j) (irfft n (fun k => Cmult (ik zl k) (XL k)) j)
      (irfft n (fun k => Cmult (ik zl k) (XR k)) j) (irfft n XL j) (irfft n X0 j) (irfft n XR j). intros.
    unfold Rdiv. generalize (/ sqrt (yg22 M i)) (/ sqrt (yg22 M (i + 1)%nat)) (/ sqrt (yg22 M (i - 1)%nat)) (/ yg22 M i). intros.
    unfold when. destruct nu; field; auto.
  - cbv zeta. rewrite <- !irfft_scal, <- !irfft_plus. apply irfft_ext0; auto. intros k _.
    unfold rs, par_coefs, ik, when. cbv zeta. replace 0.5 with (/ 2) by lra. destruct nu; apply C_eq; cbn [fst snd Cplus Cmult RtoC]; unfold Rdiv; ring.
Qed.

Lemma Ldiv_modes : forall M n zl U i j, (1 <= n)%nat -> (1 <= i)%nat -> (j < n)%nat ->
  Ldiv M U i j = irfft n (fun k => rs (div_coefs M i (kwave zl k)) (rfft n (U (i - 1)%nat) k) (rfft n (U i) k) (rfft n (U (i + 1)%nat) k)) j.
Proof.
  intros M n zl U i j Hn Hi Hj. unfold rs, div_coefs. cbv zeta. cbn [fst snd].
  rewrite !irfft_plus, !irfft_scal, !irfft_rfft by auto. unfold Ldiv, flux, mean.
  replace (i - 1 + 1)%nat with i by lia. unfold Rdiv. rewrite !Rinv_mult. replace 0.5 with (/ 2) by lra.
  rewrite (Rplus_comm (yB M (i - 1)%nat)), (Rplus_comm (yJ M (i - 1)%nat)), (Rplus_comm (yg22 M (i - 1)%nat)), (Rplus_comm (ydy M (i - 1)%nat)).
  rewrite !Rinv_inv. ring.
Qed.

(** ** Rows to and from field-aligned coordinates, seen in the modes *)
Lemma to_from_mode : forall n zl tr i r k, (1 <= n)%nat -> (k <= n / 2)%nat -> exists q : R,
  rfft n (to_row n zl tr i (from_row n zl tr i r)) k = Cmult (RtoC q) (rfft n r k) /\ ((2 * k <> n)%nat -> q = 1) /\ (tr = None -> q = 1).
Proof.
  intros n zl tr i r k Hn Hk. destruct tr as [z|].
  2:{ exists 1. unfold to_row, from_row. rewrite Cmult_1_l. auto. }
  unfold to_row, from_row. destruct (Nat.eqb_spec n 1) as [->|H1]; [exists 1; rewrite Cmult_1_l; auto|].
  assert (E : rfft n (shift_phases n (toAlignedPhs zl (z i)) (shift_phases n (fromAlignedPhs zl (z i)) r)) k
    = Cmult (Cmult (rfft n r k) (keep n (shiftM zl (z i)) k)) (keep n (shiftM zl (- z i)) k)).
  { rewrite (rfft_ext n _ (spectral n (shiftM zl (- z i)) (spectral n (shiftM zl (z i)) r))).
    - rewrite !rfft_spectral by auto. reflexivity.
    - intros j Hj. rewrite to_shift. rewrite shift_spectral by (rewrite shiftM_0; reflexivity). apply spectral_arg_ext.
      intros j' Hj'. rewrite from_shift. apply shift_spectral; rewrite shiftM_0; reflexivity. }
  rewrite E. clear E. unfold keep. destruct (Nat.eqb_spec k 0) as [->|K0].
  - exists 1. rewrite !shiftM_0. split; [|auto]. apply C_eq; cbn [Cmult RtoC fst snd]; ring.
  - destruct (Nat.eqb_spec (2 * k) n) as [E|E].
    + exists (fst (shiftM zl (z i) k) * fst (shiftM zl (- z i) k)). split; [|split; [intros; contradiction|discriminate]].
      apply C_eq; cbn [Cmult RtoC fst snd]; ring.
    + exists 1. split; [|auto]. rewrite <- Cmult_assoc, shiftM_add. replace (z i + - z i) with 0 by ring. rewrite shiftM_zero. rewrite Cmult_1_r, Cmult_1_l. reflexivity.
Qed.

Lemma shiftM_keep : forall n zl t k, (2 * k <> n)%nat \/ t = 0 -> keep n (shiftM zl t) k = shiftM zl t k.
Proof.
  intros n zl t k H. unfold keep. destruct (Nat.eqb_spec k 0) as [->|]; [rewrite shiftM_0; reflexivity|].
  destruct (Nat.eqb_spec (2 * k) n); [|reflexivity]. destruct H as [H| ->]; [contradiction|]. rewrite shiftM_zero. reflexivity.
Qed.

Definition real_row (c : coef3) : Prop := snd (fst (fst c)) = 0 /\ snd (snd (fst c)) = 0 /\ snd (snd c) = 0.
