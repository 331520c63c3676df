(** The SNB model: physical quantities, weights, and the loop over groups. *)
From Coq Require Import List Arith Bool ZArith Reals Lia Lra.
From Coquelicot Require Import Coquelicot.
From Verif Require Import Base FftModel FftSpec FftProofs FvModel ParInvModel ParInvSpec ParInvProps SnbModel SnbSpec.
Import ListNotations.
Local Open Scope R_scope.

(** * Weights *)
Lemma prim : forall x, is_derive int_beta4_exp x (x ^ 4 * exp (- x)).
Proof. intros x. unfold int_beta4_exp. auto_derive; [exact I|]. ring. Qed.
Lemma prim_int : forall a b, is_RInt (fun x => x ^ 4 * exp (- x)) a b (int_beta4_exp b - int_beta4_exp a).
Proof.
  intros a b. apply (is_RInt_derive int_beta4_exp (fun x => x ^ 4 * exp (- x))).
  - intros x _. apply prim.
  - intros x _. apply (ex_derive_continuous (fun x => x ^ 4 * exp (- x))). auto_derive. exact I.
Qed.
Lemma weight_int : forall a b, groupWeight a b = / 24 * RInt (fun x => x ^ 4 * exp (- x)) a b.
Proof. intros a b. rewrite (is_RInt_unique _ _ _ _ (prim_int a b)). unfold groupWeight. unfold minus, plus, opp; cbn. lra. Qed.
Lemma limit_step : forall o g, limit_of o g + dbeta o = limit_of o (S g).
Proof. intros o g. unfold limit_of, dbeta. rewrite S_INR. ring. Qed.
Lemma weight_model : forall o g, groupWeight (limit_of o g) (limit_of o (S g)) = weight_of o g.
Proof. intros o g. apply weight_int. Qed.
Lemma sum_weights : forall o n, rsum n (weight_of o) = groupWeight 0 (limit_of o n).
Proof.
  intros o n. induction n as [|n IH].
  - unfold limit_of. cbn [rsum INR]. rewrite Rmult_0_l. unfold groupWeight. ring.
  - cbn [rsum]. rewrite IH, <- weight_model. unfold groupWeight. ring.
Qed.

(** * Physical quantities *)
Section Phys.
Variables (c : consts) (o : snb) (Te Ne : plane).
Hypothesis HP : physical c o Te Ne.

Lemma v2_pos : forall i j, 0 < 2 * qe c * Te i j / Me c.
Proof.
  intros i j. destruct HP as (a & b & d & e & f & h & k & H). destruct (H i j) as (t & n & L).
  apply Rdiv_lt_0_compat; [|lra]. apply Rmult_lt_0_compat; lra.
Qed.
Lemma lnl : forall i j, coulomb_log Te Ne i j = ln_lambda (Te i j) (Ne i j).
Proof. intros i j. unfold coulomb_log, ln_lambda. unfold Rdiv at 1. lra. Qed.
Lemma Yc_eq : Yc c = (qe c ^ 2 / (e0 c * Me c)) ^ 2 / (4 * PI).
Proof. unfold Yc, SQr. f_equal. unfold Rdiv. ring. Qed.
Lemma Yc_pos : 0 < Yc c.
Proof.
  destruct HP as (a & b & d & _). rewrite Yc_eq. pose proof PI_RGT_0. apply Rdiv_lt_0_compat; [|lra].
  apply pow_lt. apply Rdiv_lt_0_compat; [apply pow_lt; lra|apply Rmult_lt_0_compat; lra].
Qed.
Lemma mfp_eq : forall i j, lambda_ee_T c Te Ne i j = mfp c (Te i j) (Ne i j).
Proof.
  intros i j. unfold lambda_ee_T, mfp. rewrite lnl, Yc_eq. f_equal. unfold thermal_speed. pose proof (v2_pos i j) as V.
  replace (sqrt (2 * qe c * Te i j / Me c) ^ 4) with ((sqrt (2 * qe c * Te i j / Me c) * sqrt (2 * qe c * Te i j / Me c)) ^ 2) by ring.
  rewrite sqrt_sqrt by lra. reflexivity.
Qed.
Lemma mfp_pos : forall i j, 0 < mfp c (Te i j) (Ne i j).
Proof.
  intros i j. pose proof (v2_pos i j) as V. pose proof Yc_pos as Y. rewrite Yc_eq in Y. destruct HP as (a & b & d & e & f & h & k & H). destruct (H i j) as (t & n & L).
  unfold mfp. apply Rdiv_lt_0_compat; [apply pow_lt; exact V|]. apply Rmult_lt_0_compat; [apply Rmult_lt_0_compat|]; lra.
Qed.
Lemma kappa_eq : forall i j, kappa c o Te Ne i j = spitzer c (Zi o) (Te i j) (Ne i j).
Proof.
  intros i j. unfold kappa, tau_ei_T, lambda_ei_T, lambda_ee_T, spitzer. rewrite lnl, <- Yc_eq. pose proof Yc_pos as Y. pose proof (v2_pos i j) as V.
  destruct HP as (a & b & d & e & f & h & k & H). destruct (H i j) as (t & n & L). unfold thermal_speed.
  pose proof (sqrt_lt_R0 _ V) as S. pose proof (sqrt_sqrt _ (Rlt_le _ _ V)) as SS. set (v := sqrt (2 * qe c * Te i j / Me c)) in *.
  replace (Ne i j * qe c * Te i j / Me c) with (Ne i j * (v * v / 2)) by (rewrite SS; field; lra).
  assert (Z2 : Zi o + 4.2 <> 0) by lra. revert Z2. generalize (Zi o + 4.2) (Zi o + 0.24) 13.58 (sqrt PI). intros z2 z1 k1 p Z2.
  replace 0.25 with (/ 4) by lra. field. repeat split; lra.
Qed.
Lemma lam_ee_eq : forall g i j, SQr (limit_of o (S g)) * lambda_ee_Tprime c o Te Ne i j = lam_ee c o Te Ne g i j.
Proof. intros g i j. unfold lambda_ee_Tprime, lam_ee. rewrite mfp_eq. unfold SQr, Rdiv. ring. Qed.
Lemma lam_ei_eq : forall g i j, SQr (limit_of o (S g)) * lambda_ei_Tprime c o Te Ne i j = lam_ei c o Te Ne g i j.
Proof. intros g i j. unfold lambda_ei_Tprime, lambda_ei_T, lam_ei. rewrite mfp_eq. unfold SQr. ring. Qed.
Lemma limit_pos : forall g, 0 < limit_of o (S g).
Proof.
  intros g. destruct HP as (a & b & d & e & f & h & k & H). unfold limit_of. rewrite S_INR. pose proof (pos_INR g).
  assert (0 < INR (ngroups o)) by (apply lt_0_INR; lia). apply Rmult_lt_0_compat; [lra|]. apply Rdiv_lt_0_compat; lra.
Qed.
Lemma lam_ee_pos : forall g i j, 0 < lam_ee c o Te Ne g i j.
Proof.
  intros g i j. pose proof (limit_pos g). pose proof (mfp_pos i j). destruct HP as (a & b & d & e & f & h & k & H').
  unfold lam_ee. apply Rdiv_lt_0_compat; [|lra]. apply Rmult_lt_0_compat; [apply pow_lt|]; lra.
Qed.
Lemma lam_ei_pos : forall g i j, 0 < lam_ei c o Te Ne g i j.
Proof.
  intros g i j. pose proof (limit_pos g). pose proof (mfp_pos i j). destruct HP as (a & b & d & e & f & h & k & H').
  unfold lam_ei. apply Rmult_lt_0_compat; [|apply Rdiv_lt_0_compat; lra]. apply Rmult_lt_0_compat; [apply pow_lt; lra|apply Rdiv_lt_0_compat; lra].
Qed.

Lemma sh_eq : forall m yl i j, (1 <= i)%nat -> yJ m i <> 0 -> ydy m i <> 0 ->
  Div_Q_SH c o m yl Te Ne i j = DivQ_SH c o m Te Ne i j.
Proof.
  intros m yl i j Hi HJ Hd. unfold Div_Q_SH, DivQ_SH. f_equal.
  unfold K_Grad_par, Div_par, face_flux, half, line. cbn [orb FvModel.mJ FvModel.mdy FvModel.mg22].
  rewrite Nat2Z.id. replace (Z.to_nat (Z.of_nat i + 1)) with (i + 1)%nat by lia. replace (Z.to_nat (Z.of_nat i - 1)) with (i - 1)%nat by lia.
  replace (i - 1 + 1)%nat with i by lia. rewrite !kappa_eq.
  set (k0 := spitzer _ _ (Te (i - 1)%nat j) _). set (k1 := spitzer _ _ (Te i j) _). set (k2 := spitzer _ _ (Te (i + 1)%nat j) _).
  rewrite (Rplus_comm k0), (Rplus_comm (yJ m (i - 1)%nat)), (Rplus_comm (yg22 m (i - 1)%nat)), (Rplus_comm (ydy m (i - 1)%nat)).
  unfold Rdiv. rewrite !Rinv_mult, ?Rinv_inv, ?Rinv_1. ring.
Qed.
End Phys.

(** * The loop over groups *)
Section Loop.
Variables (c : consts) (o : snb) (nz : nat) (m : ydata) (yl : yline) (Te Ne : plane) (inv : ydata -> plane -> option plane).
Hypothesis HP : physical c o Te Ne.

Definition problem (g : nat) : ydata :=
  with_coefs nz m (fun i j => 1 / (SQr (limit_of o (S g)) * lambda_ee_Tprime c o Te Ne i j)) (fun i j => (-1 / 3) * (SQr (limit_of o (S g)) * lambda_ei_Tprime c o Te Ne i j)).
Definition rhs (g : nat) : plane := fun i j => (- weight_of o g) * Div_Q_SH c o m yl Te Ne i j.

Lemma groups_spec : forall n g Q0 Q, groups c o nz m yl Te Ne inv n (limit_of o g) Q0 = Some Q ->
  exists H : nat -> plane, (forall k, (k < n)%nat -> inv (problem (g + k)) (rhs (g + k)) = Some (H (g + k)%nat)) /\
    forall i j, Q i j = Q0 i j - rsum n (fun k => weight_of o (g + k) * Div_Q_SH c o m yl Te Ne i j + H (g + k)%nat i j / lam_ee c o Te Ne (g + k) i j).
Proof.
  induction n as [|n IH]; intros g Q0 Q E; cbn [groups] in E.
  - injection E as <-. exists (fun _ _ _ => 0). split; [lia|]. intros i j. cbn [rsum]. ring.
  - cbv zeta in E. rewrite limit_step, weight_model in E.
    match type of E with match ?x with _ => _ end = _ => destruct x as [H0|] eqn:E0 end; [|discriminate].
    destruct (IH (S g) _ _ E) as (H & H1 & H2).
    exists (fun k => if (k =? g)%nat then H0 else H k). split.
    + intros k Hk. destruct k as [|k].
      * rewrite Nat.add_0_r, Nat.eqb_refl. exact E0.
      * rewrite (proj2 (Nat.eqb_neq (g + S k) g)) by lia. replace (g + S k)%nat with (S g + k)%nat by lia. apply H1. lia.
    + intros i j. rewrite H2. cbv beta. 
      assert (RF : forall f : nat -> R, rsum (S n) f = f 0%nat + rsum n (fun k => f (S k))).
      { clear. intros f. induction n as [|n IH]; cbn [rsum] in *; [ring|]. rewrite IH. ring. }
      rewrite (RF (fun k => weight_of o (g + k) * _ + _)). rewrite Nat.add_0_r, Nat.eqb_refl, <- lam_ee_eq by auto.
      rewrite (rsum_ext n (fun k => weight_of o (g + S k) * _ + _) (fun k => weight_of o (S g + k) * Div_Q_SH c o m yl Te Ne i j + H (S g + k)%nat i j / lam_ee c o Te Ne (S g + k) i j)).
      * ring.
      * intros k Hk. rewrite (proj2 (Nat.eqb_neq (g + S k) g)) by lia. replace (g + S k)%nat with (S g + k)%nat by lia. reflexivity.
Qed.
End Loop.
