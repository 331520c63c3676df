(** Linearity of the transforms and the operator mode by mode. *)
From Coq Require Import List Arith Bool ZArith Reals Lia Lra.
From Coquelicot Require Import Complex.
From Verif Require Import Base FftModel FftSpec FftProofs FftProofs2 FftProofs3 FftProofs4 LaplaceModel LaplaceSpec.
Local Open Scope R_scope.

Lemma irfft_plus : forall n X Y j, irfft n (fun k => Cplus (X k) (Y k)) j = irfft n X j + irfft n Y j.
Proof.
  intros n X Y j. unfold irfft, fftw_c2r. cbn [Cplus fst snd].
  match goal with |- context [rsum ?h (fun i => 2 * ((_ + _) * _ - _))] => rewrite (rsum_ext h _ (fun i =>
    2 * (fst (X (S i)) * cos (ang n j (S i)) - snd (X (S i)) * sin (ang n j (S i))) +
    2 * (fst (Y (S i)) * cos (ang n j (S i)) - snd (Y (S i)) * sin (ang n j (S i))))) by (intros; ring) end.
  rewrite rsum_plus. destruct (Nat.even n); ring.
Qed.
Lemma irfft_scal : forall n c X j, irfft n (fun k => Cmult (RtoC c) (X k)) j = c * irfft n X j.
Proof.
  intros n c X j. unfold irfft, fftw_c2r. cbn [Cmult RtoC fst snd].
  match goal with |- context [rsum ?h (fun i => 2 * ((c * _ - _) * _ - _))] => rewrite (rsum_ext h _ (fun i =>
    c * (2 * (fst (X (S i)) * cos (ang n j (S i)) - snd (X (S i)) * sin (ang n j (S i)))))) by (intros; ring) end.
  rewrite rsum_scal. destruct (Nat.even n); ring.
Qed.
Lemma irfft_zero : forall n j, irfft n (fun _ => RtoC 0) j = 0.
Proof.
  intros n j. transitivity (irfft n (fun k => Cmult (RtoC 0) ((fun _ => RtoC 0) k)) j).
  - unfold irfft, fftw_c2r. cbn [Cmult RtoC fst snd].
    rewrite !(rsum_0 ((n - 1) / 2)) by (intros; ring). destruct (Nat.even n); ring.
  - rewrite irfft_scal. ring.
Qed.

(** [i k] *)
Definition ik (zlength : R) (k : nat) : C := (0, kwave zlength k).

(** The highest mode of an even number of points is real. *)
Definition ny_real (n : nat) (X : nat -> C) : Prop := Nat.even n = true -> snd (X (n / 2)%nat) = 0.

Lemma keep_ny : forall n X k, (1 <= n)%nat -> (k <= n / 2)%nat -> ny_real n X -> (1 <= k)%nat -> keep n X k = X k.
Proof.
  intros n X k Hn Hk HX H1. unfold keep. rewrite (proj2 (Nat.eqb_neq k 0)) by lia.
  destruct (Nat.eqb_spec (2 * k) n) as [E|E]; [|reflexivity].
  assert (Ev : Nat.even n = true) by (rewrite <- E; apply Nat.even_spec; exists k; lia).
  assert (Ek : (n / 2 = k)%nat) by (rewrite <- E, Nat.mul_comm; apply Nat.div_mul; lia).
  specialize (HX Ev). rewrite Ek in HX. destruct (X k) as [a b]; cbn [fst snd] in *. rewrite HX. reflexivity.
Qed.
Lemma rfft_ny : forall n x, (1 <= n)%nat -> ny_real n (rfft n x).
Proof.
  intros n x Hn Ev. destruct (half_even n Hn Ev) as [H1 H2].
  pose proof (keep_rfft n x (n / 2) Hn (le_n _)) as E. unfold keep in E.
  rewrite (proj2 (Nat.eqb_neq (n / 2) 0)), (proj2 (Nat.eqb_eq (2 * (n / 2)) n)) in E by lia.
  rewrite <- E. reflexivity.
Qed.

Lemma kmax0 : forall n, kmax n 0 = (n / 2)%nat.
Proof.
  intros n. unfold kmax, kfilter. cbv zeta. replace (0 * INR n / 2) with 0 by (unfold Rdiv; ring).
  destruct (Rlt_dec 0 1) as [H|H]; [|lra]. cbn [Nat.min]. lia.
Qed.

Lemma Dz_irfft : forall n zl U i X j, (1 <= n)%nat -> zl <> 0 -> (forall j, (j < n)%nat -> U i j = irfft n X j) -> ny_real n X ->
  Dz n zl U i j = irfft n (fun k => Cmult (ik zl k) (X k)) j.
Proof.
  intros n zl U i X j Hn Hz HU HX. assert (Hn0 : INR n <> 0) by (apply not_0_INR; lia).
  unfold Dz, fft_ddz_row.
  transitivity (/ (zl / INR n) * irfft n (fun k => Cmult (keep n X k) (0, INR k * (2 * PI / INR n))) j).
  - unfold Rdiv at 1. rewrite Rmult_comm. f_equal. apply irfft_ext0; auto. intros k Hk. rewrite kmax0.
    rewrite (proj2 (Nat.leb_le k (n / 2))) by lia. f_equal.
    transitivity (rfft n (irfft n X) k); [apply rfft_ext; exact HU|]. apply rfft_irfft; auto.
  - rewrite <- irfft_scal. apply irfft_ext0; auto. intros k Hk.
    destruct (Nat.eq_dec k 0) as [->|H0].
    + unfold ik, kwave. cbn [INR]. apply C_eq; cbn [Cmult RtoC fst snd]; unfold Rdiv; ring.
    + rewrite keep_ny by (auto; lia). unfold ik, kwave. apply C_eq; cbn [Cmult RtoC fst snd]; field; auto.
Qed.
Lemma D2z_irfft : forall n zl U i X j, (1 <= n)%nat -> zl <> 0 -> (forall j, (j < n)%nat -> U i j = irfft n X j) ->
  D2z n zl U i j = irfft n (fun k => Cmult (RtoC (- (kwave zl k * kwave zl k))) (X k)) j.
Proof.
  intros n zl U i X j Hn Hz HU. assert (Hn0 : INR n <> 0) by (apply not_0_INR; lia).
  unfold D2z, fft_d2dz2_row. set (q := zl / INR n * (zl / INR n)).
  transitivity (/ q * irfft n (fun k => Cmult (keep n X k) (RtoC (- (INR k * (2 * PI / INR n)) * (INR k * (2 * PI / INR n))))) j).
  - unfold Rdiv at 1. rewrite Rmult_comm. f_equal. apply irfft_ext0; auto. intros k Hk. f_equal.
    transitivity (rfft n (irfft n X) k); [apply rfft_ext; exact HU|]. apply rfft_irfft; auto.
  - rewrite <- irfft_scal. apply irfft_ext; auto. intros k Hk. unfold keep, q, kwave.
    destruct (Nat.eqb k 0); [|destruct (Nat.eqb (2 * k) n)]; apply C_eq; cbn [Cmult RtoC fst snd]; field; auto.
Qed.

(** The coefficients of a row with two neighbours, in terms of the global data. *)
Definition r1 (M : xdata) i := g11 M i * cD M i / (dx M i * dx M i).
Definition cgrad (M : xdata) i := (cC2 M (i + 1)%nat - cC2 M (i - 1)%nat) / (2 * dx M i * cC1 M i).
Definition r2 (o : opts) (M : xdata) i := g33 M i * cD M i + when (IncIntShear o) (g11 M i * Ishear M i * Ishear M i).
Definition r3 (o : opts) (M : xdata) i := when (negb (IncIntShear o)) (2 * g13 M i * cD M i) / (2 * dx M i).
Definition r4 (o : opts) (M : xdata) i :=
  (when (all_terms o) (G1 M i) * cD M i
   - when (nonuniform o) (0.5 * ((dx M (i + 1)%nat - dx M (i - 1)%nat) / (dx M i * dx M i)) * (g11 M i * cD M i))
   + g11 M i * cgrad M i) / (2 * dx M i).
Definition r5 (o : opts) (M : xdata) i := when (all_terms o) (G3 M i) * cD M i + g13 M i * cgrad M i.

Definition gcoefs (o : opts) (M : xdata) (i : nat) (kw : R) : coef3 :=
  ((r1 M i - r4 o M i, - kw * r3 o M i) : C, (- 2 * r1 M i - kw * kw * r2 o M i, kw * r5 o M i) : C,
   (r1 M i + r4 o M i, kw * r3 o M i) : C).

Lemma tridagCoefs_global : forall o LNx p M jx kw, (1 <= jx)%nat -> (jx + 1 < LNx)%nat ->
  tridagCoefs o LNx (view p M) jx kw = gcoefs o M (p + jx) kw.
Proof.
  intros o LNx p M jx kw H1 H2. unfold tridagCoefs, gcoefs, r1, r2, r3, r4, r5, cgrad. cbv zeta.
  unfold view; cbn [g11 g33 g13 G1 G3 g_11 g_22 dx Ishear cA cC1 cC2 cD].
  rewrite (proj2 (Nat.eqb_neq jx 0)), (proj2 (Nat.eqb_neq jx (LNx - 1))) by lia.
  rewrite (proj2 (Nat.ltb_lt 0 jx)), (proj2 (Nat.ltb_lt jx (LNx - 1))) by lia. cbn [negb andb].
  replace (p + (jx + 1))%nat with (p + jx + 1)%nat by lia. replace (p + (jx - 1))%nat with (p + jx - 1)%nat by lia.
  unfold when. destruct (all_terms o), (nonuniform o), (IncIntShear o); cbn [negb];
    (apply (f_equal2 (@pair (C * C) C)); [apply (f_equal2 (@pair C C))|]); apply C_eq; cbn [fst snd]; unfold Rdiv; ring.
Qed.

Definition rowsum (c : coef3) (A : R) (XL X0 XR : C) : C :=
  Cplus (Cplus (Cmult (fst (fst c)) XL) (Cmult (Cplus (snd (fst c)) (RtoC A)) X0)) (Cmult (snd c) XR).

Lemma Lop_modes : forall o M n zl U i XL X0 XR j,
  (1 <= n)%nat -> zl <> 0 -> dx M i <> 0 -> cC1 M i <> 0 -> (1 <= i)%nat -> (j < n)%nat ->
  (forall j, (j < n)%nat -> U (i - 1)%nat j = irfft n XL j) ->
  (forall j, (j < n)%nat -> U i j = irfft n X0 j) ->
  (forall j, (j < n)%nat -> U (i + 1)%nat j = irfft n XR j) ->
  (ny_real n XL /\ ny_real n X0 /\ ny_real n XR) \/ (g13 M i = 0 /\ when (all_terms o) (G3 M i) = 0) ->
  Lop o M n zl U i j = irfft n (fun k => rowsum (gcoefs o M i (kwave zl k)) (cA M i) (XL k) (X0 k) (XR k)) j.
Proof.
  intros o M n zl U i XL X0 XR j Hn Hz Hdx HC Hi Hj HL H0 HR Hny.
  transitivity ((r1 M i - r4 o M i) * irfft n XL j + (- r3 o M i) * irfft n (fun k => Cmult (ik zl k) (XL k)) j
    + ((- 2 * r1 M i + cA M i) * irfft n X0 j + r2 o M i * irfft n (fun k => Cmult (RtoC (- (kwave zl k * kwave zl k))) (X0 k)) j
       + r5 o M i * irfft n (fun k => Cmult (ik zl k) (X0 k)) j)
    + ((r1 M i + r4 o M i) * irfft n XR j + r3 o M i * irfft n (fun k => Cmult (ik zl k) (XR k)) j)).
  - unfold Lop. cbv zeta. rewrite (D2z_irfft n zl U i X0) by auto. unfold Dx, D2x.
    rewrite HL, H0, HR by auto.
    set (zz := irfft n (fun k => Cmult (RtoC (- (kwave zl k * kwave zl k))) (X0 k)) j).
    destruct Hny as [(NL & N0 & NR)|(E13 & E3)].
    + rewrite (Dz_irfft n zl U i X0), (Dz_irfft n zl U (i + 1) XR), (Dz_irfft n zl U (i - 1) XL) by auto.
      generalize (irfft n (fun k => Cmult (ik zl k) (XL k)) j) (irfft n (fun k => Cmult (ik zl k) (X0 k)) j)
        (irfft n (fun k => Cmult (ik zl k) (XR k)) j) (irfft n XL j) (irfft n X0 j) (irfft n XR j). intros.
      unfold r1, r2, r3, r4, r5, cgrad, when. replace 0.5 with (/2) by lra.
      destruct (all_terms o), (nonuniform o), (IncIntShear o); cbn [negb]; field; auto.
    + generalize (irfft n (fun k => Cmult (ik zl k) (XL k)) j) (irfft n (fun k => Cmult (ik zl k) (X0 k)) j)
        (irfft n (fun k => Cmult (ik zl k) (XR k)) j) (irfft n XL j) (irfft n X0 j) (irfft n XR j)
        (Dz n zl U i j) (Dz n zl U (i + 1)%nat j) (Dz n zl U (i - 1)%nat j). intros.
      unfold when in E3. unfold r1, r2, r3, r4, r5, cgrad, when. replace 0.5 with (/2) by lra.
      rewrite E13. destruct (all_terms o), (nonuniform o), (IncIntShear o); cbn [negb]; rewrite ?E3; field; auto.
  - rewrite <- !irfft_scal, <- !irfft_plus. apply irfft_ext0; auto. intros k _.
    unfold rowsum, gcoefs, ik. apply C_eq; cbn [fst snd Cplus Cmult RtoC]; ring.
Qed.

(** Without any assumption on the highest mode the two sides differ at most in that mode. *)
Lemma Lop_modes_gen : forall o M n zl U i XL X0 XR,
  (1 <= n)%nat -> zl <> 0 -> dx M i <> 0 -> cC1 M i <> 0 -> (1 <= i)%nat ->
  (forall j, (j < n)%nat -> U (i - 1)%nat j = irfft n XL j) ->
  (forall j, (j < n)%nat -> U i j = irfft n X0 j) ->
  (forall j, (j < n)%nat -> U (i + 1)%nat j = irfft n XR j) ->
  exists r, (Nat.even n = false -> r = 0) /\ forall j, (j < n)%nat ->
  Lop o M n zl U i j = irfft n (fun k => rowsum (gcoefs o M i (kwave zl k)) (cA M i) (XL k) (X0 k) (XR k)) j + r * sgn j.
Proof.
  intros o M n zl U i XL X0 XR Hn Hz Hdx HC Hi HL H0 HR.
  set (A := fun k => rowsum (gcoefs o M i (kwave zl k)) (cA M i) (keep n XL k) (keep n X0 k) (keep n XR k)).
  set (B := fun k => rowsum (gcoefs o M i (kwave zl k)) (cA M i) (XL k) (X0 k) (XR k)).
  assert (Kn : forall X, ny_real n (keep n X)).
  { intros X Ev. destruct (half_even n Hn Ev) as [E1 E2]. unfold keep.
    rewrite (proj2 (Nat.eqb_neq (n / 2) 0)), (proj2 (Nat.eqb_eq (2 * (n / 2)) n)) by lia. reflexivity. }
  assert (Ki : forall X j, irfft n X j = irfft n (keep n X) j).
  { intros X j. apply irfft_ext; auto. intros k Hk. unfold keep. destruct (Nat.eqb_spec k 0); [reflexivity|].
    destruct (Nat.eqb_spec (2 * k) n); reflexivity. }
  exists (if Nat.even n then fst (A (n / 2)%nat) - fst (B (n / 2)%nat) else 0). split; [intros ->; reflexivity|].
  intros j Hj. rewrite (Lop_modes o M n zl U i (keep n XL) (keep n X0) (keep n XR) j); auto;
    try (intros; rewrite <- Ki; auto).
  change (irfft n A j = irfft n B j + (if Nat.even n then fst (A (n / 2)%nat) - fst (B (n / 2)%nat) else 0) * sgn j).
  rewrite (irfft_split n A j), (irfft_split n B j) by auto.
  assert (E : irfft n (fun k => if (2 * k =? n)%nat then RtoC 0 else A k) j = irfft n (fun k => if (2 * k =? n)%nat then RtoC 0 else B k) j).
  { apply irfft_ext; auto. intros k Hk. unfold keep. destruct (Nat.eqb_spec k 0) as [->|Hk0].
    - destruct (Nat.eqb_spec (2 * 0) n); [reflexivity|]. f_equal. unfold A, B, rowsum, keep, gcoefs. cbn [Nat.eqb].
      unfold kwave. cbn [INR fst snd Cplus Cmult RtoC]. unfold Rdiv. ring.
    - destruct (Nat.eqb_spec (2 * k) n) as [E|E]; [reflexivity|]. unfold A, B, keep.
      rewrite (proj2 (Nat.eqb_neq k 0)), (proj2 (Nat.eqb_neq (2 * k) n)) by auto. reflexivity. }
  rewrite E. destruct (Nat.even n); ring.
Qed.
