(** Boundary conditions in real space. *)
From Coq Require Import List Arith Bool ZArith Reals Lia Lra.
From Coquelicot Require Import Complex.
From Verif Require Import Base CyclicModel CyclicSpec CyclicProofs2 CyclicProofs3 CyclicProps FftModel FftSpec FftProofs FftProofs2 FftProofs3 FftProofs4 FftProofs5
  LaplaceModel LaplaceSpec LaplaceProofs LaplaceProofs2 LaplaceProofs3 LaplaceProofs4.
Import ListNotations.
Local Open Scope R_scope.

(** The part of a row in some of the modes. *)
Definition sel (n : nat) (s : nat -> R) (x : nat -> R) (j : nat) : R := irfft n (fun k => Cmult (RtoC (s k)) (rfft n x k)) j.

Lemma sel_irfft : forall n s U X j, (1 <= n)%nat -> (forall j, (j < n)%nat -> U j = irfft n X j) ->
  sel n s U j = irfft n (fun k => Cmult (RtoC (s k)) (X k)) j.
Proof.
  intros n s U X j Hn HU. unfold sel. transitivity (irfft n (fun k => Cmult (RtoC (s k)) (keep n X k)) j).
  - apply irfft_ext0; auto. intros k Hk. f_equal. transitivity (rfft n (irfft n X) k); [apply rfft_ext; exact HU|]. apply rfft_irfft; auto.
  - apply irfft_ext; auto. intros k Hk. unfold keep. destruct (Nat.eqb k 0); [|destruct (Nat.eqb (2 * k) n)]; apply C_eq; cbn [Cmult RtoC fst snd]; ring.
Qed.
Lemma sel_all : forall n x j, (1 <= n)%nat -> (j < n)%nat -> sel n (fun _ => 1) x j = x j.
Proof.
  intros n x j Hn Hj. rewrite <- (irfft_rfft n x j) by auto. apply irfft_ext0; auto.
  intros k Hk. apply C_eq; cbn [Cmult RtoC fst snd]; ring.
Qed.
Definition is_dc (k : nat) : R := if (k =? 0)%nat then 1 else 0.
Definition is_ac (k : nat) : R := if (k =? 0)%nat then 0 else 1.
Definition is_mode (k0 k : nat) : R := if (k =? k0)%nat then 1 else 0.

Lemma sel_dc : forall n x j, (1 <= n)%nat -> sel n is_dc x j = dc_row n x.
Proof.
  intros n x j Hn. unfold sel. rewrite dc_rfft. unfold irfft, fftw_c2r. unfold is_dc at 1. cbn [Nat.eqb].
  rewrite rsum_0; [|intros i Hi; unfold is_dc; cbn [Nat.eqb Cmult RtoC fst snd]; ring].
  destruct (Nat.even n) eqn:Ev; [|cbn [Cmult RtoC fst snd]; ring].
  destruct (half_even n Hn Ev) as [E1 E2]. unfold is_dc. rewrite (proj2 (Nat.eqb_neq (n / 2) 0)) by lia.
  cbn [Cmult RtoC fst snd]. ring.
Qed.
Lemma sel_plus : forall n s t x j, (1 <= n)%nat -> sel n (fun k => s k + t k) x j = sel n s x j + sel n t x j.
Proof.
  intros n s t x j Hn. unfold sel. rewrite <- irfft_plus. apply irfft_ext0; auto.
  intros k Hk. apply C_eq; cbn [Cplus Cmult RtoC fst snd]; ring.
Qed.
Lemma sel_ext : forall n s t x j, (1 <= n)%nat -> (forall k, (k <= n / 2)%nat -> s k = t k) -> sel n s x j = sel n t x j.
Proof. intros n s t x j Hn H. apply irfft_ext0; auto. intros k Hk. rewrite H by auto. reflexivity. Qed.
Lemma sel_ac : forall n x j, (1 <= n)%nat -> (j < n)%nat -> sel n is_ac x j = deviation n x j.
Proof.
  intros n x j Hn Hj. unfold deviation. rewrite <- (sel_dc n x j Hn), <- (sel_all n x j Hn Hj) at 1.
  rewrite (sel_ext n (fun _ => 1) (fun k => is_dc k + is_ac k)), sel_plus; auto; [ring|].
  intros k Hk. unfold is_dc, is_ac. destruct (k =? 0)%nat; ring.
Qed.
Lemma sel_mode : forall n k0 x j, (1 <= n)%nat -> sel n (is_mode k0) x j = filter_row n (Z.of_nat k0) x j.
Proof.
  intros n k0 x j Hn. apply irfft_ext0; auto. intros k Hk. unfold is_mode.
  replace (Z.eqb (Z.of_nat k) (Z.of_nat k0)) with (k =? k0)%nat.
  - destruct (k =? k0)%nat; apply C_eq; cbn [Cmult RtoC fst snd]; ring.
  - destruct (Nat.eqb_spec k k0) as [->|Hne]; symmetry; [apply Z.eqb_refl|apply Z.eqb_neq; lia].
Qed.

Lemma lowpass_sel : forall nz o x j y, (1 <= nz)%nat -> (j < nz)%nat -> lowPass_row nz (Z.of_nat (maxmode o)) (negb (zero_DC o)) x = Ok y ->
  y j = sel nz (msk o) x j.
Proof. intros. apply lowpass_msk; auto. Qed.

(** One real boundary row for some modes, in real space. *)
Lemma row_real : forall o nz s b c X Y R0 j UX UY, (1 <= nz)%nat ->
  (forall j, (j < nz)%nat -> UX j = to_real o nz X j) -> (forall j, (j < nz)%nat -> UY j = to_real o nz Y j) ->
  (forall k, (k <= maxmode o)%nat -> s k <> 0 -> Cplus (Cmult (RtoC b) (X k)) (Cmult (RtoC c) (Y k)) = rfft nz R0 k) ->
  b * sel nz s UX j + c * sel nz s UY j = sel nz (fun k => s k * msk o k) R0 j.
Proof.
  intros o nz s b c X Y R0 j UX UY Hn HX HY Hm.
  rewrite (sel_irfft nz s UX (fun k => Cmult (RtoC (msk o k)) (X k))) by (auto; intros; rewrite HX by auto; apply to_real_as; auto).
  rewrite (sel_irfft nz s UY (fun k => Cmult (RtoC (msk o k)) (Y k))) by (auto; intros; rewrite HY by auto; apply to_real_as; auto).
  rewrite <- !irfft_scal, <- irfft_plus. unfold sel. apply irfft_ext0; auto. intros k Hk.
  assert (Hc : msk o k = 0 \/ (k <= maxmode o)%nat).
  { unfold msk. destruct (zero_DC o && (k =? 0)%nat)%bool; [left; reflexivity|]. destruct (Nat.leb_spec k (maxmode o)); [right; auto|left; reflexivity]. }
  destruct (Req_dec (s k) 0) as [Es|Es]; [rewrite Es; apply C_eq; cbn [Cplus Cmult RtoC fst snd]; ring|].
  destruct Hc as [Em|Em]; [rewrite Em; apply C_eq; cbn [Cplus Cmult RtoC fst snd]; ring|].
  rewrite <- (Hm k Em Es). apply C_eq; cbn [Cplus Cmult RtoC fst snd]; ring.
Qed.

Section Inner.
Variables (l : layout) (o : opts) (nz : nat) (zl : R) (M : xdata) (F X0 U : plane).
Hypothesis HS : solved l o nz zl M F X0 U.

Lemma inner_real : forall i s b c j, (i < inbndry o (g l))%nat ->
  (forall k, (k <= maxmode o)%nat -> s k <> 0 -> inner_bc o M (inbndry o (g l)) k (kwave zl k) i = (b, c)) ->
  b * sel nz s (U i) j + c * sel nz s (U (i + 1)%nat) j = sel nz (fun k => s k * msk o k) (imposed (inner o) F X0 i) j.
Proof.
  intros i s b c j Hi Hbc. pose proof HS as (Hl & Hper & Hn & Hz & _). pose proof Hl as (L1 & L2 & L3).
  destruct (bndry_ge1 o (g l) L3) as ((B1 & B2) & (B3 & B4)).
  destruct (solved_modes _ _ _ _ _ _ _ _ HS) as (rhs & x0 & mats & X & HF & HX0 & Em & HU & Heq).
  assert (HNX : (i + 1 < NX l)%nat) by (unfold NX; nia).
  apply (row_real o nz s b c (X i) (X (i + 1)%nat)); auto; try (intros; apply HU; lia).
  intros k Hk Hs. assert (Hq : (i < nrows l o 0)%nat).
  { unfold nrows, xs, xe, LocalNx. rewrite Hper. change (0 =? 0)%nat with true. destruct (0 =? np l - 1)%nat; cbn [negb andb]; lia. }
  specialize (Heq k 0%nat i Hk L1 Hq). cbv zeta in Heq. cbn [off Nat.add] in Heq.
  destruct (inner_mode l o nz zl M rhs x0 mats 0 k i F X0 Hl Hper Em Hk HF HX0 eq_refl Hi) as (A & B & D & V).
  rewrite A, B, D, V in Heq. rewrite (Hbc k Hk Hs) in Heq. cbn [fst snd] in Heq.
  rewrite (proj2 (Nat.eqb_neq (S i) (NX l))) in Heq by lia. rewrite <- Heq.
  apply C_eq; cbn [Cplus Cmult RtoC fst snd]; ring.
Qed.

Lemma outer_real : forall ix s a b j, (ix < outbndry o (g l))%nat -> (forall k, s k <> 0 -> no_stray o k) ->
  let i := (NX l - 1 - ix)%nat in
  let loc := (i - xs l o (np l - 1))%nat in
  (forall k, (k <= maxmode o)%nat -> s k <> 0 -> outer_bc o M (inbndry o (g l)) k (kwave zl k) i loc = (a, b)) ->
  a * sel nz s (U (i - 1)%nat) j + b * sel nz s (U i) j = sel nz (fun k => s k * msk o k) (imposed (outer o) F X0 i) j.
Proof.
  intros ix s a b j Hi Hst i loc Hbc. pose proof HS as (Hl & Hper & Hn & Hz & _). pose proof Hl as (L1 & L2 & L3).
  destruct (bndry_ge1 o (g l) L3) as ((B1 & B2) & (B3 & B4)).
  destruct (solved_modes _ _ _ _ _ _ _ _ HS) as (rhs & x0 & mats & X & HF & HX0 & Em & HU & Heq).
  assert (HNX : (1 <= i < NX l)%nat) by (unfold i, NX; nia).
  apply (row_real o nz s a b (X (i - 1)%nat) (X i)); auto; try (intros; apply HU; lia).
  intros k Hk Hs.
  destruct (outer_mode l o nz zl M rhs x0 mats k ix F X0 Hl Hper Em Hk HF HX0 (Hst k Hs) Hi) as (P1 & P2 & P3 & P4 & A & B & D & V).
  fold i in P3, P4, V.
  set (p := (np l - 1)%nat) in *. set (q := (nrows l o p - 1 - ix)%nat) in *.
  specialize (Heq k p q Hk P1 P2). cbv zeta in Heq. rewrite <- P3 in Heq.
  assert (Ebc : outer_bc o (view (p * mx l) M) (inbndry o (g l)) k (kwave zl k) (LocalNx l - 1 - ix) q
                = outer_bc o M (inbndry o (g l)) k (kwave zl k) i loc).
  { assert (I1 : (p * mx l + (LocalNx l - 1 - ix) = i)%nat).
    { unfold i, NX, LocalNx. assert (EP : (np l * mx l = p * mx l + mx l)%nat) by (unfold p; destruct (np l); [lia|cbn [Nat.mul Nat.sub]; rewrite Nat.sub_0_r; lia]).
      rewrite EP. lia. }
    assert (I2 : (p * mx l + q = loc)%nat) by (unfold loc; fold p; rewrite P4; lia).
    unfold outer_bc, view. cbn [g_11 dx g33 g11]. rewrite I1, I2. reflexivity. }
  rewrite A, B, D, V, Ebc in Heq. rewrite (Hbc k Hk Hs) in Heq. cbn [fst snd] in Heq.
  rewrite (proj2 (Nat.eqb_neq i 0)) in Heq by lia. rewrite <- Heq. apply C_eq; cbn [Cplus Cmult RtoC fst snd]; ring.
Qed.

(** Selections of [msk]. *)
Lemma sel_dc_msk : forall x j, zero_DC o = false -> sel nz (fun k => is_dc k * msk o k) x j = dc_row nz x.
Proof.
  intros x j Hz. pose proof HS as (_ & _ & Hn & _). rewrite <- (sel_dc nz x j Hn). apply sel_ext; auto. intros k _.
  unfold is_dc, msk. rewrite Hz. cbn [andb]. destruct (Nat.eqb_spec k 0) as [->|]; cbn [Nat.leb]; ring.
Qed.
Lemma sel_ac_msk : forall x j y, (j < nz)%nat -> lowPass_row nz (Z.of_nat (maxmode o)) false x = Ok y ->
  sel nz (fun k => is_ac k * msk o k) x j = y j.
Proof.
  intros x j y Hj Hy. pose proof HS as (_ & _ & Hn & _).
  set (o' := Opts (all_terms o) (nonuniform o) (IncIntShear o) (periodicX o) true (both_one o) (inner o) (outer o) (maxmode o)).
  rewrite (lowpass_sel nz o' x j y) by auto. apply sel_ext; auto. intros k _. unfold is_ac, msk, o'. cbn [zero_DC maxmode].
  destruct (Nat.eqb_spec k 0) as [->|]; cbn [andb]; [ring|]. rewrite andb_false_r. ring.
Qed.
Lemma sel_mode_msk : forall k0 x j, (1 <= k0 <= maxmode o)%nat -> sel nz (fun k => is_mode k0 k * msk o k) x j = filter_row nz (Z.of_nat k0) x j.
Proof.
  intros k0 x j Hk0. pose proof HS as (_ & _ & Hn & _). rewrite <- sel_mode by auto. apply sel_ext; auto. intros k _.
  unfold is_mode, msk. destruct (Nat.eqb_spec k k0) as [->|]; [|ring]. rewrite (proj2 (Nat.eqb_neq k0 0)), andb_false_r by lia.
  rewrite (proj2 (Nat.leb_le k0 (maxmode o))) by lia. ring.
Qed.
Lemma is_dc_inv : forall k, is_dc k <> 0 -> k = 0%nat.
Proof. intros k. unfold is_dc. destruct (Nat.eqb_spec k 0); [auto|intros H; lra]. Qed.
Lemma is_ac_inv : forall k, is_ac k <> 0 -> k <> 0%nat.
Proof. intros k. unfold is_ac. destruct (Nat.eqb_spec k 0); [intros H; lra|auto]. Qed.
Lemma is_mode_inv : forall k0 k, is_mode k0 k <> 0 -> k = k0.
Proof. intros k0 k. unfold is_mode. destruct (Nat.eqb_spec k k0); [auto|intros H; lra]. Qed.
End Inner.
