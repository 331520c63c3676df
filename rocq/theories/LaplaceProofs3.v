(** Interior and boundary rows of the matrices, and the equation in real space. *)
From Coq Require Import List Arith Bool ZArith Reals Lia Lra.
From Coquelicot Require Import Complex.
From Verif Require Import Base CyclicModel CyclicSpec CyclicProofs2 CyclicProofs3 CyclicProps FftModel FftSpec FftProofs FftProofs2 FftProofs3 FftProofs4
  LaplaceModel LaplaceSpec LaplaceProofs LaplaceProofs2.
Import ListNotations.
Local Open Scope R_scope.

Definition same_row (t t' : tvec) (i : nat) : Prop := va t i = va t' i /\ vb t i = vb t' i /\ vc t i = vc t' i /\ vk t i = vk t' i.

Lemma low_rows_other : forall w f t i, (w <= i)%nat -> same_row (low_rows w f t) t i.
Proof. intros w f t i H. unfold same_row, low_rows; cbn [va vb vc vk]. rewrite (proj2 (Nat.ltb_ge i w)) by lia. auto. Qed.
Lemma low_zero_other : forall w t i, (w <= i)%nat -> same_row (low_zero w t) t i.
Proof. intros w t i H. unfold same_row, low_zero; cbn [va vb vc vk]. rewrite (proj2 (Nat.ltb_ge i w)) by lia. auto. Qed.
Lemma high_rows_other : forall n w f t i, (i + w <= n)%nat -> same_row (high_rows n w f t) t i.
Proof.
  intros n w f t i H. unfold same_row, high_rows; cbn [va vb vc vk].
  rewrite (proj2 (Nat.ltb_ge (n - i) w)) by lia. rewrite andb_false_r. auto.
Qed.
Lemma high_zero_other : forall n w t i, (i + w <= n)%nat -> same_row (high_zero n w t) t i.
Proof.
  intros n w t i H. unfold same_row, high_zero; cbn [va vb vc vk].
  rewrite (proj2 (Nat.ltb_ge (n - i) w)) by lia. rewrite andb_false_r. auto.
Qed.
Lemma same_row_trans : forall a b c i, same_row a b i -> same_row b c i -> same_row a c i.
Proof. unfold same_row. intros a b c i (A & B & D & E) (A' & B' & D' & E'). rewrite A, B, D, E. auto. Qed.
Lemma same_row_refl : forall a i, same_row a a i.
Proof. unfold same_row. auto. Qed.

Lemma if_zero_low : forall (b : bool) w t i, (w <= i)%nat -> same_row (if b then t else low_zero w t) t i.
Proof. intros. destruct b; [apply same_row_refl|apply low_zero_other; auto]. Qed.
Lemma if_zero_high : forall (b : bool) n w t i, (i + w <= n)%nat -> same_row (if b then t else high_zero n w t) t i.
Proof. intros. destruct b; [apply same_row_refl|apply high_zero_other; auto]. Qed.

Lemma inner_rows_other : forall o gd m kz kw t t1 i, inner_rows o gd m kz kw t = Ok t1 -> (inbndry o gd <= i)%nat -> same_row t1 t i.
Proof.
  intros o gd m kz kw t t1 i H Hi. unfold inner_rows in H. cbv zeta in H.
  pose proof (if_zero_low (b_rhs (inner o) || b_set (inner o)) (inbndry o gd) t i Hi) as Hz.
  set (t' := if (b_rhs (inner o) || b_set (inner o))%bool then t else low_zero (inbndry o gd) t) in *.
  repeat match type of H with
  | (if ?c then _ else _) = Ok _ => destruct c
  end; try discriminate; injection H as <-; (eapply same_row_trans; [apply low_rows_other; exact Hi|exact Hz]).
Qed.
Lemma outer_rows_other : forall o gd L n e m kz kw t t1 i, outer_rows o gd L n e m kz kw t = Ok t1 ->
  (i + outbndry o gd <= n)%nat -> (i + inbndry o gd <= n)%nat -> same_row t1 t i.
Proof.
  intros o gd L n e m kz kw t t1 i H Hi Hi'. unfold outer_rows in H. cbv zeta in H.
  pose proof (if_zero_high (b_rhs (outer o) || b_set (outer o)) n (outbndry o gd) t i Hi) as Hz.
  set (t' := if (b_rhs (outer o) || b_set (outer o))%bool then t else high_zero n (outbndry o gd) t) in *.
  repeat match type of H with
  | (if ?c then _ else _) = Ok _ => destruct c
  end; try discriminate; injection H as <-;
    (eapply same_row_trans; [apply high_rows_other; first [exact Hi|exact Hi']|exact Hz]).
Qed.

Lemma bndry_ge1 : forall o gd, (1 <= gd)%nat -> (1 <= inbndry o gd <= gd /\ 1 <= outbndry o gd <= gd)%nat.
Proof.
  intros o gd H. unfold inbndry, outbndry.
  destruct (b_one (inner o)), (b_one (outer o)), (both_one o || (gd <? 2)%nat)%bool; lia.
Qed.

Lemma mats_row : forall l o nz zl M rhs x0 mats p k, all_matrices l o nz zl M rhs x0 = Ok mats -> (p < np l)%nat -> (k <= maxmode o)%nat ->
  tridagMatrix l o p (view (p * mx l) M) k (kwave zl k)
    (fun i => rfft nz (source_row l o p (xs l o p + i) (rhs p (xs l o p + i)%nat) (x0 p (xs l o p + i)%nat)) k) = Ok (mats p k).
Proof.
  intros l o nz zl M rhs x0 mats p k H Hp Hk. unfold all_matrices in H.
  pose proof (for_sys_inv _ _ _ _ H p Hp) as H1. unfold matrices in H1.
  exact (for_sys_inv _ _ _ _ H1 k ltac:(lia)).
Qed.

(** ** Interior rows *)
Lemma interior_row : forall l o nz zl M rhs x0 mats p q k,
  well_laid l -> periodicX o = false -> all_matrices l o nz zl M rhs x0 = Ok mats ->
  (p < np l)%nat -> (q < nrows l o p)%nat -> (k <= maxmode o)%nat ->
  let i := (p * mx l + (xs l o p + q))%nat in is_interior l o i ->
  let c := gcoefs o M i (kwave zl k) in
  va (mats p k) q = fst (fst c) /\ vb (mats p k) q = Cplus (snd (fst c)) (RtoC (cA M i)) /\ vc (mats p k) q = snd c /\
  vk (mats p k) q = rfft nz (rhs p (xs l o p + q)%nat) k.
Proof.
  intros l o nz zl M rhs x0 mats p q k Hl Hper H Hp Hq Hk i (Hi1 & Hi2) c.
  pose proof (mats_row l o nz zl M rhs x0 mats p k H Hp Hk) as E. pose proof Hl as (L1 & L2 & L3).
  destruct (bndry_ge1 o (g l) L3) as ((B1 & B2) & (B3 & B4)).
  unfold tridagMatrix in E. cbv zeta in E. rewrite Hper in E. cbn [negb] in E.
  set (ncx := (xe l o p - xs l o p)%nat) in *.
  match type of E with context [inner_rows _ _ _ _ _ ?tt] => set (t := tt) in E end.
  assert (Hx : (1 <= xs l o p + q)%nat /\ (xs l o p + q + 1 < LocalNx l)%nat).
  { subst i. unfold NX in Hi2. unfold nrows, xe, xs, LocalNx in *. rewrite Hper in *. cbn [negb] in *. rewrite !andb_true_r in *.
    destruct (Nat.eqb_spec p 0); destruct (Nat.eqb_spec p (np l - 1)); try subst p; try nia. }
  assert (Et : va t q = fst (fst c) /\ vb t q = Cplus (snd (fst c)) (RtoC (cA M i)) /\ vc t q = snd c /\ vk t q = rfft nz (rhs p (xs l o p + q)%nat) k).
  { unfold t. cbn [va vb vc vk]. rewrite (tridagCoefs_global o (LocalNx l) (p * mx l) M (xs l o p + q)) by lia. fold i. fold c.
    split; [reflexivity|]. split; [reflexivity|]. split; [reflexivity|].
    unfold source_row.
    replace ((xs l o p + q <? inbndry o (g l))%nat && b_set (inner o) && (p =? 0)%nat)%bool with false.
    2:{ symmetry. destruct (Nat.eqb_spec p 0) as [->|]; [|rewrite andb_false_r; reflexivity].
        rewrite (proj2 (Nat.ltb_ge _ _)) by (subst i; lia). reflexivity. }
    replace ((LocalNx l - (xs l o p + q) - 1 <? outbndry o (g l))%nat && b_set (outer o) && (p =? np l - 1)%nat)%bool with false; [reflexivity|].
    symmetry. destruct (Nat.eqb_spec p (np l - 1)) as [->|]; [|rewrite andb_false_r; reflexivity].
    rewrite (proj2 (Nat.ltb_ge _ _)); [reflexivity|]. subst i. unfold NX in Hi2. unfold LocalNx. nia. }
  assert (S : same_row (mats p k) t q).
  { destruct (if (p =? 0)%nat then inner_rows o (g l) (view (p * mx l) M) k (kwave zl k) t else Ok t) as [t1| |] eqn:E1; cbn [bind] in E; try discriminate.
    assert (S1 : same_row t1 t q).
    { destruct (Nat.eqb_spec p 0) as [->|]; [|injection E1 as <-; apply same_row_refl].
      apply (inner_rows_other _ _ _ _ _ _ _ q E1). subst i. unfold xs in Hi1. rewrite Hper in Hi1. cbn in Hi1. lia. }
    destruct (Nat.eqb_spec p (np l - 1)) as [Ep|]; [|injection E as <-; exact S1].
    refine (same_row_trans _ _ _ _ _ S1).
    assert (Hn : (q + Nat.max (inbndry o (g l)) (outbndry o (g l)) <= ncx)%nat).
    { subst i ncx. unfold NX in Hi2. unfold xe in *. rewrite Hper in *. rewrite (proj2 (Nat.eqb_eq p (np l - 1)) Ep) in *. cbn [negb andb] in *.
      unfold LocalNx in *. rewrite Ep in *. nia. }
    apply (outer_rows_other _ _ _ _ _ _ _ _ _ _ q E); lia. }
  destruct S as (S1 & S2 & S3 & S4). destruct Et as (T1 & T2 & T3 & T4). rewrite S1, S2, S3, S4. auto.
Qed.

(** ** The equation *)
Lemma to_real_as : forall o nz X j, (1 <= nz)%nat ->
  to_real o nz X j = irfft nz (fun k => Cmult (RtoC (if (zero_DC o && (k =? 0)%nat)%bool then 0 else if (k <=? maxmode o)%nat then 1 else 0)) (X k)) j.
Proof.
  intros o nz X j Hn. unfold to_real. apply irfft_ext0; auto. intros k Hk.
  destruct (zero_DC o && (k =? 0)%nat)%bool; [apply C_eq; cbn [Cmult RtoC fst snd]; ring|].
  destruct (Nat.leb_spec k (maxmode o)).
  - rewrite (proj2 (Nat.ltb_lt k (maxmode o + 1))) by lia. apply C_eq; cbn [Cmult RtoC fst snd]; ring.
  - rewrite (proj2 (Nat.ltb_ge k (maxmode o + 1))) by lia. apply C_eq; cbn [Cmult RtoC fst snd]; ring.
Qed.
Definition msk (o : opts) (k : nat) : R := if (zero_DC o && (k =? 0)%nat)%bool then 0 else if (k <=? maxmode o)%nat then 1 else 0.

Lemma lowpass_msk : forall nz o x j y, (1 <= nz)%nat -> (j < nz)%nat -> lowPass_row nz (Z.of_nat (maxmode o)) (negb (zero_DC o)) x = Ok y ->
  y j = irfft nz (fun k => Cmult (RtoC (msk o k)) (rfft nz x k)) j.
Proof.
  intros nz o x j y Hn Hj H. unfold lowPass_row in H.
  destruct ((Z.leb (Z.of_nat (nz / 2)) (Z.of_nat (maxmode o)) || Z.ltb (Z.of_nat (maxmode o)) 0) && negb (zero_DC o))%bool eqn:E.
  - injection H as <-. apply andb_true_iff in E. destruct E as [E1 E2].
    apply orb_true_iff in E1. destruct E1 as [E1|E1]; [|apply Z.ltb_lt in E1; lia]. apply Z.leb_le in E1. apply negb_true_iff in E2.
    rewrite <- (irfft_rfft nz x j) at 1 by auto. apply irfft_ext0; auto. intros k Hk. unfold msk. rewrite E2. cbn [andb].
    rewrite (proj2 (Nat.leb_le k (maxmode o))) by lia. apply C_eq; cbn [Cmult RtoC fst snd]; ring.
  - destruct (Z.ltb (Z.of_nat (maxmode o) + 1) 0); [discriminate|]. injection H as <-. apply irfft_ext0; auto. intros k Hk.
    rewrite negb_involutive. unfold msk. rewrite (andb_comm (zero_DC o)).
    destruct ((k =? 0)%nat && zero_DC o)%bool; [apply C_eq; cbn [Cmult RtoC fst snd]; ring|].
    destruct (Nat.leb_spec k (maxmode o)).
    + replace (Z.leb (Z.of_nat (maxmode o) + 1) (Z.of_nat k)) with false by (symmetry; apply Z.leb_gt; lia).
      apply C_eq; cbn [Cmult RtoC fst snd]; ring.
    + replace (Z.leb (Z.of_nat (maxmode o) + 1) (Z.of_nat k)) with true by (symmetry; apply Z.leb_le; lia).
      apply C_eq; cbn [Cmult RtoC fst snd]; ring.
Qed.

(** Everything that follows from [solved], mode by mode. *)
Lemma solved_modes : forall l o nz zl M F X0 U, solved l o nz zl M F X0 U ->
  exists rhs x0 mats X, gathers l o nz rhs F /\ gathers l o nz x0 X0 /\
    all_matrices l o nz zl M rhs x0 = Ok mats /\
    (forall i j, (i < NX l)%nat -> (j < nz)%nat -> U i j = to_real o nz (X i) j) /\
    forall k p q, (k <= maxmode o)%nat -> (p < np l)%nat -> (q < nrows l o p)%nat ->
      let i := (off (nrows l o) p + q)%nat in
      Cplus (Cplus (Cmult (va (mats p k) q) (if (i =? 0)%nat then RtoC 0 else X (i - 1)%nat k)) (Cmult (vb (mats p k) q) (X i k)))
            (Cmult (vc (mats p k) q) (if (S i =? NX l)%nat then RtoC 0 else X (i + 1)%nat k)) = vk (mats p k) q.
Proof.
  intros l o nz zl M F X0 U (Hl & Hp & Hn & Hz & rhs & x0 & ord1 & ord2 & mem & u & HF & HX & O1 & O2 & Hns & H & HU).
  destruct (solve_modes l o nz zl M rhs x0 ord1 ord2 mem u Hl Hp O1 O2 Hns H) as (mats & X & Em & Hu & Heq).
  exists rhs, x0, mats, X. repeat split; auto.
  intros i j Hi Hj. exact (gathers_unique l o nz u U _ Hl Hp HU (gathers_real l o nz u X Hl Hp Hu) i j Hi Hj).
Qed.

Lemma interior_modes : forall l o nz zl M F X0 U, solved l o nz zl M F X0 U ->
  forall i, is_interior l o i -> exists XL XM XR,
    (forall j, (j < nz)%nat -> U (i - 1)%nat j = irfft nz XL j) /\
    (forall j, (j < nz)%nat -> U i j = irfft nz XM j) /\
    (forall j, (j < nz)%nat -> U (i + 1)%nat j = irfft nz XR j) /\
    ((2 * maxmode o < nz)%nat -> ny_real nz XL /\ ny_real nz XM /\ ny_real nz XR) /\
    forall k, rowsum (gcoefs o M i (kwave zl k)) (cA M i) (XL k) (XM k) (XR k) = Cmult (RtoC (msk o k)) (rfft nz (F i) k).
Proof.
  intros l o nz zl M F X0 U HS. pose proof HS as (Hl & Hper & Hn & Hz & _).
  destruct (solved_modes _ _ _ _ _ _ _ _ HS) as (rhs & x0 & mats & X & HF & _ & Em & HU & Heq).
  intros i Hi. pose proof Hl as (L1 & L2 & L3). destruct (bndry_ge1 o (g l) L3) as ((B1 & B2) & (B3 & B4)).
  pose proof Hi as (Hi1 & Hi2).
  set (m := fun (Y : nat -> C) k => Cmult (RtoC (msk o k)) (Y k)).
  assert (Hm : forall Y, (2 * maxmode o < nz)%nat -> ny_real nz (m Y)).
  { intros Y HK Hev. destruct (half_even nz Hn Hev) as [E1 E2]. unfold m, msk.
    rewrite (proj2 (Nat.eqb_neq (nz / 2) 0)), andb_false_r by lia. rewrite (proj2 (Nat.leb_gt _ _)) by lia. cbn [Cmult RtoC fst snd]. ring. }
  exists (m (X (i - 1)%nat)), (m (X i)), (m (X (i + 1)%nat)).
  split; [intros; rewrite HU by lia; apply to_real_as; auto|]. split; [intros; rewrite HU by lia; apply to_real_as; auto|].
  split; [intros; rewrite HU by lia; apply to_real_as; auto|]. split; [auto|].
  intros k.
  assert (Hcase : msk o k = 0 \/ (k <= maxmode o)%nat).
  { unfold msk. destruct (zero_DC o && (k =? 0)%nat)%bool; [left; reflexivity|]. destruct (Nat.leb_spec k (maxmode o)); [right; auto|left; reflexivity]. }
  destruct Hcase as [E0|Hkm].
  { unfold m, rowsum. rewrite E0. apply C_eq; cbn [Cplus Cmult RtoC fst snd]; ring. }
  destruct (owner l o i Hl Hper ltac:(lia)) as (p & q & A & B & D1 & D2).
  specialize (Heq k p q Hkm A B). cbv zeta in Heq. rewrite <- D1 in Heq.
  rewrite (proj2 (Nat.eqb_neq i 0)), (proj2 (Nat.eqb_neq (S i) (NX l))) in Heq by lia.
  assert (Hi' : is_interior l o (p * mx l + (xs l o p + q))) by (rewrite <- D2; exact Hi).
  destruct (interior_row l o nz zl M rhs x0 mats p q k Hl Hper Em A B Hkm Hi') as (R1 & R2 & R3 & R4).
  rewrite <- D2 in R1, R2, R3. rewrite R1, R2, R3, R4 in Heq.
  assert (EF : rfft nz (rhs p (xs l o p + q)%nat) k = rfft nz (F i) k).
  { apply rfft_ext. intros j' Hj'. rewrite D2. apply HF; auto. pose proof (xs_le_xe l o p Hl). unfold nrows in B. lia. }
  rewrite EF in Heq. rewrite <- Heq. unfold m, rowsum. generalize (msk o k) (gcoefs o M i (kwave zl k)). intros r c.
  apply C_eq; cbn [Cplus Cmult RtoC fst snd]; ring.
Qed.

Lemma interior_equation : forall l o nz zl M F X0 U, solved l o nz zl M F X0 U ->
  forall i j y, is_interior l o i -> (j < nz)%nat -> dx M i <> 0 -> cC1 M i <> 0 ->
    ((2 * maxmode o < nz)%nat \/ (g13 M i = 0 /\ when (all_terms o) (G3 M i) = 0)) ->
    lowPass_row nz (Z.of_nat (maxmode o)) (negb (zero_DC o)) (F i) = Ok y ->
    Lop o M nz zl U i j = y j.
Proof.
  intros l o nz zl M F X0 U HS i j y Hi Hj Hdx HC Hny Hy. pose proof HS as (Hl & Hper & Hn & Hz & _).
  destruct (interior_modes _ _ _ _ _ _ _ _ HS i Hi) as (XL & XM & XR & HL & HM & HR & HN & Hk).
  pose proof Hl as (L1 & L2 & L3). destruct (bndry_ge1 o (g l) L3) as ((B1 & B2) & (B3 & B4)). pose proof Hi as (Hi1 & Hi2).
  rewrite (Lop_modes o M nz zl U i XL XM XR j); auto; try lia.
  2:{ destruct Hny as [HK|HK]; [left; auto|right; exact HK]. }
  rewrite (lowpass_msk nz o (F i) j y) by auto. apply irfft_ext0; auto.
Qed.
Lemma interior_general : forall l o nz zl M F X0 U, solved l o nz zl M F X0 U ->
  forall i y, is_interior l o i -> dx M i <> 0 -> cC1 M i <> 0 ->
    lowPass_row nz (Z.of_nat (maxmode o)) (negb (zero_DC o)) (F i) = Ok y ->
    exists r, (Nat.even nz = false -> r = 0) /\ forall j, (j < nz)%nat -> Lop o M nz zl U i j = y j + r * sgn j.
Proof.
  intros l o nz zl M F X0 U HS i y Hi Hdx HC Hy. pose proof HS as (Hl & Hper & Hn & Hz & _).
  destruct (interior_modes _ _ _ _ _ _ _ _ HS i Hi) as (XL & XM & XR & HL & HM & HR & HN & Hk).
  pose proof Hl as (L1 & L2 & L3). destruct (bndry_ge1 o (g l) L3) as ((B1 & B2) & (B3 & B4)). pose proof Hi as (Hi1 & Hi2).
  destruct (Lop_modes_gen o M nz zl U i XL XM XR) as (r & Hr & E); auto; try lia.
  exists r. split; [exact Hr|]. intros j Hj. rewrite (E j Hj). f_equal. rewrite (lowpass_msk nz o (F i) j y) by auto. apply irfft_ext0; auto.
Qed.
