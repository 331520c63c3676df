(** The axis of a cylinder, and domains periodic in x. *)
From Coq Require Import List Arith Bool ZArith Reals Lia Lra.
From Coquelicot Require Import Complex.
From Verif Require Import Base CyclicModel CyclicSpec CyclicProofs2 CyclicProofs3 CyclicProps FftModel FftSpec FftProofs FftProofs2 FftProofs3 FftProofs4 FftProofs5
  LaplaceModel LaplaceSpec LaplaceProofs LaplaceProofs2 LaplaceProofs3 LaplaceProofs4 LaplaceProofs5.
Import ListNotations.
Local Open Scope R_scope.

Definition alt (k : nat) : R := if Nat.even k then 1 else -1.
Lemma sel_half_turn : forall n x j, (1 <= n)%nat -> (j < n)%nat -> Nat.even n = true -> sel n alt x j = x ((j + n / 2) mod n)%nat.
Proof.
  intros n x j Hn Hj Ev. destruct (half_even n Hn Ev) as [E1 E2]. assert (Hn0 : INR n <> 0) by (apply not_0_INR; lia).
  pose proof (shift_cells n 1 (Z.of_nat (n / 2)) x j Hn ltac:(lra) Hj) as H.
  rewrite shift_row_spectral in H by auto.
  replace (x ((j + n / 2) mod n)%nat) with (x (Z.to_nat ((Z.of_nat j - Z.of_nat (n / 2)) mod Z.of_nat n))).
  - rewrite <- H. unfold spectral, sel. apply irfft_ext0; auto. intros k Hk.
    assert (Es : shiftM 1 (IZR (Z.of_nat (n / 2)) * 1 / INR n) k = RtoC (alt k)).
    { unfold shiftM, kwave. rewrite <- INR_IZR_INZ.
      assert (Eh : INR (n / 2) = INR n / 2) by (rewrite E1 at 2; rewrite E2, mult_INR; replace (INR 2) with 2 by reflexivity; field).
      rewrite Eh. replace (INR k * 2 * PI / 1 * (INR n / 2 * 1 / INR n)) with (IZR (Z.of_nat k) * PI) by (rewrite <- INR_IZR_INZ; field; auto).
      rewrite cos_npi, sin_Zpi. unfold alt. apply C_eq; cbn [fst snd RtoC]; [reflexivity|ring]. }
    rewrite Es. apply C_eq; cbn [Cmult RtoC fst snd]; ring.
  - f_equal. apply Nat2Z.inj. rewrite Z2Nat.id by (apply Z.mod_pos_bound; lia). rewrite Nat2Z.inj_mod, Nat2Z.inj_add by lia.
    replace (Z.of_nat j - Z.of_nat (n / 2))%Z with (Z.of_nat j + Z.of_nat (n / 2) + (-1) * Z.of_nat n)%Z by lia.
    apply Z.mod_add. lia.
Qed.

Lemma cylinder_axis : forall l o nz zl M F X0 U, solved l o nz zl M F X0 U ->
  b_dc_grad (inner o) = false -> b_dc_gradpar (inner o) = false -> b_dc_gradparinv (inner o) = false -> b_dc_lap (inner o) = false ->
  b_ac_grad (inner o) = false -> b_ac_lap (inner o) = false -> b_cylinder (inner o) = true -> b_set (inner o) = false -> b_rhs (inner o) = false ->
  Nat.even nz = true ->
  forall i j, (i < inbndry o (g l))%nat -> (j < nz)%nat -> U i j = U (i + 1)%nat ((j + nz / 2) mod nz)%nat.
Proof.
  intros l o nz zl M F X0 U HS f1 f2 f3 f4 f5 f6 f7 f8 f9 Ev i j Hi Hj. pose proof HS as (_ & _ & Hn & _).
  set (se := fun k => if Nat.even k then 1 else 0). set (so := fun k => if Nat.even k then 0 else 1).
  assert (Hpar : forall k, ((k mod 2 =? 0)%nat = Nat.even k)).
  { intros k. destruct (Nat.even k) eqn:E.
    - apply Nat.eqb_eq. apply Nat.even_spec in E. destruct E as (q & ->). rewrite Nat.mul_comm. apply Nat.mod_mul. lia.
    - apply Nat.eqb_neq. intros H. apply Nat.mod_divides in H; [|lia]. destruct H as (q & ->). rewrite Nat.even_mul in E. discriminate. }
  assert (Him : forall s, sel nz s (imposed (inner o) F X0 i) j = 0).
  { intros s. unfold imposed. rewrite f8, f9. unfold sel. rewrite (irfft_ext0 nz _ (fun _ => RtoC 0)); auto; [apply irfft_zero|].
    intros k Hk. rewrite rfft_zero. apply C_eq; cbn [Cmult RtoC fst snd]; ring. }
  assert (He : 1 * sel nz se (U i) j + -1 * sel nz se (U (i + 1)%nat) j = 0).
  { rewrite <- (Him (fun k => se k * msk o k)). apply (inner_real l o nz zl M F X0 U HS); auto. intros k Hk Hs.
    unfold inner_bc. cbv zeta. rewrite f1, f2, f3, f4, f5, f6, f7, Hpar. cbn [andb]. unfold se in Hs. destruct (Nat.even k); [|lra]. destruct (k =? 0)%nat; reflexivity. }
  assert (Ho : 1 * sel nz so (U i) j + 1 * sel nz so (U (i + 1)%nat) j = 0).
  { rewrite <- (Him (fun k => so k * msk o k)). apply (inner_real l o nz zl M F X0 U HS); auto. intros k Hk Hs.
    unfold inner_bc. cbv zeta. rewrite f1, f2, f3, f4, f5, f6, f7, Hpar. cbn [andb]. unfold so in Hs.
    destruct (Nat.eqb_spec k 0) as [->|]; [cbn [Nat.even] in Hs; lra|]. destruct (Nat.even k); [lra|reflexivity]. }
  rewrite <- (sel_half_turn nz (U (i + 1)%nat) j Hn Hj Ev), <- (sel_all nz (U i) j Hn Hj).
  rewrite (sel_ext nz (fun _ => 1) (fun k => se k + so k)) by (auto; intros k _; unfold se, so; destruct (Nat.even k); ring).
  rewrite (sel_ext nz alt (fun k => se k + -1 * so k)) by (auto; intros k _; unfold alt, se, so; destruct (Nat.even k); ring).
  rewrite !sel_plus by auto.
  assert (E : sel nz (fun k => -1 * so k) (U (i + 1)%nat) j = -1 * sel nz so (U (i + 1)%nat) j).
  { unfold sel. rewrite <- irfft_scal. apply irfft_ext0; auto. intros k _. apply C_eq; cbn [Cmult RtoC fst snd]; ring. }
  rewrite E. lra.
Qed.

(** ** Periodic in x *)
Lemma Ok_inj : forall {A} (a b : A), Ok a = Ok b -> a = b.
Proof. intros A a b H. injection H as H. exact H. Qed.
Lemma nrows_per : forall l o p, well_laid l -> periodicX o = true -> nrows l o p = mx l /\ xs l o p = g l /\ xe l o p = (g l + mx l - 1)%nat.
Proof.
  intros l o p (H1 & H2 & H3) Hp. unfold nrows, xs, xe. rewrite Hp. cbn [negb]. rewrite !andb_false_r. lia.
Qed.
Lemma off_per : forall l o p, well_laid l -> periodicX o = true -> off (nrows l o) p = (p * mx l)%nat.
Proof.
  intros l o p Hl Hp. induction p as [|p IH]; [reflexivity|]. cbn [off Nat.mul]. rewrite IH.
  destruct (nrows_per l o p Hl Hp) as (-> & _). lia.
Qed.
Lemma owner_per : forall l o i, well_laid l -> periodicX o = true -> (i < ncells l)%nat ->
  exists p q, (p < np l)%nat /\ (q < nrows l o p)%nat /\ i = (off (nrows l o) p + q)%nat.
Proof.
  intros l o i Hl Hp Hi. unfold ncells in Hi. rewrite <- (off_per l o (np l) Hl Hp) in Hi.
  destruct (off_find _ _ _ Hi) as (p & q & A & B & D). exists p, q. auto.
Qed.

Lemma last_nth : forall {A} (x : list A) d, last x d = nth (length x - 1) x d.
Proof.
  intros A x d. induction x as [|a x IH]; [reflexivity|]. destruct x as [|b x]; [reflexivity|].
  change (last (a :: b :: x) d) with (last (b :: x) d). rewrite IH. cbn [length Nat.sub]. rewrite Nat.sub_0_r. reflexivity.
Qed.

(** Modes: [Y] is the solution of the tridiagonal systems, by position in the periodic domain. *)
Lemma periodic_modes : forall l o nz zl M F U, solved_periodic l o nz zl M F U ->
  exists Y : nat -> nat -> C,
  let N := ncells l in
  let avg := rsum N (fun i => fst (Y i 0%nat)) / INR N in
  let Z := fun i k => if (k =? 0)%nat then Cminus (Y i k) (RtoC avg) else Y i k in
  (forall i j, (i < N)%nat -> (j < nz)%nat -> U (g l + i)%nat j = to_real o nz (Z i) j) /\
  forall i k, (i < N)%nat -> (k <= maxmode o)%nat -> (k <> 0 \/ i <> 0)%nat ->
    let c := gcoefs o M (g l + i) (kwave zl k) in
    rowsum c (cA M (g l + i)%nat) (Y (if (i =? 0)%nat then N - 1 else i - 1)%nat k) (Y i k) (Y (if (S i =? N)%nat then 0 else i + 1)%nat k)
    = rfft nz (F (g l + i)%nat) k.
Proof.
  intros l o nz zl M F U (Hl & Hper & Hn & Hz & rhs & x0 & ord1 & ord2 & mem & u & HF & O1 & O2 & Hns & H & HU & HW).
  pose proof Hl as (L1 & L2 & L3). unfold solve in H.
  destruct (all_matrices l o nz zl M rhs x0) as [mats| |] eqn:Em; cbn [bind] in H; try discriminate.
  match type of H with context [solveC ?a ?b ?c ?d ?e ?f ?gg ?h] => destruct (solveC a b c d e f gg h) as [x| |] eqn:Es end; cbn [bind] in H; try discriminate.
  injection H as Hu. rewrite Hper in Hu. cbn [andb] in Hu.
  set (Y := fun i k => nth i (distributed (np l) (nrows l o) (fun p => x p k)) (RtoC 0)).
  assert (HY : forall p q k, (p < np l)%nat -> (q < nrows l o p)%nat -> Y (off (nrows l o) p + q)%nat k = x p k q).
  { intros p q k A B. unfold Y. apply nth_error_nth. apply (distributed_nth (np l) (nrows l o) (fun p => x p k)); auto. }
  exists Y. cbv zeta. set (N := ncells l).
  assert (Havg : xaverage l o x = rsum N (fun i => fst (Y i 0%nat)) / INR N).
  { unfold xaverage. f_equal.
    - assert (Gen : forall P, (P <= np l)%nat -> rsum P (fun p => rsum (nrows l o p) (fun i => fst (x p 0%nat i))) = rsum (P * mx l) (fun i => fst (Y i 0%nat))).
      { induction P as [|P IH]; intros HP; [reflexivity|]. cbn [rsum]. rewrite IH by lia. cbn [Nat.mul].
        destruct (nrows_per l o P Hl Hper) as (En & _).
        assert (Hsplit : forall a b f, rsum (b + a) f = rsum b f + rsum a (fun i => f (b + i)%nat)).
        { induction a; intros b f; [rewrite Nat.add_0_r; cbn [rsum]; ring|]. rewrite Nat.add_succ_r. cbn [rsum]. rewrite IHa. ring. }
        rewrite (Nat.add_comm (mx l)), Hsplit, En. f_equal. apply rsum_ext. intros i Hi.
        rewrite <- (HY P i 0%nat) by lia. rewrite (off_per l o P Hl Hper). reflexivity. }
      apply (Gen (np l)). lia.
    - rewrite (rsum_ext (np l) _ (fun _ => INR (mx l))) by (intros p _; destruct (nrows_per l o p Hl Hper) as (-> & _); reflexivity).
      rewrite rsum_const, <- mult_INR. reflexivity. }
  split.
  - intros i j Hi Hj. destruct (owner_per l o i Hl Hper Hi) as (p & q & A & B & D).
    destruct (nrows_per l o p Hl Hper) as (En & Ex & Ee).
    rewrite (off_per l o p Hl Hper) in D.
    replace (g l + i)%nat with (p * mx l + (g l + q))%nat by lia.
    rewrite <- (HU p (g l + q)%nat j A ltac:(lia) Hj). rewrite <- Hu, Ex. replace (g l + q - g l)%nat with q by lia.
    unfold to_real. apply irfft_ext0; auto. intros k Hk.
    destruct (zero_DC o && (k =? 0)%nat)%bool; [reflexivity|]. destruct (k <? maxmode o + 1)%nat; [|reflexivity].
    rewrite Havg. rewrite D. rewrite <- (off_per l o p Hl Hper), HY by auto. reflexivity.
  - intros i k Hi Hk Hne. destruct (owner_per l o i Hl Hper Hi) as (p & q & A & B & D).
    destruct (nrows_per l o p Hl Hper) as (En & Ex & Ee).
    assert (Hk' : (k < maxmode o + 1)%nat) by lia.
    pose proof (C25_complex_solution (maxmode o + 1) (np l) (periodicX o) (nrows l o) (fun p kz => va (mats p kz)) (fun p kz => vb (mats p kz))
      (fun p kz => vc (mats p kz)) (fun p kz => vk (mats p kz)) ord1 ord2 mem x L1 O1 O2 Es k Hk' (Hns mats Em k Hk)) as [S1 S2].
    rewrite Hper in S2.
    specialize (S2 (off (nrows l o) p + q)%nat _ (distributed_nth (np l) (nrows l o) (fun p i => Row (va (mats p k) i) (vb (mats p k) i) (vc (mats p k) i) (vk (mats p k) i)) p q A B)).
    cbn [ra rb rc rr] in S2.
    assert (Erow : forall t, tridagMatrix l o p (view (p * mx l) M) k (kwave zl k)
      (fun i => rfft nz (source_row l o p (xs l o p + i) (rhs p (xs l o p + i)%nat) (x0 p (xs l o p + i)%nat)) k) = Ok t ->
      va t q = fst (fst (gcoefs o M (g l + i) (kwave zl k))) /\ vb t q = Cplus (snd (fst (gcoefs o M (g l + i) (kwave zl k)))) (RtoC (cA M (g l + i)%nat)) /\
      vc t q = snd (gcoefs o M (g l + i) (kwave zl k)) /\ vk t q = rfft nz (F (g l + i)%nat) k).
    { intros t Et. unfold tridagMatrix in Et. cbv zeta in Et. rewrite Hper in Et. cbn [negb] in Et. rewrite Ex in Et.
      rewrite (off_per l o p Hl Hper) in D.
      assert (Ei : (p * mx l + (g l + q) = g l + i)%nat) by lia.
      assert (Esrc : rfft nz (source_row l o p (g l + q) (rhs p (g l + q)%nat) (x0 p (g l + q)%nat)) k = rfft nz (F (g l + i)%nat) k).
      { destruct (bndry_ge1 o (g l) L3) as ((B1 & B2) & (B3 & B4)). unfold source_row.
        rewrite (proj2 (Nat.ltb_ge (g l + q) (inbndry o (g l)))), (proj2 (Nat.ltb_ge (LocalNx l - (g l + q) - 1) (outbndry o (g l)))) by (unfold LocalNx; lia).
        cbn [andb orb]. apply rfft_ext. intros j Hj. rewrite (HF p (g l + q)%nat j A ltac:(lia) Hj), Ei. reflexivity. }
      assert (Eco : tridagCoefs o (LocalNx l) (view (p * mx l) M) (g l + q) (kwave zl k) = gcoefs o M (g l + i) (kwave zl k)).
      { rewrite tridagCoefs_global by (unfold LocalNx; lia). rewrite Ei. reflexivity. }
      assert (EA : cA (view (p * mx l) M) (g l + q)%nat = cA M (g l + i)%nat) by (cbn [view cA]; rewrite Ei; reflexivity).
      destruct ((k =? 0)%nat && (p =? 0)%nat)%bool eqn:Ekp.
      - apply andb_true_iff in Ekp. destruct Ekp as [E1 E2]. apply Nat.eqb_eq in E1. apply Nat.eqb_eq in E2.
        assert (Hq0 : q <> 0%nat) by (rewrite E2 in D; cbn [Nat.mul] in D; lia).
        apply Ok_inj in Et. rewrite <- Et. cbn [va vb vc vk]. rewrite !(proj2 (Nat.eqb_neq q 0)) by auto. cbv beta. rewrite Eco, Esrc, EA. auto.
      - apply Ok_inj in Et. rewrite <- Et. cbn [va vb vc vk]. rewrite Eco, Esrc, EA. auto. }
    destruct (Erow _ (mats_row l o nz zl M rhs x0 mats p k Em A Hk)) as (R1 & R2 & R3 & R4).
    rewrite R1, R2, R3, R4 in S2. rewrite <- D in S2. rewrite <- S2. unfold rowsum. f_equal; [f_equal|].
    + f_equal. unfold left_of. destruct i as [|i'].
      * rewrite last_nth, distributed_len, (off_per l o _ Hl Hper). reflexivity.
      * rewrite (proj2 (Nat.eqb_neq (S i') 0)) by lia. unfold Y. replace (S i' - 1)%nat with i' by lia. reflexivity.
    + f_equal. unfold right_of. rewrite distributed_len, (off_per l o _ Hl Hper). fold (ncells l). fold N.
      destruct (S i =? N)%nat; [|unfold Y; replace (i + 1)%nat with (S i) by lia; reflexivity].
      unfold Y. destruct (distributed (np l) (nrows l o) (fun p => x p k)); reflexivity.
Qed.

Lemma irfft_dc_only : forall n v j, (1 <= n)%nat -> irfft n (fun k => if (k =? 0)%nat then v else RtoC 0) j = fst v.
Proof.
  intros n v j Hn. unfold irfft, fftw_c2r. cbn [Nat.eqb]. rewrite rsum_0 by (intros; cbn [RtoC fst snd]; ring).
  destruct (Nat.even n) eqn:Ev; [|ring]. destruct (half_even n Hn Ev) as [E1 E2].
  rewrite (proj2 (Nat.eqb_neq (n / 2) 0)) by lia. cbn [RtoC fst]. ring.
Qed.

Definition prev_of (N i : nat) : nat := if (i =? 0)%nat then (N - 1)%nat else (i - 1)%nat.
Definition next_of (N i : nat) : nat := if (S i =? N)%nat then 0%nat else (i + 1)%nat.

(** The constant mode, as real numbers. *)
Definition dcrow (o : opts) (M : xdata) (i : nat) (yl y yr : R) : R :=
  (r1 M i - r4 o M i) * yl + (-2 * r1 M i + cA M i) * y + (r1 M i + r4 o M i) * yr.

Lemma periodic_facts : forall l o nz zl M F U, solved_periodic l o nz zl M F U ->
  exists y : nat -> R, let N := ncells l in
  let avg := rsum N y / INR N in
  (zero_DC o = false -> forall i, (i < N)%nat -> dc_row nz (U (g l + i)%nat) = y i - avg) /\
  (zero_DC o = true -> forall i, (i < N)%nat -> dc_row nz (U (g l + i)%nat) = 0) /\
  (forall i, (i < N)%nat -> i <> 0%nat -> dcrow o M (g l + i) (y (prev_of N i)) (y i) (y (next_of N i)) = dc_row nz (F (g l + i)%nat)) /\
  forall i z, (i < N)%nat -> dx M (g l + i)%nat <> 0 -> cC1 M (g l + i)%nat <> 0 ->
    ((2 * maxmode o < nz)%nat \/ (g13 M (g l + i)%nat = 0 /\ when (all_terms o) (G3 M (g l + i)%nat) = 0)) ->
    lowPass_row nz (Z.of_nat (maxmode o)) (negb (zero_DC o)) (F (g l + i)%nat) = Ok z ->
    forall j, (j < nz)%nat -> Lop o M nz zl U (g l + i) j = z j +
      (if zero_DC o then 0
       else dcrow o M (g l + i) (y (prev_of N i) - avg) (y i - avg) (y (next_of N i) - avg) - dc_row nz (F (g l + i)%nat)).
Proof.
  intros l o nz zl M F U HS. destruct (periodic_modes _ _ _ _ _ _ _ HS) as (Y & HU & HE). cbv zeta in HU, HE.
  pose proof HS as (Hl & Hper & Hn & Hz & rhs & x0 & ord1 & ord2 & mem & u & HF & O1 & O2 & Hns & H & HG & HW).
  pose proof Hl as (L1 & L2 & L3). exists (fun i => fst (Y i 0%nat)). cbv zeta. set (N := ncells l) in *.
  assert (HN : (1 <= N)%nat) by (unfold N, ncells; nia).
  set (avg := rsum N (fun i => fst (Y i 0%nat)) / INR N) in *.
  set (Z := fun i k => if (k =? 0)%nat then Cminus (Y i k) (RtoC avg) else Y i k) in *.
  assert (HU' : forall i, (i < N)%nat -> forall j, (j < nz)%nat -> U (g l + i)%nat j = irfft nz (fun k => Cmult (RtoC (msk o k)) (Z i k)) j).
  { intros i Hi j Hj. rewrite HU by auto. apply to_real_as; auto. }
  assert (Hdc : forall i, (i < N)%nat -> dc_row nz (U (g l + i)%nat) = msk o 0 * (fst (Y i 0%nat) - avg)).
  { intros i Hi. rewrite dc_rfft. rewrite (rfft_ext nz _ (irfft nz (fun k => Cmult (RtoC (msk o k)) (Z i k)))) by (apply HU'; auto).
    rewrite rfft_irfft by (auto; lia). unfold keep, Z. cbn [Nat.eqb Cmult Cminus Cplus Copp RtoC fst snd]. ring. }
  split; [|split; [|split]].
  - intros Hzd i Hi. rewrite Hdc by auto. unfold msk. rewrite Hzd. cbn [andb Nat.leb]. ring.
  - intros Hzd i Hi. rewrite Hdc by auto. unfold msk. rewrite Hzd. cbn [andb Nat.eqb]. ring.
  - intros i Hi Hi0. specialize (HE i 0%nat Hi ltac:(lia) (or_intror Hi0)). fold (prev_of N i) in HE. fold (next_of N i) in HE.
    rewrite dc_rfft, <- HE. unfold dcrow, rowsum, gcoefs, kwave. cbn [INR Cplus Cmult RtoC fst snd]. unfold Rdiv. ring.
  - intros i z Hi Hdx HC Hny Hlow j Hj.
    set (m := fun (W : nat -> C) k => Cmult (RtoC (msk o k)) (W k)).
    assert (Hm : forall W, (2 * maxmode o < nz)%nat -> ny_real nz (m W)).
    { intros W HK Hev. destruct (half_even nz Hn Hev) as [E1 E2]. unfold m, msk.
      rewrite (proj2 (Nat.eqb_neq (nz / 2) 0)), andb_false_r by lia. rewrite (proj2 (Nat.leb_gt _ _)) by lia. cbn [Cmult RtoC fst snd]. ring. }
    assert (Hp : (prev_of N i < N)%nat) by (unfold prev_of; destruct (Nat.eqb_spec i 0); lia).
    assert (Hx : (next_of N i < N)%nat) by (unfold next_of; destruct (Nat.eqb_spec (S i) N); lia).
    assert (EL : forall j, (j < nz)%nat -> U (g l + i - 1)%nat j = irfft nz (m (Z (prev_of N i))) j).
    { intros j' Hj'. unfold m. rewrite <- HU' by auto. unfold prev_of. destruct (Nat.eqb_spec i 0) as [->|].
      - destruct (HW j' Hj') as (W1 & _). fold N in W1. replace (g l + 0 - 1)%nat with (g l - 1)%nat by lia. rewrite W1. f_equal. lia.
      - f_equal. lia. }
    assert (ER : forall j, (j < nz)%nat -> U (g l + i + 1)%nat j = irfft nz (m (Z (next_of N i))) j).
    { intros j' Hj'. unfold m. rewrite <- HU' by auto. unfold next_of. destruct (Nat.eqb_spec (S i) N) as [E|].
      - destruct (HW j' Hj') as (_ & W2). fold N in W2. replace (g l + i + 1)%nat with (g l + N)%nat by lia. rewrite W2. f_equal. lia.
      - f_equal. lia. }
    rewrite (Lop_modes o M nz zl U (g l + i) (m (Z (prev_of N i))) (m (Z i)) (m (Z (next_of N i))) j); auto; try lia;
      try (intros; apply HU'; auto).
    2:{ destruct Hny as [HK|HK]; [left; auto|right; exact HK]. }
    rewrite (lowpass_msk nz o (F (g l + i)%nat) j z) by auto.
    set (D := Cminus (rowsum (gcoefs o M (g l + i) (kwave zl 0)) (cA M (g l + i)%nat) (m (Z (prev_of N i)) 0%nat) (m (Z i) 0%nat) (m (Z (next_of N i)) 0%nat))
                (Cmult (RtoC (msk o 0)) (rfft nz (F (g l + i)%nat) 0))).
    transitivity (irfft nz (fun k => Cplus (Cmult (RtoC (msk o k)) (rfft nz (F (g l + i)%nat) k)) (if (k =? 0)%nat then D else RtoC 0)) j).
    + apply irfft_ext0; auto. intros k Hk. destruct (Nat.eqb_spec k 0) as [->|Hk0].
      * unfold D. generalize (rowsum (gcoefs o M (g l + i) (kwave zl 0)) (cA M (g l + i)%nat) (m (Z (prev_of N i)) 0%nat) (m (Z i) 0%nat) (m (Z (next_of N i)) 0%nat)).
        intros v. apply C_eq; cbn [Cplus Cminus Copp Cmult RtoC fst snd]; ring.
      * assert (Hcase : msk o k = 0 \/ (k <= maxmode o)%nat).
        { unfold msk. destruct (zero_DC o && (k =? 0)%nat)%bool; [left; reflexivity|]. destruct (Nat.leb_spec k (maxmode o)); [right; auto|left; reflexivity]. }
        destruct Hcase as [E0|Hkm]; [unfold m, rowsum; rewrite E0; apply C_eq; cbn [Cplus Cmult RtoC fst snd]; ring|].
        specialize (HE i k Hi Hkm (or_introl Hk0)). fold (prev_of N i) in HE. fold (next_of N i) in HE. rewrite <- HE.
        unfold m, Z, rowsum. rewrite !(proj2 (Nat.eqb_neq k 0)) by auto. generalize (msk o k) (gcoefs o M (g l + i) (kwave zl k)). intros r c.
        apply C_eq; cbn [Cplus Cmult RtoC fst snd]; ring.
    + rewrite irfft_plus, irfft_dc_only by auto. f_equal. unfold D, m, Z. cbn [Nat.eqb]. rewrite dc_rfft.
      assert (Em : msk o 0 = if zero_DC o then 0 else 1) by (unfold msk; destruct (zero_DC o); reflexivity).
      rewrite Em. destruct (zero_DC o); unfold dcrow, rowsum, gcoefs, kwave; cbn [INR Cplus Cminus Copp Cmult RtoC fst snd]; unfold Rdiv; ring.
Qed.

(** Sums around the periodic domain. *)
Lemma rsum_shift : forall N f, (1 <= N)%nat -> rsum N (fun i => f (next_of N i)) = rsum N f /\ rsum N (fun i => f (prev_of N i)) = rsum N f.
Proof.
  intros N f HN. destruct N as [|n]; [lia|].
  assert (Hs : forall m (h : nat -> R), rsum (S m) h = h 0%nat + rsum m (fun i => h (S i))).
  { induction m; intros h; [cbn [rsum]; ring|]. cbn [rsum]. cbn [rsum] in IHm. rewrite IHm. ring. }
  split.
  - transitivity (rsum n (fun i => f (S i)) + f 0%nat); [|rewrite Hs; ring]. cbn [rsum]. f_equal.
    + apply rsum_ext. intros i Hi. unfold next_of. rewrite (proj2 (Nat.eqb_neq (S i) (S n))) by lia. f_equal. lia.
    + unfold next_of. rewrite Nat.eqb_refl. reflexivity.
  - rewrite Hs. cbn [rsum]. rewrite Rplus_comm. f_equal.
    + apply rsum_ext. intros i Hi. unfold prev_of. cbn [Nat.eqb]. f_equal. lia.
    + unfold prev_of. cbn [Nat.eqb]. f_equal. lia.
Qed.
