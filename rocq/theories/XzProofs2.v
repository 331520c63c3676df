(** LaplaceXZcyclic: the systems are not singular; the equations of every mode. *)
From Coq Require Import List Arith Bool ZArith Reals Lia Lra.
From Coquelicot Require Import Complex.
From Verif Require Import Base CyclicModel CyclicSpec CyclicProofs2 CyclicProofs3 CyclicProps FftModel FftSpec FftProofs FftProofs2 FftProofs3 FftProofs4 FftProofs5
  LaplaceModel LaplaceSpec LaplaceProofs LaplaceProofs2 XzModel XzSpec XzProofs.
Import ListNotations.
Local Open Scope R_scope.

Lemma kwave_pos : forall zl k, zl <> 0 -> k <> 0%nat -> 0 < kwave zl k * kwave zl k.
Proof.
  intros zl k Hz Hk. unfold kwave. pose proof PI_RGT_0. assert (I : INR k <> 0) by (apply not_0_INR; auto).
  assert (E : INR k * 2 * PI / zl <> 0); [|nra].
  unfold Rdiv. apply Rmult_integral_contrapositive_currified; [|apply Rinv_neq_0_compat; auto]. apply Rmult_integral_contrapositive_currified; [|lra]. apply Rmult_integral_contrapositive_currified; [auto|lra].
Qed.

Lemma pos3 : forall a k m, 0 <= a -> 0 <= m -> 0 <= a * (k * k) * m.
Proof. intros a k m Ha Hm. pose proof (Rle_0_sqr k) as S. unfold Rsqr in S. apply Rmult_le_pos; [apply Rmult_le_pos|]; auto. Qed.
Lemma pos3s : forall a k m, 0 < a -> 0 < k * k -> 0 < m -> 0 < a * (k * k) * m.
Proof. intros a k m Ha S Hm. apply Rmult_lt_0_compat; [apply Rmult_lt_0_compat|]; auto. Qed.

Section Sys.
Variables (M : xzmesh) (fin fout : bflags) (A B : field2) (y kz : nat).
Hypothesis Hl : well_laid (xl M).
Hypothesis Hz : xzl M <> 0.
Hypothesis Hy : (y < nys M)%nat.
Hypothesis Hk : (kz < nmode M)%nat.
Hypothesis Hel : elliptic M A B.
Hypothesis Hdf : definite M fin fout B.

(** J dx times the face coefficient. *)
Definition wt (i : nat) : R :=
  half_sum (A y) (i + g (xl M) - 1) * half_sum (mJ M y) (i + g (xl M) - 1) * half_sum (mg11 M y) (i + g (xl M) - 1) / half_sum (mdx M y) (i + g (xl M) - 1).
Definition ct (i : nat) : R :=
  let x := (i + g (xl M) - 1)%nat in
  mJ M y x * mdx M y x * (- B y x + A y x * (kwave (xzl M) kz * kwave (xzl M) kz) * mg33 M y x).

Lemma rng : forall i, (1 <= i <= nx M)%nat -> (first M <= i + g (xl M) - 1 <= last_x M)%nat.
Proof. intros i Hi. destruct Hl as (_ & _ & H3). unfold first, last_x, nx in *. lia. Qed.
Lemma rng1 : forall i, (i <= nx M + 1)%nat -> (first M - 1 <= i + g (xl M) - 1 <= last_x M + 1)%nat.
Proof. intros i Hi. destruct Hl as (H1 & H2 & H3). unfold first, last_x, nx in *. assert (1 <= np (xl M) * mx (xl M))%nat by nia. lia. Qed.

Lemma wt_pos : forall i, (i <= nx M)%nat -> 0 < wt i.
Proof.
  intros i Hi. destruct (Hel y Hy) as (P & _). destruct (P _ (rng1 i ltac:(lia))) as (a1 & a2 & a3 & a4).
  destruct (P _ (rng1 (i + 1) ltac:(lia))) as (b1 & b2 & b3 & b4). destruct Hl as (_ & _ & H3).
  replace (i + 1 + g (xl M) - 1)%nat with (i + g (xl M) - 1 + 1)%nat in * by lia.
  unfold wt, half_sum. apply Rdiv_lt_0_compat; [repeat apply Rmult_lt_0_compat|]; lra.
Qed.
Lemma ct_nonneg : forall i, (1 <= i <= nx M)%nat -> 0 <= ct i.
Proof.
  intros i Hi. destruct (Hel y Hy) as (P & Q). destruct (P _ (rng1 i ltac:(lia))) as (a1 & a2 & a3 & a4). destruct (Q _ (rng i Hi)) as (b1 & b2).
  unfold ct. cbv zeta.
  apply Rmult_le_pos; [apply Rmult_le_pos; lra|]. assert (0 <= A y (i + g (xl M) - 1)%nat * (kwave (xzl M) kz * kwave (xzl M) kz) * mg33 M y (i + g (xl M) - 1)%nat); [apply pos3; lra|lra].
Qed.

(** The three coefficients of a row with an equation. *)
Lemma grow_mid : forall i, (1 <= i <= nx M)%nat -> let x := (i + g (xl M) - 1)%nat in
  mJ M y x <> 0 /\ mdx M y x <> 0 /\
  grow M fin fout A B y kz i = (wt (i - 1) / (mJ M y x * mdx M y x),
    - (wt i + wt (i - 1) + ct i) / (mJ M y x * mdx M y x), wt i / (mJ M y x * mdx M y x)).
Proof.
  intros i Hi. cbv zeta. destruct (Hel y Hy) as (P & _). destruct (P _ (rng1 i ltac:(lia))) as (a1 & a2 & a3 & a4).
  destruct (P _ (rng1 (i + 1) ltac:(lia))) as (b1 & b2 & b3 & b4). destruct (P _ (rng1 (i - 1) ltac:(lia))) as (c1 & c2 & c3 & c4).
  destruct Hl as (_ & _ & H3). split; [lra|]. split; [lra|].
  unfold grow. rewrite (proj2 (Nat.eqb_neq i 0)), (proj2 (Nat.eqb_neq i (nx M + 1))) by lia. cbv zeta.
  unfold ct, wt, face, avg, half_sum. cbv zeta.
  replace (i + 1 + g (xl M) - 1)%nat with (i + g (xl M) - 1 + 1)%nat in * by lia.
  replace (i - 1 + g (xl M) - 1)%nat with (i + g (xl M) - 1 - 1)%nat in * by lia.
  replace (i + g (xl M) - 1 - 1 + 1)%nat with (i + g (xl M) - 1)%nat by lia.
  replace 0.5 with (/ 2) by lra.
  f_equal; [f_equal|]; field; repeat split; lra.
Qed.

Lemma real_zero : forall x : nat -> R,
  (forall i, (i <= nx M + 1)%nat -> let c := grow M fin fout A B y kz i in
     fst (fst c) * (if (i =? 0)%nat then 0 else x (i - 1)%nat) + snd (fst c) * x i + snd c * (if (i =? nx M + 1)%nat then 0 else x (i + 1)%nat) = 0) ->
  forall i, (i <= nx M + 1)%nat -> x i = 0.
Proof.
  intros x Hx. assert (Hn : (1 <= nx M)%nat) by (destruct Hl as (H1 & H2 & H3); unfold nx; nia).
  apply (shoot (nx M) wt x ct (neumann fin kz) (neumann fout kz) Hn wt_pos ct_nonneg).
  - intros i Hi. specialize (Hx i ltac:(lia)). destruct (grow_mid i Hi) as (E1 & E2 & E). cbv zeta in *. rewrite E in Hx. cbn [fst snd] in Hx.
    rewrite (proj2 (Nat.eqb_neq i 0)), (proj2 (Nat.eqb_neq i (nx M + 1))) in Hx by lia.
    assert (W : wt (i - 1) * x (i - 1)%nat - (wt i + wt (i - 1) + ct i) * x i + wt i * x (i + 1)%nat = 0).
    { apply (Rmult_eq_compat_r (mJ M y (i + g (xl M) - 1)%nat * mdx M y (i + g (xl M) - 1)%nat)) in Hx. rewrite Rmult_0_l in Hx. etransitivity; [|exact Hx].
      field. auto. }
    lra.
  - specialize (Hx 0%nat ltac:(lia)). cbv zeta in Hx. unfold grow in Hx.
    replace (0 =? nx M + 1)%nat with false in Hx by (symmetry; apply Nat.eqb_neq; lia). cbn [Nat.eqb Nat.add] in Hx. destruct (neumann fin kz); cbn [fst snd] in Hx |- *; lra.
  - specialize (Hx (nx M + 1)%nat ltac:(lia)). cbv zeta in Hx. unfold grow in Hx. 
    rewrite Nat.eqb_refl, (proj2 (Nat.eqb_neq (nx M + 1) 0)) in Hx by lia. replace (nx M + 1 - 1)%nat with (nx M) in Hx by lia.
    destruct (neumann fout kz); cbn [fst snd] in Hx; lra.
  - intros N1 N2. destruct (Hdf y Hy) as (D1 & D2). unfold neumann in N1, N2.
    destruct (Hel y Hy) as (P & Q). destruct Hl as (H1 & H2 & H3).
    assert (Hi : exists i, (first M <= i <= last_x M)%nat /\ 0 < - B y i + A y i * (kwave (xzl M) kz * kwave (xzl M) kz) * mg33 M y i).
    { destruct (Nat.eqb_spec kz 0) as [->|Ek]; cbn [andb negb orb] in N1, N2.
      - rewrite orb_false_r in N1, N2. destruct (D1 N1 N2) as (i & Hi & HB). exists i. split; [exact Hi|].
        destruct (Q i Hi) as (q1 & q2). assert (A0 : 0 < A y i) by (apply P; lia).
        assert (0 <= A y i * (kwave (xzl M) 0 * kwave (xzl M) 0) * mg33 M y i); [apply pos3; lra|lra].
      - destruct (D2 N1 N2) as (i & Hi & HB). exists i. split; [exact Hi|].
        destruct (Q i Hi) as (q1 & q2). assert (A0 : 0 < A y i) by (apply P; lia). pose proof (kwave_pos (xzl M) kz Hz Ek) as S.
        destruct HB as [HB|HB].
        + assert (0 <= A y i * (kwave (xzl M) kz * kwave (xzl M) kz) * mg33 M y i) by (apply pos3; lra). lra.
        + assert (0 < A y i * (kwave (xzl M) kz * kwave (xzl M) kz) * mg33 M y i) by (apply pos3s; lra). lra. }
    destruct Hi as (i & Hi & HC). exists (i + 1 - g (xl M))%nat. unfold first, last_x in Hi. split; [unfold nx; lia|].
    unfold ct. cbv zeta. replace (i + 1 - g (xl M) + g (xl M) - 1)%nat with i by lia.
    assert (PP : 0 < A y i /\ 0 < mJ M y i /\ 0 < mg11 M y i /\ 0 < mdx M y i) by (apply P; unfold first, last_x; lia).
    repeat apply Rmult_lt_0_compat; lra.
Qed.

Definition rowC (r : nat -> nat -> C) (p q : nat) : trow C :=
  let s := (y * nmode M + kz)%nat in let c := setCoefs M fin fout A B in
  Row (RtoC (ca c p s q)) (RtoC (cb c p s q)) (RtoC (cc c p s q)) (r p q).

Lemma rowC_nth : forall r i, (i <= nx M + 1)%nat -> exists p q, (p < np (xl M))%nat /\ (q < nloc M p)%nat /\ i = (off (nloc M) p + q)%nat /\
  nth_error (distributed (np (xl M)) (nloc M) (rowC r)) i =
    Some (let c := grow M fin fout A B y kz i in Row (RtoC (fst (fst c))) (RtoC (snd (fst c))) (RtoC (snd c)) (r p q)).
Proof.
  intros r i Hi. destruct (row_owner M i Hl ltac:(lia)) as (p & q & Hp & Hq & ->). exists p, q. repeat split; auto.
  rewrite distributed_nth by auto. unfold rowC, ca, cb, cc. rewrite setCoefs_row by auto. reflexivity.
Qed.

Lemma cpart : forall a b c : R, forall u v w : C,
  Cplus (Cplus (Cmult (RtoC a) u) (Cmult (RtoC b) v)) (Cmult (RtoC c) w) = (a * fst u + b * fst v + c * fst w, a * snd u + b * snd v + c * snd w).
Proof. intros. apply C_eq; cbn [Cplus Cmult RtoC fst snd]; ring. Qed.

Lemma nonsing : forall r, nonsingular C (RtoC 0) Cplus Cmult false (distributed (np (xl M)) (nloc M) (rowC r)).
Proof.
  intros r z (Hlen & Hs). rewrite map_length, distributed_len, off_all in Hlen by auto.
  set (Z := fun i => nth i z (RtoC 0)).
  assert (E : forall i, (i <= nx M + 1)%nat -> let c := grow M fin fout A B y kz i in
     Cplus (Cplus (Cmult (RtoC (fst (fst c))) (if (i =? 0)%nat then RtoC 0 else Z (i - 1)%nat)) (Cmult (RtoC (snd (fst c))) (Z i)))
           (Cmult (RtoC (snd c)) (if (i =? nx M + 1)%nat then RtoC 0 else Z (i + 1)%nat)) = RtoC 0).
  { intros i Hi. cbv zeta. destruct (rowC_nth r i Hi) as (p & q & _ & _ & _ & En). 
    specialize (Hs i). rewrite nth_error_map, En in Hs. cbn [option_map] in Hs. specialize (Hs _ eq_refl). cbn [ra rb rc rr] in Hs. etransitivity; [|exact Hs].
    f_equal; [f_equal|]; f_equal.
    - unfold left_of. destruct i as [|i']; [reflexivity|]. cbn [Nat.eqb]. unfold Z. f_equal. lia.
    - unfold right_of. rewrite Hlen. replace (S i =? nx M + 2)%nat with (i =? nx M + 1)%nat.
      + destruct (i =? nx M + 1)%nat; [reflexivity|]. unfold Z. f_equal. lia.
      + apply eq_true_iff_eq. rewrite !Nat.eqb_eq. lia. }
  assert (Hre : forall i, (i <= nx M + 1)%nat -> fst (Z i) = 0).
  { apply real_zero. intros i Hi. specialize (E i Hi). cbv zeta in *. rewrite cpart in E. apply (f_equal fst) in E. cbn [fst RtoC] in E. etransitivity; [|exact E].
    destruct (i =? 0)%nat, (i =? nx M + 1)%nat; cbn [fst RtoC]; ring. }
  assert (Him : forall i, (i <= nx M + 1)%nat -> snd (Z i) = 0).
  { apply (real_zero (fun i => snd (Z i))). intros i Hi. specialize (E i Hi). cbv zeta in *. rewrite cpart in E. apply (f_equal snd) in E. cbn [snd RtoC] in E. etransitivity; [|exact E].
    destruct (i =? 0)%nat, (i =? nx M + 1)%nat; cbn [snd RtoC]; ring. }
  apply Forall_forall. intros w Hw. apply (In_nth _ _ (RtoC 0)) in Hw as (i & Hi & <-).
  apply C_eq; [apply Hre|apply Him]; lia.
Qed.
End Sys.

(** * What [solve] returns, mode by mode *)
Definition modes (M : xzmesh) (fin fout : bflags) (A B : field2) (rhs x0 U : field3d) (X : nat -> nat -> nat -> C) : Prop :=
  forall y, (y < nys M)%nat ->
    (forall i j, (i <= nx M + 1)%nat -> (j < xnz M)%nat -> U y (i + g (xl M) - 1)%nat j = irfft (xnz M) (X y i) j) /\
    forall i k, (i <= nx M + 1)%nat -> (k < nmode M)%nat -> let c := grow M fin fout A B y k i in
      Cplus (Cplus (Cmult (RtoC (fst (fst c))) (if (i =? 0)%nat then RtoC 0 else X y (i - 1)%nat k)) (Cmult (RtoC (snd (fst c))) (X y i k)))
            (Cmult (RtoC (snd c)) (if (i =? nx M + 1)%nat then RtoC 0 else X y (i + 1)%nat k)) = grhs M fin fout rhs x0 y k i.

Lemma after_current : forall M fin fout l, after M fin fout l = setCoefs M fin fout (fst (current l)) (snd (current l)).
Proof.
  intros M fin fout l. unfold after, current, constructor. 
  change (setCoefs M fin fout (fun _ _ => 1) (fun _ _ => 0)) with ((fun AB : field2 * field2 => setCoefs M fin fout (fst AB) (snd AB)) (fun _ _ => 1, fun _ _ => 0)).
  generalize ((fun _ _ => 1, fun _ _ => 0) : field2 * field2). induction l as [|ab l IH]; intros d; [reflexivity|].
  cbn [fold_left]. rewrite IH. destruct l as [|ab' l']; [reflexivity|]. cbn [last]. 
  f_equal; (f_equal; clear; revert ab'; induction l' as [|e l' IH]; intros ab'; [reflexivity|]; cbn [last]; destruct l'; [reflexivity|]; apply (IH e)).
Qed.

Lemma solved_modes : forall M fin fout l rhs x0 U, xz_solved M fin fout l rhs x0 U ->
  elliptic M (fst (current l)) (snd (current l)) -> definite M fin fout (snd (current l)) ->
  exists X, modes M fin fout (fst (current l)) (snd (current l)) rhs x0 U X.
Proof.
  intros M fin fout l rhs x0 U (Hl & Hn & Hz & ord1 & ord2 & mem & u & O1 & O2 & Hs & HU) Hel Hdf.
  rewrite after_current in Hs. revert Hs Hel Hdf. generalize (fst (current l)) (snd (current l)). intros A B Hs Hel Hdf.
  unfold xzsolve in Hs. match type of Hs with bind ?e _ = _ => destruct e as [x| |] eqn:Es end; cbn [bind] in Hs; try discriminate. injection Hs as <-.
  set (c := setCoefs M fin fout A B) in *.
  exists (fun y i k => nth i (distributed (np (xl M)) (nloc M) (fun p => x p (y * nmode M + k)%nat)) (RtoC 0)).
  intros y Hy.
  assert (HX : forall p q k, (p < np (xl M))%nat -> (q < nloc M p)%nat ->
    nth (off (nloc M) p + q) (distributed (np (xl M)) (nloc M) (fun p => x p (y * nmode M + k)%nat)) (RtoC 0) = x p (y * nmode M + k)%nat q).
  { intros p q k Hp Hq. apply nth_error_nth. apply (distributed_nth (np (xl M)) (nloc M) (fun p => x p (y * nmode M + k)%nat)); auto. }
  split.
  - intros i j Hi Hj. destruct (row_owner M i Hl ltac:(lia)) as (p & q & Hp & Hq & ->). pose proof (off_x M p Hl Hp) as Ho.
    replace (off (nloc M) p + q + g (xl M) - 1)%nat with (p * mx (xl M) + (xstart M p + q))%nat by lia.
    rewrite <- HU; auto.
    + apply irfft_ext0; auto. intros k Hk. rewrite HX by auto. f_equal. lia.
    + revert Hq. unfold nloc. intros Hq. assert (xstart M p <= xend M p)%nat; [|lia]. clear - Hl. destruct Hl as (L1 & L2 & L3). unfold xstart, xend. destruct (p =? 0)%nat, (p =? np (xl M) - 1)%nat; lia.
  - intros i k Hi Hk. cbv zeta.
    assert (Hsy : (y * nmode M + k < nsys M)%nat) by (unfold nsys; nia).
    pose proof Hl as (H1 & H2 & H3).
    pose proof (C25_complex_solution (nsys M) (np (xl M)) false (nloc M) (fun p s q => RtoC (ca c p s q)) (fun p s q => RtoC (cb c p s q))
      (fun p s q => RtoC (cc c p s q)) (fun p s q => rhs_of M fin fout c rhs x0 p s q) ord1 ord2 mem x H1 O1 O2 Es _ Hsy) as S. cbv zeta in S.
    assert (NS : nonsingular C (RtoC 0) Cplus Cmult false (distributed (np (xl M)) (nloc M) (rowC M fin fout A B y k (fun p q => rhs_of M fin fout c rhs x0 p (y * nmode M + k)%nat q))))
      by (apply nonsing; auto).
    specialize (S NS).
    destruct S as [S1 S2]. rewrite !distributed_len in S1.
    destruct (rowC_nth M fin fout A B y k Hl Hy Hk (fun p q => rhs_of M fin fout c rhs x0 p (y * nmode M + k)%nat q) i Hi) as (p & q & Hp & Hq & Ei & En).
    specialize (S2 i _ En). cbv zeta in S2. cbn [ra rb rc rr] in S2.
    unfold c in S2. rewrite rhs_row, <- Ei in S2 by auto. etransitivity; [|exact S2].
    f_equal; [f_equal|]; f_equal.
    + unfold left_of. destruct i as [|i']; [reflexivity|]. cbn [Nat.eqb]. f_equal. lia.
    + unfold right_of. rewrite distributed_len, off_all by auto. replace (S i =? nx M + 2)%nat with (i =? nx M + 1)%nat.
      * destruct (i =? nx M + 1)%nat; [reflexivity|]. f_equal. lia.
      * apply eq_true_iff_eq. rewrite !Nat.eqb_eq. lia.
Qed.
