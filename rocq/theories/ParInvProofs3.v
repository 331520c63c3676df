(** Inversion of parallel derivatives: from the modes to real space. *)
From Coq Require Import List Arith Bool ZArith Reals Lia Lra.
From Coquelicot Require Import Complex.
From Verif Require Import Base CyclicModel CyclicSpec CyclicProofs2 CyclicProofs3 CyclicProps FftModel FftSpec FftProofs FftProofs2 FftProofs3 FftProofs4 FftProofs5
  LaplaceModel LaplaceSpec LaplaceProofs ParInvModel ParInvSpec ParInvProofs ParInvProofs2.
Import ListNotations.
Local Open Scope R_scope.

Lemma to_row_ext : forall n zl tr i x y j, (forall j, (j < n)%nat -> x j = y j) -> (j < n)%nat -> to_row n zl tr i x j = to_row n zl tr i y j.
Proof.
  intros n zl tr i x y j H Hj. unfold to_row. destruct tr; [|apply H; auto]. destruct (Nat.eqb n 1); [apply H; auto|]. apply shift_phases_ext. auto.
Qed.
Lemma to_row_no_nyq : forall n zl tr i x, (1 <= n)%nat -> no_nyquist n x -> no_nyquist n (to_row n zl tr i x).
Proof.
  intros n zl tr i x Hn H. unfold to_row. destruct tr; [|auto]. destruct (Nat.eqb n 1); [auto|]. intros Ev.
  pose proof (shift_keeps_no_nyq n zl (- r i) x Hn H Ev) as A. rewrite <- A.
  assert (E : forall m f g, (forall j, f j = g j) -> alternating m f = alternating m g).
  { induction m; intros f g Hfg; cbn [alternating]; [reflexivity|]. rewrite (IHm f g) by auto. rewrite Hfg. reflexivity. }
  apply E. intros j. apply to_shift.
Qed.
Lemma no_nyq_mode : forall n x k, (1 <= n)%nat -> (2 * k = n)%nat -> no_nyquist n x -> rfft n x k = RtoC 0.
Proof.
  intros n x k Hn Hk H. assert (Ev : Nat.even n = true) by (apply Nat.even_spec; exists k; lia).
  assert (Ek : k = (n / 2)%nat) by (subst n; rewrite Nat.mul_comm, Nat.div_mul; lia). subst k.
  apply C_eq; [rewrite rfft_nyq, H by auto; cbn [RtoC fst]; unfold Rdiv; ring|].
  apply (rfft_ny n x Hn Ev).
Qed.

Section Master.
Variables (s : surface) (nz : nat) (zl : R) (tr : option (nat -> R)) (c : nat -> R -> coef3) (co : nat -> nat -> R -> coef3) (F U : plane).
Hypothesis Hco : forall p y kw, (1 <= y)%nat -> co p y kw = c (p * my s + y)%nat kw.
Hypothesis HS : solved s nz zl tr co F U.

Definition lI (i : nat) : nat := if (i =? first s)%nat then if closed s then (past s - 1)%nat else first s else (i - 1)%nat.
Definition rI (i : nat) : nat := if (i + 1 =? past s)%nat then if closed s then first s else (past s - 1)%nat else (i + 1)%nat.

Lemma first_gd : (gd s <= first s)%nat.
Proof. unfold first. destruct (negb (closed s) && ylow s)%bool; lia. Qed.
Lemma lI_inside : forall i, is_inside s i -> is_inside s (lI i).
Proof. intros i (A & B). pose proof HS as ((H1 & H2 & H3 & H4) & _). unfold is_inside, lI. destruct (Nat.eqb_spec i (first s)); [destruct (closed s)|]; lia. Qed.
Lemma rI_inside : forall i, is_inside s i -> is_inside s (rI i).
Proof. intros i (A & B). pose proof HS as ((H1 & H2 & H3 & H4) & _). unfold is_inside, rI. destruct (Nat.eqb_spec (i + 1) (past s)); [destruct (closed s)|]; lia. Qed.

Lemma spectra : exists Y : nat -> nat -> C,
  (forall i k, is_inside s i -> (k <= nz / 2)%nat -> exists q : R,
     rfft nz (U i) k = Cmult (RtoC q) (keep nz (Y i) k) /\ ((2 * k <> nz)%nat -> q = 1) /\ (tr = None -> q = 1)) /\
  (forall i k, is_inside s i -> (k <= nz / 2)%nat ->
     rs (c i (kwave zl k)) (Cmult (phl s zl i k) (Y (lI i) k)) (Y i k) (Cmult (phr s zl i k) (Y (rI i) k)) = rfft nz (to_row nz zl tr i (F i)) k) /\
  (forall k, (k <= nz / 2)%nat -> (forall i, is_inside s i -> rfft nz (to_row nz zl tr i (F i)) k = RtoC 0) -> forall i, is_inside s i -> Y i k = RtoC 0).
Proof.
  destruct HS as (Hl & Hn & Hz & f & old & ord1 & ord2 & mem & u & Cf & O1 & O2 & Hns & Hs & Cu & _).
  unfold solve in Hs. set (rows := fun p y => to_row nz zl tr (p * my s + y) (f p y)) in *.
  destruct (solve_aligned s nz zl co rows old ord1 ord2 mem) as [v| |] eqn:Ev; cbn [bind] in Hs; try discriminate.
  injection Hs as <-.
  destruct (solve_modes s nz zl co rows old ord1 ord2 mem v Hl O1 O2 Hns Ev) as (Y & E1 & E2 & E3 & E4 & E5). exists Y.
  pose proof Hl as (H1 & H2 & H3 & H4). pose proof first_gd as Hfg.
  assert (HF : forall p y k, (p < np s)%nat -> (gd s <= y < gd s + my s)%nat -> (first s <= p * my s + y)%nat ->
    rfft nz (rows p y) k = rfft nz (to_row nz zl tr (p * my s + y) (F (p * my s + y)%nat)) k).
  { intros p y k A B D. apply rfft_ext. intros j Hj. unfold rows. apply to_row_ext; auto. }
  split; [|split].
  - intros i k (A & B) Hk. destruct (owner s i Hl ltac:(lia) A) as (p & q & P1 & P2 & _ & P3 & P4 & P5 & _).
    set (y := (start s p + q)%nat) in *.
    destruct (to_from_mode nz zl tr (p * my s + y) (v p y) k Hn Hk) as (w & W1 & W2 & W3). exists w. split; [|split; auto].
    rewrite (rfft_ext nz (U i) (fun j => to_row nz zl tr (p * my s + y) (from_row nz zl tr (p * my s + y) (v p y)) j)).
    2:{ intros j Hj. rewrite P3. symmetry. apply (Cu p y j); auto. lia. }
    change (fun j : nat => to_row nz zl tr (p * my s + y) (from_row nz zl tr (p * my s + y) (v p y)) j) with (to_row nz zl tr (p * my s + y) (from_row nz zl tr (p * my s + y) (v p y))).
    rewrite W1. f_equal. rewrite (rfft_ext nz (v p y) (irfft nz (Y i))).
    + apply rfft_irfft; auto.
    + intros j Hj. rewrite (E1 p y j) by (unfold y; lia). rewrite <- P3. reflexivity.
  - intros i k (A & B) Hk. destruct (owner s i Hl ltac:(lia) A) as (p & q & P1 & P2 & _ & P3 & P4 & P5 & _).
    set (y := (start s p + q)%nat) in *. specialize (E2 p y k i P1 P4 Hk P3 A). cbv zeta in E2. rewrite (Hco p y) in E2 by lia. rewrite <- P3 in E2.
    rewrite (HF p y k P1 P4 ltac:(lia)) in E2. rewrite <- P3 in E2. rewrite <- E2. unfold rs, lI, rI. clear E2.
    destruct (closed s) eqn:Ec; cbn [andb].
    + destruct (Nat.eqb_spec i (first s)), (Nat.eqb_spec (i + 1) (past s)); reflexivity.
    + specialize (E3 eq_refl k (first s - 1)%nat Hk). specialize (E4 eq_refl k (past s) Hk ltac:(lia)).
      replace (first s - 1 + 1)%nat with (first s) in E3 by lia.
      assert (E3' : Y (first s - 1)%nat k = Y (first s) k).
      { apply E3. rewrite start0, Ec. unfold first. rewrite Ec. destruct (ylow s); cbn [negb andb]; lia. }
      destruct (Nat.eqb_spec i (first s)) as [Ei|Ei]; [rewrite <- E3', <- Ei|]; (destruct (Nat.eqb_spec (i + 1) (past s)) as [Ej|Ej]; [rewrite <- E4, <- Ej|]); reflexivity.
  - intros k Hk H0 i Hi. apply (E5 k Hk); [|exact Hi]. intros p y A B D. rewrite HF by auto. apply H0. unfold is_inside, past. split; [exact D|nia].
Qed.

Lemma left_mode : forall i k, is_inside s i -> (k <= nz / 2)%nat -> rfft nz (U (i - 1)%nat) k = Cmult (rfft nz (U (lI i)) k) (keep nz (phl s zl i) k).
Proof.
  intros i k Hi Hk. destruct HS as (Hl & Hn & Hz & f & old & ord1 & ord2 & mem & u & _ & _ & _ & _ & _ & _ & Hg).
  assert (K1 : keep nz (fun _ => RtoC 1) k = RtoC 1) by (unfold keep; destruct (k =? 0)%nat, (2 * k =? nz)%nat; reflexivity).
  unfold lI. destruct (Nat.eqb_spec i (first s)) as [->|Hne].
  - destruct (closed s) eqn:Ec.
    + rewrite (rfft_ext nz (U (first s - 1)%nat) (spectral nz (shiftM zl (ts s)) (U (past s - 1)%nat))).
      * rewrite rfft_spectral by auto. f_equal. unfold keep, phl. rewrite Ec, Nat.eqb_refl. reflexivity.
      * intros j Hj. specialize (Hg j Hj). rewrite Ec in Hg. destruct Hg as (-> & _). apply shift_row_spectral; auto.
    + rewrite (rfft_ext nz (U (first s - 1)%nat) (U (first s))).
      * replace (keep nz (phl s zl (first s)) k) with (RtoC 1); [rewrite Cmult_1_r; reflexivity|].
        rewrite <- K1. unfold keep, phl. rewrite Ec. reflexivity.
      * intros j Hj. specialize (Hg j Hj). rewrite Ec in Hg. apply Hg.
  - replace (keep nz (phl s zl i) k) with (RtoC 1); [rewrite Cmult_1_r; reflexivity|].
    rewrite <- K1. unfold keep, phl. rewrite (proj2 (Nat.eqb_neq i (first s))), andb_false_r by auto. reflexivity.
Qed.
Lemma right_mode : forall i k, is_inside s i -> (k <= nz / 2)%nat -> rfft nz (U (i + 1)%nat) k = Cmult (rfft nz (U (rI i)) k) (keep nz (phr s zl i) k).
Proof.
  intros i k Hi Hk. destruct HS as (Hl & Hn & Hz & f & old & ord1 & ord2 & mem & u & _ & _ & _ & _ & _ & _ & Hg).
  assert (K1 : keep nz (fun _ => RtoC 1) k = RtoC 1) by (unfold keep; destruct (k =? 0)%nat, (2 * k =? nz)%nat; reflexivity).
  unfold rI. destruct (Nat.eqb_spec (i + 1) (past s)) as [E|Hne].
  - destruct (closed s) eqn:Ec.
    + rewrite E. rewrite (rfft_ext nz (U (past s)) (spectral nz (shiftM zl (- ts s)) (U (first s)))).
      * rewrite rfft_spectral by auto. f_equal. unfold keep, phr. rewrite Ec, E, Nat.eqb_refl. reflexivity.
      * intros j Hj. specialize (Hg j Hj). rewrite Ec in Hg. destruct Hg as (_ & ->). apply shift_row_spectral; auto.
    + rewrite E. rewrite (rfft_ext nz (U (past s)) (U (past s - 1)%nat)).
      * replace (keep nz (phr s zl i) k) with (RtoC 1); [rewrite Cmult_1_r; reflexivity|].
        rewrite <- K1. unfold keep, phr. rewrite Ec. reflexivity.
      * intros j Hj. specialize (Hg j Hj). rewrite Ec in Hg. apply Hg.
  - replace (keep nz (phr s zl i) k) with (RtoC 1); [rewrite Cmult_1_r; reflexivity|].
    rewrite <- K1. unfold keep, phr. rewrite (proj2 (Nat.eqb_neq (i + 1) (past s))), andb_false_r by auto. reflexivity.
Qed.

(** The equation in the modes other than the highest of an even number of points, and in that one. *)
Definition lhs (i k : nat) : C := rs (c i (kwave zl k)) (rfft nz (U (i - 1)%nat) k) (rfft nz (U i) k) (rfft nz (U (i + 1)%nat) k).

Lemma ph0 : forall i, phl s zl i 0 = RtoC 1 /\ phr s zl i 0 = RtoC 1.
Proof. intros i. unfold phl, phr. rewrite !shiftM_0. destruct (closed s && (i =? first s)%nat)%bool, (closed s && (i + 1 =? past s)%nat)%bool; auto. Qed.

Hypothesis Hc0 : forall i, real_row (c i 0).

Lemma real_keep : forall (d : coef3) XL X0 XR Z, real_row d -> rs d XL X0 XR = Z ->
  rs d (fst XL, 0) (fst X0, 0) (fst XR, 0) = ((fst Z, 0) : C).
Proof.
  intros d XL X0 XR Z (A & B & D) <-. destruct d as [[[a1 a2] [b1 b2]] [c1 c2]]. cbn [fst snd] in A, B, D. subst.
  unfold rs. apply C_eq; cbn [fst snd Cplus Cmult]; ring.
Qed.

Lemma mode_low : forall i k, is_inside s i -> (k <= nz / 2)%nat -> (2 * k <> nz)%nat ->
  keep nz (lhs i) k = keep nz (rfft nz (to_row nz zl tr i (F i))) k.
Proof.
  intros i k Hi Hk Hny. destruct spectra as (Y & E1 & E2 & _).
  assert (V : forall m, is_inside s m -> rfft nz (U m) k = keep nz (Y m) k).
  { intros m Hm. destruct (E1 m k Hm Hk) as (q & Q1 & Q2 & _). rewrite Q1, Q2 by auto. apply Cmult_1_l. }
  specialize (E2 i k Hi Hk). rewrite <- (keep_rfft nz (to_row nz zl tr i (F i)) k) in E2 by (destruct HS as (_ & ? & _); auto).
  unfold lhs. unfold keep at 1. cbv beta. rewrite left_mode, right_mode, !V by (auto using lI_inside, rI_inside).
  unfold keep in *. destruct (Nat.eqb_spec k 0) as [->|K0].
  - destruct (ph0 i) as (P1 & P2). rewrite P1, P2 in *. rewrite !Cmult_1_l in E2.
    assert (R0 : real_row (c i (kwave zl 0))) by (replace (kwave zl 0) with 0 by (unfold kwave; cbn [INR]; unfold Rdiv; ring); apply Hc0).
    pose proof (real_keep _ _ _ _ _ R0 E2) as E. cbn [fst] in E. cbn [fst RtoC]. 
    change (fst (RtoC 1), 0) with (RtoC 1). rewrite !Cmult_1_r. rewrite E. reflexivity.
  - rewrite (proj2 (Nat.eqb_neq (2 * k) nz)) in * by auto. rewrite <- E2. rewrite (Cmult_comm (Y (lI i) k)), (Cmult_comm (Y (rI i) k)). reflexivity.
Qed.

(** (A) no right hand side has the highest mode. *)
Lemma mode_high_zero : forall i k, is_inside s i -> (k <= nz / 2)%nat -> (2 * k = nz)%nat -> (forall i, is_inside s i -> no_nyquist nz (F i)) ->
  keep nz (lhs i) k = keep nz (rfft nz (to_row nz zl tr i (F i))) k.
Proof.
  intros i k Hi Hk Hny HF. destruct spectra as (Y & E1 & E2 & E3). pose proof HS as (_ & Hn & _).
  assert (R0 : forall m, is_inside s m -> rfft nz (to_row nz zl tr m (F m)) k = RtoC 0).
  { intros m Hm. apply no_nyq_mode; auto. apply to_row_no_nyq; auto. }
  assert (V : forall m, is_inside s m -> rfft nz (U m) k = RtoC 0).
  { intros m Hm. destruct (E1 m k Hm Hk) as (q & -> & _). specialize (E3 k Hk R0 m Hm).
    unfold keep. rewrite E3. destruct (k =? 0)%nat, (2 * k =? nz)%nat; apply C_eq; cbn [Cmult RtoC fst snd]; ring. }
  unfold keep, lhs. rewrite left_mode, right_mode, !V, R0 by (auto using lI_inside, rI_inside).
  replace (rs (c i (kwave zl k)) (Cmult (RtoC 0) (keep nz (phl s zl i) k)) (RtoC 0) (Cmult (RtoC 0) (keep nz (phr s zl i) k))) with (RtoC 0); [reflexivity|].
  unfold rs. rewrite !Cmult_0_l, !Cmult_0_r, !Cplus_0_r. reflexivity.
Qed.

(** (B) every row of the matrix is real, and so are the phases. *)
Lemma mode_high_real : forall i k, is_inside s i -> (k <= nz / 2)%nat -> (2 * k = nz)%nat -> tr = None -> (closed s = true -> ts s = 0) ->
  real_row (c i (kwave zl k)) -> keep nz (lhs i) k = keep nz (rfft nz (to_row nz zl tr i (F i))) k.
Proof.
  intros i k Hi Hk Hny Htr Hts Hr. destruct spectra as (Y & E1 & E2 & _). pose proof HS as (_ & Hn & _).
  assert (V : forall m, is_inside s m -> rfft nz (U m) k = ((fst (Y m k), 0) : C)).
  { intros m Hm. destruct (E1 m k Hm Hk) as (q & -> & _ & Q). rewrite (Q Htr), Cmult_1_l. unfold keep. rewrite (proj2 (Nat.eqb_eq (2 * k) nz)) by auto.
    destruct (k =? 0)%nat; reflexivity. }
  assert (P : phl s zl i k = RtoC 1 /\ phr s zl i k = RtoC 1).
  { unfold phl, phr. destruct (closed s) eqn:Ec; cbn [andb]; [|auto]. rewrite (Hts eq_refl), Ropp_0, !shiftM_zero.
    destruct (i =? first s)%nat, (i + 1 =? past s)%nat; auto. }
  destruct P as (P1 & P2). specialize (E2 i k Hi Hk). rewrite P1, P2, !Cmult_1_l in E2.
  pose proof (real_keep _ _ _ _ _ Hr E2) as E.
  assert (Kl : keep nz (phl s zl i) k = RtoC 1) by (unfold keep; rewrite P1; destruct (k =? 0)%nat, (2 * k =? nz)%nat; reflexivity).
  assert (Kr : keep nz (phr s zl i) k = RtoC 1) by (unfold keep; rewrite P2; destruct (k =? 0)%nat, (2 * k =? nz)%nat; reflexivity).
  unfold keep at 1 2. rewrite (proj2 (Nat.eqb_eq (2 * k) nz)) by auto.
  assert (EE : fst (lhs i k) = fst (rfft nz (to_row nz zl tr i (F i)) k)).
  { unfold lhs. rewrite left_mode, right_mode, !V, Kl, Kr, !Cmult_1_r, E by (auto using lI_inside, rI_inside). reflexivity. }
  rewrite EE. reflexivity.
Qed.

Theorem equation : forall i j, is_inside s i -> (j < nz)%nat ->
  ((forall i, is_inside s i -> no_nyquist nz (F i)) \/ (tr = None /\ (closed s = true -> ts s = 0) /\ forall k, real_row (c i k))) ->
  irfft nz (lhs i) j = to_row nz zl tr i (F i) j.
Proof.
  intros i j Hi Hj H. pose proof HS as (_ & Hn & _). rewrite <- (irfft_rfft nz (to_row nz zl tr i (F i)) j) by auto.
  apply irfft_ext; auto. intros k Hk. destruct (Nat.eq_dec (2 * k) nz) as [E|E]; [|apply mode_low; auto].
  destruct H as [H|(A & B & D)]; [apply mode_high_zero; auto|apply mode_high_real; auto].
Qed.
Theorem equation_up_to : forall i, is_inside s i -> exists r, (Nat.even nz = false -> r = 0) /\ forall j, (j < nz)%nat ->
  irfft nz (lhs i) j = to_row nz zl tr i (F i) j + r * sgn j.
Proof.
  intros i Hi. pose proof HS as (_ & Hn & _). set (T := rfft nz (to_row nz zl tr i (F i))).
  exists (if Nat.even nz then fst (lhs i (nz / 2)%nat) - fst (T (nz / 2)%nat) else 0). split; [intros ->; reflexivity|].
  intros j Hj. rewrite <- (irfft_rfft nz (to_row nz zl tr i (F i)) j) by auto. fold T.
  rewrite (irfft_split nz (lhs i) j), (irfft_split nz T j) by auto.
  rewrite (irfft_ext nz (fun k => if (2 * k =? nz)%nat then RtoC 0 else lhs i k) (fun k => if (2 * k =? nz)%nat then RtoC 0 else T k)); [|exact Hn|
    ( intros k Hk; unfold keep; destruct (Nat.eqb_spec (2 * k) nz) as [E|E]; [reflexivity|]; pose proof (mode_low i k Hi Hk E) as M; unfold keep in M;
     rewrite (proj2 (Nat.eqb_neq (2 * k) nz)) in M by auto; fold T in M; exact M)].
  destruct (Nat.even nz); ring.
Qed.
End Master.
