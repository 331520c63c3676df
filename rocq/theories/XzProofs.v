(** LaplaceXZcyclic: the systems of all modes, numbered by global row. *)
From Coq Require Import List Arith Bool ZArith Reals Lia Lra.
From Coquelicot Require Import Complex.
From Verif Require Import Base CyclicModel CyclicSpec CyclicProofs2 CyclicProofs3 CyclicProps FftModel FftSpec FftProofs FftProofs2 FftProofs3 FftProofs4 FftProofs5
  LaplaceModel LaplaceSpec LaplaceProofs LaplaceProofs2 XzModel XzSpec.
Import ListNotations.
Local Open Scope R_scope.

(** * Numbering of the rows: the layout with one guard cell *)
Definition l1 (M : xzmesh) : layout := Layout (np (xl M)) (mx (xl M)) 1.
Definition o1 : opts := Opts false false false false false false (BFlags false false false false false false false false false false)
  (BFlags false false false false false false false false false false) 0.
Definition nx (M : xzmesh) : nat := (np (xl M) * mx (xl M))%nat.

Lemma l1_laid : forall M, well_laid (xl M) -> well_laid (l1 M).
Proof. intros M (H1 & H2 & H3). repeat split; cbn; auto. Qed.
Lemma nloc_nrows : forall M p, well_laid (xl M) -> nloc M p = nrows (l1 M) o1 p.
Proof.
  intros M p (H1 & H2 & H3). unfold nloc, nrows, xend, xstart, xs, xe, LocalNx. cbn [l1 o1 periodicX np mx g negb]. rewrite !andb_true_r.
  destruct (p =? 0)%nat, (p =? np (xl M) - 1)%nat; lia.
Qed.
Lemma off_ext : forall s t n, (forall p, s p = t p) -> off s n = off t n.
Proof. intros s t n H. induction n as [|n IH]; [reflexivity|]. cbn [off]. rewrite IH, H. reflexivity. Qed.
Lemma off_nloc : forall M p, well_laid (xl M) -> off (nloc M) p = off (nrows (l1 M) o1) p.
Proof. intros M p Hl. apply off_ext. intros q. apply nloc_nrows. exact Hl. Qed.
Lemma off_all : forall M, well_laid (xl M) -> off (nloc M) (np (xl M)) = (nx M + 2)%nat.
Proof. intros M Hl. rewrite off_nloc by auto. pose proof (off_total (l1 M) o1 (l1_laid M Hl) eq_refl) as H. unfold NX in H. cbn [l1 np mx g] in H. unfold nx. lia. Qed.

(** Row [q] of processor [p] is at the global x index [p * mx + xstart + q]. *)
Lemma off_x : forall M p, well_laid (xl M) -> (p < np (xl M))%nat -> (off (nloc M) p + g (xl M) = p * mx (xl M) + xstart M p + 1)%nat.
Proof.
  intros M p Hl Hp. rewrite off_nloc by auto. rewrite (off_nrows (l1 M) o1 p (l1_laid M Hl) eq_refl Hp). destruct Hl as (_ & _ & H3).
  unfold xs, xstart. cbn [l1 o1 periodicX np mx g negb]. rewrite andb_true_r. destruct (p =? 0)%nat; lia.
Qed.
Lemma row_owner : forall M i, well_laid (xl M) -> (i < nx M + 2)%nat ->
  exists p q, (p < np (xl M))%nat /\ (q < nloc M p)%nat /\ i = (off (nloc M) p + q)%nat.
Proof. intros M i Hl Hi. rewrite <- off_all in Hi by auto. apply off_find. exact Hi. Qed.

(** First and last row. *)
Lemma row_first : forall M p q, well_laid (xl M) -> (p < np (xl M))%nat -> (q < nloc M p)%nat ->
  ((p =? 0) && (q =? 0))%nat%bool = (off (nloc M) p + q =? 0)%nat.
Proof.
  intros M p q Hl Hp Hq. pose proof (off_x M p Hl Hp) as Ho. destruct Hl as (H1 & H2 & H3). unfold xstart in Ho.
  destruct (Nat.eqb_spec p 0) as [->|E]; cbn [andb].
  - assert (off (nloc M) 0 = 0)%nat by reflexivity. destruct (Nat.eqb_spec q 0), (Nat.eqb_spec (off (nloc M) 0 + q) 0); auto; lia.
  - symmetry. apply Nat.eqb_neq. nia.
Qed.
Lemma row_last : forall M p q, well_laid (xl M) -> (p < np (xl M))%nat -> (q < nloc M p)%nat ->
  ((p =? np (xl M) - 1) && (q =? nloc M p - 1))%nat%bool = (off (nloc M) p + q =? nx M + 1)%nat.
Proof.
  intros M p q Hl Hp Hq. pose proof (off_x M p Hl Hp) as Ho. pose proof Hl as (H1 & H2 & H3). revert Ho Hq. generalize (off (nloc M) p). intros w.
  unfold nloc, xstart, xend, nx in *. intros Ho Hq.
  destruct (Nat.eqb_spec p (np (xl M) - 1)) as [E|E]; cbn [andb].
  - assert (EP : (p * mx (xl M) + mx (xl M) = np (xl M) * mx (xl M))%nat) by (rewrite E; nia).
    apply eq_true_iff_eq. rewrite !Nat.eqb_eq. destruct (p =? 0)%nat; lia.
  - symmetry. apply Nat.eqb_neq.
    assert (EP : (p * mx (xl M) + 2 * mx (xl M) <= np (xl M) * mx (xl M))%nat) by nia.
    destruct (p =? 0)%nat; lia.
Qed.

(** The coefficients of global row [i], mode [kz], at [y]. *)
Definition grow (M : xzmesh) (fin fout : bflags) (A B : field2) (y kz i : nat) : R * R * R :=
  if (i =? 0)%nat then (if neumann fin kz then (0, 1, -1) else (0, 0.5, 0.5))
  else if (i =? nx M + 1)%nat then (if neumann fout kz then (-1, 1, 0) else (0.5, 0.5, 0))
  else let x := (i + g (xl M) - 1)%nat in
       let kw := kwave (xzl M) kz in
       (face M A y x (x - 1), B y x - face M A y x (x + 1) - face M A y x (x - 1) - A y x * (kw * kw) * mg33 M y x, face M A y x (x + 1)).

Lemma setCoefs_row : forall M fin fout A B y kz p q, well_laid (xl M) -> (kz < nmode M)%nat -> (p < np (xl M))%nat -> (q < nloc M p)%nat ->
  setCoefs M fin fout A B p (y * nmode M + kz)%nat q = grow M fin fout A B y kz (off (nloc M) p + q).
Proof.
  intros M fin fout A B y kz p q Hl Hk Hp Hq. unfold setCoefs.
  assert (Hn0 : nmode M <> 0%nat) by (unfold nmode; lia).
  replace ((y * nmode M + kz) / nmode M)%nat with y by (rewrite Nat.div_add_l, Nat.div_small by auto; lia).
  replace ((y * nmode M + kz) mod nmode M)%nat with kz by (rewrite Nat.add_comm, Nat.mod_add, Nat.mod_small by auto; reflexivity).
  rewrite (row_first M p q), (row_last M p q) by auto. unfold grow. pose proof (off_x M p Hl Hp) as Ho.
  replace (p * mx (xl M) + (q + xstart M p))%nat with (off (nloc M) p + q + g (xl M) - 1)%nat by lia.
  destruct (off (nloc M) p + q =? 0)%nat; [reflexivity|]. destruct (off (nloc M) p + q =? nx M + 1)%nat; [reflexivity|].
  cbv zeta. rewrite !Rplus_0_l. reflexivity.
Qed.

(** The right hand side of global row [i]. *)
Definition grhs (M : xzmesh) (fin fout : bflags) (rhs x0 : field3d) (y kz i : nat) : C :=
  if (i =? 0)%nat then
    if neumann fin kz then Cminus (rfft (xnz M) (given fin rhs x0 y (g (xl M) - 1)%nat) kz) (rfft (xnz M) (given fin rhs x0 y (g (xl M))) kz)
    else Cmult (RtoC 0.5) (Cplus (rfft (xnz M) (given fin rhs x0 y (g (xl M) - 1)%nat) kz) (rfft (xnz M) (given fin rhs x0 y (g (xl M))) kz))
  else if (i =? nx M + 1)%nat then RtoC 0
  else rfft (xnz M) (rhs y (i + g (xl M) - 1)%nat) kz.

Lemma rfft_zero_row : forall n k, rfft n (fun _ => 0) k = RtoC 0.
Proof.
  intros n k. apply C_eq; [rewrite rfft_re|rewrite rfft_im]; rewrite rsum_0; try (intros; ring); cbn [RtoC fst snd]; unfold Rdiv; ring.
Qed.

Lemma rhs_row : forall M fin fout A B rhs x0 y kz p q, well_laid (xl M) -> (kz < nmode M)%nat -> (p < np (xl M))%nat -> (q < nloc M p)%nat ->
  rhs_of M fin fout (setCoefs M fin fout A B) rhs x0 p (y * nmode M + kz)%nat q = grhs M fin fout rhs x0 y kz (off (nloc M) p + q).
Proof.
  intros M fin fout A B rhs x0 y kz p q Hl Hk Hp Hq. unfold rhs_of, cb, cc. rewrite setCoefs_row by auto.
  assert (Hn0 : nmode M <> 0%nat) by (unfold nmode; lia).
  replace ((y * nmode M + kz) / nmode M)%nat with y by (rewrite Nat.div_add_l, Nat.div_small by auto; lia).
  replace ((y * nmode M + kz) mod nmode M)%nat with kz by (rewrite Nat.add_comm, Nat.mod_add, Nat.mod_small by auto; reflexivity).
  rewrite (row_first M p q), (row_last M p q) by auto. unfold grow, grhs, given. pose proof (off_x M p Hl Hp) as Ho.
  replace (p * mx (xl M) + (q + xstart M p))%nat with (off (nloc M) p + q + g (xl M) - 1)%nat by lia.
  destruct (off (nloc M) p + q =? 0)%nat.
  - destruct (b_set fin), (b_rhs fin), (neumann fin kz); cbn [fst snd]; rewrite ?rfft_zero_row; apply C_eq; cbn [Cplus Cminus Copp Cmult RtoC fst snd]; ring.
  - destruct (off (nloc M) p + q =? nx M + 1)%nat; reflexivity.
Qed.

(** * No mode is singular when the equation is elliptic *)
Lemma grows : forall (n : nat) (w x c : nat -> R) (Hn : (1 <= n)%nat) (Hw : forall i, (i <= n)%nat -> 0 < w i) (Hc : forall i, (1 <= i <= n)%nat -> 0 <= c i)
  (Heq : forall i, (1 <= i <= n)%nat -> w i * (x (i + 1)%nat - x i) = w (i - 1)%nat * (x i - x (i - 1)%nat) + c i * x i)
  (s0 : bool) (H0 : if s0 then x 0%nat = x 1%nat else x 0%nat = - x 1%nat),
  0 <= x 1%nat -> forall i, (i <= n)%nat ->
  0 <= w i * (x (i + 1)%nat - x i) /\ w 0%nat * (x 1%nat - x 0%nat) <= w i * (x (i + 1)%nat - x i) /\ x 1%nat <= x (i + 1)%nat /\
  forall k, (1 <= k <= i)%nat -> c k * x k <= w i * (x (i + 1)%nat - x i).
Proof.
  intros n w x c Hn Hw Hc Heq s0 H0 Hx. induction i as [|i IH]; intros Hi.
  - assert (D : 0 <= w 0%nat * (x 1%nat - x 0%nat)).
    { apply Rmult_le_pos; [apply Rlt_le, Hw; lia|]. destruct s0; lra. }
    cbn [Nat.add]. repeat split; try lra. intros k Hk. lia.
  - destruct (IH ltac:(lia)) as (A & B & D & E). assert (Hi1 : (1 <= S i <= n)%nat) by lia. pose proof (Heq (S i) Hi1) as Q.
    replace (S i - 1)%nat with i in Q by lia. replace (i + 1)%nat with (S i) in * by lia.
    pose proof (Hc (S i) Hi1) as C0. assert (C1 : 0 <= c (S i) * x (S i)) by (apply Rmult_le_pos; lra).
    assert (Hpos : x (S i) <= x (S i + 1)%nat).
    { pose proof (Hw (S i) ltac:(lia)) as W. assert (0 <= w (S i) * (x (S i + 1)%nat - x (S i))) by lra. nra. }
    repeat split; try lra. intros k Hk. destruct (Nat.eq_dec k (S i)) as [->|]; [lra|]. pose proof (E k ltac:(lia)). lra.
Qed.

Lemma not_pos : forall (n : nat) (w x c : nat -> R) (Hn : (1 <= n)%nat) (Hw : forall i, (i <= n)%nat -> 0 < w i) (Hc : forall i, (1 <= i <= n)%nat -> 0 <= c i)
  (Heq : forall i, (1 <= i <= n)%nat -> w i * (x (i + 1)%nat - x i) = w (i - 1)%nat * (x i - x (i - 1)%nat) + c i * x i)
  (s0 : bool) (H0 : if s0 then x 0%nat = x 1%nat else x 0%nat = - x 1%nat)
  (s1 : bool) (H1 : if s1 then x (n + 1)%nat = x n else x (n + 1)%nat = - x n)
  (Hdef : s0 = true -> s1 = true -> exists i, (1 <= i <= n)%nat /\ 0 < c i), ~ 0 < x 1%nat.
Proof.
  intros n w x c Hn Hw Hc Heq s0 H0 s1 H1 Hdef Hx. pose proof (grows n w x c Hn Hw Hc Heq s0 H0 (Rlt_le _ _ Hx)) as G0. destruct (G0 n (le_n n)) as (A & B & D & E).
  assert (Hxn : x 1%nat <= x n).
  { destruct (Nat.eq_dec n 1) as [->|]; [lra|]. destruct (G0 (n - 1)%nat ltac:(lia)) as (_ & _ & D' & _). replace (n - 1 + 1)%nat with n in D' by lia. exact D'. }
  destruct s1.
  - rewrite H1 in *. rewrite Rminus_diag_eq, Rmult_0_r in * by reflexivity. destruct s0.
    + destruct (Hdef eq_refl eq_refl) as (i & Hi & Ci). pose proof (E i Hi) as F.
      assert (Hxi : x 1%nat <= x i).
      { destruct (Nat.eq_dec i 1) as [->|]; [lra|]. destruct (G0 (i - 1)%nat ltac:(lia)) as (_ & _ & D' & _). replace (i - 1 + 1)%nat with i in D' by lia. exact D'. }
      nra.
    + pose proof (Hw 0%nat ltac:(lia)) as W. rewrite H0 in B. nra.
  - pose proof (Hw n ltac:(lia)) as W. rewrite H1 in A. nra.
Qed.

Lemma shoot : forall n w x c s0 s1, (1 <= n)%nat -> (forall i, (i <= n)%nat -> 0 < w i) -> (forall i, (1 <= i <= n)%nat -> 0 <= c i) ->
  (forall i, (1 <= i <= n)%nat -> w i * (x (i + 1)%nat - x i) = w (i - 1)%nat * (x i - x (i - 1)%nat) + c i * x i) ->
  (if s0 : bool then x 0%nat = x 1%nat else x 0%nat = - x 1%nat) -> (if s1 : bool then x (n + 1)%nat = x n else x (n + 1)%nat = - x n) ->
  (s0 = true -> s1 = true -> exists i, (1 <= i <= n)%nat /\ 0 < c i) ->
  forall i, (i <= n + 1)%nat -> x i = 0.
Proof.
  intros n w x c s0 s1 Hn Hw Hc Heq H0 H1 Hdef.
  assert (P : ~ 0 < x 1%nat) by (eapply (not_pos n w x c); eauto).
  assert (N : ~ 0 < - x 1%nat).
  { apply (not_pos n w (fun i => - x i) c) with (s0 := s0) (s1 := s1); auto.
    - intros i Hi. specialize (Heq i Hi). lra.
    - destruct s0; lra.
    - destruct s1; lra. }
  assert (Z1 : x 1%nat = 0) by lra. assert (Z0 : x 0%nat = 0) by (destruct s0; lra).
  assert (HZ : forall i, (i <= n)%nat -> x i = 0 /\ x (i + 1)%nat = 0).
  { induction i as [|i IH]; intros Hi; [auto|]. destruct (IH ltac:(lia)) as (A & B). replace (i + 1)%nat with (S i) in B by lia. split; [exact B|].
    pose proof (Heq (S i) ltac:(lia)) as Q. replace (S i - 1)%nat with i in Q by lia. rewrite A, B in Q. pose proof (Hw (S i) Hi). 
    replace (w i * (0 - 0) + c (S i) * 0) with 0 in Q by ring. rewrite Rminus_0_r in Q. apply Rmult_integral in Q. destruct Q; lra. }
  intros i Hi. destruct (Nat.eq_dec i (n + 1)) as [->|]; [apply (HZ n); lia|apply HZ; lia].
Qed.
