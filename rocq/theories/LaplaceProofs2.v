(** From the result of [solve] to the equations of every mode. *)
From Coq Require Import List Arith Bool ZArith Reals Lia Lra.
From Coquelicot Require Import Complex.
From Verif Require Import Base CyclicModel CyclicSpec CyclicProofs2 CyclicProofs3 CyclicProps FftModel FftSpec FftProofs FftProofs2 FftProofs3 FftProofs4
  LaplaceModel LaplaceSpec LaplaceProofs.
Import ListNotations.
Local Open Scope R_scope.


Lemma xs_le_xe : forall l o p, well_laid l -> (xs l o p <= xe l o p)%nat.
Proof.
  intros l o p (H1 & H2 & H3). unfold xs, xe, LocalNx.
  destruct ((p =? 0)%nat && negb (periodicX o))%bool, ((p =? np l - 1)%nat && negb (periodicX o))%bool; lia.
Qed.
Lemma off_nrows : forall l o p, well_laid l -> periodicX o = false -> (p < np l)%nat -> off (nrows l o) p = (p * mx l + xs l o p)%nat.
Proof.
  intros l o p (H1 & H2 & H3) Hp. induction p as [|p IH]; intros Hlt.
  - cbn [off]. unfold xs. rewrite Hp. reflexivity.
  - cbn [off]. rewrite IH by lia. unfold nrows, xs, xe. rewrite Hp. cbn [negb]. rewrite !andb_true_r.
    rewrite (proj2 (Nat.eqb_neq (S p) 0)), (proj2 (Nat.eqb_neq p (np l - 1))) by lia.
    destruct (Nat.eqb_spec p 0); cbn [Nat.mul]; lia.
Qed.
Lemma off_total : forall l o, well_laid l -> periodicX o = false -> off (nrows l o) (np l) = NX l.
Proof.
  intros l o Hl Hp. pose proof Hl as (H1 & H2 & H3). destruct (np l) as [|P] eqn:E; [lia|]. cbn [off].
  rewrite off_nrows by (auto; lia). unfold nrows, NX. rewrite E. unfold xe. rewrite Hp, E. cbn [negb].
  replace (P =? S P - 1)%nat with true by (symmetry; apply Nat.eqb_eq; lia). cbn [andb].
  unfold xs, LocalNx. rewrite Hp. cbn [negb]. destruct (Nat.eqb_spec P 0); cbn [andb Nat.mul]; lia.
Qed.

(** The owner of a row. *)
Lemma owner : forall l o i, well_laid l -> periodicX o = false -> (i < NX l)%nat ->
  exists p q, (p < np l)%nat /\ (q < nrows l o p)%nat /\ i = (off (nrows l o) p + q)%nat /\ i = (p * mx l + (xs l o p + q))%nat.
Proof.
  intros l o i Hl Hp Hi. rewrite <- (off_total l o Hl Hp) in Hi. destruct (off_find _ _ _ Hi) as (p & q & A & B & D).
  exists p, q. repeat split; auto. rewrite (off_nrows l o p) in D by auto. lia.
Qed.

(** What [solve] says, mode by mode, when x is not periodic. *)
Lemma solve_modes : forall l o nz zl M rhs x0 ord1 ord2 mem u,
  well_laid l -> periodicX o = false ->
  (forall p, (p < np l)%nat -> arrival_order (np l) p (ord1 p)) ->
  (forall p, (p < np l)%nat -> arrival_order (np l) p (ord2 p)) ->
  modes_nonsingular l o nz zl M rhs x0 ->
  solve l o nz zl M rhs x0 ord1 ord2 mem = Ok u ->
  exists (mats : nat -> nat -> tvec) (X : nat -> nat -> C),
    all_matrices l o nz zl M rhs x0 = Ok mats /\
    (forall p q j, (p < np l)%nat -> (q < nrows l o p)%nat -> u p (xs l o p + q)%nat j = to_real o nz (X (off (nrows l o) p + q)%nat) j) /\
    forall k p q, (k <= maxmode o)%nat -> (p < np l)%nat -> (q < nrows l o p)%nat ->
      let i := (off (nrows l o) p + q)%nat in
      Cplus (Cplus (Cmult (va (mats p k) q) (if (i =? 0)%nat then RtoC 0 else X (i - 1)%nat k)) (Cmult (vb (mats p k) q) (X i k)))
            (Cmult (vc (mats p k) q) (if (S i =? NX l)%nat then RtoC 0 else X (i + 1)%nat k)) = vk (mats p k) q.
Proof.
  intros l o nz zl M rhs x0 ord1 ord2 mem u Hl Hp O1 O2 Hns H. unfold solve in H.
  destruct (all_matrices l o nz zl M rhs x0) as [mats| |] eqn:Em; cbn [bind] in H; try discriminate.
  match type of H with context [solveC ?a ?b ?c ?d ?e ?f ?gg ?h] => destruct (solveC a b c d e f gg h) as [x| |] eqn:Es end; cbn [bind] in H; try discriminate.
  injection H as <-. rewrite Hp. cbn [andb].
  set (X := fun i k => nth i (distributed (np l) (nrows l o) (fun p => x p k)) (RtoC 0)).
  assert (HX : forall p q k, (p < np l)%nat -> (q < nrows l o p)%nat -> X (off (nrows l o) p + q)%nat k = x p k q).
  { intros p q k A B. unfold X. apply nth_error_nth. apply (distributed_nth (np l) (nrows l o) (fun p => x p k)); auto. }
  exists mats, X. split; [reflexivity|]. split.
  - intros p q j A B. replace (xs l o p + q - xs l o p)%nat with q by lia. unfold to_real, irfft, fftw_c2r.
    rewrite !HX by auto. f_equal. f_equal. apply rsum_ext. intros i Hi. rewrite HX by auto. reflexivity.
  - intros k p q Hk A B. cbv zeta. set (i := (off (nrows l o) p + q)%nat).
    destruct Hl as (H1 & H2 & H3).
    assert (Hk' : (k < maxmode o + 1)%nat) by lia.
    pose proof (C25_complex_solution (maxmode o + 1) (np l) (periodicX o) (nrows l o) (fun p kz => va (mats p kz)) (fun p kz => vb (mats p kz))
      (fun p kz => vc (mats p kz)) (fun p kz => vk (mats p kz)) ord1 ord2 mem x H1 O1 O2 Es k Hk' (Hns mats Em k Hk)) as [S1 S2].
    rewrite Hp in S2.
    specialize (S2 i _ (distributed_nth (np l) (nrows l o) (fun p i => Row (va (mats p k) i) (vb (mats p k) i) (vc (mats p k) i) (vk (mats p k) i)) p q A B)).
    cbn [ra rb rc rr] in S2. rewrite <- S2. f_equal; [f_equal|].
    + f_equal. unfold left_of. destruct i as [|i']; [reflexivity|]. cbn [Nat.eqb]. unfold X. f_equal. lia.
    + f_equal. unfold right_of. rewrite distributed_len, off_total by (repeat split; auto).
      destruct (S i =? NX l)%nat; [reflexivity|]. unfold X. f_equal. lia.
Qed.

(** The result as a field on the whole plane. *)
Lemma gathers_real : forall l o nz u X, well_laid l -> periodicX o = false ->
  (forall p q j, (p < np l)%nat -> (q < nrows l o p)%nat -> u p (xs l o p + q)%nat j = to_real o nz (X (off (nrows l o) p + q)%nat) j) ->
  gathers l o nz u (fun i => to_real o nz (X i)).
Proof.
  intros l o nz u X Hl Hp H p ix j A B _.
  assert (Hq : (ix - xs l o p < nrows l o p)%nat) by (unfold nrows; lia).
  specialize (H p (ix - xs l o p)%nat j A Hq). replace (xs l o p + (ix - xs l o p))%nat with ix in H by lia.
  rewrite H. rewrite off_nrows by auto. f_equal. f_equal. lia.
Qed.
Lemma gathers_unique : forall l o nz u U V, well_laid l -> periodicX o = false -> gathers l o nz u U -> gathers l o nz u V ->
  forall i j, (i < NX l)%nat -> (j < nz)%nat -> U i j = V i j.
Proof.
  intros l o nz u U V Hl Hp HU HV i j Hi Hj. destruct (owner l o i Hl Hp Hi) as (p & q & A & B & _ & ->).
  assert (R : (xs l o p <= xs l o p + q <= xe l o p)%nat).
  { pose proof (xs_le_xe l o p Hl). unfold nrows in B. lia. }
  rewrite <- (HU p (xs l o p + q)%nat j A R Hj). apply HV; auto.
Qed.
