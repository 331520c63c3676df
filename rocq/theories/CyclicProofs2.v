(** Distribution of the systems over the processors, and the two communication stages. *)
From Coq Require Import List Arith Bool Lia Permutation.
From Verif Require Import Base CyclicModel CyclicSpec CyclicProofs.
Import ListNotations.

(** ** Distribution *)
Lemma nsp_myns : forall nsys n p, nsp_of nsys n p = myns nsys n p.
Proof. intros. unfold nsp_of, myns. destruct (p <? nsys mod n); lia. Qed.

Lemma sys0_min : forall nsys n p, sys0 nsys n p = (nsys / n) * p + Nat.min p (nsys mod n).
Proof.
  intros. unfold sys0. destruct (p <? nsys mod n) eqn:E.
  - apply Nat.ltb_lt in E. lia.
  - apply Nat.ltb_ge in E. lia.
Qed.

Lemma sys0_succ : forall nsys n p, sys0 nsys n (S p) = sys0 nsys n p + myns nsys n p.
Proof.
  intros. rewrite !sys0_min. unfold myns.
  destruct (p <? nsys mod n) eqn:E; [apply Nat.ltb_lt in E|apply Nat.ltb_ge in E]; nia.
Qed.

Lemma s0_send_eq : forall nsys n p, s0_send nsys n p = sys0 nsys n p.
Proof.
  intros nsys n. induction p as [|p IH]; [rewrite sys0_min; cbn [s0_send]; lia|].
  rewrite sys0_succ. cbn [s0_send]. rewrite IH, nsp_myns. reflexivity.
Qed.

Lemma s0_recv_eq : forall nsys n p, s0_recv nsys n p = sys0 nsys n p.
Proof.
  intros. rewrite sys0_min. unfold s0_recv.
  destruct (nsys mod n <? p) eqn:E; [apply Nat.ltb_lt in E|apply Nat.ltb_ge in E]; nia.
Qed.

Lemma sys0_end : forall nsys n, n <> 0 -> sys0 nsys n n = nsys.
Proof.
  intros nsys n Hn. rewrite sys0_min.
  pose proof (Nat.mod_upper_bound nsys n Hn). pose proof (Nat.div_mod nsys n Hn).
  rewrite Nat.min_r by lia. nia.
Qed.

Lemma sys0_mono : forall nsys n p q, p <= q -> sys0 nsys n p <= sys0 nsys n q.
Proof. intros nsys n p q H. induction H; [lia|]. rewrite sys0_succ. lia. Qed.

Lemma range_end : forall nsys n p, p < n -> sys0 nsys n p + myns nsys n p <= nsys.
Proof.
  intros nsys n p H. rewrite <- sys0_succ. rewrite <- (sys0_end nsys n) at 2 by lia. apply sys0_mono. lia.
Qed.

Lemma range_disjoint : forall nsys n p q s,
  sys0 nsys n p <= s -> s < sys0 nsys n p + myns nsys n p ->
  sys0 nsys n q <= s -> s < sys0 nsys n q + myns nsys n q -> p = q.
Proof.
  intros nsys n p q s H1 H2 H3 H4. rewrite <- sys0_succ in H2, H4.
  destruct (Nat.lt_trichotomy p q) as [H|[H|H]]; [|exact H|].
  - pose proof (sys0_mono nsys n (S p) q ltac:(lia)). lia.
  - pose proof (sys0_mono nsys n (S q) p ltac:(lia)). lia.
Qed.

Lemma find_range : forall nsys n m s, s < sys0 nsys n m ->
  exists p, p < m /\ sys0 nsys n p <= s /\ s < sys0 nsys n p + myns nsys n p.
Proof.
  intros nsys n. induction m as [|m IH]; intros s H.
  - rewrite sys0_min in H. lia.
  - rewrite sys0_succ in H. destruct (le_lt_dec (sys0 nsys n m) s) as [Hge|Hlt].
    + exists m. lia.
    + destruct (IH s Hlt) as (p & Hp & Hq). exists p. split; [lia|exact Hq].
Qed.

Lemma range_cover : forall nsys n s, n <> 0 -> s < nsys ->
  exists p i, p < n /\ i < myns nsys n p /\ s = sys0 nsys n p + i.
Proof.
  intros nsys n s Hn Hs. rewrite <- (sys0_end nsys n Hn) in Hs.
  apply find_range in Hs. destruct Hs as (p & Hp & H1 & H2).
  exists p, (s - sys0 nsys n p). repeat split; lia.
Qed.

Lemma myns_close : forall nsys n p q, myns nsys n p <= myns nsys n q + 1.
Proof. intros. unfold myns. destruct (_ <? _), (_ <? _); lia. Qed.

(** ** Order of arrival *)
Lemma arrival_in : forall n d ord, arrival_order n d ord -> forall p, In p ord <-> p < n /\ p <> d.
Proof.
  intros n d ord H p. split.
  - intros Hp. apply (Permutation_in _ H) in Hp. apply filter_In in Hp. destruct Hp as (Hp & Hd).
    apply in_seq in Hp. apply negb_true_iff, Nat.eqb_neq in Hd. lia.
  - intros (Hp & Hd). apply (Permutation_in _ (Permutation_sym H)). apply filter_In. split.
    + apply in_seq. lia.
    + apply negb_true_iff, Nat.eqb_neq. exact Hd.
Qed.

Section P.
Variable F : Type.

(** ** Loops over systems or processors *)
Lemma for_sys_inv : forall {A} (d : A) f m g, for_sys d f m = Ok g -> forall i, i < m -> f i = Ok (g i).
Proof.
  intros A d f. induction m as [|m IH]; intros g H i Hi; [lia|]. cbn [for_sys] in H.
  destruct (for_sys d f m) as [h| |] eqn:E; cbn [bind] in H; try discriminate.
  destruct (f m) as [v| |] eqn:Ef; cbn [bind] in H; try discriminate. injection H as <-.
  destruct (Nat.eq_dec i m) as [->|Hne].
  - rewrite upd_same. exact Ef.
  - rewrite upd_other by exact Hne. apply IH; [reflexivity|lia].
Qed.

Lemma for_sys_ok : forall {A} (d : A) f m, (forall i, i < m -> exists v, f i = Ok v) -> exists g, for_sys d f m = Ok g.
Proof.
  intros A d f. induction m as [|m IH]; intros H; cbn [for_sys]; [eexists; reflexivity|].
  destruct IH as (g & ->); [intros i Hi; apply H; lia|].
  destruct (H m ltac:(lia)) as (v & ->). cbn [bind]. eexists. reflexivity.
Qed.

Lemma for_sys_not_ub : forall {A} (d : A) f m, (forall i, i < m -> f i <> UB) -> for_sys d f m <> UB.
Proof.
  intros A d f. induction m as [|m IH]; intros H; cbn [for_sys]; [discriminate|].
  specialize (IH (fun i Hi => H i ltac:(lia))). specialize (H m ltac:(lia)).
  destruct (for_sys d f m); cbn [bind]; try discriminate; [|contradiction].
  destruct (f m); cbn [bind]; try discriminate. contradiction.
Qed.

(** ** Copies *)
Lemma copy_row_in : forall w off (src dst : nat -> F) j, j < w -> copy_row F w off src dst (off + j) = src j.
Proof.
  induction w as [|w IH]; intros off src dst j Hj; [lia|]. cbn [copy_row].
  destruct (Nat.eq_dec j w) as [->|Hne]; [apply upd_same|].
  rewrite upd_other by lia. apply IH. lia.
Qed.
Lemma copy_row_out : forall w off (src dst : nat -> F) k, k < off \/ off + w <= k -> copy_row F w off src dst k = dst k.
Proof.
  induction w as [|w IH]; intros off src dst j Hj; [reflexivity|]. cbn [copy_row].
  rewrite upd_other by lia. apply IH. lia.
Qed.
Lemma copy_rows_at : forall m w off (src dst : nat -> nat -> F) i, i < m ->
  copy_rows F m w off src dst i = copy_row F w off (src i) (dst i).
Proof.
  assert (Hout : forall m w off (src dst : nat -> nat -> F) i, m <= i -> copy_rows F m w off src dst i = dst i).
  { induction m as [|m IH]; intros w off src dst i Hi; [reflexivity|]. cbn [copy_rows].
    rewrite upd_other by lia. apply IH. lia. }
  induction m as [|m IH]; intros w off src dst i Hi; [lia|]. cbn [copy_rows].
  destruct (Nat.eq_dec i m) as [->|Hne].
  - rewrite upd_same. rewrite Hout by lia. reflexivity.
  - rewrite upd_other by lia. apply IH. lia.
Qed.
Lemma copy_vec_in : forall m off (src dst : nat -> F) i, i < m -> copy_vec F m off src dst (off + i) = src i.
Proof.
  induction m as [|m IH]; intros off src dst i Hi; [lia|]. cbn [copy_vec].
  destruct (Nat.eq_dec i m) as [->|Hne]; [apply upd_same|].
  rewrite upd_other by lia. apply IH. lia.
Qed.
Lemma copy_vec_out : forall m off (src dst : nat -> F) k, k < off \/ off + m <= k -> copy_vec F m off src dst k = dst k.
Proof.
  induction m as [|m IH]; intros off src dst k Hk; [reflexivity|]. cbn [copy_vec].
  rewrite upd_other by lia. apply IH. lia.
Qed.

(** ** Gather *)
Lemma nth_error_map_seq : forall {A} (f : nat -> A) n k, k < n -> nth_error (map f (seq 0 n)) k = Some (f k).
Proof.
  intros A f n k H.
  rewrite nth_error_map.
  rewrite (nth_error_nth' (seq 0 n) 0) by (rewrite seq_length; lia). rewrite seq_nth by lia. reflexivity.
Qed.

Lemma gather_msg_ok : forall nsys n d (myif : nat -> nat -> F), d < n ->
  gather_msg F nsys n d myif
  = Ok (map (fun k => myif (sys0 nsys n d + k / 8) (k mod 8)) (seq 0 (8 * myns nsys n d))).
Proof.
  intros nsys n d myif Hd. unfold gather_msg. cbv zeta. rewrite s0_send_eq, nsp_myns.
  pose proof (range_end nsys n d Hd).
  destruct (8 * sys0 nsys n d + 8 * myns nsys n d <=? 8 * nsys) eqn:E.
  - f_equal. apply map_ext. intros k.
    replace (8 * sys0 nsys n d + k) with (k + sys0 nsys n d * 8) by lia.
    rewrite Nat.div_add, Nat.mod_add by lia. f_equal. lia.
  - apply Nat.leb_gt in E. lia.
Qed.

Lemma gather_loop_spec : forall nsys n d (myif : nat -> nat -> nat -> F) buf0 ord ifcs,
  d < n ->
  exists ifcs', gather_loop F nsys n d (fun p => gather_msg F nsys n d (myif p)) buf0 ord ifcs = Ok ifcs' /\
    forall i, i < myns nsys n d -> forall p j, j < 8 ->
      (In p ord -> ifcs' i (8 * p + j) = myif p (sys0 nsys n d + i) j) /\
      (~ In p ord -> ifcs' i (8 * p + j) = ifcs i (8 * p + j)).
Proof.
  intros nsys n d myif buf0. induction ord as [|q t IH]; intros ifcs Hd.
  - exists ifcs. split; [reflexivity|]. intros i Hi p j Hj. split; [intros []|reflexivity].
  - cbn [gather_loop]. rewrite gather_msg_ok by exact Hd. cbn [bind]. unfold mpi_recv.
    rewrite map_length, seq_length.
    replace (8 * myns nsys n d <=? 2 * myns nsys n d * 4) with true by (symmetry; apply Nat.leb_le; lia).
    replace (2 * myns nsys n d * 4 <=? recv_cap nsys n d) with true
      by (symmetry; apply Nat.leb_le; unfold recv_cap; lia).
    cbn [andb bind].
    match goal with |- exists _, gather_loop _ _ _ _ _ _ _ ?c = _ /\ _ => set (ifcs1 := c) end.
    destruct (IH ifcs1 Hd) as (ifcs' & -> & Hs). exists ifcs'. split; [reflexivity|].
    intros i Hi p j Hj. destruct (Hs i Hi p j Hj) as (Hin & Hnin).
    assert (Hq : ifcs1 i (8 * p + j) = if p =? q then myif p (sys0 nsys n d + i) j else ifcs i (8 * p + j)).
    { unfold ifcs1. rewrite copy_rows_at by exact Hi. destruct (p =? q) eqn:E.
      - apply Nat.eqb_eq in E. subst q. rewrite copy_row_in by exact Hj.
        rewrite nth_error_map_seq by lia.
        replace (8 * i + j) with (j + i * 8) by lia.
        rewrite Nat.div_add, Nat.mod_add by lia. rewrite Nat.div_small, Nat.mod_small by lia. f_equal.
      - apply Nat.eqb_neq in E. apply copy_row_out. lia. }
    split.
    + intros [->|H].
      * destruct (in_dec Nat.eq_dec p t) as [Hpt|Hpt]; [exact (Hin Hpt)|].
        rewrite (Hnin Hpt), Hq. rewrite Nat.eqb_refl. reflexivity.
      * exact (Hin H).
    + intros Hn. rewrite Hnin by (intros H; apply Hn; right; exact H). rewrite Hq.
      destruct (p =? q) eqn:E; [|reflexivity]. apply Nat.eqb_eq in E. subst q. exfalso. apply Hn. left. reflexivity.
Qed.

(** ** Scatter *)
Lemma scatter_msg_nth : forall nsys n p d (ifx : nat -> nat -> F) i, i < myns nsys n p ->
  nth_error (scatter_msg F nsys n p d ifx) (2 * i) = Some (ifx i (2 * d)) /\
  nth_error (scatter_msg F nsys n p d ifx) (2 * i + 1) = Some (ifx i (2 * d + 1)).
Proof.
  intros nsys n p d ifx. unfold scatter_msg. generalize (myns nsys n p) as m.
  assert (H : forall m a i, i < m ->
    nth_error (flat_map (fun i => [ifx i (2 * d); ifx i (2 * d + 1)]) (seq a m)) (2 * i) = Some (ifx (a + i) (2 * d)) /\
    nth_error (flat_map (fun i => [ifx i (2 * d); ifx i (2 * d + 1)]) (seq a m)) (2 * i + 1) = Some (ifx (a + i) (2 * d + 1))).
  { induction m as [|m IH]; intros a i Hi; [lia|]. cbn [seq flat_map app].
    destruct i as [|i].
    - replace (2 * 0) with 0 by lia. rewrite Nat.add_0_r. split; reflexivity.
    - destruct (IH (S a) i ltac:(lia)) as (H1 & H2).
      replace (2 * S i) with (S (S (2 * i))) by lia.
      replace (S (S (2 * i)) + 1) with (S (S (2 * i + 1))) by lia.
      cbn [nth_error]. rewrite H1, H2. replace (S a + i) with (a + S i) by lia. split; reflexivity. }
  intros m i Hi. exact (H m 0 i Hi).
Qed.
Lemma scatter_msg_len : forall nsys n p d (ifx : nat -> nat -> F),
  length (scatter_msg F nsys n p d ifx) = 2 * myns nsys n p.
Proof.
  intros. unfold scatter_msg.
  assert (H : forall m a, length (flat_map (fun i => [ifx i (2 * d); ifx i (2 * d + 1)]) (seq a m)) = 2 * m).
  { induction m as [|m IH]; intros a; [reflexivity|]. cbn [seq flat_map app length]. rewrite IH. lia. }
  apply H.
Qed.

Lemma scatter_loop_spec : forall nsys n d (ifx : nat -> nat -> nat -> F) buf0 ord x1 xn,
  (forall p, In p ord -> p < n) -> d < n ->
  exists x1' xn', scatter_loop F nsys n d ifx buf0 ord x1 xn = Ok (x1', xn') /\
    forall p i, i < myns nsys n p ->
      (In p ord -> x1' (sys0 nsys n p + i) = ifx p i (2 * d) /\ xn' (sys0 nsys n p + i) = ifx p i (2 * d + 1)) /\
      (~ In p ord -> x1' (sys0 nsys n p + i) = x1 (sys0 nsys n p + i) /\
                     xn' (sys0 nsys n p + i) = xn (sys0 nsys n p + i)).
Proof.
  intros nsys n d ifx buf0. induction ord as [|q t IH]; intros x1 xn Hord Hd.
  - exists x1, xn. split; [reflexivity|]. intros p i Hi. split; [intros []|split; reflexivity].
  - cbn [scatter_loop]. rewrite nsp_myns.
    assert (Ht : forall p, In p t -> p < n) by (intros p Hp; apply Hord; right; exact Hp).
    destruct (myns nsys n q =? 0) eqn:E0.
    + apply Nat.eqb_eq in E0.
      destruct (IH x1 xn Ht Hd) as (x1' & xn' & -> & Hs). exists x1', xn'. split; [reflexivity|].
      intros p i Hi. destruct (Hs p i Hi) as (Hin & Hnin). split.
      * intros [->|H]; [lia|exact (Hin H)].
      * intros Hn. apply Hnin. intros H. apply Hn. right. exact H.
    + unfold mpi_recv. rewrite scatter_msg_len. rewrite Nat.leb_refl.
      replace (2 * myns nsys n q <=? recv_cap nsys n d) with true
        by (symmetry; apply Nat.leb_le; unfold recv_cap; pose proof (myns_close nsys n q d); lia).
      cbn [andb bind]. cbv zeta. rewrite s0_recv_eq.
      replace (sys0 nsys n q + myns nsys n q <=? nsys) with true
        by (symmetry; apply Nat.leb_le; apply range_end; apply Hord; left; reflexivity).
      match goal with |- exists _ _, scatter_loop _ _ _ _ _ _ _ ?a ?b = _ /\ _ => set (y1 := a); set (yn := b) end.
      destruct (IH y1 yn Ht Hd) as (x1' & xn' & -> & Hs). exists x1', xn'. split; [reflexivity|].
      intros p i Hi. destruct (Hs p i Hi) as (Hin & Hnin).
      assert (Hq : p <> q -> sys0 nsys n p + i < sys0 nsys n q \/ sys0 nsys n q + myns nsys n q <= sys0 nsys n p + i).
      { intros Hne. destruct (le_lt_dec (sys0 nsys n q) (sys0 nsys n p + i)) as [Hle|Hlt]; [|left; exact Hlt].
        destruct (le_lt_dec (sys0 nsys n q + myns nsys n q) (sys0 nsys n p + i)) as [Hle2|Hlt2]; [right; exact Hle2|].
        exfalso. apply Hne. apply (range_disjoint nsys n p q (sys0 nsys n p + i)); lia. }
      assert (Hy : p = q -> y1 (sys0 nsys n p + i) = ifx p i (2 * d) /\ yn (sys0 nsys n p + i) = ifx p i (2 * d + 1)).
      { intros ->. unfold y1, yn. rewrite !copy_vec_in by exact Hi.
        destruct (scatter_msg_nth nsys n q d (ifx q) i Hi) as (-> & ->). split; reflexivity. }
      split.
      * intros [->|H].
        -- destruct (in_dec Nat.eq_dec p t) as [Hpt|Hpt]; [exact (Hin Hpt)|].
           destruct (Hnin Hpt) as (-> & ->). apply Hy. reflexivity.
        -- exact (Hin H).
      * intros Hn. destruct (Hnin (fun H => Hn (or_intror H))) as (-> & ->).
        assert (Hne : p <> q) by (intros ->; apply Hn; left; reflexivity).
        unfold y1, yn. rewrite !copy_vec_out by (apply Hq; exact Hne). split; reflexivity.
Qed.

Lemma scatter_spec : forall nsys n d (ifx : nat -> nat -> nat -> F) ord mem x1 xn,
  arrival_order n d ord -> d < n -> 1 < n ->
  exists x1' xn', scatter F nsys n d ifx ord mem x1 xn = Ok (x1', xn') /\
    forall p i, p < n -> i < myns nsys n p ->
      x1' (sys0 nsys n p + i) = ifx p i (2 * d) /\ xn' (sys0 nsys n p + i) = ifx p i (2 * d + 1).
Proof.
  intros nsys n d ifx ord mem x1 xn Ho Hd Hn. unfold scatter.
  replace (1 <? n) with true by (symmetry; apply Nat.ltb_lt; exact Hn). cbv zeta.
  replace (sys0 nsys n d + myns nsys n d <=? nsys) with true by (symmetry; apply Nat.leb_le; apply range_end; exact Hd).
  match goal with |- exists _ _, scatter_loop _ _ _ _ _ _ _ ?a ?b = _ /\ _ => set (y1 := a); set (yn := b) end.
  destruct (scatter_loop_spec nsys n d ifx (m_recv mem) ord y1 yn) as (x1' & xn' & -> & Hs).
  { intros p Hp. apply (arrival_in _ _ _ Ho) in Hp. lia. }
  { exact Hd. }
  exists x1', xn'. split; [reflexivity|]. intros p i Hp Hi.
  destruct (Hs p i Hi) as (Hin & Hnin).
  destruct (Nat.eq_dec p d) as [->|Hne].
  - destruct Hnin as (-> & ->).
    { intros H. apply (arrival_in _ _ _ Ho) in H. lia. }
    unfold y1, yn. rewrite !copy_vec_in by exact Hi. split; reflexivity.
  - apply Hin. apply (arrival_in _ _ _ Ho). split; assumption.
Qed.
End P.
