(** The loops inside a processor. *)
From Coq Require Import List Arith Bool Lia ZArith.
From Verif Require Import MpiModel PcrModel.
Import ListNotations.

Section S.
Variable F : Type.
Variables (f0 f1 : F) (fadd fmul fsub fdiv : F -> F -> F) (fopp : F -> F).
Variable is_zero : F -> bool.
Hypothesis is_zero_spec : forall x, is_zero x = true <-> x = f0.
Variables (nsys xstart n_mpi nprocs : nat).
Notation nonzero := (nonzero F is_zero nsys).
Notation matrix := (matrix F).
Notation vector := (vector F).
Notation reduce_row := (reduce_row F fadd fmul).

Lemma nonzero_ok v : (forall kz, kz < nsys -> v kz <> f0) -> nonzero v = true.
Proof.
  intros H. apply forallb_forall. intros kz Hk. apply in_seq in Hk. destruct (is_zero (v kz)) eqn:E; [|reflexivity]. apply is_zero_spec in E. destruct (H kz); [lia|exact E].
Qed.
Lemma unpack_pack (d e : matrix) i j kz k : unpack F e j (pack F d i) kz k = if k =? j then d kz i else e kz k.
Proof.
  unfold unpack, set_row, pack. destruct (k =? j); [|reflexivity].
  assert (E : forall r, r < 4 -> (r + 4 * kz) / 4 = kz /\ (r + 4 * kz) mod 4 = r).
  { intros r Hr. split; [symmetry; apply (Nat.div_unique _ 4 kz r); lia|symmetry; apply (Nat.mod_unique _ 4 kz r); lia]. }
  destruct (E 0) as [A0 B0]; [lia|]. destruct (E 1) as [A1 B1]; [lia|]. destruct (E 2) as [A2 B2]; [lia|]. destruct (E 3) as [A3 B3]; [lia|].
  rewrite A0, A1, A2, A3, B0, B1, B2, B3. destruct (d kz i); reflexivity.
Qed.

Definition forward_new (dist : nat) (d : matrix) (kz k : nat) : cell F :=
  let ip := k - dist in let inn := Nat.min (k + dist) (n_mpi + 1) in
  reduce_row (fdiv (fopp (ca F (d kz k))) (cb F (d kz ip))) (fdiv (fopp (cc F (d kz k))) (cb F (d kz inn))) (d kz ip) (d kz k) (d kz inn).
Lemma mod_split k D : D <> 0 -> k mod D = 0 -> k = D * (k / D).
Proof. intros H E. rewrite (Nat.div_mod k D) at 1 by exact H. lia. Qed.
Lemma forward_rows_ok dist q (d0 : matrix) : 0 < dist -> n_mpi = q * (2 * dist) ->
  (forall kz k, kz < nsys -> (exists j, k = (2 * j + 1) * dist) -> k <= n_mpi -> cb F (d0 kz k) <> f0) ->
  (forall kz, kz < nsys -> cb F (d0 kz (n_mpi + 1)) <> f0) ->
  forall fuel j d, 1 <= j -> j <= S q -> q < fuel + j ->
  (forall kz k, d kz k = if (2 * dist <=? k) && (k <? 2 * dist * j) && (k mod (2 * dist) =? 0) then forward_new dist d0 kz k else d0 kz k) ->
  exists d', forward_rows F fadd fmul fdiv fopp is_zero nsys n_mpi (S fuel) (2 * dist * j) dist d = Ret d' /\
  forall kz k, d' kz k = if (2 * dist <=? k) && (k <=? n_mpi) && (k mod (2 * dist) =? 0) then forward_new dist d0 kz k else d0 kz k.
Proof.
  intros Hd Hq HB HN. induction fuel as [|fuel IH]; intros j d Hj HJQ HF HI.
  - cbn [forward_rows]. destruct (Nat.ltb_spec n_mpi (2 * dist * j)) as [G|G].
    + exists d. split; [reflexivity|]. intros kz k. rewrite HI.
      destruct (Nat.leb_spec (2 * dist) k), (k mod (2 * dist) =? 0) eqn:M; cbn [andb]; rewrite ?andb_false_r; try reflexivity. rewrite !andb_true_r.
      apply Nat.eqb_eq in M. apply mod_split in M; [|lia]. set (m := k / (2 * dist)) in *.
      destruct (Nat.ltb_spec k (2 * dist * j)) as [A|A], (Nat.leb_spec k n_mpi) as [B|B]; try reflexivity; exfalso; [|lia].
      rewrite M, Hq in B. rewrite M in A. rewrite Hq in G. assert (q < m) by nia. assert (m < j) by nia. lia.
    + exfalso. nia.
  - remember (S fuel) as fu. cbn [forward_rows]. destruct (Nat.ltb_spec n_mpi (2 * dist * j)) as [G|G].
    + exists d. split; [reflexivity|]. intros kz k. rewrite HI.
      destruct (Nat.leb_spec (2 * dist) k), (k mod (2 * dist) =? 0) eqn:M; cbn [andb]; rewrite ?andb_false_r; try reflexivity. rewrite !andb_true_r.
      apply Nat.eqb_eq in M. apply mod_split in M; [|lia]. set (m := k / (2 * dist)) in *.
      destruct (Nat.ltb_spec k (2 * dist * j)) as [A|A], (Nat.leb_spec k n_mpi) as [B|B]; try reflexivity; exfalso; [|lia].
      rewrite M, Hq in B. rewrite M in A. rewrite Hq in G. assert (q < m) by nia. assert (m < j) by nia. lia.
    + set (i := 2 * dist * j) in *.
      assert (HQ : j <= q) by (subst i; rewrite Hq in G; nia).
      assert (IP : i - dist = (2 * (j - 1) + 1) * dist) by (unfold i; nia).
      assert (OLD : forall kz k, (k mod (2 * dist) <> 0 \/ i <= k) -> d kz k = d0 kz k).
      { intros kz k Hk. rewrite HI. destruct (Nat.leb_spec (2 * dist) k), (Nat.ltb_spec k i), (Nat.eqb_spec (k mod (2 * dist)) 0); cbn [andb]; try reflexivity. exfalso. lia. }
      assert (ODD : forall m, ((2 * m + 1) * dist) mod (2 * dist) <> 0).
      { intros m E. replace ((2 * m + 1) * dist) with (dist + m * (2 * dist)) in E by lia. rewrite Nat.mod_add in E by lia. rewrite Nat.mod_small in E by lia. lia. }
      assert (D1 : forall kz, d kz (i - dist) = d0 kz (i - dist)). { intros kz. apply OLD. left. rewrite IP. apply ODD. }
      assert (D2 : forall kz, d kz i = d0 kz i). { intros kz. apply OLD. right. lia. }
      assert (IN : Nat.min (i + dist) (n_mpi + 1) = n_mpi + 1 \/ (i + dist <= n_mpi /\ Nat.min (i + dist) (n_mpi + 1) = (2 * j + 1) * dist)).
      { destruct (Nat.eq_dec j q) as [->|NE]; [left|right]; unfold i; rewrite Hq; nia. }
      assert (D3 : forall kz, d kz (Nat.min (i + dist) (n_mpi + 1)) = d0 kz (Nat.min (i + dist) (n_mpi + 1))).
      { intros kz. apply OLD. destruct IN as [->|[_ ->]]; [right; lia|left; apply ODD]. }
      assert (B1 : nonzero (fun kz => cb F (d kz (i - dist))) = true). { apply nonzero_ok. intros kz Hk. rewrite D1. apply HB; [exact Hk|exists (j - 1); exact IP|lia]. }
      assert (B2 : nonzero (fun kz => cb F (d kz (Nat.min (i + dist) (n_mpi + 1)))) = true).
      { apply nonzero_ok. intros kz Hk. rewrite D3. destruct IN as [->|[A ->]]; [apply HN; exact Hk|]. apply HB; [exact Hk|exists j; reflexivity|nia]. }
      rewrite B1, B2. cbn [andb must bind]. replace (i + (dist + (dist + 0))) with (2 * dist * (j + 1)) by (unfold i; lia).
      replace (i + 2 * dist) with (2 * dist * (j + 1)) by (unfold i; lia).
      subst fu. apply IH; [lia|lia|lia|]. intros kz k. unfold set_row. rewrite D1, D2, D3. destruct (Nat.eqb_spec k i) as [->|NE].
      * replace ((2 * dist <=? i) && (i <? 2 * dist * (j + 1)) && (i mod (2 * dist) =? 0)) with true; [reflexivity|].
        symmetry. rewrite !andb_true_iff. split; [split; [apply Nat.leb_le|apply Nat.ltb_lt]; unfold i; nia|]. apply Nat.eqb_eq. unfold i. rewrite Nat.mul_comm. apply Nat.mod_mul. lia.
      * rewrite HI. destruct (Nat.leb_spec (2 * dist) k), (k mod (2 * dist) =? 0) eqn:M; cbn [andb]; rewrite ?andb_false_r; try reflexivity. rewrite !andb_true_r.
        apply Nat.eqb_eq in M. apply mod_split in M; [|lia]. set (m := k / (2 * dist)) in *.
        destruct (Nat.ltb_spec k i) as [A|A], (Nat.ltb_spec k (2 * dist * (j + 1))) as [B|B]; try reflexivity; exfalso; [unfold i in *; lia|].
        apply NE. unfold i in *. rewrite M in A, B |- *. assert (m = j) by nia. congruence.
Qed.

(** Back substitution of one level. *)
Definition back_new (dist : nat) (d : matrix) (x : vector) (kz k : nat) : F :=
  fdiv (fsub (fsub (cr F (d kz k)) (fmul (cc F (d kz k)) (x kz (k + dist)))) (fmul (ca F (d kz k)) (x kz (k - dist)))) (cb F (d kz k)).
Lemma back_rows_ok dist (d : matrix) (x0 : vector) top : 0 < dist ->
  (forall kz k, kz < nsys -> (exists j, k = (2 * j + 1) * dist) -> k <= (2 * top + 1) * dist -> cb F (d kz k) <> f0) ->
  forall j fuel x, j <= top -> j <= fuel ->
  (forall kz k, x kz k = if ((2 * j + 1) * dist <? k) && (k <=? (2 * top + 1) * dist) && (k mod (2 * dist) =? dist) then back_new dist d x0 kz k else x0 kz k) ->
  exists x', back_rows F fmul fsub fdiv is_zero nsys (S fuel) ((2 * j + 1) * dist) dist d x = Ret x' /\
  forall kz k, x' kz k = if (k <=? (2 * top + 1) * dist) && (k mod (2 * dist) =? dist) then back_new dist d x0 kz k else x0 kz k.
Proof.
  intros Hd HB. assert (ODD : forall m, ((2 * m + 1) * dist) mod (2 * dist) = dist).
  { intros m. replace ((2 * m + 1) * dist) with (dist + m * (2 * dist)) by lia. rewrite Nat.mod_add by lia. apply Nat.mod_small. lia. }
  assert (ODD' : forall k, k mod (2 * dist) = dist -> k = (2 * (k / (2 * dist)) + 1) * dist).
  { intros k E. rewrite (Nat.div_mod k (2 * dist)) at 1 by lia. rewrite E. lia. }
  assert (EV : forall m, (m * (2 * dist)) mod (2 * dist) <> dist). { intros m. rewrite Nat.mod_mul by lia. lia. }
  induction j as [|j IH]; intros fuel x Hj HF HI; remember (S fuel) as fu; subst fu; cbn [back_rows].
  - replace ((2 * 0 + 1) * dist) with dist in * by lia. change (dist + (dist + 0)) with (2 * dist).
    rewrite nonzero_ok by (intros kz Hk; apply HB; [exact Hk|exists 0; lia|nia]). cbn [must bind].
    destruct (Nat.ltb_spec dist (2 * dist)); [|lia]. eexists. split; [reflexivity|]. intros kz k. unfold set_x.
    assert (X : forall k, k mod (2 * dist) <> dist -> x kz k = x0 kz k). { intros k' Hk'. rewrite HI. apply Nat.eqb_neq in Hk'. rewrite Hk', andb_false_r. reflexivity. }
    destruct (Nat.eqb_spec k dist) as [->|NE].
    + rewrite (Nat.mod_small dist) by lia. rewrite Nat.eqb_refl, andb_true_r. destruct (Nat.leb_spec dist ((2 * top + 1) * dist)); [|nia]. unfold back_new. rewrite !X; [reflexivity| |].
      * replace (dist - dist) with (0 * (2 * dist)) by lia. apply EV.
      * replace (dist + dist) with (1 * (2 * dist)) by lia. apply EV.
    + rewrite HI. destruct (Nat.eqb_spec (k mod (2 * dist)) dist) as [M|M]; [|rewrite !andb_false_r; reflexivity]. rewrite !andb_true_r.
      replace (dist <? k) with true; [reflexivity|]. symmetry. apply Nat.ltb_lt. apply ODD' in M. destruct (k / (2 * dist)); nia.
  - destruct fuel as [|fuel]; [lia|]. set (i := (2 * S j + 1) * dist) in *. change (dist + (dist + 0)) with (2 * dist).
    rewrite nonzero_ok by (intros kz Hk; apply HB; [exact Hk|exists (S j); reflexivity|unfold i; nia]). cbn [must bind].
    destruct (Nat.ltb_spec i (2 * dist)); [unfold i in *; nia|]. replace (i - 2 * dist) with ((2 * j + 1) * dist) by (unfold i; nia).
    apply IH; [lia|lia|]. intros kz k. unfold set_x.
    assert (X : forall k, k mod (2 * dist) <> dist -> x kz k = x0 kz k). { intros k' Hk'. rewrite HI. apply Nat.eqb_neq in Hk'. rewrite Hk', andb_false_r. reflexivity. }
    destruct (Nat.eqb_spec k i) as [->|NE].
    + assert (OI : i mod (2 * dist) = dist) by (unfold i; apply ODD). rewrite OI, Nat.eqb_refl, andb_true_r.
      replace (((2 * j + 1) * dist <? i) && (i <=? (2 * top + 1) * dist)) with true by (symmetry; rewrite andb_true_iff; split; [apply Nat.ltb_lt|apply Nat.leb_le]; unfold i; nia).
      unfold back_new. rewrite !X; [reflexivity| |].
      * replace (i - dist) with (S j * (2 * dist)) by (unfold i; nia). apply EV.
      * replace (i + dist) with (S (S j) * (2 * dist)) by (unfold i; nia). apply EV.
    + rewrite HI. destruct (Nat.eqb_spec (k mod (2 * dist)) dist) as [M|M]; [|rewrite !andb_false_r; reflexivity]. rewrite !andb_true_r.
      replace ((2 * j + 1) * dist <? k) with (i <? k); [reflexivity|]. apply ODD' in M. set (m := k / (2 * dist)) in *.
      destruct (Nat.ltb_spec i k), (Nat.ltb_spec ((2 * j + 1) * dist) k); try reflexivity; unfold i in *; exfalso; [nia|]. apply NE. rewrite M in *. assert (m = S j) by nia. congruence.
Qed.
End S.
