(** Existence: with diagonally dominant rows the solver returns a solution and no mode is singular. *)
From Coq Require Import List Arith Bool ZArith Reals Lia Lra.
From Coquelicot Require Import Complex.
From Verif Require Import Base CyclicModel CyclicSpec CyclicProofs2 CyclicProps FftModel LaplaceModel LaplaceSpec LaplaceProofs3 LaplaceProofs4 LaplaceProofs7.
Import ListNotations.
Local Open Scope R_scope.

Lemma max_index : forall z : list C, z <> [] -> exists i, (i < length z)%nat /\
  forall k, Cmod (nth k z (RtoC 0)) <= Cmod (nth i z (RtoC 0)).
Proof.
  induction z as [|a z IH]; [congruence|]. intros _. destruct z as [|b z'].
  - exists 0%nat. split; [cbn; lia|]. intros [|[|k]]; cbn [nth]; [lra| |]; rewrite Cmod_0; apply Cmod_ge_0.
  - destruct IH as (i & Hi & Hm); [congruence|]. set (w := b :: z') in *.
    destruct (Rle_dec (Cmod a) (Cmod (nth i w (RtoC 0)))) as [H|H].
    + exists (S i). split; [cbn [length]; lia|]. intros [|k]; cbn [nth]; auto.
    + exists 0%nat. split; [cbn [length]; lia|]. intros [|k]; cbn [nth]; [lra|]. specialize (Hm k). lra.
Qed.

Definition domrowC (r : trow C) : Prop := Cmod (ra r) + Cmod (rc r) + / 10 ^ 10 <= Cmod (rb r).

Lemma nth_last : forall (z : list C), exists k, last z (RtoC 0) = nth k z (RtoC 0).
Proof. intros z. exists (length z - 1)%nat. apply last_nth. Qed.

Lemma dominant_nonsingular : forall per rows, (forall r, In r rows -> domrowC r) -> nonsingular C (RtoC 0) Cplus Cmult per rows.
Proof.
  intros per rows Hd z (Hlen & Hz). rewrite map_length in Hlen. destruct z as [|z0 z']; [constructor|]. set (z := z0 :: z') in *.
  destruct (max_index z ltac:(discriminate)) as (i & Hi & Hm). set (m := Cmod (nth i z (RtoC 0))) in *.
  assert (Hm0 : 0 <= m) by apply Cmod_ge_0.
  destruct (nth_error rows i) as [r|] eqn:Er; [|apply nth_error_None in Er; lia].
  specialize (Hz i (Row (ra r) (rb r) (rc r) (RtoC 0))). rewrite nth_error_map, Er in Hz. specialize (Hz eq_refl). cbn [ra rb rc rr] in Hz.
  assert (HL : Cmod (left_of C (RtoC 0) per z i) <= m).
  { unfold left_of. destruct i as [|i']; [|apply Hm]. destruct per; [|rewrite Cmod_0; auto].
    destruct (nth_last z) as (k & ->). apply Hm. }
  assert (HR : Cmod (right_of C (RtoC 0) per z i) <= m).
  { unfold right_of. destruct (S i =? length z)%nat; [|apply Hm]. destruct per; [|rewrite Cmod_0; auto].
    change (hd (RtoC 0) z) with (nth 0 z (RtoC 0)). apply Hm. }
  set (L := left_of C (RtoC 0) per z i) in *. set (R := right_of C (RtoC 0) per z i) in *. set (v := nth i z (RtoC 0)) in *.
  assert (E : Cmult (rb r) v = Copp (Cplus (Cmult (ra r) L) (Cmult (rc r) R))).
  { transitivity (Cminus (Cplus (Cplus (Cmult (ra r) L) (Cmult (rb r) v)) (Cmult (rc r) R)) (Cplus (Cmult (ra r) L) (Cmult (rc r) R))); [|rewrite Hz]; ring. }
  assert (Hle : Cmod (rb r) * m <= Cmod (ra r) * m + Cmod (rc r) * m).
  { unfold m. rewrite <- Cmod_mult, E, Cmod_opp. eapply Rle_trans; [apply Cmod_triangle|]. rewrite !Cmod_mult.
    apply Rplus_le_compat; apply Rmult_le_compat_l; auto using Cmod_ge_0. }
  assert (Hr : domrowC r) by (apply Hd; eapply nth_error_In; eauto). unfold domrowC in Hr.
  pose proof eps_pos as He.
  assert (Hmz : m = 0).
  { assert (HH : (Cmod (ra r) + Cmod (rc r) + / 10 ^ 10) * m <= Cmod (rb r) * m) by (apply Rmult_le_compat_r; auto).
    assert (HE : / 10 ^ 10 * m <= 0) by lra. clear HH Hr. revert He HE. generalize (/ 10 ^ 10). intros e He HE. nra. }
  apply Forall_forall. intros w Hw. apply (In_nth _ _ (RtoC 0)) in Hw as (k & _ & <-).
  apply Cmod_eq_0. pose proof (Hm k). pose proof (Cmod_ge_0 (nth k z (RtoC 0))). lra.
Qed.

(** The pieces of a plane, and the plane made of the pieces. *)
Definition pieces (l : layout) (F : plane) (p ix j : nat) : R := F (p * mx l + ix)%nat j.
Definition owner (l : layout) (i : nat) : nat := Nat.min ((i - g l) / mx l) (np l - 1).
Definition glue (l : layout) (u : nat -> nat -> nat -> R) (i j : nat) : R := u (owner l i) (i - owner l i * mx l)%nat j.
Definition glue_per (l : layout) (u : nat -> nat -> nat -> R) (i j : nat) : R :=
  glue l u (g l + ((i + ncells l) - g l) mod ncells l)%nat j.

Lemma gathers_pieces : forall l o nz F, gathers l o nz (pieces l F) F.
Proof. intros l o nz F p ix j _ _ _. reflexivity. Qed.

Lemma owner_at : forall l o p ix, well_laid l -> (p < np l)%nat -> (xs l o p <= ix <= xe l o p)%nat -> owner l (p * mx l + ix) = p.
Proof.
  intros l o p ix (H1 & H2 & H3) Hp Hx. unfold owner, xs, xe, LocalNx in *.
  assert (Hlow : p <> 0%nat -> (g l <= ix)%nat).
  { intros. rewrite (proj2 (Nat.eqb_neq p 0)) in Hx by auto. cbn [andb] in Hx. lia. }
  assert (Hup : p <> (np l - 1)%nat -> (ix < g l + mx l)%nat).
  { intros. rewrite (proj2 (Nat.eqb_neq p (np l - 1))) in Hx by auto. cbn [andb] in Hx. lia. }
  destruct (Nat.eq_dec p (np l - 1)) as [E|E].
  - destruct (Nat.eq_dec p 0) as [E0|E0]; [lia|]. specialize (Hlow E0).
    assert ((p <= (p * mx l + ix - g l) / mx l)%nat); [|lia].
    apply Nat.div_le_lower_bound; nia.
  - specialize (Hup E). assert (Hd : ((p * mx l + ix - g l) / mx l = p)%nat); [|lia].
    destruct (Nat.eq_dec p 0) as [->|E0].
    + apply Nat.div_small. lia.
    + specialize (Hlow E0). symmetry. apply (Nat.div_unique _ _ p (ix - g l)); nia.
Qed.
Lemma gathers_glue : forall l o nz u, well_laid l -> gathers l o nz u (glue l u).
Proof.
  intros l o nz u Hl p ix j Hp Hx Hj. unfold glue. rewrite (owner_at l o p ix) by auto. f_equal. lia.
Qed.
Lemma gathers_glue_per : forall l o nz u, well_laid l -> periodicX o = true -> gathers l o nz u (glue_per l u).
Proof.
  intros l o nz u Hl Hper p ix j Hp Hx Hj. unfold glue_per, ncells. pose proof Hl as (H1 & H2 & H3).
  destruct (nrows_per l o p Hl Hper) as (_ & E1 & E2). rewrite E1, E2 in Hx.
  assert (Hlt : (p * mx l + ix - g l < np l * mx l)%nat).
  { assert ((p + 1) * mx l <= np l * mx l)%nat by (apply Nat.mul_le_mono_r; lia). nia. }
  replace (p * mx l + ix + np l * mx l - g l)%nat with ((p * mx l + ix - g l) + 1 * (np l * mx l))%nat by lia.
  rewrite Nat.mod_add by lia. rewrite Nat.mod_small by lia.
  replace (g l + (p * mx l + ix - g l))%nat with (p * mx l + ix)%nat by lia.
  apply (gathers_glue l o nz u Hl p ix j Hp); [rewrite E1, E2; auto|auto].
Qed.
Lemma wraps_glue_per : forall l nz u, well_laid l -> wraps l nz (glue_per l u).
Proof.
  intros l nz u (H1 & H2 & H3) j Hj. unfold glue_per. unfold ncells. assert (HN : (1 <= np l * mx l)%nat) by nia.
  set (N := (np l * mx l)%nat) in *. split.
  - f_equal. f_equal. replace (g l + N - 1 + N - g l)%nat with ((N - 1) + 1 * N)%nat by lia. rewrite Nat.mod_add by lia.
    rewrite (Nat.mod_small (N - 1)) by lia. replace (g l - 1 + N - g l)%nat with (N - 1)%nat by lia. apply Nat.mod_small; lia.
  - f_equal. f_equal. replace (g l + N + N - g l)%nat with (N + 1 * N)%nat by lia. rewrite Nat.mod_add by lia. f_equal. lia.
Qed.

Lemma dominant_solves : forall l o nz zl M rhs x0 ord1 ord2 mem mats, well_laid l ->
  (forall p, (p < np l)%nat -> (2 <= nrows l o p)%nat) ->
  (forall p, (p < np l)%nat -> arrival_order (np l) p (ord1 p)) ->
  (forall p, (p < np l)%nat -> arrival_order (np l) p (ord2 p)) ->
  all_matrices l o nz zl M rhs x0 = Ok mats ->
  (forall p kz i, (p < np l)%nat -> (kz <= maxmode o)%nat -> (i < nrows l o p)%nat ->
     Cmod (va (mats p kz) i) + Cmod (vc (mats p kz) i) + / 10 ^ 10 <= Cmod (vb (mats p kz) i)) ->
  modes_nonsingular l o nz zl M rhs x0 /\ exists u, solve l o nz zl M rhs x0 ord1 ord2 mem = Ok u.
Proof.
  intros l o nz zl M rhs x0 ord1 ord2 mem mats (H1 & H2 & H3) Hr Ho1 Ho2 Hm Hd. split.
  - intros mats' Hm' kz Hk. rewrite Hm in Hm'. apply Ok_inj in Hm'. subst mats'.
    apply dominant_nonsingular. intros r Hin. unfold system_rows, distributed in Hin.
    apply in_flat_map in Hin as (p & Hp & Hin). apply in_map_iff in Hin as (i & <- & Hi).
    apply in_seq in Hp. apply in_seq in Hi. unfold domrowC. cbn [ra rb rc]. apply Hd; lia.
  - unfold solve. rewrite Hm. cbn [bind].
    destruct (C25_dominant_complex (maxmode o + 1) (np l) (periodicX o) (nrows l o) (fun p k => va (mats p k)) (fun p k => vb (mats p k))
               (fun p k => vc (mats p k)) (fun p k => vk (mats p k)) ord1 ord2 mem H1 Hr Ho1 Ho2) as (x & Hx & _).
    { intros p s i Hp Hs Hi. apply Hd; auto; lia. }
    rewrite Hx. cbn [bind]. eexists; reflexivity.
Qed.
