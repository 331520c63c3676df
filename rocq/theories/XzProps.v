(** LaplaceXZcyclic (C94). *)
From Coq Require Import List Arith Bool ZArith Reals Lia Lra.
From Coquelicot Require Import Complex.
From Verif Require Import Base CyclicModel CyclicSpec FftModel FftProofs LaplaceModel LaplaceSpec LaplaceProofs5 LaplaceProofs8 LaplaceProofs9 LaplaceProofs10
  XzModel XzSpec XzProofs XzProofs2 XzProofs3.
Import ListNotations.
Local Open Scope R_scope.

(** Whatever [solve] returns satisfies the equation with the coefficients set last, at every point of the domain, whatever
    the number of processors, the order of messages and the contents of memory. *)
Theorem C94_equation : forall M fin fout l rhs x0 U, xz_solved M fin fout l rhs x0 U ->
  elliptic M (fst (current l)) (snd (current l)) -> definite M fin fout (snd (current l)) ->
  forall y i j, (y < nys M)%nat -> (first M <= i <= last_x M)%nat -> (j < xnz M)%nat ->
  xz_operator M (fst (current l)) (snd (current l)) U y i j = rhs y i j.
Proof. exact equation. Qed.

(** Inner boundary: the average over z. *)
Theorem C94_inner_dc : forall M fin fout l rhs x0 U, xz_solved M fin fout l rhs x0 U ->
  elliptic M (fst (current l)) (snd (current l)) -> definite M fin fout (snd (current l)) ->
  forall y, (y < nys M)%nat ->
  edge (b_dc_grad fin) (dc_row (xnz M) (U y (first M - 1)%nat)) (dc_row (xnz M) (U y (first M))) =
  edge (b_dc_grad fin) (dc_row (xnz M) (given fin rhs x0 y (first M - 1)%nat)) (dc_row (xnz M) (given fin rhs x0 y (first M))).
Proof.
  intros M fin fout l rhs x0 U HS Hel Hdf y Hy. pose proof HS as (_ & Hn & _).
  rewrite <- !(sel_dc (xnz M) _ 0 Hn). eapply inner_sel; eauto.
  intros k Hk. apply is_dc_inv in Hk as ->. unfold neumann. cbn [Nat.eqb andb negb orb]. apply orb_false_r.
Qed.
(** Inner boundary: the deviation from the average. *)
Theorem C94_inner_ac : forall M fin fout l rhs x0 U, xz_solved M fin fout l rhs x0 U ->
  elliptic M (fst (current l)) (snd (current l)) -> definite M fin fout (snd (current l)) ->
  forall y j, (y < nys M)%nat -> (j < xnz M)%nat ->
  edge (b_ac_grad fin) (deviation (xnz M) (U y (first M - 1)%nat) j) (deviation (xnz M) (U y (first M)) j) =
  edge (b_ac_grad fin) (deviation (xnz M) (given fin rhs x0 y (first M - 1)%nat) j) (deviation (xnz M) (given fin rhs x0 y (first M)) j).
Proof.
  intros M fin fout l rhs x0 U HS Hel Hdf y j Hy Hj. pose proof HS as (_ & Hn & _).
  rewrite <- !(sel_ac (xnz M) _ j Hn Hj). eapply inner_sel; eauto.
  intros k Hk. apply is_ac_inv in Hk. unfold neumann. rewrite (proj2 (Nat.eqb_neq k 0)) by auto. reflexivity.
Qed.

(** Outer boundary: always zero, whatever the flags SET and RHS say. *)
Theorem C94_outer_dc : forall M fin fout l rhs x0 U, xz_solved M fin fout l rhs x0 U ->
  elliptic M (fst (current l)) (snd (current l)) -> definite M fin fout (snd (current l)) ->
  forall y, (y < nys M)%nat ->
  edge (b_dc_grad fout) (dc_row (xnz M) (U y (last_x M + 1)%nat)) (dc_row (xnz M) (U y (last_x M))) = 0.
Proof.
  intros M fin fout l rhs x0 U HS Hel Hdf y Hy. pose proof HS as (_ & Hn & _).
  rewrite <- !(sel_dc (xnz M) _ 0 Hn). eapply outer_sel; eauto.
  intros k Hk. apply is_dc_inv in Hk as ->. unfold neumann. cbn [Nat.eqb andb negb orb]. apply orb_false_r.
Qed.
Theorem C94_outer_ac : forall M fin fout l rhs x0 U, xz_solved M fin fout l rhs x0 U ->
  elliptic M (fst (current l)) (snd (current l)) -> definite M fin fout (snd (current l)) ->
  forall y j, (y < nys M)%nat -> (j < xnz M)%nat ->
  edge (b_ac_grad fout) (deviation (xnz M) (U y (last_x M + 1)%nat) j) (deviation (xnz M) (U y (last_x M)) j) = 0.
Proof.
  intros M fin fout l rhs x0 U HS Hel Hdf y j Hy Hj. pose proof HS as (_ & Hn & _).
  rewrite <- !(sel_ac (xnz M) _ j Hn Hj). eapply outer_sel; eauto.
  intros k Hk. apply is_ac_inv in Hk. unfold neumann. rewrite (proj2 (Nat.eqb_neq k 0)) by auto. reflexivity.
Qed.

(** The result, boundary cells included, is determined by the arguments: neither the order of messages nor old contents of
    memory change it. *)
Theorem C94_determined : forall M fin fout l rhs x0 U V, xz_solved M fin fout l rhs x0 U -> xz_solved M fin fout l rhs x0 V ->
  elliptic M (fst (current l)) (snd (current l)) -> definite M fin fout (snd (current l)) ->
  forall y i j, (y < nys M)%nat -> (first M - 1 <= i <= last_x M + 1)%nat -> (j < xnz M)%nat -> U y i j = V y i j.
Proof. exact xz_unique. Qed.

(** * A concrete case *)
Definition one2 : field2 := fun _ _ => 1.
Definition neg2 : field2 := fun _ _ => -1.
Definition xz1 : xzmesh := XZMesh lay1 2 one2 one2 one2 one2 4 1.

Lemma xz1_solved : forall fin fout rhs x0, exists U, xz_solved xz1 fin fout [(one2, neg2)] rhs x0 U.
Proof.
  intros fin fout rhs x0. set (c := setCoefs xz1 fin fout one2 neg2).
  assert (Hn3 : nloc xz1 0 = 3%nat) by reflexivity.
  destruct (three_rows (nsys xz1) false (nloc xz1) (fun p s q => RtoC (ca c p s q)) (fun p s q => RtoC (cb c p s q)) (fun p s q => RtoC (cc c p s q))
     (rhs_of xz1 fin fout c rhs x0) onil onil memC Hn3 (onil_ok 0 ltac:(lia)) (onil_ok 0 ltac:(lia))) as (x & Hx).
  { intros s Hs. unfold cb, c, setCoefs. cbn [xz1 xl lay1 np Nat.eqb andb Nat.sub]. rewrite Hn3. cbn [Nat.eqb Nat.sub]. cbv zeta. cbn [fst snd].
    unfold face, avg, one2, neg2. cbn [mJ mg11 mdx mg33 xz1]. unfold one2. apply tinyC_big. unfold kwave.
    match goal with |- 1 <= Rabs (_ - 1 * (?k * ?k) * 1) => pose proof (Rle_0_sqr k) as S; unfold Rsqr in S; revert S; generalize (k * k) end.
    intros k2 S. rewrite Rabs_left; lra. }
  exists (fun y i j => irfft 4 (fun kz => x 0%nat (y * nmode xz1 + kz)%nat (i - 0)%nat) j).
  split; [repeat split; cbn; lia|]. split; [cbn; lia|]. split; [cbn; lra|].
  eexists onil, onil, memC, _. split; [exact onil_ok|]. split; [exact onil_ok|]. split.
  - unfold xzsolve. change (np (xl xz1)) with 1%nat. unfold after. cbn [fold_left fst snd]. fold c.
    match goal with |- bind ?e _ = _ => replace e with (Ok x) end. cbn [bind]. reflexivity.
  - intros p y ix j Hp Hy Hi Hj. assert (p = 0%nat) by (cbn in Hp; lia). subst p. reflexivity.
Qed.
Lemma xz1_elliptic : elliptic xz1 one2 neg2.
Proof. intros y Hy. split; intros i Hi; cbn [mJ mg11 mdx mg33 xz1]; unfold one2, neg2; repeat split; lra. Qed.
Lemma xz1_definite : forall fin fout, definite xz1 fin fout neg2.
Proof. intros fin fout y Hy. split; intros _ _; exists 1%nat; (split; [cbn; lia|]); unfold neg2; [lra|left; lra]. Qed.

Example C94_case : forall fin fout rhs x0, exists U, xz_solved xz1 fin fout [(one2, neg2)] rhs x0 U /\
  elliptic xz1 (fst (current [(one2, neg2)])) (snd (current [(one2, neg2)])) /\ definite xz1 fin fout (snd (current [(one2, neg2)])).
Proof.
  intros fin fout rhs x0. destruct (xz1_solved fin fout rhs x0) as (U & HU). exists U. split; [exact HU|]. split; [exact xz1_elliptic|exact (xz1_definite fin fout)].
Qed.

(** With the flag SET at the outer boundary the value of the second argument of [solve] is not imposed there. *)
Definition set_value : bflags := BFlags false false false false false false false true false false.
Theorem C94_outer_set_refuted : ~ forall M fin fout l rhs x0 U, xz_solved M fin fout l rhs x0 U -> b_set fout = true ->
  elliptic M (fst (current l)) (snd (current l)) -> definite M fin fout (snd (current l)) ->
  forall y, (y < nys M)%nat ->
  edge (b_dc_grad fout) (dc_row (xnz M) (U y (last_x M + 1)%nat)) (dc_row (xnz M) (U y (last_x M))) =
  edge (b_dc_grad fout) (dc_row (xnz M) (given fout rhs x0 y (last_x M + 1)%nat)) (dc_row (xnz M) (given fout rhs x0 y (last_x M))).
Proof.
  intros H. destruct (xz1_solved set_value set_value (fun _ _ _ => 0) (fun _ _ _ => 1)) as (U & HU).
  specialize (H _ _ _ _ _ _ _ HU eq_refl xz1_elliptic (xz1_definite _ _) 0%nat ltac:(cbn; lia)).
  rewrite (C94_outer_dc _ _ _ _ _ _ _ HU xz1_elliptic (xz1_definite _ _) 0%nat ltac:(cbn; lia)) in H.
  assert (D : dc_row (xnz xz1) (fun _ => 1) = 1).
  { unfold dc_row. cbn [xz1 xnz rsum]. cbn [INR]. lra. }
  change (given set_value (fun _ _ _ => 0) (fun _ _ _ => 1)) with (fun (_ _ _ : nat) => 1) in H. cbv beta in H. rewrite D in H. revert H. unfold edge. destruct (b_dc_grad set_value) eqn:E; [discriminate E|]. lra.
Qed.

Print Assumptions C94_equation.
Print Assumptions C94_inner_dc.
Print Assumptions C94_inner_ac.
Print Assumptions C94_outer_dc.
Print Assumptions C94_outer_ac.
Print Assumptions C94_determined.
Print Assumptions C94_outer_set_refuted.
