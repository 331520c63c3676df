From Coq Require Import List ZArith Lia Bool Arith Permutation.
From Verif Require Import Base FvalModel FvalSpec FvalProofs FvalProofs2 FvalProofs3 FvalProofs4.
Import ListNotations.

Section P5.
  Variable V : Type.
  Variable ar : bop -> V -> V -> V.
  Variable one : V.
  Variables nx ny nz : nat.
  Variables order3 order2 orderp : list nat.
  Hypothesis O3 : Permutation order3 (seq 0 (nx * ny * nz)).
  Hypothesis O2 : Permutation order2 (seq 0 (nx * ny)).
  Hypothesis Op : Permutation orderp (seq 0 (nx * nz)).
  Notation N := (nx * ny * nz).
  Notation st := (st V).
  Notation Inv := (Inv V nx ny nz).
  Notation obs := (observe V).
  Notation step := (step V ar one nx ny nz order3 order2 orderp).
  Notation effect := (effect V ar one nx ny nz).
  Notation legal := (legal V nx ny nz).
  Notation reach := (reach V ar one nx ny nz order3 order2 orderp).
  Notation history := (history V ar one nx ny nz order3 order2 orderp).
  Notation step_ok := (step_ok V ar one nx ny nz order3 order2 orderp O3 O2 Op).

  Lemma inv_init : Inv (init V).
  Proof. split; cbn [init slots heap next]; [constructor|]. intros x b []. Qed.
  Lemma reach_inv s : reach s -> Inv s.
  Proof.
    induction 1 as [|s o s' R IH L E]; [apply inv_init|].
    assert (W : wr_ok V o s \/ exists p i x, o = Write V p i x) by (destruct o; cbn [wr_ok]; eauto).
    destruct W as [W|(p & i & x & ->)].
    - destruct (step_ok s o IH L W) as (s1 & E1 & I1 & _). assert (s1 = s') by congruence. subst. exact I1.
    - destruct (inv_Write V ar one nx ny nz order3 order2 orderp s p i x IH L) as (s1 & E1 & I1). assert (s1 = s') by congruence. subst. exact I1.
  Qed.

  Lemma owner_neq (x : slot) v : owner (fst x) <> v -> x <> (Var v, Main) /\ x <> (Ddt v, Main) /\ ~ slice (Var v, Main) x.
  Proof.
    intros H. repeat split; try (intros ->; apply H; reflexivity). intros (_ & A & _). cbn [fst] in A. apply H. rewrite A. reflexivity.
  Qed.
  Lemma effect_target a o a' x : effect a o a' -> ~ target V o x -> a' x = a x.
  Proof.
    destruct o; cbn [effect target]; intros E T.
    - destruct E as [_ E]. apply E. apply owner_neq in T. tauto.
    - destruct E as [E _]. apply owner_neq in T. apply E; tauto.
    - destruct E as (_ & _ & _ & E). apply E; tauto.
    - destruct E as [E _]. apply owner_neq in T. apply E; tauto.
    - destruct (slot_eqb p q); [apply E|]. destruct E as [E _]. apply E; tauto.
    - destruct E as (_ & _ & _ & _ & E). apply E; tauto.
    - destruct E as [E _]. apply E; tauto.
    - destruct E as [E _]. apply E; tauto.
    - destruct E as [E _]. apply E; tauto.
    - destruct E as [E _]. apply E; tauto.
    - destruct E as [E _]. apply E; tauto.
    - destruct E as [E _]. apply E; tauto.
    - destruct E as [E _]. apply E; tauto.
    - destruct E as [_ E]. apply E; tauto.
    - destruct E as [E _]. apply owner_neq in T. apply E; tauto.
    - destruct E as [_ E]. apply E; tauto.
    - destruct E as [_ E]. apply E; tauto.
  Qed.
  Theorem isolation s os s' x : reach s -> history s os s' -> (forall o, In o os -> ~ target V o x) -> obs s' x = obs s x.
  Proof.
    intros R H. induction H as [|s o s1 os s' L W E H IH]; intros T; [reflexivity|].
    rewrite IH.
    - destruct (step_ok s o (reach_inv s R) L) as (s2 & E2 & _ & Ef & _); [destruct o; exact W|].
      assert (s2 = s1) by congruence. subst. eapply effect_target; [exact Ef|]. apply T. left; reflexivity.
    - eapply reach_step; eauto.
    - intros o' I. apply T. right; exact I.
  Qed.
  Theorem no_dangling s x : reach s -> obs s x <> Dangling V.
  Proof.
    intros R E. apply reach_inv in R. unfold observe in E. destruct (lookup (slots V s) x) as [[b|]|] eqn:L; try discriminate.
    destruct (inv_lookup V nx ny nz s x b R L) as (_ & d & Eh & _). rewrite Eh in E. discriminate.
  Qed.
  Lemma nth_error_ext {A} (l l' : list A) n : length l = n -> length l' = n -> (forall k, k < n -> nth_error l k = nth_error l' k) -> l = l'.
  Proof.
    revert l' n. induction l as [|x l IH]; intros [|y l'] n L L' H; cbn [length] in *; try lia; [reflexivity|].
    destruct n as [|n]; [lia|]. f_equal.
    - specialize (H 0 ltac:(lia)). cbn in H. congruence.
    - apply (IH l' n); try lia. intros k K. apply (H (S k)). lia.
  Qed.
  Lemma calc_fun o r x y x' y' : x = x' -> y = y' -> calc V ar one o r x y = calc V ar one o r x' y'.
  Proof. congruence. Qed.
  Theorem sharing_irrelevant s1 s2 p o r j1 j2 : reach s1 -> reach s2 -> (forall x, obs s1 x = obs s2 x) ->
    legal (obs s1) (Update V p o r j1) -> exists s1' s2',
      step s1 (Update V p o r j1) = Ok s1' /\ step s2 (Update V p o r j2) = Ok s2' /\ forall x, obs s1' x = obs s2' x.
  Proof.
    intros R1 R2 E L1.
    assert (EE : forall q k, elem V (obs s1) q k = elem V (obs s2) q k) by (intros; unfold elem; rewrite E; reflexivity).
    assert (L2 : legal (obs s2) (Update V p o r j2)).
    { cbn [legal] in *. destruct L1 as (A & B & C). split; [destruct A as [d A]; exists d; rewrite <- E; exact A|]. split; [|exact C].
      destruct r as [q|x|d]; cbn [rhs_legal] in *; auto. destruct B as [dq B]. exists dq. rewrite <- E. exact B. }
    destruct (step_ok s1 _ (reach_inv s1 R1) L1 I) as (s1' & E1 & _ & F1 & _).
    destruct (step_ok s2 _ (reach_inv s2 R2) L2 I) as (s2' & E2 & _ & F2 & _).
    exists s1', s2'. split; [exact E1|]. split; [exact E2|]. intros x. cbn [effect] in F1, F2.
    destruct F1 as (On1 & G1 & (d1 & D1 & Ln1) & V1), F2 as (On2 & G2 & (d2 & D2 & Ln2) & V2).
    destruct (slot_dec x p) as [->|NE].
    - rewrite D1, D2. f_equal. apply (nth_error_ext d1 d2 N Ln1 Ln2). intros k K.
      destruct (V1 k K) as (a & b & A & B & C), (V2 k K) as (a' & b' & A' & B' & C').
      unfold elem in C, C'. rewrite D1 in C. rewrite D2 in C'. rewrite C, C'. f_equal. apply calc_fun.
      + rewrite EE in A. congruence.
      + destruct r as [q|y|d]; cbn [rhs_at] in *; [rewrite EE in B|..]; congruence.
    - destruct (slice_dec p x) as [S|S]; [rewrite (G1 x S), (G2 x S); reflexivity|].
      rewrite (On1 x NE S), (On2 x NE S). apply E.
  Qed.
  (** f = f.yup(): the source is destroyed before it is read. *)
  Theorem own_slice_assign s p q : slice p q -> step s (CopyAssign V p q) = UB.
  Proof.
    intros S. cbn [step]. unfold copy_assign. destruct (slot_eqb p q) eqn:E; [apply slot_eqb_eq in E; subst; exfalso; apply (slice_irr q S)|].
    rewrite !lookup_clear, (proj2 (slice_of_iff p q) S). destruct (slice_of p p); [reflexivity|].
    destruct (lookup (slots V s) p); reflexivity.
  Qed.
  (** f += f.yup() when the data of f is not shared. *)
  Theorem own_slice_update s p q o j : slice p q -> unique V s p = true -> step s (Update V p o (RField V q) j) = UB.
  Proof.
    intros S U. cbn [step]. unfold update. rewrite U.
    assert (C : check V (clear_slices V s p) p = Ok tt).
    { unfold check. rewrite lookup_clear, (proj2 (slice_of_false p p) (slice_irr p)). unfold unique in U.
      destruct (lookup (slots V s) p) as [[b|]|]; [reflexivity|discriminate|discriminate]. }
    rewrite C. cbn [bind check_rhs]. unfold check. rewrite lookup_clear, (proj2 (slice_of_iff p q) S). reflexivity.
  Qed.
End P5.
