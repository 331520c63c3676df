From Coq Require Import List ZArith Lia Bool Arith Permutation.
From Verif Require Import Base FvalModel FvalSpec FvalProofs FvalProofs2.
Import ListNotations.

Section P3.
  Variable V : Type.
  Variable ar : bop -> V -> V -> V.
  Variable one : V.
  Variables nx ny nz : nat.
  Variables order3 order2 orderp : list nat.
  Hypothesis O3 : Permutation order3 (seq 0 (nx * ny * nz)).
  Hypothesis O2 : Permutation order2 (seq 0 (nx * ny)).
  Hypothesis Op : Permutation orderp (seq 0 (nx * nz)).
  Notation N := (nx * ny * nz).
  Notation st := (st V).
  Notation Inv := (Inv V nx ny nz).
  Notation obs := (observe V).
  Notation owns := (owns V nx ny nz).
  Notation step := (step V ar one nx ny nz order3 order2 orderp).
  Notation effect := (effect V ar one nx ny nz).

  Lemma read_elem (s : st) (h : nat -> option (list V)) q k :
    (forall b, lookup (slots V s) q = Some (Some b) -> h b = heap V s b) ->
    read V (slots V s) h q k = elem V (obs s) q k.
  Proof.
    intros H. unfold read, elem, observe. destruct (lookup (slots V s) q) as [[b|]|]; auto.
    rewrite (H b eq_refl). destruct (heap V s b); reflexivity.
  Qed.
  Lemma elem_some (s : st) q i : Inv s -> has_data V (obs s) q -> i < N -> exists x, elem V (obs s) q i = Some x.
  Proof.
    intros IV [d E] L. destruct (observe_Data V s q d E) as (b & Eb & Eh).
    destruct (inv_lookup V nx ny nz s q b IV Eb) as (_ & d' & Eh' & Ld & _). unfold elem. rewrite E.
    destruct (nth_error d i) eqn:F; [eauto|]. apply nth_error_None in F. assert (d = d') by congruence. subst. lia.
  Qed.
  Lemma div_bound i : i < N -> i / nz < nx * ny.
  Proof. intros H. apply Nat.div_lt_upper_bound; nia. Qed.
  Lemma rhs_some (s : st) r i : Inv s -> rhs_legal V nx ny (obs s) r -> i < N -> exists y, rhs_at V nz (obs s) r i = Some y.
  Proof.
    intros IV L B. destruct r as [q|x|d]; cbn [rhs_legal rhs_at] in *; [apply elem_some; auto|eauto|].
    destruct (nth_error d (i / nz)) eqn:F; [eauto|]. apply nth_error_None in F. pose proof (div_bound i B). lia.
  Qed.
  Lemma pairs_of_ok r : pairs_ok nx ny nz (pairs_of V nz order3 order2 r).
  Proof. destruct r; cbn [pairs_of]; [apply pairs3_ok|apply pairs3_ok|apply pairs2_ok]; auto. Qed.
  Lemma pairs_of_in r i : i < N -> In i (map fst (pairs_of V nz order3 order2 r)).
  Proof.
    intros L. destruct r; cbn [pairs_of]; try (rewrite pairs3_fst; apply (pairs3_in nx ny nz); auto).
    apply (pairs2_in nx ny); auto.
  Qed.
  (** The operand of the loops. *)
  Lemma operand_calc (s : st) o r h i k a y : In (i, k) (pairs_of V nz order3 order2 r) ->
    (match r with RField _ q => read V (slots V s) h q i = elem V (obs s) q i | _ => True end) ->
    rhs_at V nz (obs s) r i = Some y ->
    operand V ar one (slots V s) o r h k a = Some (calc V ar one o r a y).
  Proof.
    intros I RD E. destruct r as [q|x|d]; cbn [pairs_of operand rhs_at calc] in *.
    - apply pairs3_snd in I. subst k. rewrite RD, E. reflexivity.
    - injection E as ->. destruct o; reflexivity.
    - apply pairs2_snd in I. subst k. rewrite E. destruct o; reflexivity.
  Qed.

  Definition vcalc (s : st) o p r (j : nat -> V) (i : nat) : V :=
    match elem V (obs s) p i, rhs_at V nz (obs s) r i with Some x, Some y => calc V ar one o r x y | _, _ => j 0 end.

  Lemma vcalc_ex (s : st) o p r j i : Inv s -> has_data V (obs s) p -> rhs_legal V nx ny (obs s) r -> i < N ->
    exists x y, elem V (obs s) p i = Some x /\ rhs_at V nz (obs s) r i = Some y /\ vcalc s o p r j i = calc V ar one o r x y.
  Proof.
    intros IV H1 H2 L. destruct (elem_some s p i IV H1 L) as [x Ex]. destruct (rhs_some s r i IV H2 L) as [y Ey].
    exists x, y. unfold vcalc. rewrite Ex, Ey. auto.
  Qed.

  Lemma has_data_lookup (s : st) p : has_data V (obs s) p -> exists b, lookup (slots V s) p = Some (Some b).
  Proof. intros [d E]. destruct (observe_Data V s p d E) as (b & Eb & _). eauto. Qed.

  Lemma binary_spec (s : st) o p r j : Inv s -> has_data V (obs s) p -> rhs_legal V nx ny (obs s) r ->
    exists s1 d, binary V ar one nx ny nz order3 order2 s o p r j = Ok (next V s, s1) /\
      slots V s1 = slots V s /\ next V s1 = S (next V s) /\ (forall c, c <> next V s -> heap V s1 c = heap V s c) /\
      heap V s1 (next V s) = Some d /\ length d = N /\ (forall i, i < N -> nth_error d i = Some (vcalc s o p r j i)).
  Proof.
    intros IV HP HR. unfold binary, new_block.
    assert (Lj : length (map j (seq 0 (n nx ny nz))) = N) by (rewrite map_length, seq_length; reflexivity).
    set (d0 := map j (seq 0 (n nx ny nz))) in *. cbn [slots heap next].
    destruct (has_data_lookup s p HP) as [bp Ebp].
    unfold check at 1. cbn [slots]. rewrite Ebp. cbn [bind].
    replace (check_rhs V _ r) with (@Ok unit tt).
    2:{ destruct r as [q|x|d]; cbn [check_rhs]; auto. destruct (has_data_lookup s q HR) as [bq Ebq]. unfold check. cbn [slots].
        rewrite Ebq. reflexivity. }
    cbn [bind].
    assert (FR : forall q b, lookup (slots V s) q = Some (Some b) -> b <> next V s).
    { intros q b H. destruct (inv_lookup V nx ny nz s q b IV H) as [L _]. lia. }
    destruct (pairs_of_ok r) as [ND B].
    edestruct (loop_spec V (pairs_of V nz order3 order2 r) (upd V (heap V s) (next V s) d0) (upd V (heap V s) (next V s) d0)
                 (next V s) d0 d0
                 (fun h i k _ => match read V (slots V s) h p i with
                                 | Some a => operand V ar one (slots V s) o r h k a | None => None end) (vcalc s o p r j))
      as (h' & d' & E & Hb & L' & O & Vs & Vo); auto.
    - unfold upd. rewrite Nat.eqb_refl. reflexivity.
    - unfold upd. rewrite Nat.eqb_refl. reflexivity.
    - intros i k I. rewrite Lj. apply (B i k I).
    - intros i k h d1 x I H1 _ H2 _ _.
      assert (RD : forall q, read V (slots V s) h q i = elem V (obs s) q i).
      { intros q. apply read_elem. intros b Hb. rewrite H2 by (apply (FR q); exact Hb). unfold upd.
        replace (b =? next V s) with false; [reflexivity|]. symmetry. apply Nat.eqb_neq. apply (FR q); exact Hb. }
      rewrite RD. destruct (vcalc_ex s o p r j i IV HP HR (B i k I)) as (a & y & Ea & Ey & ->). rewrite Ea.
      apply (operand_calc s o r h i k a y I); [|exact Ey]. destruct r; auto.
    - rewrite E. cbn [bind]. eexists _, d'. split; [reflexivity|]. cbn [slots heap next].
      split; [reflexivity|]. split; [reflexivity|]. split.
      + intros c C. rewrite O by exact C. unfold upd. apply Nat.eqb_neq in C. rewrite C. reflexivity.
      + split; [exact Hb|]. split; [congruence|]. intros i L. apply Vs. apply pairs_of_in. exact L.
  Qed.

  (** Facts about a state in which [p] owns its data. *)
  Lemma owns_full (s : st) p b d : owns s p b d -> full V nx ny nz p (obs s).
  Proof. intros (E & _ & H & L). exists d. split; [eapply observe_lookup; eauto|exact L]. Qed.
  Lemma owns_elem (s : st) p b d k : owns s p b d -> elem V (obs s) p k = nth_error d k.
  Proof. intros (E & _ & H & L). unfold elem. rewrite (observe_lookup V s p b d E H). reflexivity. Qed.
  Lemma owns_unique (s : st) p b d : owns s p b d -> unique V s p = true.
  Proof. intros (E & U & _). unfold unique. rewrite E, U. reflexivity. Qed.
  Lemma unique_owns (s : st) p : Inv s -> unique V s p = true -> exists b d, owns s p b d.
  Proof.
    intros IV U. unfold unique in U. destruct (lookup (slots V s) p) as [[b|]|] eqn:E; try discriminate.
    apply Nat.eqb_eq in U. destruct (inv_lookup V nx ny nz s p b IV E) as (_ & d & Eh & L & _). exists b, d. repeat split; auto.
  Qed.
  Lemma count_filter_le (P : entry -> bool) l b : length (filter (points b) (filter P l)) <= length (filter (points b) l).
  Proof. induction l as [|e l IH]; [auto|]. cbn [filter]. destruct (P e); cbn [filter]; destruct (points b e); cbn [length]; lia. Qed.
  Lemma owns_clear (s : st) p b d : Inv s -> owns s p b d -> owns (clear_slices V s p) p b d.
  Proof.
    intros IV (E & U & H & L).
    assert (E' : lookup (slots V (clear_slices V s p)) p = Some (Some b)).
    { rewrite lookup_clear. rewrite (proj2 (slice_of_false p p) (slice_irr p)). exact E. }
    repeat split; auto.
    unfold use_count in *. apply count_one with p.
    - apply (inv_clear V nx ny nz s p IV).
    - apply lookup_In. exact E'.
    - intros x I. apply (unique_only V s p b E U). apply In_lookup; [apply IV|].
      unfold clear_slices in I. cbn [slots] in I. apply filter_In in I. tauto.
  Qed.

  Lemma obs_clear_only (s : st) p x : ~ slice p x -> obs (clear_slices V s p) x = obs s x.
  Proof. intros H. rewrite obs_clear. rewrite (proj2 (slice_of_false p x) H). reflexivity. Qed.
  Lemma obs_clear_gone (s : st) p x : slice p x -> obs (clear_slices V s p) x = Absent V.
  Proof. intros H. rewrite obs_clear. rewrite (proj2 (slice_of_iff p x) H). reflexivity. Qed.

  (** fill *)
  Lemma fill_spec (s : st) p j g l (val : nat -> V) : Inv s -> alive V (obs s) p -> pairs_ok nx ny nz l ->
    (forall i k, In (i, k) l -> g k = Some (val i)) ->
    exists s', fill V nx ny nz s p j g l = Ok s' /\ Inv s' /\ only V p (obs s) (obs s') /\ slices_gone V p (obs s') /\
      full V nx ny nz p (obs s') /\ unique V s' p = true /\
      (forall i, In i (map fst l) -> elem V (obs s') p i = Some (val i)) /\
      (forall i, ~ In i (map fst l) -> has_data V (obs s) p -> elem V (obs s') p i = elem V (obs s) p i).
  Proof.
    intros IV AL PO G. unfold fill.
    assert (HP : lookup (slots V (clear_slices V s p)) p <> None).
    { intros E. apply observe_absent in E. rewrite obs_clear_only in E by apply slice_irr. apply AL. exact E. }
    destruct (allocate_spec V nx ny nz (clear_slices V s p) p j (inv_clear V nx ny nz s p IV) HP)
      as (s1 & b & d & E & I1 & Ow & Ob & Keep).
    rewrite E. cbn [bind].
    destruct (loop_on_spec V nx ny nz s1 p b d (fun _ _ k _ => g k) l val I1 Ow PO) as (s' & d' & E' & I' & Sl & Ow' & Ob' & Vs & Vo).
    { intros i k h d' x I _ _ _ _. apply (G i k I). }
    exists s'. split; [exact E'|]. split; [exact I'|].
    split; [intros x NE NS; rewrite Ob' by exact NE; rewrite (proj1 (Ob x NE)); apply obs_clear_only; exact NS|].
    split. { intros x S. assert (NE : x <> p) by (intros ->; apply (slice_irr p S)).
             rewrite Ob' by exact NE. rewrite (proj1 (Ob x NE)). apply obs_clear_gone; exact S. }
    split; [eapply owns_full; exact Ow'|]. split; [eapply owns_unique; exact Ow'|].
    split; intros i I; rewrite (owns_elem s' p b d' i Ow'); [apply Vs; exact I|].
    intros [d0 D]. rewrite Vo by exact I. unfold elem. rewrite D. f_equal. apply Keep. rewrite obs_clear_only by apply slice_irr. exact D.
  Qed.

  Lemma update_spec (s : st) p o r j : Inv s -> has_data V (obs s) p -> rhs_legal V nx ny (obs s) r -> not_own_slice V p r ->
    exists s', update V ar one nx ny nz order3 order2 s p o r j = Ok s' /\ Inv s' /\ unique V s' p = true /\
      only V p (obs s) (obs s') /\ slices_gone V p (obs s') /\ full V nx ny nz p (obs s') /\
      (forall k, k < N -> elem V (obs s') p k = Some (vcalc s o p r j k)).
  Proof.
    intros IV HP HR NS. unfold update. destruct (unique V s p) eqn:U.
    - destruct (unique_owns s p IV U) as (b & d & Ow). pose proof (owns_clear s p b d IV Ow) as Owc.
      pose proof (inv_clear V nx ny nz s p IV) as Ic. set (s1 := clear_slices V s p) in *.
      assert (C1 : check V s1 p = Ok tt) by (unfold check; rewrite (proj1 Owc); reflexivity).
      rewrite C1. cbn [bind].
      assert (HR1 : rhs_legal V nx ny (obs s1) r).
      { destruct r as [q|x|dd]; cbn [rhs_legal not_own_slice] in *; auto. destruct HR as [dq Eq]. exists dq.
        unfold s1. rewrite obs_clear_only; auto. }
      assert (C2 : check_rhs V s1 r = Ok tt).
      { destruct r as [q|x|dd]; cbn [check_rhs]; auto. destruct (has_data_lookup s1 q HR1) as [bq Ebq]. unfold check. rewrite Ebq. reflexivity. }
      rewrite C2. cbn [bind].
      assert (RE : forall i, rhs_at V nz (obs s1) r i = rhs_at V nz (obs s) r i).
      { intros i. destruct r as [q|x|dd]; cbn [rhs_at not_own_slice] in *; auto. unfold elem, s1. rewrite obs_clear_only by exact NS. reflexivity. }
      destruct (loop_on_spec V nx ny nz s1 p b d (fun h _ k a => operand V ar one (slots V s1) o r h k a)
                  (pairs_of V nz order3 order2 r) (vcalc s o p r j) Ic Owc (pairs_of_ok r))
        as (s' & d' & E' & I' & Sl & Ow' & Ob' & Vs & Vo).
      { intros i k h d' x I H1 H2 H3 H4. destruct (vcalc_ex s o p r j i IV HP HR (proj2 (pairs_of_ok r) i k I)) as (a & y & Ea & Ey & ->).
        assert (x = a) by (rewrite (owns_elem s p b d i Ow) in Ea; congruence). subst a.
        apply (operand_calc s1 o r h i k x y I); [|rewrite RE; exact Ey].
        destruct r as [q|x0|dd]; auto. unfold read, elem, observe. destruct (lookup (slots V s1) q) as [[bq|]|] eqn:Eq; auto.
        destruct (Nat.eq_dec bq b) as [->|NE].
        - rewrite H1. destruct Owc as (_ & _ & Hh & _). rewrite Hh. exact H3.
        - rewrite H2 by exact NE. destruct (heap V s1 bq); reflexivity. }
      exists s'. split; [exact E'|]. split; [exact I'|]. split; [eapply owns_unique; exact Ow'|].
      split; [intros x NE NSx; rewrite Ob' by exact NE; apply obs_clear_only; exact NSx|].
      split. { intros x S. assert (NE : x <> p) by (intros ->; apply (slice_irr p S)). rewrite Ob' by exact NE. apply obs_clear_gone; exact S. }
      split; [eapply owns_full; exact Ow'|].
      intros k L. rewrite (owns_elem s' p b d' k Ow'). apply Vs. apply pairs_of_in. exact L.
    - destruct (binary_spec s o p r j IV HP HR) as (s1 & d & E & Sl & Nx & Hh & Hb & Ld & Vd).
      rewrite E. cbn [bind fst snd].
      assert (I1 : Inv s1).
      { destruct IV as [ND I]. split; [rewrite Sl; exact ND|]. rewrite Sl, Nx. intros x b H. destruct (I x b H) as (Lb & dd & Ed & Ln).
        split; [lia|]. exists dd. rewrite Hh by lia. auto. }
      assert (Ob1 : forall x, obs s1 x = obs s x).
      { intros x. apply observe_ext; [rewrite Sl; reflexivity|]. intros b H. apply Hh.
        destruct (inv_lookup V nx ny nz s x b IV H) as [L _]. lia. }
      pose proof (inv_clear V nx ny nz s1 p I1) as Ic. set (s2 := clear_slices V s1 p) in *.
      assert (H2 : heap V s2 (next V s) = Some d) by exact Hb.
      assert (N2 : next V s < next V s2) by (change (next V s2) with (next V s1); lia).
      set (s3 := mkSt V _ _ _).
      assert (I3 : Inv s3) by (apply (inv_point V nx ny nz s2 p (next V s) d Ic N2 H2 Ld)).
      assert (HPl : lookup (slots V s2) p <> None).
      { intros A. apply observe_absent in A. unfold s2 in A. rewrite obs_clear_only, Ob1 in A by apply slice_irr.
        destruct HP as [dp Ep]. congruence. }
      assert (Ow3 : owns s3 p (next V s) d).
      { repeat split; auto.
        - unfold s3. cbn [slots]. rewrite lookup_assign, slot_eqb_refl. destruct (lookup (slots V s2) p); congruence.
        - unfold s3, use_count. cbn [slots]. apply count_new; [apply Ic|exact HPl|]. intros x c H.
          unfold s2, clear_slices in H. cbn [slots] in H. apply filter_In in H. rewrite Sl in H. destruct H as [H _].
          destruct IV as [_ I]. destruct (I x c H). lia. }
      assert (Ob3 : forall x, x <> p -> obs s3 x = obs s2 x).
      { intros x NE. apply observe_ext; [|reflexivity]. unfold s3. cbn [slots]. apply slot_eqb_neq in NE.
        rewrite lookup_assign, NE. reflexivity. }
      exists s3. split; [reflexivity|]. split; [exact I3|]. split; [eapply owns_unique; exact Ow3|].
      split; [intros x NE NSx; rewrite Ob3 by exact NE; unfold s2; rewrite obs_clear_only by exact NSx; apply Ob1|].
      split. { intros x S. assert (NE : x <> p) by (intros ->; apply (slice_irr p S)). rewrite Ob3 by exact NE. apply obs_clear_gone; exact S. }
      split; [eapply owns_full; exact Ow3|].
      intros k L. rewrite (owns_elem s3 p _ d k Ow3). apply Vd. exact L.
  Qed.
End P3.
