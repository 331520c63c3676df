From Coq Require Import List ZArith Lia Bool Arith Permutation.
From Verif Require Import Base FvalModel FvalSpec FvalProofs.
Import ListNotations.

Lemma NoDup_map_in {A B} (f : A -> B) l : NoDup l -> (forall x y, In x l -> In y l -> f x = f y -> x = y) -> NoDup (map f l).
Proof.
  induction 1 as [|x l NI ND IH]; intros INJ; [constructor|]. cbn [map]. constructor.
  - intros I. apply in_map_iff in I. destruct I as (y & E & I). apply NI. rewrite (INJ x y); [exact I|left; auto|right; auto|auto].
  - apply IH. intros a b Ia Ib. apply INJ; right; auto.
Qed.
Lemma rows_seq nz m : flat_map (fun i => map (fun z => i * nz + z) (seq 0 nz)) (seq 0 m) = seq 0 (m * nz).
Proof.
  induction m as [|m IH]; [reflexivity|]. rewrite seq_S, flat_map_app, IH. cbn [flat_map]. rewrite app_nil_r.
  replace (S m * nz) with (m * nz + nz) by lia. rewrite seq_app. f_equal. cbn [plus].
  replace (0 + m) with m by lia.
  assert (G : forall z k a, map (fun c => k + c) (seq a z) = seq (k + a) z).
  { clear. induction z as [|z IH]; intros k a; [reflexivity|]. cbn [seq map]. f_equal. rewrite IH. f_equal. lia. }
  rewrite G. f_equal; lia.
Qed.
Lemma flat_index_bound nx ny nz i jy : i < nx * nz -> jy < ny -> (i / nz * ny + jy) * nz + i mod nz < nx * ny * nz.
Proof.
  intros Hi Hj. assert (nz <> 0) by lia.
  assert (i / nz < nx) by (apply Nat.div_lt_upper_bound; lia).
  assert (i mod nz < nz) by (apply Nat.mod_upper_bound; lia).
  assert (i / nz * ny + jy < nx * ny) by nia. nia.
Qed.
Lemma flat_index_inj ny nz i i' jy : nz <> 0 -> jy < ny ->
  (i / nz * ny + jy) * nz + i mod nz = (i' / nz * ny + jy) * nz + i' mod nz -> i = i'.
Proof.
  intros Hn Hj E.
  assert (M : i mod nz < nz) by (apply Nat.mod_upper_bound; lia).
  assert (M' : i' mod nz < nz) by (apply Nat.mod_upper_bound; lia).
  assert (A : i / nz * ny + jy = i' / nz * ny + jy) by nia.
  assert (B : i / nz = i' / nz) by nia.
  rewrite (Nat.div_mod i nz), (Nat.div_mod i' nz) by lia. nia.
Qed.

Section P2.
  Variable V : Type.
  Variable ar : bop -> V -> V -> V.
  Variable one : V.
  Variables nx ny nz : nat.
  Variables order3 order2 orderp : list nat.
  Hypothesis O3 : Permutation order3 (seq 0 (nx * ny * nz)).
  Hypothesis O2 : Permutation order2 (seq 0 (nx * ny)).
  Hypothesis Op : Permutation orderp (seq 0 (nx * nz)).
  Notation N := (nx * ny * nz).
  Notation st := (st V).
  Notation Inv := (Inv V nx ny nz).
  Notation obs := (observe V).

  Definition pairs_ok (l : list (nat * nat)) : Prop := NoDup (map fst l) /\ forall i k, In (i, k) l -> i < N.

  Lemma pairs3_fst : map fst (pairs3 order3) = order3.
  Proof. unfold pairs3. rewrite map_map. cbn [fst]. apply map_id. Qed.
  Lemma pairs3_in i : In i order3 <-> i < N.
  Proof. split; intros H; [apply (Permutation_in _ O3) in H; apply in_seq in H; lia|].
    apply (Permutation_in _ (Permutation_sym O3)). apply in_seq. lia. Qed.
  Lemma pairs3_snd i k : In (i, k) (pairs3 order3) -> k = i.
  Proof. unfold pairs3. intros H. apply in_map_iff in H. destruct H as (x & E & _). congruence. Qed.
  Lemma pairs3_ok : pairs_ok (pairs3 order3).
  Proof.
    split.
    - rewrite pairs3_fst. apply (Permutation_NoDup (Permutation_sym O3)). apply seq_NoDup.
    - intros i k I. apply pairs3_in. rewrite <- pairs3_fst. apply (in_map fst) in I. exact I.
  Qed.

  Lemma flat_map_map {A B C} (f : A -> list B) (g : B -> C) l : map g (flat_map f l) = flat_map (fun x => map g (f x)) l.
  Proof. induction l; [reflexivity|]. cbn [flat_map]. rewrite map_app. f_equal. exact IHl. Qed.
  Lemma pairs2_fst : Permutation (map fst (pairs2 nz order2)) (seq 0 N).
  Proof.
    unfold pairs2. rewrite flat_map_map.
    replace N with (nx * ny * nz) by lia. rewrite <- rows_seq.
    eapply Permutation_trans; [apply Permutation_flat_map, O2|].
    erewrite flat_map_ext; [reflexivity|]. intros i. cbn beta. rewrite map_map. reflexivity.
  Qed.
  Lemma pairs2_snd i k : In (i, k) (pairs2 nz order2) -> k = i / nz.
  Proof.
    unfold pairs2. intros H. apply in_flat_map in H. destruct H as (x & _ & H). apply in_map_iff in H.
    destruct H as (z & E & H). apply in_seq in H. injection E as E1 E2. subst.
    rewrite Nat.div_add_l by lia. rewrite Nat.div_small by lia. lia.
  Qed.
  Lemma pairs2_ok : pairs_ok (pairs2 nz order2).
  Proof.
    split; [apply (Permutation_NoDup (Permutation_sym pairs2_fst)), seq_NoDup|].
    intros i k I. apply (in_map fst) in I. apply (Permutation_in _ pairs2_fst) in I. apply in_seq in I. cbn [fst] in I. lia.
  Qed.
  Lemma pairs2_in i : i < N -> In i (map fst (pairs2 nz order2)).
  Proof. intros L. apply (Permutation_in _ (Permutation_sym pairs2_fst)). apply in_seq. lia. Qed.

  Lemma pairsp_ok jy : jy < ny -> pairs_ok (pairsp ny nz orderp jy).
  Proof.
    intros J. split.
    - unfold pairsp. rewrite map_map. cbn [fst]. apply NoDup_map_in.
      + apply (Permutation_NoDup (Permutation_sym Op)), seq_NoDup.
      + intros x y Ix _. apply (Permutation_in _ Op), in_seq in Ix. apply flat_index_inj; [|exact J]. intros ->. lia.
    - unfold pairsp. intros i k I. apply in_map_iff in I. destruct I as (x & E & I). injection E as <- <-.
      apply (Permutation_in _ Op), in_seq in I. apply flat_index_bound; [lia|exact J].
  Qed.

  (** Clearing slices. *)
  Lemma lookup_clear (s : st) p x : lookup (slots V (clear_slices V s p)) x = if slice_of p x then None else lookup (slots V s) x.
  Proof.
    unfold clear_slices. cbn [slots]. rewrite (lookup_filter (fun y => negb (slice_of p y))). destruct (slice_of p x); reflexivity.
  Qed.
  Lemma inv_clear (s : st) p : Inv s -> Inv (clear_slices V s p).
  Proof.
    intros [ND I]. split; [apply NoDup_map_filter; exact ND|].
    intros x b H. unfold clear_slices in *. cbn [slots heap next] in *. apply filter_In in H. apply I with x. tauto.
  Qed.
  Lemma obs_clear (s : st) p x : obs (clear_slices V s p) x = if slice_of p x then Absent V else obs s x.
  Proof. unfold observe. rewrite lookup_clear. destruct (slice_of p x); reflexivity. Qed.

  Lemma inv_new (s : st) d : Inv s -> length d = N ->
    Inv (snd (new_block V s d)) /\ (forall x, obs (snd (new_block V s d)) x = obs s x).
  Proof.
    intros IV L. destruct IV as [ND I]. split.
    - split; [exact ND|]. cbn [new_block snd slots heap next]. intros x b H. destruct (I x b H) as (Lb & d0 & E & L0).
      split; [lia|]. exists d0. unfold upd. replace (b =? next V s) with false by (symmetry; apply Nat.eqb_neq; lia). auto.
    - intros x. apply observe_ext; [reflexivity|]. intros b H. apply lookup_In in H. destruct (I x b H) as (Lb & _).
      cbn [new_block snd heap]. unfold upd. replace (b =? next V s) with false by (symmetry; apply Nat.eqb_neq; lia). reflexivity.
  Qed.

  (** Point an existing object to the newest block. *)
  Lemma inv_point (s : st) p b d : Inv s -> b < next V s -> heap V s b = Some d -> length d = N ->
    Inv (mkSt V (assign (slots V s) p (Some b)) (heap V s) (next V s)).
  Proof.
    intros [ND I] Lb E L. split; cbn [slots heap next].
    - rewrite keys_assign. exact ND.
    - intros x c H. unfold assign in H. apply in_map_iff in H. destruct H as (e & Ee & H).
      destruct (slot_eqb (fst e) p); [injection Ee as _ <-; split; [exact Lb|eauto]|]. subst e. apply (I x c H).
  Qed.
  Lemma count_new (l : list entry) p b : NoDup (keys l) -> lookup l p <> None -> (forall x c, In (x, Some c) l -> c <> b) ->
    length (filter (points b) (assign l p (Some b))) = 1.
  Proof.
    intros ND HP F. apply count_one with p.
    - rewrite keys_assign. exact ND.
    - apply lookup_In. rewrite lookup_assign, slot_eqb_refl. destruct (lookup l p); congruence.
    - intros x H. unfold assign in H. apply in_map_iff in H. destruct H as (e & Ee & H).
      destruct (slot_eqb (fst e) p) eqn:Q; [apply slot_eqb_eq in Q; congruence|]. subst e. exfalso. apply (F _ _ H). reflexivity.
  Qed.

  (** Result of an operation that leaves [p] alone with its block [b] holding [d]. *)
  Definition owns (s : st) (p : slot) (b : nat) (d : list V) : Prop :=
    lookup (slots V s) p = Some (Some b) /\ use_count V s b = 1 /\ heap V s b = Some d /\ length d = N.

  Lemma new_owned (s : st) p d : Inv s -> length d = N -> lookup (slots V s) p <> None ->
    let (b, s1) := new_block V s d in
    let s2 := mkSt V (assign (slots V s1) p (Some b)) (heap V s1) (next V s1) in
    Inv s2 /\ owns s2 p b d /\ (forall x, x <> p -> obs s2 x = obs s x /\ lookup (slots V s2) x = lookup (slots V s) x).
  Proof.
    intros IV L HP. destruct (inv_new s d IV L) as [I1 Ob]. unfold new_block in *. cbn [snd slots heap next] in *.
    assert (Eb : upd V (heap V s) (next V s) d (next V s) = Some d) by (unfold upd; rewrite Nat.eqb_refl; reflexivity).
    split; [|split].
    - apply (inv_point (mkSt V (slots V s) (upd V (heap V s) (next V s) d) (S (next V s))) p (next V s) d I1); cbn [next heap]; auto.
    - unfold owns, use_count. cbn [slots heap]. split; [|split; [|auto]].
      + rewrite lookup_assign, slot_eqb_refl. destruct (lookup (slots V s) p); congruence.
      + destruct IV as [ND I]. apply count_new; auto. intros x c H. destruct (I x c H). lia.
    - intros x NE. apply slot_eqb_neq in NE. assert (Lx : lookup (assign (slots V s) p (Some (next V s))) x = lookup (slots V s) x)
        by (rewrite lookup_assign, NE; reflexivity).
      split; [|exact Lx]. rewrite <- Ob. apply observe_ext; [exact Lx|]. reflexivity.
  Qed.

  Lemma allocate_spec (s : st) p j : Inv s -> lookup (slots V s) p <> None ->
    exists s1 b d, allocate V nx ny nz s p j = Ok s1 /\ Inv s1 /\ owns s1 p b d /\
      (forall x, x <> p -> obs s1 x = obs s x /\ lookup (slots V s1) x = lookup (slots V s) x) /\
      (forall d0, obs s p = Data V d0 -> d = d0).
  Proof.
    intros IV HP. unfold allocate. destruct (lookup (slots V s) p) as [[b|]|] eqn:E; [| |congruence].
    - destruct (inv_lookup V nx ny nz s p b IV E) as (Lb & d & Eh & Ld & Eo).
      destruct (use_count V s b =? 1) eqn:U.
      + apply Nat.eqb_eq in U. exists s, b, d. split; [reflexivity|]. split; [exact IV|]. split; [repeat split; auto|]. split; [auto|].
        intros d0 H. congruence.
      + rewrite Eh. pose proof (new_owned s p d IV Ld) as NO. rewrite E in NO. specialize (NO ltac:(congruence)).
        destruct (new_block V s d) as [c s1]. destruct NO as (I2 & Ow & Ob).
        eexists _, c, d. split; [reflexivity|]. split; [exact I2|]. split; [exact Ow|]. split; [exact Ob|]. intros d0 H. congruence.
    - assert (Lj : length (map j (seq 0 (n nx ny nz))) = N) by (rewrite map_length, seq_length; reflexivity).
      pose proof (new_owned s p _ IV Lj) as NO. rewrite E in NO. specialize (NO ltac:(congruence)).
      destruct (new_block V s (map j (seq 0 (n nx ny nz)))) as [c s1]. destruct NO as (I2 & Ow & Ob).
      eexists _, c, _. split; [reflexivity|]. split; [exact I2|]. split; [exact Ow|]. split; [exact Ob|].
      intros d0 H. unfold observe in H. rewrite E in H. discriminate.
  Qed.

  Lemma loop_on_spec (s : st) p b d g l (val : nat -> V) : Inv s -> owns s p b d -> pairs_ok l ->
    (forall i k h d' x, In (i, k) l -> h b = Some d' -> (forall c, c <> b -> h c = heap V s c) ->
       nth_error d' i = nth_error d i -> nth_error d i = Some x -> g h i k x = Some (val i)) ->
    exists s' d', loop_on V s p g l = Ok s' /\ Inv s' /\ slots V s' = slots V s /\ owns s' p b d' /\
      (forall x, x <> p -> obs s' x = obs s x) /\
      (forall i, In i (map fst l) -> nth_error d' i = Some (val i)) /\
      (forall i, ~ In i (map fst l) -> nth_error d' i = nth_error d i).
  Proof.
    intros IV (Ep & U & Eh & Ld) [ND B] G. unfold loop_on. rewrite Ep.
    destruct (loop_spec V l (heap V s) (heap V s) b d d g val) as (h' & d' & E & Hb & L' & O & Vs & Vo); auto.
    - intros i k I. rewrite Ld. apply (B i k I).
    - intros i k h' d' x I H1 L1 H2 H3 H4. apply (G i k h' d' x); auto.
    - rewrite E. cbn [bind]. eexists _, d'. split; [reflexivity|].
      assert (I' : Inv (mkSt V (slots V s) h' (next V s))).
      { destruct IV as [NDk I]. split; cbn [slots heap next]; [exact NDk|]. intros x c H.
        destruct (I x c H) as (Lc & dc & Ec & Lnc). split; [exact Lc|].
        destruct (Nat.eq_dec c b) as [->|NE]; [exists d'; split; [exact Hb|congruence]|].
        exists dc. rewrite O by exact NE. auto. }
      split; [exact I'|]. split; [reflexivity|].
      split; [unfold owns, use_count in *; cbn [slots heap]; repeat split; auto; congruence|].
      split; [|split; [exact Vs|exact Vo]].
      intros x NE. apply observe_ext; [reflexivity|]. cbn [heap]. intros c Hc. apply O. intros ->.
      apply NE. apply (unique_only V s p b Ep U). exact Hc.
  Qed.
End P2.
