(** Proofs about the averages. *)
From Coq Require Import ZArith Reals List Bool Lia Lra Permutation.
From Verif Require Import Base MeshModel MeshProofs TopoModel TopoSpec YcommModel YcommSpec ReduceSpec ReduceProofs AverageModel AverageSpec.
Import ListNotations.
Open Scope R_scope.

Lemma fold_total l a : fold_left Rplus l a = a + total l.
Proof. revert a. induction l as [|x l IH]; intros a; cbn; [lra|]. rewrite IH. lra. Qed.
Lemma sum_from_to_total a b g : sum_from_to a b g = total (map g (from_to a b)).
Proof.
  unfold sum_from_to. fold (from_to a b). enough (H : forall l s, fold_left (fun s i => s + g i) l s = s + total (map g l)) by (rewrite H; lra).
  induction l as [|x l IH]; intros s; cbn; [lra|]. rewrite IH. lra.
Qed.
Lemma sum_over_total l v : sum_over l v = total (map v l).
Proof. destruct l as [|q t]; cbn; [reflexivity|]. apply fold_total. Qed.
Lemma from_to_length a b : (a <= b + 1)%Z -> Z.of_nat (length (from_to a b)) = (b - a + 1)%Z.
Proof. intros H. unfold from_to. rewrite map_length, seq_length. lia. Qed.
Lemma in_from_to a b k : In k (from_to a b) <-> (a <= k <= b)%Z.
Proof.
  unfold from_to. rewrite in_map_iff. split.
  - intros (j & <- & H). apply in_seq in H. lia.
  - intros H. exists (Z.to_nat (k - a)). split; [lia|]. apply in_seq. lia.
Qed.
Lemma total_map_div l (v : Z -> R) n : total (map (fun q => v q / n) l) = total (map v l) / n.
Proof. induction l as [|q t IH]; cbn; [unfold Rdiv; lra|]. rewrite IH. unfold Rdiv. lra. Qed.
Lemma total_flat (V : Z -> list R) l : total (flat_map V l) = total (map (fun q => total (V q)) l).
Proof. induction l as [|q t IH]; cbn; [reflexivity|]. rewrite total_app, IH. reflexivity. Qed.
Lemma flat_length (V : Z -> list R) l n : (forall q, In q l -> length (V q) = n) -> length (flat_map V l) = (length l * n)%nat.
Proof. induction l as [|q t IH]; intros H; cbn; [reflexivity|]. rewrite app_length, (H q), IH; [reflexivity| |now left]. intros; apply H; now right. Qed.
(** The mean of means of parts of equal size. *)
Lemma mean_of_means (V : Z -> list R) l n : l <> [] -> (0 < n)%nat -> (forall q, In q l -> length (V q) = n) ->
  is_mean (flat_map V l) (total (map (fun q => total (V q) / INR n) l) / INR (length l)).
Proof.
  intros N Hn H. split.
  - intros C. apply (f_equal (@length R)) in C. rewrite (flat_length V l n H) in C. destruct l; [contradiction|]. cbn in C. lia.
  - rewrite (flat_length V l n H), total_flat, total_map_div, mult_INR.
    assert (INR n <> 0) by (apply not_0_INR; lia). assert (INR (length l) <> 0) by (apply not_0_INR; destruct l; [contradiction|discriminate]). field. auto.
Qed.

Section A.
Variables (npes : Z) (M : Z -> mesh) (mysub mxsub : Z).
Hypothesis HD : forall q, (0 <= q < npes)%Z -> decomposed npes q (M q) /\ MYSUB (M q) = mysub /\ MXSUB (M q) = mxsub.
Lemma IZR_len (l : list Z) : IZR (Z.of_nat (length l)) = INR (length l).
Proof. symmetry. apply INR_IZR_INZ. Qed.
(** A list of ranks averaged as in the code. *)
Lemma avg_y f l x z r : (forall q, In q l -> (0 <= q < npes)%Z) -> In r l ->
  is_mean (line_values M f l x z) (if (Z.of_nat (length l) =? 1)%Z then local_y M f r x z else sum_over l (fun q => local_y M f q x z) / IZR (Z.of_nat (length l))).
Proof.
  intros Hl Hr.
  assert (L : forall q, In q l -> Z.of_nat (length (from_to (ystart (M q)) (yend (M q)))) = mysub /\ (yend (M q) - ystart (M q) + 1 = mysub)%Z /\ (0 < mysub)%Z).
  { intros q Hq. destruct (HD q (Hl q Hq)) as (D & E & _). pose proof (d_ys _ _ _ D). pose proof (d_ye _ _ _ D). pose proof (d_mysub _ _ _ D). rewrite from_to_length by lia. lia. }
  set (V := fun q => map (fun y => f q x y z) (from_to (ystart (M q)) (yend (M q)))).
  assert (LV : forall q, In q l -> length (V q) = Z.to_nat mysub). { intros q Hq. unfold V. rewrite map_length. destruct (L q Hq). lia. }
  assert (E : forall q, In q l -> local_y M f q x z = total (V q) / INR (Z.to_nat mysub)).
  { intros q Hq. unfold local_y. rewrite sum_from_to_total. destruct (L q Hq) as (_ & -> & H). rewrite INR_IZR_INZ, Z2Nat.id by lia. reflexivity. }
  assert (N : l <> []) by (intros C; rewrite C in Hr; exact Hr).
  assert (P : (0 < Z.to_nat mysub)%nat) by (destruct (L r Hr); lia).
  pose proof (mean_of_means V l (Z.to_nat mysub) N P LV) as K. change (flat_map V l) with (line_values M f l x z) in K.
  replace (total (map (fun q => total (V q) / INR (Z.to_nat mysub)) l)) with (sum_over l (fun q => local_y M f q x z)) in K.
  2:{ rewrite sum_over_total. f_equal. apply map_ext_in. exact E. }
  rewrite IZR_len. destruct (Z.eqb_spec (Z.of_nat (length l)) 1) as [E1|_]; [|exact K].
  destruct l as [|a [|b l']]; [contradiction| |cbn [length] in E1; lia]. destruct Hr as [<-|[]].
  replace (local_y M f a x z) with (sum_over [a] (fun q => local_y M f q x z) / INR (length [a])) at 1; [exact K|]. cbn. lra.
Qed.
Lemma avg_x f l y z r : (forall q, In q l -> (0 <= q < npes)%Z) -> In r l ->
  is_mean (flat_map (fun q => map (fun x => f q x y z) (from_to (xstart (M q)) (xend (M q)))) l)
    (if (Z.of_nat (length l) =? 1)%Z then local_x M f r y z else sum_over l (fun q => local_x M f q y z) / IZR (Z.of_nat (length l))).
Proof.
  intros Hl Hr.
  assert (L : forall q, In q l -> Z.of_nat (length (from_to (xstart (M q)) (xend (M q)))) = mxsub /\ (xend (M q) - xstart (M q) + 1 = mxsub)%Z /\ (0 < mxsub)%Z).
  { intros q Hq. destruct (HD q (Hl q Hq)) as (D & _ & E). pose proof (d_xs _ _ _ D). pose proof (d_xe _ _ _ D). pose proof (d_mxsub _ _ _ D). rewrite from_to_length by lia. lia. }
  set (V := fun q => map (fun x => f q x y z) (from_to (xstart (M q)) (xend (M q)))).
  assert (LV : forall q, In q l -> length (V q) = Z.to_nat mxsub). { intros q Hq. unfold V. rewrite map_length. destruct (L q Hq). lia. }
  assert (E : forall q, In q l -> local_x M f q y z = total (V q) / INR (Z.to_nat mxsub)).
  { intros q Hq. unfold local_x. rewrite sum_from_to_total. destruct (L q Hq) as (_ & -> & H). rewrite INR_IZR_INZ, Z2Nat.id by lia. reflexivity. }
  assert (N : l <> []) by (intros C; rewrite C in Hr; exact Hr).
  assert (P : (0 < Z.to_nat mxsub)%nat) by (destruct (L r Hr); lia).
  pose proof (mean_of_means V l (Z.to_nat mxsub) N P LV) as K.
  replace (total (map (fun q => total (V q) / INR (Z.to_nat mxsub)) l)) with (sum_over l (fun q => local_x M f q y z)) in K.
  2:{ rewrite sum_over_total. f_equal. apply map_ext_in. exact E. }
  rewrite IZR_len. destruct (Z.eqb_spec (Z.of_nat (length l)) 1) as [E1|_]; [|exact K].
  destruct l as [|a [|b l']]; [contradiction| |cbn [length] in E1; lia]. destruct Hr as [<-|[]].
  replace (local_x M f a y z) with (sum_over [a] (fun q => local_x M f q y z) / INR (length [a])) at 1; [exact K|]. cbn. lra.
Qed.
(** Ranks in a row (or column), in order, hold 0, 1, 2, .. of the global indices. *)
Lemma upto_app a b : (0 <= a)%Z -> (0 <= b)%Z -> ReduceSpec.upto (a + b) = ReduceSpec.upto a ++ map (fun k => (a + k)%Z) (ReduceSpec.upto b).
Proof.
  intros Ha Hb. unfold ReduceSpec.upto. rewrite Z2Nat.inj_add, seq_app, map_app, map_map by lia. f_equal. cbn [plus].
  replace (Z.to_nat a) with (Z.to_nat a + 0)%nat by lia.
  enough (H : forall n s, map Z.of_nat (seq (Z.to_nat a + s) n) = map (fun x => (a + Z.of_nat x)%Z) (seq s n)) by apply H.
  induction n as [|n IH]; intros s; cbn [seq map]; [reflexivity|]. f_equal; [lia|]. rewrite <- IH. f_equal. f_equal. lia.
Qed.
Lemma strip_indices (P : Z -> Z) (g : Z -> Z -> Z) (lo hi : Z -> Z) n l j0 : (0 < n)%Z ->
  (forall q k, In q l -> (lo q <= k <= hi q)%Z -> g q k = (k - lo q + P q * n)%Z) -> (forall q, In q l -> (hi q = lo q + n - 1)%Z) ->
  (forall j q, nth_error l j = Some q -> P q = (j0 + Z.of_nat j)%Z) ->
  flat_map (fun q => map (g q) (from_to (lo q) (hi q))) l = map (fun k => (j0 * n + k)%Z) (ReduceSpec.upto (Z.of_nat (length l) * n)).
Proof.
  intros Hn. revert j0. induction l as [|q l IH]; intros j0 G H J; cbn [flat_map length].
  - reflexivity.
  - rewrite (IH (j0 + 1)%Z).
    + replace (Z.of_nat (S (length l)) * n)%Z with (n + Z.of_nat (length l) * n)%Z by lia. rewrite upto_app, map_app, map_map by lia. f_equal.
      * unfold from_to, ReduceSpec.upto. rewrite !map_map. rewrite (H q (or_introl eq_refl)). replace (Z.to_nat (lo q + n - 1 - lo q + 1)) with (Z.to_nat n) by lia.
        apply map_ext_in. intros k Hk. apply in_seq in Hk. rewrite G; [|now left|rewrite (H q (or_introl eq_refl)); lia].
        rewrite (J 0%nat q eq_refl). lia.
      * apply map_ext. intros k. lia.
    + intros q' k Hq. apply G. now right.
    + intros q' Hq. apply H. now right.
    + intros j q' Hj. rewrite (J (S j) q' Hj). lia.
Qed.
Lemma strip_x l : (forall j q, nth_error l j = Some q -> (0 <= q < npes)%Z /\ PE_XIND (M q) = Z.of_nat j) ->
  (forall q, In q l -> (0 <= q < npes)%Z) -> l <> [] ->
  flat_map (fun q => map (getGlobalXIndexNoBoundaries (M q)) (from_to (xstart (M q)) (xend (M q)))) l = ReduceSpec.upto (Z.of_nat (length l) * mxsub).
Proof.
  intros J Hl N.
  assert (0 < mxsub)%Z. { destruct l as [|q t]; [contradiction|]. destruct (HD q) as (D & _ & E); [apply Hl; now left|]. pose proof (d_mxsub _ _ _ D). lia. }
  rewrite (strip_indices (fun q => PE_XIND (M q)) (fun q => getGlobalXIndexNoBoundaries (M q)) (fun q => xstart (M q)) (fun q => xend (M q)) mxsub l 0); auto.
  - rewrite <- map_id. apply map_ext. intros; lia.
  - intros q k Hq Hk. destruct (HD q (Hl q Hq)) as (D & _ & E). unfold getGlobalXIndexNoBoundaries. rewrite (d_xs _ _ _ D), E. lia.
  - intros q Hq. destruct (HD q (Hl q Hq)) as (D & _ & E). rewrite (d_xs _ _ _ D), (d_xe _ _ _ D), E. lia.
  - intros j q Hj. destruct (J j q Hj) as [_ ->]. lia.
Qed.
Lemma strip_y l : (forall j q, nth_error l j = Some q -> (0 <= q < npes)%Z /\ PE_YIND (M q) = Z.of_nat j) ->
  (forall q, In q l -> (0 <= q < npes)%Z) -> l <> [] ->
  flat_map (fun q => map (getGlobalYIndexNoBoundaries (M q)) (from_to (ystart (M q)) (yend (M q)))) l = ReduceSpec.upto (Z.of_nat (length l) * mysub).
Proof.
  intros J Hl N.
  assert (0 < mysub)%Z. { destruct l as [|q t]; [contradiction|]. destruct (HD q) as (D & E & _); [apply Hl; now left|]. pose proof (d_mysub _ _ _ D). lia. }
  rewrite (strip_indices (fun q => PE_YIND (M q)) (fun q => getGlobalYIndexNoBoundaries (M q)) (fun q => ystart (M q)) (fun q => yend (M q)) mysub l 0); auto.
  - rewrite <- map_id. apply map_ext. intros; lia.
  - intros q k Hq Hk. destruct (HD q (Hl q Hq)) as (D & E & _). unfold getGlobalYIndexNoBoundaries. rewrite (d_ys _ _ _ D), E. lia.
  - intros q Hq. destruct (HD q (Hl q Hq)) as (D & E & _). rewrite (d_ys _ _ _ D), (d_ye _ _ _ D), E. lia.
  - intros j q Hj. destruct (J j q Hj) as [_ ->]. lia.
Qed.
End A.
