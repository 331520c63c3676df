(** Proofs about the reductions of fields. *)
From Coq Require Import ZArith Reals List Bool Permutation Lia Lra.
From Verif Require Import Base RegionModel ReduceModel ReduceSpec.
Import ListNotations.

(** ** A reduction over any allowed schedule is a fold over a permutation of the cells. *)
Lemma fold_ind {T} (g : T -> Z -> T) l a : fold_left (fun r i => g r (ind i)) l a = fold_left g (map ind l) a.
Proof. revert a. induction l as [|x l IH]; cbn; auto. Qed.

Section Ext.
Variable less : R -> R -> Prop.
Variable less_dec : forall a b, {less a b} + {~ less a b}.
Variable le : R -> R -> Prop.
Hypothesis le_refl : forall a, le a a.
Hypothesis le_trans : forall a b c, le a b -> le b c -> le a c.
Hypothesis less_le : forall a b, less a b -> le a b.
Hypothesis nless_le : forall a b, ~ less a b -> le b a.
Notation bet := (better less less_dec).
Notation cmb := (comb less less_dec).
(** [opt l r]: r is the extreme of l. *)
Definition opt (l : list R) (r : option R) : Prop := match r with None => l = [] | Some m => In m l /\ forall x, In x l -> le m x end.
Lemma opt_better l r x : opt l r -> opt (x :: l) (bet x r).
Proof.
  destruct r as [m|]; cbn.
  - intros [A B]. destruct (less_dec x m); cbn.
    + split; [now left|]. intros y [->|Hy]; [apply le_refl|]. eapply le_trans; [apply less_le; eassumption|auto].
    + split; [now right|]. intros y [->|Hy]; auto.
  - intros ->. split; [now left|]. intros y [->|[]]. apply le_refl.
Qed.
Lemma opt_perm l l' r : (forall x, In x l <-> In x l') -> opt l r -> opt l' r.
Proof.
  intros H. destruct r as [m|]; cbn.
  - intros [A B]. split; [apply H, A|]. intros x Hx. apply B, H, Hx.
  - intros ->. destruct l' as [|y l']; [reflexivity|]. destruct (proj2 (H y) (or_introl eq_refl)).
Qed.
Lemma opt_fold (f : Z -> R) ks l r : opt l r -> opt (l ++ map f ks) (fold_left (fun r k => bet (f k) r) ks r).
Proof.
  revert l r. induction ks as [|k ks IH]; intros l r H; cbn.
  - now rewrite app_nil_r.
  - eapply opt_perm; [|apply IH, opt_better, H]. intros x. cbn [app]; rewrite ?in_app_iff; cbn [In]; rewrite ?in_app_iff. cbn [In]. tauto.
Qed.
Lemma opt_comb l1 l2 a b : opt l1 a -> opt l2 b -> opt (l1 ++ l2) (cmb a b).
Proof.
  destruct b as [m|]; cbn.
  - intros H1 [A B]. pose proof (opt_better l1 a m H1) as H. unfold opt in *. destruct (bet m a) as [v|]; [|discriminate].
    destruct H as [C D]. split.
    + destruct C as [->|C]; apply in_or_app; auto.
    + intros x Hx. apply in_app_or in Hx. destruct Hx as [Hx|Hx]; [apply D; now right|]. eapply le_trans; [apply D; now left|auto].
  - intros H ->. now rewrite app_nil_r.
Qed.
Lemma opt_reduce (f : Z -> R) rg s start l0 : good_region rg -> allowed rg s -> opt l0 start ->
  opt (l0 ++ map f (cells rg)) (reduce cmb None (fun r i => bet (f (ind i)) r) start rg s).
Proof.
  intros G A H. destruct s as [|gs]; cbn [reduce].
  - rewrite (fold_ind (fun r k => bet (f k) r)), G. apply opt_fold, H.
  - cbn in A.
    assert (K : forall gs l r, opt l r -> opt (l ++ map f (map ind (flat_map iter_block (concat gs))))
      (fold_left cmb (map (fun bs => fold_left (fun r i => bet (f (ind i)) r) (flat_map iter_block bs) None) gs) r)).
    { induction gs0 as [|bs gs0 IH]; intros l r Hr; cbn.
      - now rewrite app_nil_r.
      - rewrite flat_map_app, !map_app, app_assoc. apply IH. apply opt_comb; [exact Hr|].
        rewrite (fold_ind (fun r k => bet (f k) r)). apply (opt_fold f _ [] None). reflexivity. }
    eapply opt_perm; [|apply K, H]. intros x. rewrite !in_app_iff.
    assert (P : Permutation (map f (map ind (flat_map iter_block (concat gs)))) (map f (cells rg))).
    { rewrite <- G. unfold getRegionIndices. apply Permutation_map, Permutation_map, Permutation_flat_map, A. }
    split; (intros [?|?]; [now left|right]); [eapply Permutation_in; [exact P|assumption]|eapply Permutation_in; [apply Permutation_sym, P|assumption]].
Qed.
Lemma extreme_local_ok (f : Z -> R) rg s : good_region rg -> allowed rg s -> cells rg <> [] ->
  exists v, extreme_local less less_dec rg s f = Ok v /\ In v (map f (cells rg)) /\ forall x, In x (map f (cells rg)) -> le v x.
Proof.
  intros G A N. unfold extreme_local. unfold cells in N. destruct (indices rg) as [|i0 t] eqn:E; [contradiction|].
  assert (H : opt [f (ind i0)] (Some (f (ind i0)))). { split; [now left|]. intros x [->|[]]. apply le_refl. }
  pose proof (opt_reduce f rg s _ _ G A H) as K.
  destruct (reduce _ _ _ _ _ _) as [v|]; [|destruct (app_cons_not_nil [] (map f (cells rg)) (f (ind i0))); symmetry; exact K].
  destruct K as [K1 K2]. exists v. split; [reflexivity|]. unfold cells in *. rewrite E in *. split.
  - destruct K1 as [<-|K1]; [now left|exact K1].
  - intros x Hx. apply K2. now right.
Qed.
Lemma extreme_local_empty (f : Z -> R) rg s : cells rg = [] -> extreme_local less less_dec rg s f = UB.
Proof. unfold extreme_local, cells. destruct (indices rg); [reflexivity|discriminate]. Qed.
Lemma pick_fold l a : In (fold_left (pick less less_dec) l a) (a :: l) /\ forall x, In x (a :: l) -> le (fold_left (pick less less_dec) l a) x.
Proof.
  revert a. induction l as [|b l IH]; intros a; cbn [fold_left].
  - split; [now left|]. intros x [->|[]]. apply le_refl.
  - destruct (IH (pick less less_dec a b)) as [A B]. split.
    + destruct A as [A|A]; [|now right; right]. unfold pick in A at 1. destruct (less_dec b a); [right; now left|now left].
    + intros x Hx. assert (le (pick less less_dec a b) a /\ le (pick less less_dec a b) b) as [C D].
      { unfold pick. destruct (less_dec b a); split; auto. }
      pose proof (B _ (or_introl eq_refl)) as Q. destruct Hx as [->|[->|Hx]]; [eapply le_trans; eauto|eapply le_trans; eauto|apply B; now right].
Qed.
Lemma on_all_ok {T} ranks (v : Z -> res T) (w : Z -> T) : (forall q, In q ranks -> v q = Ok (w q)) -> on_all ranks v = Ok (map w ranks).
Proof. induction ranks as [|q t IH]; intros H; cbn; [reflexivity|]. rewrite (H q (or_introl eq_refl)), IH; [reflexivity|]. intros; apply H; now right. Qed.
Lemma extreme_ok ranks rg s f : ranks <> [] -> (forall q, In q ranks -> good_region (rg q) /\ allowed (rg q) (s q) /\ cells (rg q) <> []) ->
  forall r, exists v, extreme less less_dec ranks rg s f true r = Ok v /\ In v (values ranks rg f) /\ forall x, In x (values ranks rg f) -> le v x.
Proof.
  intros N H r. unfold extreme, all_op.
  assert (E : exists w, forall q, In q ranks -> extreme_local less less_dec (rg q) (s q) (f q) = Ok (w q) /\
     In (w q) (map (f q) (cells (rg q))) /\ forall x, In x (map (f q) (cells (rg q))) -> le (w q) x).
  { exists (fun q => match extreme_local less less_dec (rg q) (s q) (f q) with Ok v => v | _ => 0%R end).
    intros q Hq. destruct (H q Hq) as (A & B & C). destruct (extreme_local_ok (f q) (rg q) (s q) A B C) as (v & -> & K). auto. }
  destruct E as [w W]. rewrite (on_all_ok ranks _ w) by (intros q Hq; apply W, Hq). cbn [bind].
  destruct ranks as [|q0 t]; [contradiction|]. cbn [map]. destruct (pick_fold (map w t) (w q0)) as [A B].
  eexists. split; [reflexivity|]. change (w q0 :: map w t) with (map w (q0 :: t)) in A, B. split.
  - apply in_map_iff in A. destruct A as (q & EQ & Hq). rewrite <- EQ. unfold values. apply in_flat_map. exists q. split; [exact Hq|apply W, Hq].
  - intros x Hx. unfold values in Hx. apply in_flat_map in Hx. destruct Hx as (q & Hq & Hx).
    eapply le_trans; [apply B; apply in_map, Hq|]. apply W; assumption.
Qed.
End Ext.

(** ** mean *)
Lemma total_app a b : total (a ++ b) = (total a + total b)%R.
Proof. induction a as [|x a IH]; cbn; [lra|]. rewrite IH. lra. Qed.
Lemma total_perm a b : Permutation a b -> total a = total b.
Proof. induction 1; cbn; lra. Qed.
Lemma sum_fold (f : Z -> R) ks a : fold_left (fun a k => ((fst a + f k)%R, (snd a + 1)%Z)) ks a = ((fst a + total (map f ks))%R, (snd a + Z.of_nat (length ks))%Z).
Proof.
  revert a. induction ks as [|k ks IH]; intros [x n]; cbn [fold_left map total length].
  - cbn. f_equal; try lra; try lia.
  - rewrite IH. cbn [fst snd]. f_equal; try lra; try lia.
Qed.
Lemma sum_count_ok rg s f : good_region rg -> allowed rg s -> sum_count rg s f = (total (map f (cells rg)), Z.of_nat (length (cells rg))).
Proof.
  intros G A. unfold sum_count. destruct s as [|gs]; cbn [reduce].
  - rewrite (fold_ind (fun a k => ((fst a + f k)%R, (snd a + 1)%Z))), sum_fold, G. cbn [fst snd]. f_equal; try lra; try lia.
  - cbn in A.
    assert (K : forall gs a, fold_left (fun a b : R * Z => ((fst a + fst b)%R, (snd a + snd b)%Z))
       (map (fun bs => fold_left (fun a i => ((fst a + f (ind i))%R, (snd a + 1)%Z)) (flat_map iter_block bs) (0%R, 0%Z)) gs) a =
       ((fst a + total (map f (map ind (flat_map iter_block (concat gs)))))%R, (snd a + Z.of_nat (length (map ind (flat_map iter_block (concat gs)))))%Z)).
    { induction gs0 as [|bs gs0 IH]; intros [x n]; cbn [map concat fold_left fst snd].
      - cbn. f_equal; try lra; try lia.
      - rewrite IH. rewrite (fold_ind (fun a k => ((fst a + f k)%R, (snd a + 1)%Z))), sum_fold. cbn [fst snd].
        rewrite flat_map_app, !map_app, total_app, app_length. f_equal; try lra; try lia. }
    rewrite K. cbn [fst snd].
    assert (P : Permutation (map ind (flat_map iter_block (concat gs))) (cells rg)).
    { rewrite <- G. unfold getRegionIndices. apply Permutation_map, Permutation_flat_map, A. }
    rewrite (total_perm _ _ (Permutation_map f P)), (Permutation_length P). f_equal; try lra; try lia.
Qed.
Lemma allreduce_sum ranks v : allreduce Rplus ranks v 0%R = total (map v ranks).
Proof.
  destruct ranks as [|r rs]; cbn; [reflexivity|].
  enough (H : forall l a, fold_left Rplus l a = (a + total l)%R) by apply H. induction l as [|x l IH]; intros a; cbn; [lra|]. rewrite IH. lra.
Qed.
Lemma fold_Zadd l a : fold_left Z.add l a = (a + fold_right Z.add 0 l)%Z.
Proof. revert a. induction l as [|x l IH]; intros a; cbn [fold_left fold_right]; [lia|]. rewrite IH. lia. Qed.
Lemma allreduce_count ranks v : allreduce Z.add ranks v 0%Z = fold_right Z.add 0%Z (map v ranks).
Proof. destruct ranks as [|r rs]; cbn [allreduce map fold_right]; [reflexivity|]. rewrite fold_Zadd. reflexivity. Qed.
Lemma mean_all ranks rg s f r : (forall q, In q ranks -> good_region (rg q) /\ allowed (rg q) (s q)) ->
  mean ranks rg s f true r = if (Z.of_nat (length (values ranks rg f)) =? 0)%Z then None
    else Some (total (values ranks rg f) / IZR (Z.of_nat (length (values ranks rg f))))%R.
Proof.
  intros H. unfold mean. rewrite allreduce_sum, allreduce_count.
  assert (A : total (map (fun q => fst (sum_count (rg q) (s q) (f q))) ranks) = total (values ranks rg f) /\
    fold_right Z.add 0%Z (map (fun q => snd (sum_count (rg q) (s q) (f q))) ranks) = Z.of_nat (length (values ranks rg f))).
  { induction ranks as [|q t IH]; cbn [map total values flat_map fold_right length]; [split; reflexivity|].
    destruct (H q (or_introl eq_refl)) as [G A]. destruct IH as [I1 I2]; [intros; apply H; now right|].
    rewrite I1, I2, (sum_count_ok _ _ _ G A). cbn [fst snd]. rewrite total_app, app_length, map_length. split; [reflexivity|]. unfold values. lia. }
  destruct A as [-> ->]. reflexivity.
Qed.
Lemma is_mean_div l : l <> [] -> is_mean l (total l / IZR (Z.of_nat (length l))).
Proof.
  intros N. split; [exact N|]. rewrite <- INR_IZR_INZ. assert (INR (length l) <> 0)%R by (apply not_0_INR; destruct l; [contradiction|discriminate]). field. assumption.
Qed.

(** ** the grid *)
Lemma in_upto n k : In k (upto n) <-> (0 <= k < n)%Z.
Proof.
  unfold upto. rewrite in_map_iff. split.
  - intros (j & <- & H). apply in_seq in H. lia.
  - intros H. exists (Z.to_nat k). split; [lia|]. apply in_seq. lia.
Qed.
Lemma NoDup_upto n : NoDup (upto n).
Proof. unfold upto. apply FinFun.Injective_map_NoDup; [intros a b; lia|apply seq_NoDup]. Qed.
Lemma NoDup_app' {A} (a b : list A) : NoDup a -> NoDup b -> (forall x, In x a -> ~ In x b) -> NoDup (a ++ b).
Proof.
  induction 1 as [|x a N D IH]; cbn; intros Hb H; [exact Hb|]. constructor.
  - rewrite in_app_iff. intros [K|K]; [contradiction|]. exact (H x (or_introl eq_refl) K).
  - apply IH; [exact Hb|]. intros y Hy. apply H. now right.
Qed.
Lemma NoDup_flat {A B} (g : A -> list B) l : NoDup l -> (forall a, In a l -> NoDup (g a)) ->
  (forall a a' b, In a l -> In a' l -> In b (g a) -> In b (g a') -> a = a') -> NoDup (flat_map g l).
Proof.
  induction 1 as [|a l N D IH]; intros H1 H2; cbn; [constructor|].
  apply NoDup_app'; [apply H1; now left|apply IH; [intros; apply H1; now right|intros a' a'' b ? ?; apply H2; now right]|].
  intros x Hx K. apply in_flat_map in K. destruct K as (a' & Ha' & K). rewrite (H2 a a' x (or_introl eq_refl) (or_intror Ha') Hx K) in N. contradiction.
Qed.
Lemma in_grid nx ny nz p : In p (grid_points nx ny nz) <-> exists x y z, p = (x, y, z) /\ (0 <= x < nx)%Z /\ (0 <= y < ny)%Z /\ (0 <= z < nz)%Z.
Proof.
  unfold grid_points. rewrite in_flat_map. split.
  - intros (x & Hx & H). apply in_flat_map in H. destruct H as (y & Hy & H). apply in_map_iff in H. destruct H as (z & <- & Hz).
    rewrite in_upto in *. eauto 10.
  - intros (x & y & z & -> & Hx & Hy & Hz). exists x. rewrite in_upto. split; [exact Hx|]. apply in_flat_map. exists y. rewrite in_upto. split; [exact Hy|].
    apply in_map. now apply in_upto.
Qed.
Lemma NoDup_grid nx ny nz : NoDup (grid_points nx ny nz).
Proof.
  unfold grid_points. apply NoDup_flat; [apply NoDup_upto| |].
  - intros x _. apply NoDup_flat; [apply NoDup_upto| |].
    + intros y _. apply FinFun.Injective_map_NoDup; [intros a b E; injection E; auto|apply NoDup_upto].
    + intros y y' b _ _ H K. apply in_map_iff in H, K. destruct H as (? & <- & _), K as (? & E & _). injection E. auto.
  - intros x x' b _ _ H K. apply in_flat_map in H, K. destruct H as (? & _ & H), K as (? & _ & K).
    apply in_map_iff in H, K. destruct H as (? & <- & _), K as (? & E & _). injection E. auto.
Qed.
