(** Proofs about nl_filter. *)
From Coq Require Import ZArith Reals List Bool Lia Lra.
From Verif Require Import Base ReduceSpec ReduceProofs AverageModel AverageSpec.
Import ListNotations.
Open Scope R_scope.

(** What a step does: an amount e moves between point i and one neighbour k, towards each other, by no more than half of their
    distance and no more than the distance to the other neighbour k'. *)
Lemma nl_step_cases w f i : 0 <= w <= 1 -> (1 <= i)%nat ->
  (forall j, nl_step w f i j = f j) \/
  exists k k' e, (k = i + 1 /\ k' = i - 1 \/ k = i - 1 /\ k' = i + 1)%nat /\
    (forall j, nl_step w f i j = if (j =? i)%nat then f i + e else if (j =? k)%nat then f k - e else f j) /\
    ((0 <= e /\ 2 * e <= f k - f i /\ e <= f k' - f i /\ f i < f k /\ f i < f k') \/
     (e <= 0 /\ f k - f i <= 2 * e /\ f k' - f i <= e /\ f k < f i /\ f k' < f i)).
Proof.
  intros Hw Hi. unfold nl_step. cbv zeta. set (dp := f (i + 1)%nat - f i). set (dm := f (i - 1)%nat - f i).
  destruct (Rlt_dec 0 (dp * dm)) as [P|_]; [|left; auto]. right.
  assert (S : (0 < dp /\ 0 < dm) \/ (dp < 0 /\ dm < 0)) by (destruct (Rlt_dec 0 dp); destruct (Rlt_dec 0 dm); [left; lra|exfalso; nra|exfalso; nra|right; split; nra]).
  assert (W1 : w * 0.5 * dp = w * (0.5 * dp)) by lra. assert (W2 : w * 0.5 * dm = w * (0.5 * dm)) by lra.
  destruct (Rlt_dec (Rabs dm) (Rabs dp)) as [C|C].
  - exists (i + 1)%nat, (i - 1)%nat. set (e := if Rlt_dec _ _ then _ else _). exists e. split; [left; auto|]. split.
    + intros j. destruct (j =? i)%nat eqn:E; [|reflexivity]. replace (i =? i + 1)%nat with false by (symmetry; apply Nat.eqb_neq; lia). reflexivity.
    + unfold e. fold dp dm. clear e. destruct S as [[S1 S2]|[S1 S2]].
      * left. rewrite !Rabs_mult in *. rewrite (Rabs_pos_eq dp), (Rabs_pos_eq dm), (Rabs_pos_eq w) in * by lra. rewrite (Rabs_pos_eq 0.5) in * by lra.
        assert (f i < f (i + 1)%nat /\ f i < f (i - 1)%nat) as [T1 T2] by (unfold dp, dm in *; lra).
        assert (U1 : 0 <= w * dp <= dp) by (split; nra). assert (U2 : 0 <= w * dm <= dm) by (split; nra). destruct (Rlt_dec _ _); (split; [lra|split; [lra|split; [lra|auto]]]).
      * right. rewrite !Rabs_mult in *. rewrite (Rabs_left dp), (Rabs_left dm), (Rabs_pos_eq w) in * by lra. rewrite (Rabs_pos_eq 0.5) in * by lra.
        assert (f (i + 1)%nat < f i /\ f (i - 1)%nat < f i) as [T1 T2] by (unfold dp, dm in *; lra).
        assert (U1 : dp <= w * dp <= 0) by (split; nra). assert (U2 : dm <= w * dm <= 0) by (split; nra). destruct (Rlt_dec _ _); (split; [lra|split; [lra|split; [lra|auto]]]).
  - exists (i - 1)%nat, (i + 1)%nat. set (e := if Rlt_dec _ _ then _ else _). exists e. split; [right; auto|]. split.
    + intros j. destruct (j =? i)%nat eqn:E; [|reflexivity]. replace (i =? i - 1)%nat with false by (symmetry; apply Nat.eqb_neq; lia). reflexivity.
    + unfold e. fold dp dm. clear e. destruct S as [[S1 S2]|[S1 S2]].
      * left. rewrite !Rabs_mult in *. rewrite (Rabs_pos_eq dp), (Rabs_pos_eq dm), (Rabs_pos_eq w) in * by lra. rewrite (Rabs_pos_eq 0.5) in * by lra.
        assert (f i < f (i + 1)%nat /\ f i < f (i - 1)%nat) as [T1 T2] by (unfold dp, dm in *; lra).
        assert (U1 : 0 <= w * dp <= dp) by (split; nra). assert (U2 : 0 <= w * dm <= dm) by (split; nra). destruct (Rlt_dec _ _); (split; [lra|split; [lra|split; [lra|auto]]]).
      * right. rewrite !Rabs_mult in *. rewrite (Rabs_left dp), (Rabs_left dm), (Rabs_pos_eq w) in * by lra. rewrite (Rabs_pos_eq 0.5) in * by lra.
        assert (f (i + 1)%nat < f i /\ f (i - 1)%nat < f i) as [T1 T2] by (unfold dp, dm in *; lra).
        assert (U1 : dp <= w * dp <= 0) by (split; nra). assert (U2 : dm <= w * dm <= 0) by (split; nra). destruct (Rlt_dec _ _); (split; [lra|split; [lra|split; [lra|auto]]]).
Qed.
Lemma total_plus {A} (g h : A -> R) l : total (map (fun j => g j + h j) l) = total (map g l) + total (map h l).
Proof. induction l as [|x l IH]; cbn; [lra|]. rewrite IH. lra. Qed.
Lemma total_le {A} (g h : A -> R) l : (forall j, In j l -> g j <= h j) -> total (map g l) <= total (map h l).
Proof. induction l as [|x l IH]; intros H; cbn; [lra|]. pose proof (H x (or_introl eq_refl)). assert (total (map g l) <= total (map h l)) by (apply IH; intros; apply H; now right). lra. Qed.
Lemma total_one a v s n : total (map (fun j => if (j =? a)%nat then v else 0) (seq s n)) = if ((s <=? a) && (a <? s + n))%nat then v else 0.
Proof.
  revert s. induction n as [|n IH]; intros s; cbn [seq map total].
  - destruct (Nat.leb_spec s a); destruct (Nat.ltb_spec a (s + 0)); cbn [andb]; try reflexivity; lia.
  - rewrite IH. destruct (Nat.eqb_spec s a); destruct (Nat.leb_spec s a); destruct (Nat.leb_spec (S s) a); destruct (Nat.ltb_spec a (S s + n)); destruct (Nat.ltb_spec a (s + S n)); cbn [andb]; try lia; lra.
Qed.
Lemma sum_step w f i n : 0 <= w <= 1 -> (1 <= i)%nat -> (i + 1 < n)%nat -> sum_n n (nl_step w f i) = sum_n n f.
Proof.
  intros Hw Hi Hn. destruct (nl_step_cases w f i Hw Hi) as [E|(k & k' & e & K & E & _)]; unfold sum_n.
  - f_equal. apply map_ext. exact E.
  - rewrite (map_ext _ (fun j => (f j + (if (j =? i)%nat then e else 0)) + (if (j =? k)%nat then - e else 0))).
    2:{ intros j. rewrite E. destruct (Nat.eqb_spec j i) as [->|]; [replace (i =? k)%nat with false by (symmetry; apply Nat.eqb_neq; lia); lra|]. destruct (Nat.eqb_spec j k) as [->|]; lra. }
    rewrite !total_plus, !total_one. replace ((0 <=? i) && (i <? 0 + n))%nat with true by (symmetry; apply andb_true_iff; split; [apply Nat.leb_le|apply Nat.ltb_lt]; lia).
    replace ((0 <=? k) && (k <? 0 + n))%nat with true by (symmetry; apply andb_true_iff; split; [apply Nat.leb_le|apply Nat.ltb_lt]; lia). lra.
Qed.
Lemma range_step w f i n lo hi : 0 <= w <= 1 -> (1 <= i)%nat -> (i + 1 < n)%nat -> (forall j, (j < n)%nat -> lo <= f j <= hi) ->
  forall j, (j < n)%nat -> lo <= nl_step w f i j <= hi.
Proof.
  intros Hw Hi Hn H j Hj. destruct (nl_step_cases w f i Hw Hi) as [E|(k & k' & e & K & E & B)]; rewrite E; [auto|].
  pose proof (H i ltac:(lia)) as A1. pose proof (H k ltac:(lia)) as A2. pose proof (H k' ltac:(lia)) as A3.
  destruct (j =? i)%nat; [lra|]. destruct (j =? k)%nat; [lra|auto].
Qed.
Ltac abs := unfold Rabs; repeat destruct (Rcase_abs _); lra.
Lemma variation_step w f i n : 0 <= w <= 1 -> (1 <= i)%nat -> (i + 1 < n)%nat -> variation n (nl_step w f i) <= variation n f.
Proof.
  intros Hw Hi Hn. destruct (nl_step_cases w f i Hw Hi) as [E|(k & k' & e & K & E & B)]; unfold variation.
  - apply Req_le. f_equal. apply map_ext. intros j. rewrite !E. reflexivity.
  - set (a := Rabs e). destruct K as [[-> ->]|[-> ->]].
    + (* the jump i-1,i shrinks by a, i,i+1 by 2a, i+1,i+2 grows by at most a *)
      apply Rle_trans with (total (map (fun j => ((Rabs (f (j + 1)%nat - f j) + (if (j =? i - 1)%nat then - a else 0)) + (if (j =? i)%nat then - (2 * a) else 0)) + (if (j =? i + 1)%nat then a else 0)) (seq 0 (n - 1)))).
      * apply total_le. intros j _. rewrite !E.
        destruct (Nat.eqb_spec j i) as [->|N1].
        { replace (i + 1 =? i)%nat with false by (symmetry; apply Nat.eqb_neq; lia). rewrite Nat.eqb_refl.
          replace (i =? i - 1)%nat with false by (symmetry; apply Nat.eqb_neq; lia). replace (i =? i + 1)%nat with false by (symmetry; apply Nat.eqb_neq; lia). unfold a. destruct B as [B|B]; abs. }
        destruct (Nat.eqb_spec j (i + 1)) as [->|N2].
        { replace (i + 1 + 1 =? i)%nat with false by (symmetry; apply Nat.eqb_neq; lia). replace (i + 1 + 1 =? i + 1)%nat with false by (symmetry; apply Nat.eqb_neq; lia).
          replace (i + 1 =? i - 1)%nat with false by (symmetry; apply Nat.eqb_neq; lia). unfold a. abs. }
        destruct (Nat.eqb_spec j (i - 1)) as [->|N3].
        { replace (i - 1 + 1)%nat with i by lia. rewrite Nat.eqb_refl. unfold a. destruct B as [B|B]; abs. }
        replace (j + 1 =? i)%nat with false by (symmetry; apply Nat.eqb_neq; lia). replace (j + 1 =? i + 1)%nat with false by (symmetry; apply Nat.eqb_neq; lia). lra.
      * rewrite !total_plus, !total_one.
        replace ((0 <=? i - 1) && (i - 1 <? 0 + (n - 1)))%nat with true by (symmetry; apply andb_true_iff; split; [apply Nat.leb_le|apply Nat.ltb_lt]; lia).
        replace ((0 <=? i) && (i <? 0 + (n - 1)))%nat with true by (symmetry; apply andb_true_iff; split; [apply Nat.leb_le|apply Nat.ltb_lt]; lia).
        assert (0 <= a) by (unfold a; apply Rabs_pos). destruct ((0 <=? i + 1) && (i + 1 <? 0 + (n - 1)))%nat; lra.
    + apply Rle_trans with (total (map (fun j => ((Rabs (f (j + 1)%nat - f j) + (if (j =? i - 1)%nat then - (2 * a) else 0)) + (if (j =? i)%nat then - a else 0)) + (if (j + 2 =? i)%nat then a else 0)) (seq 0 (n - 1)))).
      * apply total_le. intros j _. rewrite !E.
        destruct (Nat.eqb_spec j i) as [->|N1].
        { replace (i + 1 =? i)%nat with false by (symmetry; apply Nat.eqb_neq; lia). replace (i + 1 =? i - 1)%nat with false by (symmetry; apply Nat.eqb_neq; lia).
          replace (i =? i - 1)%nat with false by (symmetry; apply Nat.eqb_neq; lia). replace (i + 2 =? i)%nat with false by (symmetry; apply Nat.eqb_neq; lia). unfold a. destruct B as [B|B]; abs. }
        destruct (Nat.eqb_spec j (i - 1)) as [->|N3].
        { replace (i - 1 + 1)%nat with i by lia. rewrite Nat.eqb_refl. replace (i - 1 + 2 =? i)%nat with false by (symmetry; apply Nat.eqb_neq; lia). unfold a. destruct B as [B|B]; abs. }
        replace (j + 1 =? i)%nat with false by (symmetry; apply Nat.eqb_neq; lia).
        destruct (Nat.eqb_spec (j + 2) i) as [N4|N4].
        { replace (j + 1 =? i - 1)%nat with true by (symmetry; apply Nat.eqb_eq; lia). replace (j + 1)%nat with (i - 1)%nat by lia. unfold a. abs. }
        replace (j + 1 =? i - 1)%nat with false by (symmetry; apply Nat.eqb_neq; lia). lra.
      * rewrite !total_plus, !total_one.
        replace ((0 <=? i - 1) && (i - 1 <? 0 + (n - 1)))%nat with true by (symmetry; apply andb_true_iff; split; [apply Nat.leb_le|apply Nat.ltb_lt]; lia).
        replace ((0 <=? i) && (i <? 0 + (n - 1)))%nat with true by (symmetry; apply andb_true_iff; split; [apply Nat.leb_le|apply Nat.ltb_lt]; lia).
        assert (0 <= a) by (unfold a; apply Rabs_pos).
        assert (total (map (fun j => if (j + 2 =? i)%nat then a else 0) (seq 0 (n - 1))) <= a); [|lra].
        destruct (le_lt_dec 2 i) as [Q|Q].
        -- rewrite (map_ext _ (fun j => if (j =? i - 2)%nat then a else 0)); [rewrite total_one; destruct (_ && _); lra|].
           intros j. destruct (Nat.eqb_spec (j + 2) i); destruct (Nat.eqb_spec j (i - 2)); try reflexivity; lia.
        -- rewrite (map_ext _ (fun j => if (j =? n)%nat then 0 else 0)); [rewrite total_one; destruct (_ && _); lra|].
           intros j. destruct (Nat.eqb_spec (j + 2) i); [lia|]. destruct (j =? n)%nat; reflexivity.
Qed.
Lemma unchanged_step w f i : 0 <= w <= 1 -> (1 <= i)%nat -> ~ (f (i - 1)%nat < f i /\ f (i + 1)%nat < f i) -> ~ (f i < f (i - 1)%nat /\ f i < f (i + 1)%nat) ->
  forall j, nl_step w f i j = f j.
Proof. intros Hw Hi A B. destruct (nl_step_cases w f i Hw Hi) as [E|(k & k' & e & K & E & D)]; [exact E|]. exfalso. destruct K as [[-> ->]|[-> ->]]; destruct D as [D|D]; lra. Qed.
Lemma filter_all w n f : 0 <= w <= 1 -> forall is, (forall i, In i is -> 1 <= i /\ i + 1 < n)%nat ->
  let g := fold_left (nl_step w) is f in
  sum_n n g = sum_n n f /\ variation n g <= variation n f /\ forall lo hi, (forall j, (j < n)%nat -> lo <= f j <= hi) -> forall j, (j < n)%nat -> lo <= g j <= hi.
Proof.
  intros Hw is. revert f. induction is as [|i is IH]; intros f H; cbn [fold_left].
  - split; [reflexivity|]. split; [lra|auto].
  - destruct (H i (or_introl eq_refl)) as [Hi Hn]. destruct (IH (nl_step w f i) (fun j Hj => H j (or_intror Hj))) as (A & B & D). cbv zeta in *.
    split; [rewrite A; now apply sum_step|]. split; [pose proof (variation_step w f i n Hw Hi Hn); lra|].
    intros lo hi HH. apply D. now apply range_step.
Qed.
Lemma filter_unchanged w n f : 0 <= w <= 1 -> no_extremum n f -> forall is, (forall i, In i is -> 1 <= i /\ i + 1 < n)%nat -> forall j, fold_left (nl_step w) is f j = f j.
Proof.
  intros Hw HE is H.
  enough (G : forall g, (forall j, g j = f j) -> forall j, fold_left (nl_step w) is g j = f j) by (apply G; reflexivity).
  induction is as [|i is IH]; intros g Hg; cbn [fold_left]; [exact Hg|]. apply IH; [intros; apply H; now right|].
  destruct (H i (or_introl eq_refl)) as [Hi Hn]. destruct (HE i Hi Hn) as [A B]. intros j. rewrite unchanged_step; auto; rewrite !Hg; assumption.
Qed.
