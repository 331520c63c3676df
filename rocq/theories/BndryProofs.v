Require Import ZArith List Bool Reals Lia Lra FinFun.
Require Import Verif.Base Verif.BndryModel Verif.BndrySpec.
Import ListNotations.
Local Open Scope Z_scope.

Lemma in_zrange a b k : In k (zrange a b) <-> a <= k < b.
Proof.
  unfold zrange. rewrite in_map_iff. split.
  - intros [i [<- H]]. apply in_seq in H. lia.
  - intros H. exists (Z.to_nat (k - a)). split; [lia|]. apply in_seq. lia.
Qed.

Lemma zrange_empty a b : b <= a -> zrange a b = [].
Proof. intros. unfold zrange. replace (Z.to_nat (b - a)) with O by lia. reflexivity. Qed.

Lemma zrange_snoc a b : a <= b -> zrange a (b + 1) = zrange a b ++ [b].
Proof.
  intros. unfold zrange. replace (Z.to_nat (b + 1 - a)) with (Z.to_nat (b - a) + 1)%nat by lia.
  rewrite seq_app, map_app. cbn [map seq]. do 2 f_equal. lia.
Qed.

Lemma zrange_cons a b : a < b -> zrange a b = a :: zrange (a + 1) b.
Proof.
  intros. unfold zrange. replace (Z.to_nat (b - a)) with (S (Z.to_nat (b - (a + 1)))) by lia.
  cbn [seq map]. f_equal; [lia|]. rewrite <- seq_shift, map_map. apply map_ext. intros; lia.
Qed.

Lemma NoDup_zrange a b : NoDup (zrange a b).
Proof.
  unfold zrange. apply Injective_map_NoDup; [intros x y; lia | apply seq_NoDup].
Qed.

(* ---------- geometry ---------- *)
Definition kof (m : lmesh) (b : breg) (p : pos) : Z :=
  match b_side b with
  | XIn => b_width b - 1 - fst p
  | XOut => fst p - (LNx m - b_width b)
  | YDown => b_width b - 1 - snd p
  | YUp => snd p - (LNy m - b_width b)
  end.

Ltac bside b := unfold gcell, tang, kof, off, first, next, next1d, nextX, nextY, isDone, fits, bx, by_ in *; destruct (b_side b); cbn [fst snd] in *.

Lemma gcell_kof m b p : gcell m b (kof m b p) (tang b p) = p.
Proof. destruct p as [x y]. bside b; f_equal; lia. Qed.
Lemma kof_gcell m b k t : kof m b (gcell m b k t) = k.
Proof. bside b; lia. Qed.
Lemma tang_gcell m b k t : tang b (gcell m b k t) = t.
Proof. bside b; reflexivity. Qed.
Lemma gcell_inj m b k t k' t' : gcell m b k t = gcell m b k' t' -> k = k' /\ t = t'.
Proof. bside b; intros E; injection E; lia. Qed.
Lemma off_gcell m b k t i : off b (gcell m b k t) i = gcell m b (k + i) t.
Proof. bside b; f_equal; lia. Qed.
Lemma tang_off b p i : tang b (off b p i) = tang b p.
Proof. destruct p as [x y]. bside b; lia. Qed.
Lemma kof_off m b p i : kof m b (off b p i) = kof m b p + i.
Proof. destruct p as [x y]. bside b; lia. Qed.

Lemma in_bounds_gcell m b d k t z :
  fits m b d -> - d <= k < b_width b -> b_lo b <= t <= b_hi b -> 0 <= z < LNz m ->
  in_bounds m (gcell m b k t) z = true.
Proof.
  intros F Hk Ht Hz. unfold in_bounds. rewrite !andb_true_iff, !Z.leb_le, !Z.ltb_lt.
  bside b; lia.
Qed.

(* ---------- walks ---------- *)
Lemma walk1d_from m b d (F : fits m b d) : 0 < b_width b -> 0 <= d -> forall n t fuel, b_lo b <= t -> b_hi b + 1 - t <= Z.of_nat n -> (n <= fuel)%nat ->
  walk (next1d b) (isDone m b) fuel (gcell m b 0 t) = Some (map (gcell m b 0) (zrange t (b_hi b + 1))).
Proof.
  intros Hw Hd n. induction n as [|n IH]; intros t fuel Hlo Hn Hf.
  - rewrite zrange_empty by lia. cbn [map].
    assert (E : isDone m b (gcell m b 0 t) = true).
    { bside b; rewrite orb_true_iff, ?Z.ltb_lt, ?Z.leb_le; lia. }
    destruct fuel; cbn [walk]; rewrite E; reflexivity.
  - destruct (Z_lt_le_dec (b_hi b) t) as [C|C].
    + apply IH; lia.
    + destruct fuel as [|fuel]; [lia|]. cbn [walk].
      assert (E : isDone m b (gcell m b 0 t) = false).
      { bside b; rewrite orb_false_iff, ?Z.ltb_ge, ?Z.leb_gt; lia. }
      rewrite E. replace (next1d b (gcell m b 0 t)) with (gcell m b 0 (t + 1)) by (bside b; f_equal; lia).
      rewrite IH by lia. rewrite (zrange_cons t) by lia. reflexivity.
Qed.

Lemma first_gcell m b : first m b = gcell m b 0 (b_lo b).
Proof. bside b; f_equal; lia. Qed.

Lemma walk1d_spec m b d fuel : fits m b d -> 0 <= d -> 0 < b_width b ->
  b_hi b + 1 - b_lo b <= Z.of_nat fuel ->
  walk1d m b fuel = Some (map (gcell m b 0) (zrange (b_lo b) (b_hi b + 1))).
Proof.
  intros F Hd Hw Hf. unfold walk1d. rewrite first_gcell.
  apply (walk1d_from m b d F Hw Hd fuel); lia.
Qed.

(* the order of next(): row after row for x boundaries, column after column for y *)
Definition all_cells (m : lmesh) (b : breg) : list pos :=
  match b_side b with
  | XIn | XOut => flat_map (fun k => map (gcell m b k) (zrange (b_lo b) (b_hi b + 1))) (zrange 0 (b_width b))
  | YDown | YUp => flat_map (fun t => map (fun k => gcell m b k t) (zrange 0 (b_width b))) (zrange (b_lo b) (b_hi b + 1))
  end.

(* tail of all_cells from (k,t) on *)
Definition cells_from (m : lmesh) (b : breg) (k t : Z) : list pos :=
  match b_side b with
  | XIn | XOut => map (gcell m b k) (zrange t (b_hi b + 1)) ++
      flat_map (fun k => map (gcell m b k) (zrange (b_lo b) (b_hi b + 1))) (zrange (k + 1) (b_width b))
  | YDown | YUp => map (fun k => gcell m b k t) (zrange k (b_width b)) ++
      flat_map (fun t => map (fun k => gcell m b k t) (zrange 0 (b_width b))) (zrange (t + 1) (b_hi b + 1))
  end.

Lemma flat_map_cons' {A B} (f : A -> list B) a l : flat_map f (a :: l) = f a ++ flat_map f l.
Proof. reflexivity. Qed.

Definition steps_left (b : breg) (k t : Z) : Z :=
  match b_side b with
  | XIn | XOut => (b_width b - 1 - k) * (b_hi b + 1 - b_lo b) + (b_hi b + 1 - t)
  | YDown | YUp => (b_hi b - t) * b_width b + (b_width b - k)
  end.

Lemma walk_all_from m b d (F : fits m b d) : 0 < b_width b -> 0 <= d -> b_lo b <= b_hi b ->
  forall n k t fuel, b_lo b <= t <= b_hi b -> 0 <= k < b_width b ->
  steps_left b k t <= Z.of_nat n -> (n <= fuel)%nat ->
  walk (next m b) (isDone m b) fuel (gcell m b k t) = Some (cells_from m b k t).
Proof.
  intros Hw Hd Hlh n. induction n as [|n IH]; intros k t fuel Ht Hk Hn Hf.
  - exfalso. unfold steps_left in Hn. destruct (b_side b); nia.
  - destruct fuel as [|fuel]; [lia|]. cbn [walk].
    assert (E : isDone m b (gcell m b k t) = false).
    { bside b; rewrite orb_false_iff, ?Z.ltb_ge, ?Z.leb_gt; lia. }
    rewrite E.
    assert (Step : exists q, next m b (gcell m b k t) = q /\
      (isDone m b q = true /\ cells_from m b k t = [gcell m b k t] \/
       exists k' t', q = gcell m b k' t' /\ b_lo b <= t' <= b_hi b /\ 0 <= k' < b_width b /\
         steps_left b k' t' <= Z.of_nat n /\ cells_from m b k t = gcell m b k t :: cells_from m b k' t')).
    { exists (next m b (gcell m b k t)); split; [reflexivity|]. unfold cells_from, steps_left in *.
      unfold next, isDone, gcell.
      destruct (b_side b) eqn:S.
      - destruct (Z.ltb_spec (b_hi b) (t + 1)).
        + replace t with (b_hi b) in * by lia.
          destruct (Z_lt_le_dec (k + 1) (b_width b)).
          * right. exists (k + 1), (b_lo b). repeat split; try lia; [f_equal; lia|].
            rewrite (zrange_cons (b_hi b)), zrange_empty by lia. cbn [map app].
            rewrite (zrange_cons (k + 1)) by lia. reflexivity.
          * left. rewrite (zrange_cons (b_hi b)), zrange_empty by lia. rewrite (zrange_empty (k+1)) by lia.
            split; [|reflexivity]. apply orb_true_iff; left. apply Z.ltb_lt. lia.
        + right. exists k, (t + 1). repeat split; try lia.
          rewrite (zrange_cons t) by lia. reflexivity.
      - destruct (Z.ltb_spec (b_hi b) (t + 1)).
        + replace t with (b_hi b) in * by lia.
          destruct (Z_lt_le_dec (k + 1) (b_width b)).
          * right. exists (k + 1), (b_lo b). repeat split; try lia; [f_equal; lia|].
            rewrite (zrange_cons (b_hi b)), zrange_empty by lia. cbn [map app].
            rewrite (zrange_cons (k + 1)) by lia. reflexivity.
          * left. rewrite (zrange_cons (b_hi b)), zrange_empty by lia. rewrite (zrange_empty (k+1)) by lia.
            split; [|reflexivity]. apply orb_true_iff; left. apply Z.leb_le. lia.
        + right. exists k, (t + 1). repeat split; try lia.
          rewrite (zrange_cons t) by lia. reflexivity.
      - destruct (Z.ltb_spec (b_width b - 1 - k - 1) 0).
        + replace k with (b_width b - 1) in * by lia.
          destruct (Z_lt_le_dec (t + 1) (b_hi b + 1)).
          * right. exists 0, (t + 1). repeat split; try lia; [f_equal; lia|].
            rewrite (zrange_cons (b_width b - 1)), zrange_empty by lia. cbn [map app].
            rewrite (zrange_cons (t + 1)) by lia. reflexivity.
          * left. rewrite (zrange_cons (b_width b - 1)), zrange_empty by lia. rewrite (zrange_empty (t+1)) by lia.
            split; [|reflexivity]. apply orb_true_iff; left. apply Z.ltb_lt. lia.
        + right. exists (k + 1), t. repeat split; try lia; [f_equal; lia|].
          rewrite (zrange_cons k) by lia. reflexivity.
      - destruct (Z.leb_spec (LNy m) (LNy m - b_width b + k + 1)).
        + replace k with (b_width b - 1) in * by lia.
          destruct (Z_lt_le_dec (t + 1) (b_hi b + 1)).
          * right. exists 0, (t + 1). repeat split; try lia; [f_equal; lia|].
            rewrite (zrange_cons (b_width b - 1)), zrange_empty by lia. cbn [map app].
            rewrite (zrange_cons (t + 1)) by lia. reflexivity.
          * left. rewrite (zrange_cons (b_width b - 1)), zrange_empty by lia. rewrite (zrange_empty (t+1)) by lia.
            split; [|reflexivity]. apply orb_true_iff; left. apply Z.ltb_lt. lia.
        + right. exists (k + 1), t. repeat split; try lia; [f_equal; lia|].
          rewrite (zrange_cons k) by lia. reflexivity. }
    destruct Step as [q [-> [[D C]|(k' & t' & -> & Ht' & Hk' & Hs & C)]]].
    + rewrite C. destruct fuel; cbn [walk]; rewrite D; reflexivity.
    + rewrite (IH k' t' fuel) by lia. rewrite C. reflexivity.
Qed.

Lemma walk_all_spec m b d fuel : fits m b d -> 0 <= d -> b_lo b <= b_hi b ->
  b_width b * (b_hi b + 1 - b_lo b) <= Z.of_nat fuel ->
  walk_all m b fuel = Some (all_cells m b).
Proof.
  intros F Hd Hlh Hf. unfold walk_all.
  destruct (Z_le_gt_dec (b_width b) 0) as [C|C].
  - assert (W : b_width b = 0) by (unfold fits in F; lia).
    assert (E : isDone m b (first m b) = true).
    { bside b; rewrite orb_true_iff, ?Z.ltb_lt, ?Z.leb_le; lia. }
    assert (A : all_cells m b = []).
    { unfold all_cells. rewrite W. rewrite (zrange_empty 0 0) by lia. destruct (b_side b); cbn [map flat_map]; try reflexivity;
      induction (zrange (b_lo b) (b_hi b + 1)); cbn [flat_map app]; auto. }
    rewrite A. destruct fuel; cbn [walk]; rewrite E; reflexivity.
  - rewrite first_gcell. rewrite (walk_all_from m b d F ltac:(lia) Hd Hlh fuel 0 (b_lo b) fuel); try lia.
    + f_equal. unfold cells_from, all_cells. destruct (b_side b).
      1,2: rewrite (zrange_cons 0 (b_width b)) by lia; reflexivity.
      all: rewrite (zrange_cons (b_lo b)) by lia; reflexivity.
    + unfold steps_left. destruct (b_side b); nia.
Qed.

Lemma in_all_cells m b p : In p (all_cells m b) <-> in_strip m b 0 (b_width b) p.
Proof.
  unfold all_cells, in_strip. destruct (b_side b) eqn:S.
  all: rewrite in_flat_map; split.
  all: try (intros [u [Hu H]]; apply in_map_iff in H as [v [<- Hv]]; apply in_zrange in Hu; apply in_zrange in Hv; eauto with zarith; fail).
  all: try (intros [u [Hu H]]; apply in_map_iff in H as [v [<- Hv]]; apply in_zrange in Hu; apply in_zrange in Hv; do 2 eexists; (split; [|split; [|reflexivity]]); lia).
  all: intros (k & t & Hk & Ht & ->).
  1,2: exists k; split; [apply in_zrange; lia|]; apply in_map, in_zrange; lia.
  all: exists t; split; [apply in_zrange; lia|]; apply (in_map (fun k => gcell m b k t)), in_zrange; lia.
Qed.

Lemma NoDup_flat {A B} (f : A -> list B) (l : list A) :
  NoDup l -> (forall a, In a l -> NoDup (f a)) ->
  (forall a a' x, In a l -> In a' l -> In x (f a) -> In x (f a') -> a = a') ->
  NoDup (flat_map f l).
Proof.
  induction l as [|a l IH]; intros N D I; cbn [flat_map]; [constructor|].
  inversion N; subst.
  assert (NoDup (flat_map f l)) by (apply IH; auto; intros; eauto using in_cons; eapply I; eauto using in_cons).
  assert (NoDup (f a)) by (apply D; now left).
  clear IH. assert (Dis : forall x, In x (f a) -> ~ In x (flat_map f l)).
  { intros x Hx Hf. apply in_flat_map in Hf as [a' [Ha' Hx']].
    assert (a = a') by (eapply I; eauto; now (left + right)). subst. auto. }
  revert Dis H0. generalize (f a). intros u Dis Nu. induction u as [|x u IHu]; cbn [app]; auto.
  inversion Nu; subst. constructor.
  - rewrite in_app_iff. intros [?|?]; [auto|]. apply (Dis x); [now left|auto].
  - apply IHu; auto. intros y Hy. apply Dis. now right.
Qed.

Lemma NoDup_all_cells m b : NoDup (all_cells m b).
Proof.
  unfold all_cells. destruct (b_side b) eqn:S; apply NoDup_flat; try apply NoDup_zrange.
  all: try (intros a _; apply Injective_map_NoDup; [intros u v E; apply gcell_inj in E; tauto | apply NoDup_zrange]).
  all: intros a a' x _ _ H H'; apply in_map_iff in H as [u [<- _]]; apply in_map_iff in H' as [v [E _]];
    apply gcell_inj in E; intuition.
Qed.
