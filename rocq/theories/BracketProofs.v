From Coq Require Import Reals ZArith List Bool Lia Lra.
From Verif Require Import Base BracketModel BracketSpec.
Import ListNotations.
Local Open Scope R_scope.

Lemma in_zrange a b i : In i (zrange a b) <-> (a <= i < b)%Z.
Proof.
  unfold zrange. rewrite in_map_iff. split.
  - intros [k [<- H]]. apply in_seq in H. lia.
  - intros H. exists (Z.to_nat (i - a)). split; [lia|]. apply in_seq. lia.
Qed.

(* ---------- what the row loops write ---------- *)
Definition triple_ok (ncz : Z) (cell : Z -> Z -> Z -> R) (l : list (Z * Z * Z)) (v : Z -> R) : Prop :=
  forall jz jzp jzm, In (jz, jzp, jzm) l ->
    (0 <= jz < ncz /\ 0 <= jzp < ncz /\ 0 <= jzm < ncz)%Z /\ cell jz jzp jzm = v jz.
Lemma rows_spec ncz cell x y v : forall l o, triple_ok ncz cell l v ->
  exists o', rows ncz cell x y l o = Ok o' /\
    (forall z, In z (map (fun t => fst (fst t)) l) -> o' x y z = Some (v z)) /\
    (forall x' y' z, (x' <> x \/ y' <> y \/ ~ In z (map (fun t => fst (fst t)) l)) -> o' x' y' z = o x' y' z).
Proof.
  induction l as [|[[jz jzp] jzm] l IH]; intros o H.
  - exists o. repeat split; auto. intros z [].
  - cbn [rows]. destruct (H jz jzp jzm (or_introl eq_refl)) as [B E].
    replace ((0 <=? jz) && (jz <? ncz) && (0 <=? jzp) && (jzp <? ncz) && (0 <=? jzm) && (jzm <? ncz))%Z%bool with true
      by (symmetry; rewrite !andb_true_iff; lia).
    destruct (IH (set3 o x y jz (cell jz jzp jzm))) as [o' [R [A B']]]; [intros a b c I; apply H; now right|].
    exists o'. split; [exact R|]. cbn [map fst]. split.
    + intros z Hz. destruct (in_dec Z.eq_dec z (map (fun t => fst (fst t)) l)) as [I|I]; [now apply A|].
      destruct Hz as [<- |Hz]; [|contradiction]. rewrite B' by auto. unfold set3. rewrite !Z.eqb_refl. cbn [andb]. now rewrite E.
    + intros x' y' z Hn. rewrite B'.
      * unfold set3. destruct (Z.eqb_spec x' x), (Z.eqb_spec y' y), (Z.eqb_spec z jz); cbn [andb]; try reflexivity.
        exfalso. subst. destruct Hn as [N|[N|N]]; try (now apply N). apply N. now left.
      * destruct Hn as [N|[N|N]]; auto. right. right. intro I. apply N. now right.
Qed.

(* the z neighbours *)
Lemma mod_up z n : (0 <= z < n)%Z -> ((z + 1) mod n = if (z + 1 <? n) then z + 1 else 0)%Z.
Proof.
  intros H. destruct (Z.ltb_spec (z + 1) n); [apply Z.mod_small; lia|]. replace (z + 1)%Z with n by lia. apply Z.mod_same. lia.
Qed.
Lemma mod_down z n : (0 <= z < n)%Z -> ((z - 1) mod n = if (z =? 0) then n - 1 else z - 1)%Z.
Proof.
  intros H. destruct (Z.eqb_spec z 0) as [->|N].
  - replace (0 - 1)%Z with (n - 1 + (-1) * n)%Z by ring. rewrite Z.mod_add by lia. apply Z.mod_small. lia.
  - apply Z.mod_small. lia.
Qed.
Lemma split_in n jz jzp jzm : (2 <= n)%Z -> In (jz, jzp, jzm) (split_loop n) ->
  ((0 <= jz < n) /\ jzp = (jz + 1) mod n /\ jzm = (jz - 1) mod n)%Z.
Proof.
  intros Hn H. unfold split_loop in H. apply in_app_or in H. destruct H as [H|H].
  - destruct H as [H|[]]. injection H as <- <- <-. rewrite mod_up, mod_down by lia.
    replace (0 + 1 <? n)%Z with true by (symmetry; lia). cbn [Z.eqb]. lia.
  - apply in_app_or in H. destruct H as [H|[H|[]]].
    + apply in_map_iff in H. destruct H as [k [E I]]. injection E as <- <- <-. apply in_zrange in I.
      rewrite mod_up, mod_down by lia. replace (k + 1 <? n)%Z with true by (symmetry; lia).
      replace (k =? 0)%Z with false by (symmetry; lia). lia.
    + injection H as <- <- <-. rewrite mod_up, mod_down by lia. replace (n - 1 + 1 <? n)%Z with false by (symmetry; lia).
      replace (n - 1 =? 0)%Z with false by (symmetry; lia). lia.
Qed.
Lemma split_targets n z : (2 <= n)%Z -> In z (map (fun t => fst (fst t)) (split_loop n)) <-> (0 <= z < n)%Z.
Proof.
  intros Hn. split.
  - intros H. apply in_map_iff in H. destruct H as [[[a b] c] [<- I]]. now apply split_in in I.
  - intros H. unfold split_loop. rewrite !map_app, map_map, !in_app_iff. cbn [fst map In].
    destruct (Z.eq_dec z 0) as [->|]; [left; now left|]. destruct (Z.eq_dec z (n - 1)) as [->|]; [right; right; now left|].
    right. left. rewrite map_id. apply in_zrange. lia.
Qed.
Lemma single_in n jz jzp jzm : (1 <= n)%Z -> In (jz, jzp, jzm) (single_loop n) ->
  ((0 <= jz < n) /\ jzp = (jz + 1) mod n /\ jzm = (jz - 1) mod n)%Z.
Proof.
  intros Hn H. unfold single_loop in H. apply in_map_iff in H. destruct H as [k [E I]]. injection E as <- <- <-.
  apply in_zrange in I. rewrite mod_up, mod_down by lia. repeat split; try lia.
  rewrite Z.geb_leb. destruct (Z.leb_spec 0 (k - 1)), (Z.eqb_spec k 0); lia.
Qed.
Lemma single_targets n z : (1 <= n)%Z -> In z (map (fun t => fst (fst t)) (single_loop n)) <-> (0 <= z < n)%Z.
Proof. intros Hn. unfold single_loop. rewrite map_map. cbn [fst]. rewrite map_id. apply in_zrange. Qed.

Definition loop_of (old : bool) (n : Z) := if old then single_loop n else split_loop n.
Lemma loop_in old n jz jzp jzm : (2 <= n)%Z -> In (jz, jzp, jzm) (loop_of old n) ->
  ((0 <= jz < n) /\ jzp = (jz + 1) mod n /\ jzm = (jz - 1) mod n)%Z.
Proof. destruct old; intros; [apply single_in|apply split_in]; auto; lia. Qed.
Lemma loop_targets old n z : (2 <= n)%Z -> In z (map (fun t => fst (fst t)) (loop_of old n)) <-> (0 <= z < n)%Z.
Proof. destruct old; intros; [apply single_targets|apply split_targets]; lia. Qed.

Lemma over_xy_spec n (old : bool) (cell : Z -> Z -> Z -> Z -> Z -> R) : (2 <= n)%Z -> forall l o,
  exists o', over_xy (fun x y => rows n (cell x y) x y (loop_of old n)) l o = Ok o' /\
    (forall x y z, In (x, y) l -> (0 <= z < n)%Z -> o' x y z = Some (cell x y z ((z + 1) mod n)%Z ((z - 1) mod n)%Z)) /\
    (forall x y z, ~ In (x, y) l \/ ~ (0 <= z < n)%Z -> o' x y z = o x y z).
Proof.
  intros Hn. induction l as [|[x y] l IH]; intros o.
  - exists o. repeat split; auto. intros x y z [].
  - cbn [over_xy bind].
    destruct (rows_spec n (cell x y) x y (fun z => cell x y z ((z + 1) mod n)%Z ((z - 1) mod n)%Z) (loop_of old n) o) as [o1 [R [A B]]].
    { intros jz jzp jzm I. apply loop_in in I; trivial. destruct I as [I [-> ->]].
      split; [|reflexivity]. split; [lia|]. split; apply Z.mod_pos_bound; lia. }
    rewrite R. cbn [bind]. destruct (IH o1) as [o' [R' [A' B']]]. exists o'. split; [exact R'|]. split.
    + intros x' y' z Hin Hz. destruct (in_dec (fun p q : Z * Z => ltac:(decide equality; apply Z.eq_dec)) (x', y') l) as [I|I]; [now apply A'|].
      destruct Hin as [E|Hin]; [|contradiction]. injection E as <- <-. rewrite B' by auto. apply A. now apply loop_targets.
    + intros x' y' z Hn'. rewrite B'.
      * apply B. destruct Hn' as [N|N]; [|right; right; intro I; apply N; now apply loop_targets in I].
        destruct (Z.eq_dec x' x) as [->|]; [|auto]. destruct (Z.eq_dec y' y) as [->|]; [|auto]. exfalso. apply N. now left.
      * destruct Hn' as [N|N]; auto. left. intro I. apply N. now right.
Qed.
Lemma in_nobndry m x y : In (x, y) (nobndry m) <-> (xstart m <= x <= xend m /\ ystart m <= y <= yend m)%Z.
Proof.
  unfold nobndry. rewrite in_flat_map. split.
  - intros [x' [I J]]. apply in_map_iff in J. destruct J as [y' [E K]]. injection E as <- <-. apply in_zrange in I, K. lia.
  - intros H. exists x. split; [apply in_zrange; lia|]. apply in_map_iff. exists y. split; [reflexivity|]. apply in_zrange. lia.
Qed.

(* ---------- cells ---------- *)
Lemma arakawa_jacobian hx hz f g i k : hx <> 0 -> hz <> 0 ->
  arakawa_cell (f (i - 1)%Z) (f i) (f (i + 1)%Z) (g (i - 1)%Z) (g i) (g (i + 1)%Z) (1 / (12 * hz * hx)) k (k + 1)%Z (k - 1)%Z
  = jacobian hx hz f g i k.
Proof. intros. unfold arakawa_cell, jacobian, dX, dZ. field. auto. Qed.
Lemma arakawa32_lift fxm fc fxp gxm gc gxp s jz jzp jzm :
  arakawa32_cell fxm fc fxp gxm gc gxp s jz jzp jzm
  = arakawa_cell fxm fc fxp (fun _ => gxm) (fun _ => gc) (fun _ => gxp) s jz jzp jzm.
Proof. unfold arakawa32_cell, arakawa_cell. ring. Qed.
Lemma arakawa32_old_lift fxm fc fxp gxm gc gxp s jz jzp jzm :
  arakawa32_old_cell fxm fc fxp gxm gc gxp s jz jzp jzm
  = arakawa_cell fxm fc fxp (fun _ => gxm) (fun _ => gc) (fun _ => gxp) s jz jzp jzm.
Proof. unfold arakawa32_old_cell, arakawa_cell. ring. Qed.
Lemma arakawa_anti Fxm Fx Fxp Gxm Gx Gxp s jz jzp jzm :
  arakawa_cell Fxm Fx Fxp Gxm Gx Gxp s jz jzp jzm = - arakawa_cell Gxm Gx Gxp Fxm Fx Fxp s jz jzp jzm.
Proof. unfold arakawa_cell. ring. Qed.

(* what arakawa33 computes, in terms of the cell formula *)
Definition cell33 (m : pmesh) (dx dz : field2) (f g : field3) (x y z : Z) : R :=
  arakawa_cell (f (x - 1)%Z y) (f x y) (f (x + 1)%Z y) (g (x - 1)%Z y) (g x y) (g (x + 1)%Z y) (1 / (12 * dz x y * dx x y))
    z ((z + 1) mod LocalNz m)%Z ((z - 1) mod LocalNz m)%Z.
Lemma arakawa33_ok old gnx gnz m dx dz f g : (gnx <> 1)%Z -> (gnz <> 1)%Z -> (2 <= LocalNz m)%Z ->
  exists o, arakawa33 old gnx gnz m dx dz f g = Ok o /\
    (forall x y z, interior m x y z -> o x y z = Some (cell33 m dx dz f g x y z)) /\
    (forall x y z, ~ interior m x y z -> o x y z = None).
Proof.
  intros Hx Hz Hn. unfold arakawa33. replace ((gnx =? 1) || (gnz =? 1))%Z%bool with false by (symmetry; rewrite orb_false_iff; lia).
  destruct (over_xy_spec (LocalNz m) old (fun x y => arakawa_cell (f (x - 1)%Z y) (f x y) (f (x + 1)%Z y) (g (x - 1)%Z y) (g x y) (g (x + 1)%Z y) (1 / (12 * dz x y * dx x y)))
    Hn (nobndry m) unset) as [o [R [A B]]].
  exists o. split; [exact R|]. split.
  - intros x y z [I [J K]]. apply A; [apply in_nobndry; lia|lia].
  - intros x y z N. rewrite B; [reflexivity|]. destruct (Z_le_dec 0 z); [|right; lia]. destruct (Z_lt_dec z (LocalNz m)); [|right; lia].
    left. rewrite in_nobndry. unfold interior in N. lia.
Qed.
Lemma arakawa32_ok old m dx dz f g : (forall x y, dx x y <> 0 /\ dz x y <> 0) -> (2 <= LocalNz m)%Z ->
  exists o, arakawa32 old m dx dz f g = Ok o /\
    (forall x y z, interior m x y z -> o x y z = Some (cell33 m dx dz f (lift g) x y z)) /\
    (forall x y z, ~ interior m x y z -> o x y z = None).
Proof.
  intros Hd Hn. unfold arakawa32.
  set (cell := fun x y => if old
    then arakawa32_old_cell (f (x - 1)%Z y) (f x y) (f (x + 1)%Z y) (g (x - 1)%Z y) (g x y) (g (x + 1)%Z y) (1 / (12 * dz x y) / dx x y)
    else arakawa32_cell (f (x - 1)%Z y) (f x y) (f (x + 1)%Z y) (g (x - 1)%Z y) (g x y) (g (x + 1)%Z y) (1 / (12 * dz x y * dx x y))).
  destruct (over_xy_spec (LocalNz m) old cell Hn (nobndry m) unset) as [o [R [A B]]].
  exists o. split; [exact R|]. split.
  - intros x y z [I [J K]]. rewrite A; [|apply in_nobndry; lia|lia]. f_equal. unfold cell, cell33.
    destruct old; [rewrite arakawa32_old_lift|rewrite arakawa32_lift; reflexivity].
    replace (1 / (12 * dz x y) / dx x y) with (1 / (12 * dz x y * dx x y)) by (specialize (Hd x y); field; tauto). reflexivity.
  - intros x y z N. rewrite B; [reflexivity|]. destruct (Z_le_dec 0 z); [|right; lia]. destruct (Z_lt_dec z (LocalNz m)); [|right; lia].
    left. rewrite in_nobndry. unfold interior in N. lia.
Qed.

(* ---------- sums ---------- *)
Lemma sumR_ext a b h k : (forall i, (a <= i < b)%Z -> h i = k i) -> sumR a b h = sumR a b k.
Proof. intros H. unfold sumR. f_equal. apply map_ext_in. intros i I. apply H. now apply in_zrange. Qed.
Lemma fold_add l : forall h k : Z -> R, fold_right Rplus 0 (map (fun i => h i + k i) l) = fold_right Rplus 0 (map h l) + fold_right Rplus 0 (map k l).
Proof. induction l as [|a l IH]; intros; cbn [map fold_right]; [ring|]. rewrite IH. ring. Qed.
Lemma sumR_add a b h k : sumR a b (fun i => h i + k i) = sumR a b h + sumR a b k.
Proof. apply fold_add. Qed.
Lemma sumR_scale a b c h : sumR a b (fun i => c * h i) = c * sumR a b h.
Proof. unfold sumR. induction (zrange a b) as [|i l IH]; cbn [map fold_right]; [ring|]. rewrite IH. ring. Qed.
Lemma zrange_cons a b : (a < b)%Z -> zrange a b = a :: zrange (a + 1) b.
Proof.
  intros H. unfold zrange. replace (Z.to_nat (b - a)) with (S (Z.to_nat (b - (a + 1)))) by lia.
  cbn [seq map]. f_equal; [lia|]. rewrite <- seq_shift, map_map. apply map_ext. intros; lia.
Qed.
Lemma zrange_snoc a b : (a < b)%Z -> zrange a b = zrange a (b - 1) ++ [(b - 1)%Z].
Proof.
  intros H. unfold zrange. replace (Z.to_nat (b - a)) with (Z.to_nat (b - 1 - a) + 1)%nat by lia.
  rewrite seq_app, map_app. cbn [seq map]. f_equal. f_equal. lia.
Qed.
Lemma zrange_shift a b : zrange (a + 1) (b + 1) = map (fun i => (i + 1)%Z) (zrange a b).
Proof. unfold zrange. rewrite map_map. replace (b + 1 - (a + 1))%Z with (b - a)%Z by ring. apply map_ext. intros; lia. Qed.
Lemma sumR_app l l' : forall h : Z -> R, fold_right Rplus 0 (map h (l ++ l')) = fold_right Rplus 0 (map h l) + fold_right Rplus 0 (map h l').
Proof. intros h. induction l as [|a l IH]; cbn [map fold_right app]; [ring|]. rewrite IH. ring. Qed.
(* a sum over a whole period does not see a shift by one *)
Lemma sumR_shift n h : (0 <= n)%Z -> (forall i, h (i + n)%Z = h i) -> sumR 0 n (fun i => h (i + 1)%Z) = sumR 0 n h.
Proof.
  intros Hn P. destruct (Z.eq_dec n 0) as [->|]; [reflexivity|].
  unfold sumR. rewrite <- map_map with (f := fun i => (i + 1)%Z). rewrite <- zrange_shift.
  rewrite (zrange_cons 0 n) by lia. rewrite (zrange_snoc (0 + 1) (n + 1)) by lia.
  replace (n + 1 - 1)%Z with n by ring. rewrite sumR_app. cbn [map fold_right].
  specialize (P 0%Z). rewrite Z.add_0_l in P. rewrite P. ring.
Qed.
Lemma sumR_shift_nat n h (c : nat) : (0 <= n)%Z -> (forall i, h (i + n)%Z = h i) -> sumR 0 n (fun i => h (i + Z.of_nat c)%Z) = sumR 0 n h.
Proof.
  intros Hn P. induction c as [|c IH].
  - apply sumR_ext. intros. f_equal. lia.
  - rewrite <- IH. rewrite <- (sumR_shift n (fun i => h (i + Z.of_nat c)%Z)) by (trivial; intros; rewrite <- (P (i + Z.of_nat c)%Z); f_equal; lia).
    apply sumR_ext. intros. f_equal. lia.
Qed.
Lemma periodic_mult n (h : Z -> R) : (forall i, h (i + n)%Z = h i) -> forall (c : nat) i, h (i + Z.of_nat c * n)%Z = h i.
Proof.
  intros P. induction c as [|c IH]; intros i; [f_equal; lia|]. rewrite <- (IH i), <- (P (i + Z.of_nat c * n)%Z). f_equal. lia.
Qed.
Lemma sumR_shift_any n h c : (0 < n)%Z -> (forall i, h (i + n)%Z = h i) -> sumR 0 n (fun i => h (i + c)%Z) = sumR 0 n h.
Proof.
  intros Hn P. pose (k := Z.to_nat (Z.abs c)).
  rewrite <- (sumR_shift_nat n h (Z.to_nat (c + Z.of_nat k * n))) by (trivial; lia).
  apply sumR_ext. intros i _. rewrite <- (periodic_mult n h P k (i + c)). f_equal.
  assert (0 <= c + Z.of_nat k * n)%Z by (unfold k; nia). lia.
Qed.
