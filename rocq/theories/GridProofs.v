From Coq Require Import ZArith Reals List Bool Lia String.
From Verif Require Import Base OptConvModel MeshModel MeshSpec MeshProofs MeshProps RegionModel RegionProofs CommModel CommProofs GridModel GridSpec.
Import ListNotations.
Open Scope Z_scope.

Lemma zrange_cons a b : a < b -> zrange a b = a :: zrange (a + 1) b.
Proof. intros H. unfold zrange. replace (Z.to_nat (b - a)) with (S (Z.to_nat (b - (a + 1)))) by lia. reflexivity. Qed.
Lemma zrange_nil a b : b <= a -> zrange a b = [].
Proof. intros H. unfold zrange. replace (Z.to_nat (b - a)) with O by lia. reflexivity. Qed.
Lemma mfor_inv {A} (body : Z -> A -> res A) (P : Z -> A -> Prop) a b f0 : a <= b -> P a f0 ->
  (forall i f, a <= i < b -> P i f -> exists f', body i f = Ok f' /\ P (i + 1) f') ->
  exists f', mfor (zrange a b) body f0 = Ok f' /\ P b f'.
Proof.
  intros H H0 HS. remember (Z.to_nat (b - a)) as n eqn:En. revert a f0 H H0 HS En.
  induction n as [|n IH]; intros a f0 H H0 HS En.
  - assert (a = b) by lia. subst a. rewrite zrange_nil by lia. exists f0. auto.
  - rewrite zrange_cons by lia. cbn [mfor]. destruct (HS a f0 ltac:(lia) H0) as (f1 & E1 & H1). rewrite E1. cbn [bind].
    apply IH; try lia; auto. intros i f Hi. apply HS. lia.
Qed.
Lemma flat_index_ok c n0 n1 n2 x y z : 0 <= x < n0 -> 0 <= y < n1 -> 0 <= z < n2 -> flat_index c n0 n1 n2 x y z = Ok (tensor_flat n1 n2 x y z).
Proof.
  intros Hx Hy Hz. unfold flat_index.
  replace ((0 <=? x) && (x <? n0) && (0 <=? y) && (y <? n1) && (0 <=? z) && (z <? n2)) with true by (symmetry; rewrite !andb_true_iff, !Z.leb_le, !Z.ltb_lt; lia).
  cbn [negb]. rewrite andb_false_r.
  assert (A : 0 <= tensor_flat n1 n2 x y z < n0 * n1 * n2).
  { unfold tensor_flat. assert (0 <= x * n1 + y) by nia. assert (x * n1 + y <= n0 * n1 - 1) by nia. split; [nia|].
    assert ((x * n1 + y) * n2 <= (n0 * n1 - 1) * n2) by (apply Z.mul_le_mono_nonneg_r; lia). nia. }
  replace ((0 <=? _) && _) with true by (symmetry; rewrite andb_true_iff, Z.leb_le, Z.ltb_lt; exact A). reflexivity.
Qed.

Section Loops.
Variables (chk : Z) (m : mesh) (nz : Z).
Notation cells := (fun x y z => 0 <= x < LocalNx m /\ 0 <= y < LocalNy m /\ 0 <= z < nz).
Notation cell := (cell m nz).
Lemma assign_ok x y z v f : cells x y z -> exists f', assign_at chk m nz x y z v f = Ok f' /\ cell f' x y z = v /\
  forall x' y' z', cells x' y' z' -> (x', y', z') <> (x, y, z) -> cell f' x' y' z' = cell f x' y' z'.
Proof.
  intros (A & B & D). unfold assign_at. rewrite flat_index_ok by auto. cbn [bind]. eexists. split; [reflexivity|]. unfold GridSpec.cell, tensor_flat. split.
  - now rewrite Z.eqb_refl.
  - intros x' y' z' (A' & B' & D') N. destruct (_ =? _) eqn:E; [|reflexivity]. exfalso. apply Z.eqb_eq in E. apply N.
    destruct (flat_inj (LocalNy m) nz x' y' z' x y z) as (-> & -> & ->); auto; lia.
Qed.
Lemma value_ok x y z f : cells x y z -> value_at chk m nz x y z f = Ok (cell f x y z).
Proof. intros (A & B & D). unfold value_at. rewrite flat_index_ok by auto. reflexivity. Qed.

(** One pass over a box that sets every cell to a value that does not depend on what is written. *)
Lemma read_ok n0 n1 nzf d ys yd ny' xs xd nx' f0 : nzf = nz -> 0 <= nz -> 0 <= nx' -> 0 <= ny' ->
  0 <= xs -> xs + nx' <= n0 -> 0 <= ys -> ys + ny' <= n1 -> 0 <= xd -> xd + nx' <= LocalNx m -> 0 <= yd -> yd + ny' <= LocalNy m ->
  exists f, read_loops chk m n0 n1 nzf nz d ys yd ny' xs xd nx' f0 = Ok f /\
    forall x y z, cells x y z ->
      cell f x y z = if (xd <=? x) && (x <? xd + nx') && (yd <=? y) && (y <? yd + ny') then elem3 n1 nz d (x - xd + xs) (y - yd + ys) z else cell f0 x y z.
Proof.
  intros -> Hz Hnx Hny X1 X2 Y1 Y2 X3 X4 Y3 Y4. unfold read_loops.
  destruct (mfor_inv (fun x => mfor (zrange ys (ys + ny')) (fun y => mfor (zrange 0 nz) (fun z f =>
    do k <- flat_index (2 <=? chk) n0 n1 nz x y z; assign_at chk m nz (x - xs + xd) (y - ys + yd) z (d k) f)))
    (fun i f => forall x y z, cells x y z -> cell f x y z = if (xd <=? x) && (x <? xd + (i - xs)) && (yd <=? y) && (y <? yd + ny') then elem3 n1 nz d (x - xd + xs) (y - yd + ys) z else cell f0 x y z)
    xs (xs + nx') f0) as (f & E & H).
  - lia.
  - intros x y z Hc. replace ((xd <=? x) && (x <? xd + (xs - xs))) with false; [reflexivity|].
    symmetry. apply andb_false_iff. rewrite Z.leb_gt, Z.ltb_ge. lia.
  - intros i f1 Hi H1.
    destruct (mfor_inv (fun y => mfor (zrange 0 nz) (fun z f =>
      do k <- flat_index (2 <=? chk) n0 n1 nz i y z; assign_at chk m nz (i - xs + xd) (y - ys + yd) z (d k) f))
      (fun j f => forall x y z, cells x y z -> cell f x y z = if (x =? i - xs + xd) && (yd <=? y) && (y <? yd + (j - ys)) then elem3 n1 nz d i (y - yd + ys) z else cell f1 x y z)
      ys (ys + ny') f1) as (f2 & E2 & H2).
    + lia.
    + intros x y z Hc. replace ((x =? _) && (yd <=? y) && (y <? yd + (ys - ys))) with false; [reflexivity|].
      symmetry. apply andb_false_iff. rewrite andb_false_iff, Z.leb_gt, Z.ltb_ge. lia.
    + intros j f2 Hj H2.
      destruct (mfor_inv (fun z f => do k <- flat_index (2 <=? chk) n0 n1 nz i j z; assign_at chk m nz (i - xs + xd) (j - ys + yd) z (d k) f)
        (fun k f => forall x y z, cells x y z -> cell f x y z = if (x =? i - xs + xd) && (y =? j - ys + yd) && (z <? k) then elem3 n1 nz d i j z else cell f2 x y z)
        0 nz f2) as (f3 & E3 & H3).
      * lia.
      * intros x y z Hc. replace (_ && _ && (z <? 0)) with false; [reflexivity|]. symmetry. apply andb_false_iff. right. apply Z.ltb_ge. lia.
      * intros k f3 Hk H3. rewrite flat_index_ok by lia. cbn [bind].
        destruct (assign_ok (i - xs + xd) (j - ys + yd) k (d (tensor_flat n1 nz i j k)) f3) as (f4 & E4 & H4 & H4'); [lia|].
        exists f4. split; [exact E4|]. intros x y z Hc.
        destruct (Z.eq_dec x (i - xs + xd)) as [->|N1]; [destruct (Z.eq_dec y (j - ys + yd)) as [->|N2]; [destruct (Z.eq_dec z k) as [->|N3]|]|].
        -- rewrite H4, !Z.eqb_refl. replace (k <? k + 1) with true by (symmetry; apply Z.ltb_lt; lia). reflexivity.
        -- rewrite H4' by (auto; congruence). rewrite H3 by auto. rewrite !Z.eqb_refl. cbn [andb].
           destruct (Z.ltb_spec z k), (Z.ltb_spec z (k + 1)); try lia; reflexivity.
        -- rewrite H4' by (auto; congruence). rewrite H3 by auto. replace (y =? j - ys + yd) with false by (symmetry; apply Z.eqb_neq; lia). now rewrite andb_false_r.
        -- rewrite H4' by (auto; congruence). rewrite H3 by auto. replace (x =? i - xs + xd) with false by (symmetry; apply Z.eqb_neq; lia). reflexivity.
      * exists f3. split; [exact E3|]. intros x y z Hc. rewrite H3 by auto. rewrite H2 by auto.
        destruct (Z.eqb_spec x (i - xs + xd)) as [->|N1]; cbn [andb]; [|reflexivity].
        replace (z <? nz) with true by (symmetry; apply Z.ltb_lt; lia).
        destruct (Z.eqb_spec y (j - ys + yd)) as [->|N2]; cbn [andb].
        -- replace (yd <=? j - ys + yd) with true by (symmetry; apply Z.leb_le; lia). replace (j - ys + yd <? yd + (j + 1 - ys)) with true by (symmetry; apply Z.ltb_lt; lia).
           cbn [andb]. f_equal. lia.
        -- destruct (Z.leb_spec yd y), (Z.ltb_spec y (yd + (j - ys))), (Z.ltb_spec y (yd + (j + 1 - ys))); try lia; reflexivity.
    + exists f2. split; [exact E2|]. intros x y z Hc. rewrite H2, H1 by auto.
      destruct (Z.eqb_spec x (i - xs + xd)) as [->|N1]; cbn [andb].
      * replace (yd + (ys + ny' - ys)) with (yd + ny') by lia.
        replace ((xd <=? i - xs + xd) && (i - xs + xd <? xd + (i + 1 - xs))) with true by (symmetry; rewrite andb_true_iff, Z.leb_le, Z.ltb_lt; lia).
        replace (i - xs + xd <? xd + (i - xs)) with false by (symmetry; apply Z.ltb_ge; lia). rewrite andb_false_r. cbn [andb].
        replace (i - xs + xd - xd + xs) with i by lia. reflexivity.
      * destruct (Z.leb_spec xd x), (Z.ltb_spec x (xd + (i - xs))), (Z.ltb_spec x (xd + (i + 1 - xs))); try lia; reflexivity.
  - exists f. split; [exact E|]. intros x y z Hc. rewrite H by auto. replace (xd + (xs + nx' - xs)) with (xd + nx') by lia. reflexivity.
Qed.

(** Copying rows: [dst] in a range that does not contain [from]. *)
Lemma copy_row x from y f : 0 <= x < LocalNx m -> 0 <= from < LocalNy m -> 0 <= y < LocalNy m -> 0 <= nz -> y <> from ->
  exists f', mfor (zrange 0 nz) (fun z f => do v <- value_at chk m nz x from z f; assign_at chk m nz x y z v f) f = Ok f' /\
    forall x' y' z', cells x' y' z' -> cell f' x' y' z' = if (x' =? x) && (y' =? y) then cell f x from z' else cell f x' y' z'.
Proof.
  intros Hx Hf Hy Hz N.
  destruct (mfor_inv (fun z f => do v <- value_at chk m nz x from z f; assign_at chk m nz x y z v f)
    (fun k f' => forall x' y' z', cells x' y' z' -> cell f' x' y' z' = if (x' =? x) && (y' =? y) && (z' <? k) then cell f x from z' else cell f x' y' z')
    0 nz f) as (f' & E & H).
  - lia.
  - intros x' y' z' Hc. replace (_ && _ && (z' <? 0)) with false; [reflexivity|]. symmetry. apply andb_false_iff. right. apply Z.ltb_ge. lia.
  - intros k f1 Hk H1. rewrite value_ok by lia. cbn [bind]. rewrite (H1 x from k) by lia.
    replace ((x =? x) && (from =? y) && (k <? k)) with false by (symmetry; apply andb_false_iff; right; apply Z.ltb_ge; lia).
    destruct (assign_ok x y k (cell f x from k) f1) as (f2 & E2 & H2 & H2'); [lia|]. exists f2. split; [exact E2|].
    intros x' y' z' Hc.
    destruct (Z.eq_dec x' x) as [->|N1]; [destruct (Z.eq_dec y' y) as [->|N2]; [destruct (Z.eq_dec z' k) as [->|N3]|]|].
    + rewrite H2, !Z.eqb_refl. replace (k <? k + 1) with true by (symmetry; apply Z.ltb_lt; lia). reflexivity.
    + rewrite H2' by (auto; congruence). rewrite H1 by auto. rewrite !Z.eqb_refl. cbn [andb].
      destruct (Z.ltb_spec z' k), (Z.ltb_spec z' (k + 1)); try lia; reflexivity.
    + rewrite H2' by (auto; congruence). rewrite H1 by auto. replace (y' =? y) with false by (symmetry; apply Z.eqb_neq; lia). now rewrite andb_false_r.
    + rewrite H2' by (auto; congruence). rewrite H1 by auto. replace (x' =? x) with false by (symmetry; apply Z.eqb_neq; lia). reflexivity.
  - exists f'. split; [exact E|]. intros x' y' z' Hc. rewrite H by auto. replace (z' <? nz) with true by (symmetry; apply Z.ltb_lt; lia). now rewrite andb_true_r.
Qed.
Lemma copy_rows x from a b f : 0 <= x < LocalNx m -> 0 <= from < LocalNy m -> 0 <= a -> a <= b -> b <= LocalNy m -> 0 <= nz -> ~ (a <= from < b) ->
  exists f', mfor (zrange a b) (fun y => mfor (zrange 0 nz) (fun z f => do v <- value_at chk m nz x from z f; assign_at chk m nz x y z v f)) f = Ok f' /\
    forall x' y' z', cells x' y' z' -> cell f' x' y' z' = if (x' =? x) && (a <=? y') && (y' <? b) then cell f x from z' else cell f x' y' z'.
Proof.
  intros Hx Hf Ha Hab Hb Hz N.
  destruct (mfor_inv (fun y => mfor (zrange 0 nz) (fun z f => do v <- value_at chk m nz x from z f; assign_at chk m nz x y z v f))
    (fun k f' => forall x' y' z', cells x' y' z' -> cell f' x' y' z' = if (x' =? x) && (a <=? y') && (y' <? k) then cell f x from z' else cell f x' y' z')
    a b f) as (f' & E & H).
  - lia.
  - intros x' y' z' Hc. replace (_ && (a <=? y') && (y' <? a)) with false; [reflexivity|]. symmetry. rewrite !andb_false_iff, Z.leb_gt, Z.ltb_ge. lia.
  - intros k f1 Hk H1. destruct (copy_row x from k f1) as (f2 & E2 & H2); try lia. exists f2. split; [exact E2|].
    intros x' y' z' Hc. rewrite H2 by auto. rewrite (H1 x from z') by lia. rewrite (H1 x' y' z') by auto.
    replace ((x =? x) && (a <=? from) && (from <? k)) with false by (symmetry; rewrite !andb_false_iff, Z.leb_gt, Z.ltb_ge; lia).
    destruct (Z.eqb_spec x' x) as [->|N1]; cbn [andb]; [|reflexivity].
    destruct (Z.eqb_spec y' k) as [->|N2].
    + replace ((a <=? k) && (k <? k + 1)) with true by (symmetry; rewrite andb_true_iff, Z.leb_le, Z.ltb_lt; lia). reflexivity.
    + destruct (Z.leb_spec a y'), (Z.ltb_spec y' k), (Z.ltb_spec y' (k + 1)); try lia; reflexivity.
  - exists f'. split; [exact E|]. exact H.
Qed.
Lemma fill_y_ok f : 0 <= nz -> 0 <= LocalNx m -> 0 <= ystart m <= yend m -> yend m < LocalNy m ->
  exists f', fill_y chk m nz f = Ok f' /\
    forall x y z, cells x y z -> cell f' x y z = cell f x (if y <? ystart m then ystart m else if y <=? yend m then y else yend m) z.
Proof.
  intros Hz Hx Hy1 Hy2. unfold fill_y.
  match goal with |- context [mfor _ ?b _] => destruct (mfor_inv b
    (fun i f' => forall x y z, cells x y z -> cell f' x y z = if x <? i then cell f x (if y <? ystart m then ystart m else if y <=? yend m then y else yend m) z else cell f x y z)
    0 (LocalNx m) f) as (f' & E & H) end.
  - lia.
  - intros x y z Hc. replace (x <? 0) with false by (symmetry; apply Z.ltb_ge; lia). reflexivity.
  - intros i f1 Hi H1. cbv zeta.
    destruct (copy_rows i (ystart m) 0 (ystart m) f1) as (f2 & E2 & H2); try lia. rewrite E2. cbn [bind].
    destruct (copy_rows i (yend m) (yend m + 1) (LocalNy m) f2) as (f3 & E3 & H3); try lia. exists f3. split; [exact E3|].
    intros x y z Hc. rewrite H3 by auto. rewrite (H2 x y z) by auto. rewrite (H2 i (yend m) z) by lia. rewrite (H1 x y z) by auto.
    rewrite (H1 i (ystart m) z), (H1 i (yend m) z) by lia.
    replace (i <? i) with false by (symmetry; apply Z.ltb_ge; lia).
    replace ((i =? i) && (0 <=? yend m) && (yend m <? ystart m)) with false by (symmetry; apply andb_false_iff; right; apply Z.ltb_ge; lia).
    destruct (Z.eqb_spec x i) as [->|N1]; cbn [andb].
    + replace (i <? i) with false by (symmetry; apply Z.ltb_ge; lia). replace (i <? i + 1) with true by (symmetry; apply Z.ltb_lt; lia).
      destruct (Z.leb_spec (yend m + 1) y), (Z.ltb_spec y (LocalNy m)), (Z.leb_spec 0 y), (Z.ltb_spec y (ystart m)), (Z.leb_spec y (yend m)); cbn [andb]; try lia; reflexivity.
    + destruct (Z.ltb_spec x i), (Z.ltb_spec x (i + 1)); try lia; reflexivity.
  - exists f'. split; [exact E|]. intros x y z Hc. rewrite H by auto. replace (x <? LocalNx m) with true by (symmetry; apply Z.ltb_lt; lia). reflexivity.
Qed.
Lemma fill_x_trivial f : xstart m = 0 -> LocalNx m = xend m + 1 -> fill_x chk m nz f = Ok f.
Proof. intros A B. unfold fill_x. cbv zeta. rewrite A, <- B, (zrange_nil 0 0), (zrange_nil (LocalNx m) (LocalNx m)) by lia. reflexivity. Qed.
End Loops.

Lemma load_more npes mype nx ny mxg myg s u m : load_decomposition npes mype nx ny mxg myg s u = Ok m ->
  OffsetX m = PE_XIND m * MXSUB m /\ OffsetY m = PE_YIND m * MYSUB m /\ GlobalNx m = nx /\
  GlobalNy m = ny + 2 * myg + (if negb (j12 (seps m) =? j21 (seps m)) then 2 * myg else 0).
Proof.
  unfold load_decomposition. intros H.
  destruct (setYDecompositionIndices ny s) as [[s' n]| |]; [|discriminate|discriminate]. cbn [bind fst snd] in H.
  match type of H with bind ?E _ = _ => destruct E as [[x y]| |] end; [|discriminate|discriminate]. cbn [bind fst snd] in H.
  destruct (cdiv mype x); [|discriminate|discriminate]. cbn [bind] in H. destruct (cmod mype x); [|discriminate|discriminate]. cbn [bind] in H.
  unfold setDerivedGridSizes in H. destruct (nx <=? 2 * mxg); [discriminate|].
  destruct (cdiv (nx - 2 * mxg) x); [|discriminate|discriminate]. cbn [bind] in H. destruct (cmod (nx - 2 * mxg) x); [|discriminate|discriminate]. cbn [bind] in H.
  destruct (negb (_ =? 0)); [discriminate|]. destruct (cdiv ny y); [|discriminate|discriminate]. cbn [bind] in H. destruct (cmod ny y); [|discriminate|discriminate]. cbn [bind] in H.
  destruct (negb (_ =? 0)); [discriminate|]. injection H as <-. cbn. destruct (negb (j12 s' =? j21 s')); repeat split; lia.
Qed.

(** The main statement, for Field2D and Field3D. *)
Section Main.
Variables (npes r nx ny mxg myg : Z) (s s' : yseps) (user : option (Z + Z)) (m : mesh) (nxp chk g nyf : Z).
Hypothesis Hny : 0 < ny.
Hypothesis Hmxg : 0 <= mxg.
Hypothesis Hmyg : 0 <= myg.
Hypothesis Hr : 0 <= r < npes.
Hypothesis HM : load_decomposition npes r nx ny mxg myg s user = Ok m.
Hypothesis HY : setYDecompositionIndices ny s = Ok (s', nxp).
Hypothesis Hnyf : nxp = 2 -> g <> 0 -> nyf = nyin s'.
Lemma off_aux p P k : 0 <= p < P -> 0 < k -> 0 <= p * k /\ p * k + k <= P * k.
Proof. clear. intros Hp Hk. split; [apply Z.mul_nonneg_nonneg; lia|]. pose proof (Z.mul_le_mono_nonneg_r (p + 1) P k ltac:(lia) ltac:(lia)). lia. Qed.
Lemma getField_ok fft asreal k3 nz D name def init e n0 n1 n2 d dflt : 0 <= nz -> (k3 = true -> hasVar D "nz" = true) ->
  D name = Some (e, dflt) -> dflt = false -> e = (if k3 then Arr3 n0 n1 n2 d else Arr2 n0 n1 d) -> n2 = (if k3 then nz else 1) ->
  n0 = nx -> (g = 0 /\ n1 = ny \/ 0 < g /\ g = myg /\ n1 = GlobalNy m) ->
  exists f, getField chk m nxp g nyf fft asreal k3 nz D name def init = Ok (true, f) /\
    forall x y z, 0 <= x < LocalNx m -> 0 <= y < LocalNy m -> 0 <= z < n2 ->
      cell m n2 f x y z = elem3 n1 n2 d (getGlobalXIndex m x) (local_file_row m g nyf (nxp =? 2) y) z.
Proof.
  intros Hz HV HD -> He Hn2 -> Hg.
  destruct (load_ok _ _ _ _ _ _ _ _ _ Hny Hmxg Hmyg Hr HM) as (Dc & E1 & E2 & E3 & E4 & n & EY).
  rewrite HY in EY. injection EY as Es <-.
  destruct (load_more _ _ _ _ _ _ _ _ _ HM) as (O1 & O2 & G1 & G2).
  pose proof Dc as [? ? ? Px Py ? Sx Sy Dx Dy Cuts _ _ Lx Ly Xs Xe Ys Ye _ _].
  destruct (C24_ordered _ _ _ _ HY) as (_ & _ & _ & _ & N2).
  assert (GY : nxp = 2 -> GlobalNy m = ny + 4 * myg).
  { intros HH. apply N2 in HH. rewrite G2, <- Es. destruct (Z.eqb_spec (j12 s') (j21 s')); cbn [negb]; lia. }
  assert (GY' : ny + 2 * myg <= GlobalNy m) by (rewrite G2; destruct (negb _); lia).
  unfold getField. assert (IS : isSet D name = true) by (unfold isSet; rewrite HD; reflexivity). rewrite IS, HD. cbn [negb].
  set (nzk := if k3 then nz else 1). assert (Hnzk : 0 <= nzk) by (unfold nzk; destruct k3; lia).
  replace (LocalNx m - (xend m - xstart m + 1)) with (mxg * 2) by lia. replace (LocalNy m - (yend m - ystart m + 1)) with (myg * 2) by lia.
  rewrite !Z.quot_mul, !Z.rem_mul, !Z.eqb_refl by lia.
  assert (QX : Z.quot (nx - (GlobalNx m - 2 * mxg)) 2 = mxg) by (replace (nx - (GlobalNx m - 2 * mxg)) with (mxg * 2) by lia; apply Z.quot_mul; lia).
  assert (RX : Z.rem (nx - (GlobalNx m - 2 * mxg)) 2 = 0) by (replace (nx - (GlobalNx m - 2 * mxg)) with (mxg * 2) by lia; apply Z.rem_mul; lia).
  assert (AT : assert1 chk true = Ok tt) by (unfold assert1; cbn [negb]; rewrite andb_false_r; reflexivity).
  assert (NXP : nxp <= 2).
  { destruct (C24_ordered _ _ _ _ HY) as (_ & _ & A0 & A1 & A2). unfold setYDecompositionIndices in HY.
    match type of HY with bind ?E _ = _ => destruct E end; [|discriminate|discriminate]. cbn [bind] in HY. injection HY as _ <-.
    destruct (_ && _); [lia|]. destruct (_ =? _); lia. }
  set (ys := if nxp >? 1 then (if OffsetY m >=? nyf then OffsetY m + 2 * g else OffsetY m) else OffsetY m).
  assert (Eys : (if nxp >? 1 then do a <- assert1 chk (nxp =? 2); Ok (if OffsetY m >=? nyf then OffsetY m + 2 * g else OffsetY m) else Ok (OffsetY m)) = Ok ys).
  { unfold ys. rewrite Z.gtb_ltb. destruct (Z.ltb_spec 1 nxp); [|reflexivity]. replace (nxp =? 2) with true by (symmetry; apply Z.eqb_eq; lia). rewrite AT. reflexivity. }
  assert (OAY : 0 <= OffsetY m /\ OffsetY m + MYSUB m <= ny) by (destruct (off_aux (PE_YIND m) (NYPE m) (MYSUB m)); [assumption|assumption|lia]).
  assert (Hys : 0 <= ys /\ (g = 0 -> ys = OffsetY m) /\ (0 < g -> ys + LocalNy m <= GlobalNy m)).
  { unfold ys. rewrite Z.gtb_ltb. destruct OAY as [? ?].
    destruct (Z.ltb_spec 1 nxp); [|lia]. specialize (GY ltac:(lia)). destruct (_ >=? _); lia. }
  assert (Hxs : 0 <= OffsetX m /\ OffsetX m + LocalNx m <= nx) by (destruct (off_aux (PE_XIND m) (NXPE m) (MXSUB m)); [assumption|assumption|lia]).
  destruct (Z.eqb_spec g 0) as [G0|G0].
  - (* no boundary rows in the file *)
    destruct Hys as (Hys0 & Hys & _). specialize (Hys G0). pose proof OAY as OY.
    assert (N1 : n1 = ny) by lia.
    assert (NB : GlobalNy m - numberOfYBoundaries m * 2 * myg = ny).
    { unfold numberOfYBoundaries. rewrite G2. destruct (Z.eqb_spec (j12 (seps m)) (j21 (seps m))), (Z.eqb_spec (j21 (seps m)) (j12 (seps m))); cbn [negb]; lia. }
    assert (RD : forall init, exists f0, readField chk m fft k3 nzk D e ys myg (LocalNy m - 2 * myg) (OffsetX m) 0 (LocalNx m) init = Ok f0 /\
      forall x y z, 0 <= x < LocalNx m /\ 0 <= y < LocalNy m /\ 0 <= z < nzk ->
        cell m nzk f0 x y z = if (0 <=? x) && (x <? 0 + LocalNx m) && (myg <=? y) && (y <? myg + (LocalNy m - 2 * myg)) then elem3 n1 nzk d (x - 0 + OffsetX m) (y - myg + ys) z else cell m nzk init x y z).
    { intros init0. unfold readField. subst e. destruct k3; cbn [negb].
      - rewrite HV by reflexivity. subst n2. unfold nzk in *. rewrite Z.eqb_refl. cbn [negb].
        replace (sensible _ _ _ _ _ _) with true by (symmetry; unfold sensible; rewrite !andb_true_iff, !Z.leb_le; lia). cbn [negb].
        apply read_ok; try lia.
      - subst n2. unfold nzk in *. apply read_ok; try lia. }
    destruct (RD init) as (f0 & ER & H0).
    destruct (fill_y_ok chk m nzk f0) as (f1 & EF & H1); try lia.
    exists f1. split.
    + subst e.
      assert (FX : (if nx =? GlobalNx m - 2 * mxg then fill_x chk m nzk f0 else Ok f0) = Ok f0).
      { destruct (Z.eqb_spec nx (GlobalNx m - 2 * mxg)); [|reflexivity]. apply fill_x_trivial; lia. }
      destruct k3; cbn [andb negb]; cbv zeta; unfold nzk in *; cbv iota in *; rewrite Eys; rewrite QX, RX, Z.eqb_refl, ?AT; cbn [bind]; rewrite Z.geb_leb; replace (0 <=? mxg) with true by (symmetry; apply Z.leb_le; lia);
        rewrite Z.sub_diag, Z.geb_leb; replace (0 <=? 0) with true by reflexivity; rewrite AT; cbn [bind fst snd]; rewrite G0;
        replace (0 >? 0) with false by reflexivity;
        replace (n1 =? GlobalNy m - numberOfYBoundaries m * 2 * myg) with true by (symmetry; apply Z.eqb_eq; lia);
        rewrite AT; cbn [bind fst snd]; rewrite ER; cbn [bind]; rewrite FX; cbn [bind]; rewrite EF; reflexivity.
    + intros x y z Hx Hy Hz'. subst n2. change (if k3 then nz else 1) with nzk in Hz'. change (if k3 then nz else 1) with nzk. rewrite H1 by auto.
      rewrite H0 by (destruct (y <? ystart m) eqn:?, (y <=? yend m) eqn:?; lia).
      match goal with |- (if ?b then _ else _) = _ => replace b with true end.
      2:{ symmetry. rewrite !andb_true_iff, !Z.leb_le, !Z.ltb_lt. destruct (Z.ltb_spec y (ystart m)), (Z.leb_spec y (yend m)); lia. }
      unfold elem3, local_file_row, file_row, getGlobalXIndex, getGlobalYIndexNoBoundaries. replace (g =? 0) with true by (symmetry; apply Z.eqb_eq; lia).
      f_equal. f_equal. f_equal. f_equal; [f_equal; lia|]. rewrite Hys.
      destruct (Z.ltb_spec y (ystart m)), (Z.leb_spec y (yend m)); lia.
  - (* with boundary rows *)
    destruct Hg as [[? _]|(Gp & Gm & N1)]; [lia|].
    assert (RD : forall init, exists f0, readField chk m fft k3 nzk D e ys 0 (LocalNy m) (OffsetX m) 0 (LocalNx m) init = Ok f0 /\
      forall x y z, 0 <= x < LocalNx m /\ 0 <= y < LocalNy m /\ 0 <= z < nzk ->
        cell m nzk f0 x y z = if (0 <=? x) && (x <? 0 + LocalNx m) && (0 <=? y) && (y <? 0 + LocalNy m) then elem3 n1 nzk d (x - 0 + OffsetX m) (y - 0 + ys) z else cell m nzk init x y z).
    { intros init0. destruct Hys as (? & _ & Hys). specialize (Hys Gp). unfold readField. subst e. destruct k3; cbn [negb].
      - rewrite HV by reflexivity. subst n2. unfold nzk in *. rewrite Z.eqb_refl. cbn [negb].
        replace (sensible _ _ _ _ _ _) with true by (symmetry; unfold sensible; rewrite !andb_true_iff, !Z.leb_le; lia). cbn [negb].
        apply read_ok; try lia.
      - subst n2. unfold nzk in *. apply read_ok; try lia. }
    destruct (RD init) as (f0 & ER & H0).
    exists f0. split.
    + subst e.
      assert (FX : (if nx =? GlobalNx m - 2 * mxg then fill_x chk m nzk f0 else Ok f0) = Ok f0).
      { destruct (Z.eqb_spec nx (GlobalNx m - 2 * mxg)); [|reflexivity]. apply fill_x_trivial; lia. }
      destruct k3; cbn [andb negb]; cbv zeta; unfold nzk in *; cbv iota in *; rewrite Eys; rewrite QX, RX, Z.eqb_refl, ?AT; cbn [bind]; rewrite Z.geb_leb; replace (0 <=? mxg) with true by (symmetry; apply Z.leb_le; lia);
        rewrite Z.sub_diag, Z.geb_leb; replace (0 <=? 0) with true by reflexivity; rewrite AT; cbn [bind fst snd];
        replace (g >? 0) with true by (symmetry; rewrite Z.gtb_ltb; apply Z.ltb_lt; lia); rewrite N1, Z.eqb_refl, AT; cbn [bind];
        replace (g - myg) with 0 by lia; replace (0 >=? 0) with true by reflexivity; rewrite AT; cbn [bind fst snd]; rewrite <- N1; rewrite ER; cbn [bind]; rewrite FX; cbn [bind];
        reflexivity.
    + intros x y z Hx Hy Hz'. subst n2. change (if k3 then nz else 1) with nzk in Hz'. change (if k3 then nz else 1) with nzk. rewrite H0 by auto.
      match goal with |- (if ?b then _ else _) = _ => replace b with true end.
      2:{ symmetry. rewrite !andb_true_iff, !Z.leb_le, !Z.ltb_lt. lia. }
      unfold elem3, local_file_row, file_row, getGlobalXIndex, getGlobalYIndexNoBoundaries. replace (g =? 0) with false by (symmetry; apply Z.eqb_neq; lia).
      f_equal. f_equal. f_equal. f_equal; [f_equal; lia|].
      assert (T : nxp = 2 -> exists k, nyf = k * MYSUB m).
      { intros T. rewrite (Hnyf T G0). destruct (Cuts (nyin s' - 1)) as [k K]; [|exists k; lia].
        rewrite <- Es. right; right. apply N2 in T. split; [unfold double_null; tauto|auto]. }
      unfold ys. rewrite Z.gtb_ltb. destruct (Z.eqb_spec nxp 2) as [T2|T2]; cbn [andb].
      * replace (1 <? nxp) with true by (symmetry; apply Z.ltb_lt; lia). destruct (T T2) as (k & K). rewrite Z.geb_leb.
        assert (Q : (nyf <= OffsetY m) \/ (OffsetY m + MYSUB m <= nyf)) by (rewrite O2, K; destruct (Z.le_gt_cases k (PE_YIND m)); [left; apply Z.mul_le_mono_nonneg_r; lia|right; replace (PE_YIND m * MYSUB m + MYSUB m) with ((PE_YIND m + 1) * MYSUB m) by ring; apply Z.mul_le_mono_nonneg_r; lia]).
        rewrite O2 in *. rewrite Ys, Ye, E4 in *.
        destruct Q as [Q|Q].
        -- replace (nyf <=? PE_YIND m * MYSUB m) with true by (symmetry; apply Z.leb_le; lia).
           destruct (Z.ltb_spec y myg), (Z.leb_spec y (myg + MYSUB m - 1)); repeat match goal with |- context [?a <=? ?b] => destruct (Z.leb_spec a b) end; lia.
        -- replace (nyf <=? PE_YIND m * MYSUB m) with false by (symmetry; apply Z.leb_gt; lia).
           destruct (Z.ltb_spec y myg), (Z.leb_spec y (myg + MYSUB m - 1)); repeat match goal with |- context [?a <=? ?b] => destruct (Z.leb_spec a b) end; lia.
      * replace (1 <? nxp) with false by (symmetry; apply Z.ltb_ge; lia). rewrite O2. rewrite Ys, Ye, E4 in *.
        destruct (Z.ltb_spec y myg), (Z.leb_spec y (myg + MYSUB m - 1)); lia.
Qed.
End Main.
