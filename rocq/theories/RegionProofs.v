From Coq Require Import List ZArith Lia Bool Sorting Permutation.
From Coq Require Import ZifyBool ZifyNat.
From Verif Require Import Base RegionModel RegionSpec.
Import ListNotations.
Open Scope Z_scope.

(** * Index arithmetic *)
Lemma quot_div a b : 0 <= a -> 0 < b -> Z.quot a b = a / b.
Proof. intros; apply Z.quot_div_nonneg; lia. Qed.
Lemma rem_mod a b : 0 <= a -> 0 < b -> Z.rem a b = a mod b.
Proof. intros; apply Z.rem_mod_nonneg; lia. Qed.

Lemma flat_nonneg ny nz x y z : 0 < ny -> 0 < nz -> 0 <= x -> 0 <= y -> 0 <= z -> 0 <= flat ny nz x y z.
Proof. unfold flat; intros; nia. Qed.

Lemma flat_coords ny nz x y z :
  0 <= x -> 0 <= y < ny -> 0 <= z < nz ->
  let i := mkInd (flat ny nz x y z) ny nz in ix i = x /\ iy i = y /\ iz i = z.
Proof.
  intros Hx Hy Hz i; unfold i, ix, iy, iz; cbn [ind iny inz].
  assert (Hq : Z.quot (flat ny nz x y z) nz = x * ny + y).
  { rewrite quot_div; [|apply flat_nonneg; lia|lia]. unfold flat.
    rewrite Z.div_add_l by lia. rewrite Z.div_small by lia. lia. }
  rewrite Hq. repeat split.
  - rewrite quot_div by nia. rewrite Z.div_add_l by lia. rewrite Z.div_small by lia. lia.
  - rewrite rem_mod by nia. rewrite Z.add_comm, Z.mod_add by lia. apply Z.mod_small; lia.
  - rewrite rem_mod; [|apply flat_nonneg; lia|lia]. unfold flat.
    rewrite Z.add_comm, Z.mod_add by lia. apply Z.mod_small; lia.
Qed.

Lemma coords_flat ny nz k :
  0 < ny -> 0 < nz -> 0 <= k ->
  let i := mkInd k ny nz in
  0 <= ix i /\ 0 <= iy i < ny /\ 0 <= iz i < nz /\ flat ny nz (ix i) (iy i) (iz i) = k.
Proof.
  intros Hy Hz Hk i; unfold i, ix, iy, iz, flat; cbn [ind iny inz].
  rewrite (quot_div k nz) by lia. rewrite (rem_mod k nz) by lia.
  assert (0 <= k / nz) by (apply Z.div_pos; lia).
  rewrite (quot_div (k/nz) ny) by lia. rewrite (rem_mod (k/nz) ny) by lia.
  pose proof (Z.mod_pos_bound k nz Hz). pose proof (Z.mod_pos_bound (k/nz) ny Hy).
  pose proof (Z.div_pos (k/nz) ny ltac:(lia) ltac:(lia)).
  pose proof (Z.div_mod k nz ltac:(lia)) as D1. pose proof (Z.div_mod (k/nz) ny ltac:(lia)) as D2.
  split; [assumption|]. split; [assumption|]. split; [assumption|].
  rewrite (Z.mul_comm (k / nz / ny)), <- D2, (Z.mul_comm (k/nz)), <- D1. reflexivity.
Qed.

Lemma coords_bound nx ny nz k :
  0 < ny -> 0 < nz -> 0 <= k < nx * ny * nz -> ix (mkInd k ny nz) < nx.
Proof.
  intros Hy Hz [Hk0 Hk1]. destruct (coords_flat ny nz k Hy Hz Hk0) as (H1 & H2 & H3 & H4).
  revert H1 H2 H3 H4. generalize (ix (mkInd k ny nz)) (iy (mkInd k ny nz)) (iz (mkInd k ny nz)).
  intros a b c H1 H2 H3 H4. unfold flat in H4.
  destruct (Z_lt_dec a nx) as [|Hge]; [assumption|exfalso].
  assert (nx * ny <= a * ny + b) by nia.
  assert (nx * ny * nz <= (a * ny + b) * nz) by (apply Z.mul_le_mono_nonneg_r; lia). lia.
Qed.

Lemma flat_inj ny nz x y z x' y' z' :
  0 <= x -> 0 <= y < ny -> 0 <= z < nz -> 0 <= x' -> 0 <= y' < ny -> 0 <= z' < nz ->
  flat ny nz x y z = flat ny nz x' y' z' -> x = x' /\ y = y' /\ z = z'.
Proof.
  intros Hx Hy Hz Hx' Hy' Hz' E.
  destruct (flat_coords ny nz x y z Hx Hy Hz) as (A1 & A2 & A3).
  destruct (flat_coords ny nz x' y' z' Hx' Hy' Hz') as (B1 & B2 & B3).
  cbn zeta in *. rewrite E in A1, A2, A3. lia.
Qed.

Lemma xp_spec ny nz x y z dx : ind (xp (mkInd (flat ny nz x y z) ny nz) dx) = flat ny nz (x + dx) y z.
Proof. unfold xp, flat; cbn; ring. Qed.
Lemma yp_spec ny nz x y z dy : ind (yp (mkInd (flat ny nz x y z) ny nz) dy) = flat ny nz x (y + dy) z.
Proof. unfold yp, flat; cbn; ring. Qed.

Lemma mod_wrap_up z d nz : 0 <= z < nz -> 0 <= d <= nz -> (z + d) mod nz = if z + d <? nz then z + d else z + d - nz.
Proof.
  intros Hz Hd. destruct (z + d <? nz) eqn:E.
  - apply Z.mod_small; lia.
  - symmetry. apply Z.mod_unique with 1; lia.
Qed.
Lemma mod_wrap_down z d nz : 0 <= z < nz -> 0 <= d <= nz -> (z - d) mod nz = if z <? d then z - d + nz else z - d.
Proof.
  intros Hz Hd. destruct (z <? d) eqn:E.
  - symmetry. apply Z.mod_unique with (-1); lia.
  - apply Z.mod_small; lia.
Qed.

Lemma zp_spec ny nz x y z dz :
  0 < ny -> 0 <= x -> 0 <= y -> 0 <= z < nz -> 0 <= dz ->
  ind (zp (mkInd (flat ny nz x y z) ny nz) dz) = flat ny nz x y ((z + dz) mod nz).
Proof.
  intros Hny Hx Hy Hz Hd. unfold zp; cbn [ind iny inz].
  set (d := if dz <=? nz then dz else Z.rem dz nz).
  assert (Hdd : 0 <= d <= nz /\ d mod nz = dz mod nz).
  { unfold d. destruct (dz <=? nz) eqn:E; [split; [lia|reflexivity]|].
    rewrite rem_mod by lia. pose proof (Z.mod_pos_bound dz nz ltac:(lia)).
    split; [lia|]. apply Z.mod_mod; lia. }
  destruct Hdd as [Hdr Hdm]. clearbody d.
  assert (Hm : Z.rem (flat ny nz x y z + d) nz = (z + d) mod nz).
  { rewrite rem_mod; [|pose proof (flat_nonneg ny nz x y z); lia|lia].
    unfold flat. replace ((x * ny + y) * nz + z + d) with (z + d + (x*ny+y)*nz) by ring.
    apply Z.mod_add; lia. }
  rewrite Hm.
  assert (Hz' : (z + dz) mod nz = (z + d) mod nz).
  { rewrite (Zplus_mod z dz), (Zplus_mod z d), Hdm. reflexivity. }
  rewrite Hz'.
  rewrite mod_wrap_up by assumption. clear Hz' Hm Hdm. unfold flat.
  destruct (z + d <? nz) eqn:E1.
  - replace (z + d <? d) with false by (symmetry; apply Z.ltb_ge; lia). ring.
  - replace (z + d - nz <? d) with true by (symmetry; apply Z.ltb_lt; lia). ring.
Qed.

Lemma zm_spec ny nz x y z dz :
  0 < ny -> 0 <= x -> 0 <= y -> 0 <= z < nz -> 0 <= dz ->
  ind (zm (mkInd (flat ny nz x y z) ny nz) dz) = flat ny nz x y ((z - dz) mod nz).
Proof.
  intros Hny Hx Hy Hz Hd. unfold zm; cbn [ind iny inz].
  set (d := if dz <=? nz then dz else Z.rem dz nz).
  assert (Hdd : 0 <= d <= nz /\ d mod nz = dz mod nz).
  { unfold d. destruct (dz <=? nz) eqn:E; [split; [lia|reflexivity]|].
    rewrite rem_mod by lia. pose proof (Z.mod_pos_bound dz nz ltac:(lia)).
    split; [lia|]. apply Z.mod_mod; lia. }
  destruct Hdd as [Hdr Hdm]. clearbody d.
  assert (Hm : Z.rem (flat ny nz x y z) nz = z).
  { rewrite rem_mod; [|apply flat_nonneg; lia|lia].
    unfold flat. rewrite Z.add_comm, Z.mod_add by lia. apply Z.mod_small; lia. }
  rewrite Hm.
  assert (Hz' : (z - dz) mod nz = (z - d) mod nz).
  { rewrite (Zminus_mod z dz), (Zminus_mod z d), Hdm. reflexivity. }
  rewrite Hz'.
  rewrite mod_wrap_down by assumption. clear Hz' Hm Hdm. unfold flat.
  destruct (z <? d) eqn:E1; ring.
Qed.

Lemma mkInd_eta i : mkInd (ind i) (iny i) (inz i) = i.
Proof. destruct i; reflexivity. Qed.

Lemma ioffset_spec ny nz x y z dx dy dz :
  0 < ny -> 0 <= x -> 0 <= y -> 0 <= z < nz ->
  ioffset (mkInd (flat ny nz x y z) ny nz) dx dy dz
  = mkInd (flat ny nz (x + dx) (y + dy) ((z + dz) mod nz)) ny nz.
Proof.
  intros. unfold ioffset.
  set (t := if 0 <? dz then zp _ dz else zm _ (- dz)).
  assert (Ht : t = mkInd (flat ny nz x y ((z + dz) mod nz)) ny nz).
  { unfold t. destruct (0 <? dz) eqn:E.
    - rewrite <- (zp_spec ny nz x y z dz) by lia. reflexivity.
    - replace ((z + dz) mod nz) with ((z - (- dz)) mod nz) by (f_equal; ring).
      rewrite <- (zm_spec ny nz x y z (- dz)) by lia. reflexivity. }
  rewrite Ht. unfold xp, yp, flat; cbn [ind iny inz]. f_equal. ring.
Qed.

(** * Box regions *)
Definition zrange (a b : Z) : list Z := map (fun k => a + Z.of_nat k) (seq 0 (Z.to_nat (b - a + 1))).

Lemma zrange_nil a b : b < a -> zrange a b = [].
Proof. intros; unfold zrange. replace (Z.to_nat (b - a + 1)) with O by lia. reflexivity. Qed.
Lemma zrange_cons a b : a <= b -> zrange a b = a :: zrange (a + 1) b.
Proof.
  intros; unfold zrange. replace (Z.to_nat (b - a + 1)) with (S (Z.to_nat (b - (a+1) + 1))) by lia.
  cbn [seq map]. f_equal; [lia|]. rewrite <- seq_shift, map_map. apply map_ext; intros; lia.
Qed.
Lemma in_zrange k a b : In k (zrange a b) <-> a <= k <= b.
Proof.
  unfold zrange. rewrite in_map_iff. split.
  - intros (n & <- & Hn). apply in_seq in Hn. lia.
  - intros. exists (Z.to_nat (k - a)). rewrite in_seq. lia.
Qed.
Lemma zrange_length a b : length (zrange a b) = Z.to_nat (b - a + 1).
Proof. unfold zrange. now rewrite map_length, seq_length. Qed.
Lemma zrange_sorted a b : StronglySorted Z.lt (zrange a b).
Proof.
  remember (Z.to_nat (b - a + 1)) as n eqn:Hn. revert a Hn.
  induction n as [|n IH]; intros a Hn.
  - rewrite zrange_nil by lia. constructor.
  - rewrite zrange_cons by lia. constructor; [apply IH; lia|].
    apply Forall_forall. intros k Hk. apply in_zrange in Hk. lia.
Qed.

Section Box.
  Variables xend ystart yend zstart zend ny nz : Z.
  Let f x y z := mkInd (flat ny nz x y z) ny nz.
  Definition row x y z := map (f x y) (zrange z zend).
  Definition rows x y := flat_map (fun y' => row x y' zstart) (zrange y yend).
  Definition planes x := flat_map (fun x' => rows x' ystart) (zrange x xend).
  Definition enum x y z := row x y z ++ rows x (y + 1) ++ planes (x + 1).

  Lemma vec_set_app {A} (d : list A) h t v : vec_set (d ++ h :: t) (length d) v = Some (d ++ v :: t).
  Proof. induction d as [|a d IH]; cbn; [reflexivity|]. now rewrite IH. Qed.

  Lemma create_loop_spec fuel : forall x y z d,
    x <= xend -> ystart <= y <= yend -> zstart <= z <= zend ->
    fuel = length (enum x y z) ->
    create_loop fuel xend ystart yend zstart zend ny nz x y z (length d) (d ++ repeat (mkInd (-1) ny nz) fuel)
    = Ok (d ++ enum x y z).
  Proof.
    induction fuel as [|fuel IH]; intros x y z d Hx Hy Hz Hf.
    - exfalso. unfold enum, row in Hf. rewrite (zrange_cons z) in Hf by lia. discriminate.
    - cbn [create_loop repeat]. rewrite vec_set_app. cbn [ofopt bind].
      change (mkInd ((x * ny + y) * nz + z) ny nz) with (f x y z).
      destruct ((x =? xend) && (y =? yend) && (z =? zend)) eqn:Edone.
      + assert (x = xend /\ y = yend /\ z = zend) as (-> & -> & ->) by lia.
        assert (E : enum xend yend zend = [f xend yend zend]).
        { unfold enum, row, rows, planes. rewrite (zrange_cons zend zend), (zrange_nil (zend+1)),
            (zrange_nil (yend+1)), (zrange_nil (xend+1)) by lia. reflexivity. }
        rewrite E in *. cbn in Hf. replace fuel with O by lia. reflexivity.
      + assert (Hstep : forall x' y' z', enum x y z = f x y z :: enum x' y' z' ->
          x' <= xend -> ystart <= y' <= yend -> zstart <= z' <= zend ->
          create_loop fuel xend ystart yend zstart zend ny nz x' y' z' (S (length d))
            (d ++ f x y z :: repeat (mkInd (-1) ny nz) fuel) = Ok (d ++ enum x y z)).
        { intros x' y' z' E H1 H2 H3.
          replace (d ++ f x y z :: repeat (mkInd (-1) ny nz) fuel)
            with ((d ++ [f x y z]) ++ repeat (mkInd (-1) ny nz) fuel) by (now rewrite <- app_assoc).
          replace (S (length d)) with (length (d ++ [f x y z])) by (rewrite app_length; cbn; lia).
          rewrite IH; try assumption; [rewrite E, <- app_assoc; reflexivity|].
          rewrite E in Hf. cbn in Hf. lia. }
        destruct (zend <? z + 1) eqn:Ez.
        * destruct (yend <? y + 1) eqn:Ey.
          -- apply Hstep; try lia.
             assert (z = zend) by lia. assert (y = yend) by lia. subst z y.
             unfold enum at 1. unfold row at 1, rows at 1, planes at 1.
             rewrite (zrange_cons zend zend), (zrange_nil (zend+1)), (zrange_nil (yend+1)) by lia.
             rewrite (zrange_cons (x+1) xend) by lia. cbn [map flat_map app].
             unfold enum. f_equal. unfold rows at 1. rewrite (zrange_cons ystart yend) by lia.
             cbn [flat_map]. rewrite <- app_assoc. reflexivity.
          -- apply Hstep; try lia.
             assert (z = zend) by lia. subst z.
             unfold enum at 1. unfold row at 1, rows at 1.
             rewrite (zrange_cons zend zend), (zrange_nil (zend+1)) by lia.
             rewrite (zrange_cons (y+1) yend) by lia. cbn [map flat_map app].
             unfold enum. f_equal. rewrite <- app_assoc. reflexivity.
        * apply Hstep; try lia.
          unfold enum at 1. unfold row at 1. rewrite (zrange_cons z zend) by lia. reflexivity.
  Qed.
End Box.

Lemma flat_map_length_const {A B} (g : A -> list B) n l :
  (forall a, In a l -> length (g a) = n) -> length (flat_map g l) = (length l * n)%nat.
Proof.
  induction l as [|a l IH]; intros H; cbn [flat_map]; [reflexivity|].
  rewrite app_length, IH, H by (intros; try apply H; cbn; auto). cbn. lia.
Qed.

Lemma enum_all xstart xend ystart yend zstart zend ny nz :
  xstart <= xend -> ystart <= yend -> zstart <= zend ->
  enum xend ystart yend zstart zend ny nz xstart ystart zstart
  = planes xend ystart yend zstart zend ny nz xstart.
Proof.
  intros. unfold enum, planes. rewrite (zrange_cons xstart) by lia. cbn [flat_map].
  unfold rows at 3. rewrite (zrange_cons ystart) by lia. cbn [flat_map]. now rewrite <- app_assoc.
Qed.

Lemma planes_length xstart xend ystart yend zstart zend ny nz :
  xstart <= xend -> ystart <= yend -> zstart <= zend ->
  length (planes xend ystart yend zstart zend ny nz xstart)
  = Z.to_nat ((xend - xstart + 1) * (yend - ystart + 1) * (zend - zstart + 1)).
Proof.
  intros. unfold planes.
  rewrite (flat_map_length_const _ (Z.to_nat (yend - ystart + 1) * Z.to_nat (zend - zstart + 1))%nat).
  - assert (0 <= (xend - xstart + 1) * (yend - ystart + 1)) by (apply Z.mul_nonneg_nonneg; lia).
    rewrite zrange_length. rewrite Z2Nat.inj_mul by lia. rewrite (Z2Nat.inj_mul (xend - xstart + 1)) by lia.
    apply Nat.mul_assoc.
  - intros x _. unfold rows. rewrite (flat_map_length_const _ (Z.to_nat (zend - zstart + 1))).
    + now rewrite zrange_length.
    + intros y _. unfold row. now rewrite map_length, zrange_length.
Qed.

Lemma createRegionIndices_eq xstart xend ystart yend zstart zend ny nz :
  0 < ny -> 0 < nz ->
  createRegionIndices xstart xend ystart yend zstart zend ny nz
  = Ok (if (xend + 1 <=? xstart) || (yend + 1 <=? ystart) || (zend + 1 <=? zstart) then []
        else planes xend ystart yend zstart zend ny nz xstart).
Proof.
  intros Hy Hz. unfold createRegionIndices.
  destruct (_ || _ || _) eqn:E; [reflexivity|].
  destruct (0 <? ny) eqn:E1; [|lia]. destruct (0 <? nz) eqn:E2; [|lia]. cbn [negb].
  assert (0 < (xend - xstart + 1) * (yend - ystart + 1) * (zend - zstart + 1)).
  { repeat apply Z.mul_pos_pos; lia. }
  cbv zeta. replace (0 <? (xend - xstart + 1) * (yend - ystart + 1) * (zend - zstart + 1)) with true
    by (symmetry; apply Z.ltb_lt; assumption). cbn [negb].
  pose proof (create_loop_spec xend ystart yend zstart zend ny nz
    (Z.to_nat ((xend - xstart + 1) * (yend - ystart + 1) * (zend - zstart + 1)))
    xstart ystart zstart [] ltac:(lia) ltac:(lia) ltac:(lia)) as H1.
  rewrite enum_all, planes_length in H1 by lia. cbn [app length] in H1. apply H1. reflexivity.
Qed.

Lemma flat_map_sorted {A} (g : A -> list Z) (R : A -> A -> Prop) l :
  StronglySorted R l -> (forall a, In a l -> StronglySorted Z.lt (g a)) ->
  (forall a b, In a l -> In b l -> R a b -> forall u v, In u (g a) -> In v (g b) -> u < v) ->
  StronglySorted Z.lt (flat_map g l).
Proof.
  intros HS. induction HS as [|a l HS IH HF]; intros H1 H2; cbn [flat_map]; [constructor|].
  assert (Hl : StronglySorted Z.lt (flat_map g l)).
  { apply IH; [intros b Hb; apply H1; right; exact Hb|].
    intros b c Hb Hc Hr. apply (H2 b c); [right; exact Hb|right; exact Hc|exact Hr]. }
  assert (Ha := H1 a (or_introl eq_refl)).
  assert (Hb : forall u v, In u (g a) -> In v (flat_map g l) -> u < v).
  { intros u v Hu Hv. apply in_flat_map in Hv. destruct Hv as (b & Hb & Hv).
    rewrite Forall_forall in HF. apply (H2 a b (or_introl eq_refl) (or_intror Hb) (HF b Hb) u v Hu Hv). }
  clear - Hl Ha Hb. induction Ha as [|u gl Hs IH2 Hf]; cbn [app]; [assumption|].
  constructor; [apply IH2; intros; apply Hb; cbn; auto|].
  apply Forall_app; split; [assumption|]. apply Forall_forall; intros v Hv. apply Hb; cbn; auto.
Qed.

Lemma map_flat_map {A B C} (h : B -> C) (g : A -> list B) l :
  map h (flat_map g l) = flat_map (fun a => map h (g a)) l.
Proof. induction l; cbn; [reflexivity|]. now rewrite map_app, IHl. Qed.

Lemma in_planes xstart xend ystart yend zstart zend ny nz k :
  In k (map ind (planes xend ystart yend zstart zend ny nz xstart)) <->
  exists x y z, xstart <= x <= xend /\ ystart <= y <= yend /\ zstart <= z <= zend /\ k = flat ny nz x y z.
Proof.
  rewrite in_map_iff. unfold planes, rows, row. split.
  - intros (i & <- & Hi). apply in_flat_map in Hi. destruct Hi as (x & Hx & Hi).
    apply in_flat_map in Hi. destruct Hi as (y & Hy & Hi). apply in_map_iff in Hi.
    destruct Hi as (z & <- & Hz). apply in_zrange in Hx, Hy, Hz. exists x, y, z. auto.
  - intros (x & y & z & Hx & Hy & Hz & ->). exists (mkInd (flat ny nz x y z) ny nz). split; [reflexivity|].
    apply in_flat_map. exists x. rewrite in_zrange; split; [lia|].
    apply in_flat_map. exists y. rewrite in_zrange; split; [lia|].
    apply in_map_iff. exists z. rewrite in_zrange. auto.
Qed.

Lemma planes_sizes xstart xend ystart yend zstart zend ny nz i :
  In i (planes xend ystart yend zstart zend ny nz xstart) -> iny i = ny /\ inz i = nz.
Proof.
  unfold planes, rows, row. intros Hi. apply in_flat_map in Hi. destruct Hi as (x & Hx & Hi).
  apply in_flat_map in Hi. destruct Hi as (y & Hy & Hi). apply in_map_iff in Hi.
  destruct Hi as (z & <- & Hz). auto.
Qed.

Lemma planes_sorted xstart xend ystart yend zstart zend ny nz :
  0 < ny -> 0 < nz -> 0 <= ystart -> yend < ny -> 0 <= zstart -> zend < nz ->
  StronglySorted Z.lt (map ind (planes xend ystart yend zstart zend ny nz xstart)).
Proof.
  intros. unfold planes. rewrite map_flat_map.
  apply (flat_map_sorted _ Z.lt); [apply zrange_sorted| |].
  - intros x _. unfold rows. rewrite map_flat_map. apply (flat_map_sorted _ Z.lt); [apply zrange_sorted| |].
    + intros y _. unfold row. rewrite map_map. cbn [ind].
      pose proof (zrange_sorted zstart zend) as HS. induction HS as [|a l HS IH HF]; cbn [map]; [constructor|].
      constructor; [assumption|]. apply Forall_map. eapply Forall_impl; [|exact HF].
      cbn. intros b Hb. unfold flat. lia.
    + intros a b Ha Hb Hab u v Hu Hv. unfold row in *. rewrite map_map in Hu, Hv.
      apply in_map_iff in Hu, Hv. destruct Hu as (z1 & <- & Hz1), Hv as (z2 & <- & Hz2).
      apply in_zrange in Hz1, Hz2. cbn [ind]. unfold flat. nia.
  - intros a b Ha Hb Hab u v Hu Hv. unfold rows, row in *. rewrite map_flat_map in Hu, Hv.
    apply in_flat_map in Hu, Hv. destruct Hu as (y1 & Hy1 & Hu), Hv as (y2 & Hy2 & Hv).
    rewrite map_map in Hu, Hv.
    apply in_map_iff in Hu, Hv. destruct Hu as (z1 & <- & Hz1), Hv as (z2 & <- & Hz2).
    apply in_zrange in Hz1, Hz2, Hy1, Hy2. cbn [ind]. unfold flat.
    assert (a * ny + y1 + 1 <= b * ny + y2) by nia.
    assert ((a * ny + y1 + 1) * nz <= (b * ny + y2) * nz) by (apply Z.mul_le_mono_nonneg_r; lia). lia.
Qed.

Lemma box_spec xstart xend ystart yend zstart zend ny nz :
  0 < ny -> 0 < nz -> 0 <= ystart -> yend < ny -> 0 <= zstart -> zend < nz ->
  exists l, createRegionIndices xstart xend ystart yend zstart zend ny nz = Ok l /\
    increasing (map ind l) /\
    (forall k, In k (map ind l) <->
       exists x y z, xstart <= x <= xend /\ ystart <= y <= yend /\ zstart <= z <= zend /\ k = flat ny nz x y z) /\
    (forall i, In i l -> iny i = ny /\ inz i = nz).
Proof.
  intros. rewrite createRegionIndices_eq by lia. eexists; split; [reflexivity|].
  destruct (_ || _ || _) eqn:E.
  - cbn. repeat split; try contradiction; [constructor|]. intros (x & y & z & Hx & Hy & Hz & _). lia.
  - split; [apply planes_sorted; lia|]. split; [intros; apply in_planes|]. apply planes_sizes.
Qed.

(** * Contiguous blocks *)
Definition block_size (b : sind * sind) : Z := ind (snd b) - ind (fst b).

Lemma take_block_spec maxsz : forall l count prev last rest,
  1 <= count <= maxsz -> take_block maxsz count prev l = (last, rest) ->
  exists mid, l = mid ++ rest /\
    map ind (prev :: mid) = map ind (block_iter (S (length mid)) prev) /\
    ind last = ind prev + Z.of_nat (length mid) /\
    count + Z.of_nat (length mid) <= maxsz /\
    (count + Z.of_nat (length mid) = maxsz \/ match rest with [] => True | r :: _ => ind r <> ind last + 1 end).
Proof.
  induction l as [|i l IH]; intros count prev last rest Hc E.
  - cbn in E. assert (E' : (prev, []) = (last, rest)) by (destruct (count <? maxsz); exact E).
    injection E' as <- <-. exists []. cbn. repeat split; try lia; auto.
  - cbn [take_block] in E. destruct (count <? maxsz) eqn:E1.
    + destruct (ind i - ind prev =? 1) eqn:E2.
      * apply IH in E; [|lia]. destruct E as (mid & H1 & H3 & H4 & H5 & H6).
        exists (i :: mid). rewrite H1. split; [reflexivity|].
        cbn [length map block_iter] in *. repeat split.
        -- assert (forall n a b, ind a = ind b -> map ind (block_iter n a) = map ind (block_iter n b)) as HB.
           { clear. induction n as [|n IH]; intros a b Hab; cbn; [reflexivity|]. f_equal; [assumption|].
             apply IH. cbn. lia. }
           f_equal. rewrite H3. f_equal; [cbn; lia|]. apply HB. cbn; lia.
        -- lia.
        -- lia.
        -- destruct H6 as [H6|H6]; [left; lia|right; assumption].
      * injection E as <- <-. exists []. cbn. repeat split; try lia; auto.
    + injection E as <- <-. exists []. cbn. repeat split; try lia; auto.
Qed.

Lemma block_iter_length n i : length (block_iter n i) = n.
Proof. revert i; induction n; intros; cbn; auto. Qed.

Lemma take_block_length maxsz : forall l count prev last rest,
  take_block maxsz count prev l = (last, rest) -> (length rest <= length l)%nat.
Proof.
  induction l as [|i l IH]; intros count prev last rest E; cbn in E.
  - destruct (count <? maxsz); injection E as <- <-; cbn; lia.
  - destruct (count <? maxsz).
    + destruct (ind i - ind prev =? 1); [apply IH in E; cbn; lia|injection E as <- <-; cbn; lia].
    + injection E as <- <-; cbn; lia.
Qed.

Lemma blocks_loop_spec maxsz : 0 < maxsz -> forall fuel l,
  (length l <= fuel)%nat ->
  let bs := blocks_loop fuel maxsz l in
  map ind (getRegionIndices bs) = map ind l /\
  (forall b, In b bs -> 1 <= block_size b <= maxsz) /\
  (match l, bs with [], [] => True | i :: _, b :: _ => fst b = i | _, _ => False end) /\
  (forall b1 b2, consecutive bs b1 b2 -> block_size b1 = maxsz \/ ind (fst b2) <> ind (snd b1)).
Proof.
  intros Hm. induction fuel as [|fuel IH]; intros l Hl; cbn [blocks_loop].
  - destruct l; [|cbn in Hl; lia]. cbn. repeat split; try contradiction.
    intros b1 b2 (l1 & l2 & E). destruct l1; discriminate.
  - destruct l as [|s l].
    + cbn. repeat split; try contradiction. intros b1 b2 (l1 & l2 & E). destruct l1; discriminate.
    + destruct (take_block maxsz 1 s l) as [last rest] eqn:E.
      pose proof (take_block_length _ _ _ _ _ _ E) as HLen.
      apply take_block_spec in E; [|lia].
      destruct E as (mid & H1 & H3 & H4 & H5 & H6).
      cbn in Hl. specialize (IH rest ltac:(lia)). cbv zeta in IH.
      destruct IH as (I1 & I2 & I3 & I4).
      assert (Hsz : block_size (s, iincr last) = 1 + Z.of_nat (length mid)).
      { unfold block_size, iincr; cbn [ind fst snd]. lia. }
      cbv zeta. split; [|split; [|split]].
      * unfold getRegionIndices. cbn [flat_map]. rewrite map_app. fold (getRegionIndices (blocks_loop fuel maxsz rest)).
        rewrite I1. unfold iter_block. fold (block_size (s, iincr last)). rewrite Hsz. cbn [fst].
        replace (Z.to_nat (1 + Z.of_nat (length mid))) with (S (length mid)) by lia.
        rewrite <- H3. rewrite H1. cbn [map app]. now rewrite map_app.
      * intros b [<-|Hb]; [lia|auto].
      * reflexivity.
      * intros b1 b2 (l1 & l2 & Ec). destruct l1 as [|b0 l1].
        -- cbn in Ec. injection Ec as <- Ec. rewrite Hsz. cbn [snd]. unfold iincr; cbn [ind].
           destruct H6 as [H6|H6]; [left; lia|right].
           destruct rest as [|r rest]; [destruct (blocks_loop fuel maxsz []); [discriminate|contradiction]|].
           rewrite Ec in I3. rewrite I3. lia.
        -- cbn in Ec. injection Ec as _ Ec. apply I4. exists l1, l2. assumption.
Qed.

Lemma block_iter_hom n i ny nz : iny i = ny -> inz i = nz ->
  Forall (fun j => iny j = ny /\ inz j = nz) (block_iter n i).
Proof. revert i; induction n; intros i H1 H2; cbn; constructor; auto. Qed.

Lemma ind_eq_hom ny nz l l' :
  Forall (fun j => iny j = ny /\ inz j = nz) l -> Forall (fun j => iny j = ny /\ inz j = nz) l' ->
  map ind l = map ind l' -> l = l'.
Proof.
  intros H. revert l'. induction H as [|a l Ha Hl IH]; intros l' H' E; destruct l' as [|b l']; try discriminate; [reflexivity|].
  cbn in E. injection E as E1 E2. inversion H' as [|b' l'' Hb Hl']; subst. f_equal; [|apply IH; assumption].
  destruct a as [a1 a2 a3], b as [b1 b2 b3]; cbn in *. destruct Ha as [<- <-], Hb as [-> ->]. subst. reflexivity.
Qed.

Lemma blocks_loop_fst fuel maxsz : forall l b, In b (blocks_loop fuel maxsz l) -> In (fst b) l.
Proof.
  induction fuel as [|fuel IH]; intros l b Hb; cbn [blocks_loop] in Hb; [contradiction|].
  destruct l as [|s l]; [contradiction|].
  destruct (take_block maxsz 1 s l) as [last rest] eqn:E. destruct Hb as [<-|Hb]; [cbn; auto|].
  right. apply IH in Hb.
  assert (forall l c p last rest, take_block maxsz c p l = (last, rest) -> forall x, In x rest -> In x l) as HT.
  { clear. induction l as [|i l IH]; intros c p last rest E x Hx; cbn in E.
    - destruct (c <? maxsz); injection E as <- <-; assumption.
    - destruct (c <? maxsz).
      + destruct (ind i - ind p =? 1); [right; eauto|injection E as <- <-; assumption].
      + injection E as <- <-; assumption. }
  eauto.
Qed.

Lemma blocks_roundtrip maxsz ny nz l :
  0 < maxsz -> Forall (fun j => iny j = ny /\ inz j = nz) l ->
  getRegionIndices (getContiguousBlocks maxsz l) = l.
Proof.
  intros Hm HF. unfold getContiguousBlocks.
  destruct (blocks_loop_spec maxsz Hm (length l) l (le_n _)) as (H1 & _).
  eapply ind_eq_hom; [|exact HF|exact H1].
  unfold getRegionIndices. apply Forall_flat_map. apply Forall_forall. intros b Hb.
  apply blocks_loop_fst in Hb. rewrite Forall_forall in HF. apply HF in Hb. unfold iter_block.
  apply block_iter_hom; tauto.
Qed.

(** * Set operations *)
Lemma filter_ext_in' {A} (f g : A -> bool) l : (forall a, In a l -> f a = g a) -> filter f l = filter g l.
Proof. apply filter_ext_in. Qed.


Lemma sorted_nth l : isorted l -> forall a b d, (a <= b < length l)%nat ->
  ind (nth a l d) <= ind (nth b l d).
Proof.
  intros HS. induction HS as [|x l HS IH HF]; intros a b d H; cbn in H; [lia|].
  destruct a as [|a], b as [|b]; cbn [nth]; [lia| |lia|apply IH; lia].
  rewrite Forall_forall in HF. apply HF. apply nth_In. lia.
Qed.

Lemma lower_bound_spec l val : isorted l -> forall fuel first count,
  (count <= fuel)%nat -> (first + count <= length l)%nat ->
  (forall k, (k < first)%nat -> ind (nth k l (mkInd 0 0 0)) < ind val) ->
  (forall k, (first + count <= k < length l)%nat -> ind val <= ind (nth k l (mkInd 0 0 0))) ->
  let r := lower_bound fuel l val first count in
  (r <= length l)%nat /\
  (forall k, (k < r)%nat -> ind (nth k l (mkInd 0 0 0)) < ind val) /\
  (forall k, (r <= k < length l)%nat -> ind val <= ind (nth k l (mkInd 0 0 0))).
Proof.
  intros HS. induction fuel as [|fuel IH]; intros first count Hc Hl Hlo Hhi; cbn [lower_bound].
  - replace count with O in * by lia. cbn zeta. split; [lia|]. split; [assumption|]. intros; apply Hhi; lia.
  - destruct count as [|count].
    + cbn zeta. split; [lia|]. split; [assumption|]. intros; apply Hhi; lia.
    + set (step := Nat.div2 (S count)).
      assert (Hstep : (step < S count)%nat) by (apply Nat.lt_div2; lia).
      unfold iltb. destruct (ind (nth (first + step) l (mkInd 0 0 0)) <? ind val) eqn:E.
      * apply IH; try lia.
        -- intros k Hk. assert (ind (nth k l (mkInd 0 0 0)) <= ind (nth (first + step) l (mkInd 0 0 0)))
             by (apply sorted_nth; [assumption|lia]). lia.
        -- intros k Hk. apply Hhi. lia.
      * apply IH; try lia; [assumption|].
        intros k Hk. assert (ind (nth (first + step) l (mkInd 0 0 0)) <= ind (nth k l (mkInd 0 0 0)))
             by (apply sorted_nth; [assumption|lia]). lia.
Qed.

Lemma binary_search_spec l val : isorted l ->
  binary_search l val = true <-> In (ind val) (map ind l).
Proof.
  intros HS. unfold binary_search.
  destruct (lower_bound_spec l val HS (length l) 0 (length l)) as (H1 & H2 & H3); try lia.
  set (k := lower_bound _ _ _ _ _) in *.
  destruct (nth_error l k) as [e|] eqn:E.
  - assert (Hk : (k < length l)%nat) by (apply nth_error_Some; congruence).
    assert (He : nth k l (mkInd 0 0 0) = e) by (now apply nth_error_nth).
    pose proof (H3 k ltac:(lia)) as H4. rewrite He in H4. unfold iltb.
    split; intros H.
    + assert (ind e = ind val) by lia. rewrite <- H0. apply in_map. eapply nth_error_In; eauto.
    + apply in_map_iff in H. destruct H as (j & Hj & Hin).
      apply (In_nth _ _ (mkInd 0 0 0)) in Hin. destruct Hin as (n & Hn & Hn2).
      destruct (Nat.lt_ge_cases n k) as [Hlt|Hge].
      * specialize (H2 n Hlt). rewrite Hn2 in H2. lia.
      * pose proof (sorted_nth l HS k n (mkInd 0 0 0) ltac:(lia)). rewrite Hn2, He in H. lia.
  - apply nth_error_None in E. split; [discriminate|]. intros H. exfalso.
    apply in_map_iff in H. destruct H as (j & Hj & Hin).
    apply (In_nth _ _ (mkInd 0 0 0)) in Hin. destruct Hin as (n & Hn & Hn2).
    specialize (H2 n ltac:(lia)). rewrite Hn2 in H2. lia.
Qed.

Lemma inb_spec k l : inb k l = true <-> In k l.
Proof.
  unfold inb. rewrite existsb_exists. split.
  - intros (x & Hx & E). apply Z.eqb_eq in E. now subst.
  - intros H. exists k. split; [assumption|apply Z.eqb_refl].
Qed.

Lemma binary_search_sorted f l val : std_sort_contract f ->
  binary_search (f l) val = inb (ind val) (map ind l).
Proof.
  intros Hc. destruct (Hc l) as [HP HS].
  apply eq_true_iff_eq. rewrite binary_search_spec by assumption. rewrite inb_spec.
  split; intros H; eapply Permutation_in; try exact H; apply Permutation_map; [apply Permutation_sym|]; assumption.
Qed.

Lemma mask_spec f r m : std_sort_contract f ->
  indices (mask f r m) = filter (fun v => negb (inb (ind v) (map ind (indices m)))) (indices r).
Proof. intros Hc. unfold mask, setIndices; cbn. apply filter_ext. intros v. now rewrite binary_search_sorted. Qed.

Lemma intersection_spec f r m : std_sort_contract f ->
  indices (getIntersection f r m) = filter (fun v => inb (ind v) (map ind (indices m))) (indices r).
Proof.
  intros Hc. unfold getIntersection, setIndices; cbn. apply filter_ext. intros v.
  now rewrite binary_search_sorted, negb_involutive.
Qed.

Lemma std_unique_from_spec : forall l prev, isorted (prev :: l) ->
  increasing (map ind (prev :: std_unique_from prev l)) /\
  (forall k, In k (map ind (prev :: std_unique_from prev l)) <-> In k (map ind (prev :: l))).
Proof.
  induction l as [|i l IH]; intros prev HS; cbn [std_unique_from].
  - split; [repeat constructor|reflexivity].
  - inversion HS as [|? ? HS' HF]; subst. inversion HF as [|? ? Hpi HF']; subst.
    unfold ieqb. destruct (ind prev =? ind i) eqn:E.
    + destruct (IH prev) as [H1 H2].
      { constructor; [inversion HS'; assumption|assumption]. }
      split; [assumption|]. intros k. rewrite H2. cbn. split; [tauto|]. intros [?|[?|?]]; auto. left; lia.
    + destruct (IH i HS') as [H1 H2]. split.
      * cbn [map] in *. constructor; [assumption|]. apply Forall_forall. intros k Hk.
        apply H2 in Hk. cbn in Hk. destruct Hk as [<-|Hk]; [lia|].
        apply in_map_iff in Hk. destruct Hk as (j & <- & Hj). inversion HS' as [|? ? _ HF2]; subst.
        rewrite Forall_forall in HF2. specialize (HF2 j Hj). lia.
      * intros k. cbn [map In]. specialize (H2 k). cbn [map In] in H2. rewrite H2. reflexivity.
Qed.

Lemma asUnique_spec f r : std_sort_contract f ->
  increasing (map ind (indices (asUnique f r))) /\
  forall k, In k (map ind (indices (asUnique f r))) <-> In k (map ind (indices r)).
Proof.
  intros Hc. destruct (Hc (indices r)) as [HP HS]. unfold asUnique, region_of_indices; cbn [indices].
  assert (HI : forall k, In k (map ind (f (indices r))) <-> In k (map ind (indices r))).
  { intros k. split; intros H; eapply Permutation_in; try exact H; apply Permutation_map;
      [apply Permutation_sym|]; assumption. }
  unfold std_unique. destruct (f (indices r)) as [|i l] eqn:E.
  - split; [constructor|]. exact HI.
  - destruct (std_unique_from_spec l i HS) as [H1 H2]. split; [assumption|].
    intros k. rewrite <- HI. apply H2.
Qed.

(** An insertion sort, to show that the contract of std::sort is inhabited. *)
Fixpoint ins (i : sind) (l : list sind) : list sind :=
  match l with [] => [i] | j :: l' => if ind i <=? ind j then i :: l else j :: ins i l' end.
Definition isort (l : list sind) : list sind := fold_right ins [] l.
Lemma ins_perm i l : Permutation (i :: l) (ins i l).
Proof.
  induction l as [|j l IH]; cbn; [reflexivity|]. destruct (ind i <=? ind j); [reflexivity|].
  rewrite perm_swap. now constructor.
Qed.
Lemma ins_sorted i l : isorted l -> isorted (ins i l).
Proof.
  intros HS. induction HS as [|j l HS IH HF]; cbn; [repeat constructor|].
  destruct (ind i <=? ind j) eqn:E.
  - constructor; [constructor; assumption|]. constructor; [lia|]. eapply Forall_impl; [|exact HF]. cbn; intros; lia.
  - constructor; [assumption|]. rewrite <- ins_perm. constructor; [lia|assumption].
Qed.
Lemma isort_contract : std_sort_contract isort.
Proof.
  intros l. induction l as [|i l [IH1 IH2]]; cbn; [split; [reflexivity|constructor]|]. fold (isort l). split.
  - rewrite <- ins_perm. now constructor.
  - now apply ins_sorted.
Qed.

(** * Shifts *)
Lemma pshift1_spec shift period i : 0 < period -> 0 <= shift -> 0 <= ind i ->
  ind (pshift1 shift period i) = (ind i / period) * period + (ind i mod period + shift) mod period.
Proof.
  intros. unfold pshift1; cbn [ind]. rewrite rem_mod, quot_div by lia.
  rewrite <- (Z.add_mod_idemp_l (ind i) shift period) by lia. lia.
Qed.

Lemma pshift_nonneg_spec r shift period fuel : 0 < period -> 0 <= shift ->
  (forall i, In i (indices r) -> 0 <= ind i) ->
  exists r', periodicShift fuel r shift period = Ok r' /\
    map ind (indices r') = map (fun k => (k / period) * period + (k mod period + shift) mod period) (map ind (indices r)).
Proof.
  intros Hp Hs Hi.
  assert (Hcases : (shift = 0 \/ period = 1) \/ (shift <> 0 /\ period <> 1)) by lia.
  assert (E0 : shift = 0 \/ period = 1 -> map (fun k => (k / period) * period + (k mod period + shift) mod period)
     (map ind (indices r)) = map ind (indices r)).
  { intros Hc. rewrite map_map. apply map_ext_in. intros i Hin. specialize (Hi i Hin). destruct Hc as [->| ->].
    - rewrite Z.add_0_r, Z.mod_mod by lia. pose proof (Z.div_mod (ind i) period ltac:(lia)). lia.
    - rewrite Z.div_1_r, !Z.mod_1_r. lia. }
  destruct fuel as [|fuel]; cbn [periodicShift]; destruct Hcases as [Hc|Hc].
  1,3: destruct ((shift =? 0) || (period =? 1)) eqn:E; [|lia]; exists r; split; [reflexivity|]; rewrite E0 by assumption; reflexivity.
  all: destruct ((shift =? 0) || (period =? 1)) eqn:E; [lia|]; destruct (shift <? 0) eqn:E2; [lia|];
    destruct (period =? 0) eqn:E3; [lia|]; cbn [andb]; eexists; split; [reflexivity|];
    unfold setIndices; cbn [indices]; rewrite !map_map; apply map_ext_in; intros i Hin;
    apply pshift1_spec; auto.
Qed.

Lemma pshift_spec : forall fuel r shift period, 0 < period -> - (Z.of_nat fuel * period) <= shift ->
  (forall i, In i (indices r) -> 0 <= ind i) ->
  exists r', periodicShift fuel r shift period = Ok r' /\
    map ind (indices r') = map (fun k => (k / period) * period + (k mod period + shift) mod period) (map ind (indices r)).
Proof.
  induction fuel as [|fuel IH]; intros r shift period Hp Hs Hi.
  - apply pshift_nonneg_spec; try assumption; lia.
  - destruct (Z_lt_dec shift 0) as [Hneg|Hpos]; [|apply pshift_nonneg_spec; try assumption; lia].
    destruct (Z.eq_dec period 1) as [->|Hp1].
    + exists r. cbn [periodicShift]. rewrite orb_true_r. split; [reflexivity|].
      rewrite map_map. apply map_ext. intros i. rewrite Z.div_1_r, !Z.mod_1_r. lia.
    + cbn [periodicShift]. destruct ((shift =? 0) || (period =? 1)) eqn:E; [lia|].
      destruct (shift <? 0) eqn:E2; [|lia].
      destruct (IH r (period + shift) period Hp ltac:(lia) Hi) as (r' & H1 & H2).
      exists r'. split; [assumption|]. rewrite H2. apply map_ext. intros k. f_equal.
      replace (k mod period + (period + shift)) with (k mod period + shift + 1 * period) by ring.
      apply Z.mod_add; lia.
Qed.

Lemma shift_inverse period k s : 0 < period -> 0 <= k ->
  let sh s k := (k / period) * period + (k mod period + s) mod period in
  sh (- s) (sh s k) = k.
Proof.
  intros Hp Hk sh. unfold sh.
  pose proof (Z.mod_pos_bound (k mod period + s) period Hp).
  rewrite Z.div_add_l by lia. rewrite (Z.div_small ((k mod period + s) mod period)) by lia.
  rewrite (Z.add_comm ((k / period) * period)), Z.mod_add, Z.mod_mod by lia.
  rewrite Z.add_mod_idemp_l by lia. replace (k mod period + s + - s) with (k mod period) by ring.
  rewrite Z.mod_mod by lia. pose proof (Z.div_mod k period ltac:(lia)). lia.
Qed.

(** * OpenMP schedules *)
Section Schedules.
  Variable V : Type.
  Variable body : Z -> V -> V.
  Definition ev_ind (e : event) : Z := match e with Rd i => i | Wr i => i end.
  Definition about (k : Z) (e : event) : bool := ev_ind e =? k.

  Lemma exec_proj k es : forall m m', arr V m k = arr V m' k -> tmp V m k = tmp V m' k ->
    arr V (exec V body m es) k = arr V (exec V body m' (filter (about k) es)) k /\
    tmp V (exec V body m es) k = tmp V (exec V body m' (filter (about k) es)) k.
  Proof.
    induction es as [|e es IH]; intros m m' H1 H2; cbn [filter]; [auto|].
    change (about k e) with (ev_ind e =? k). destruct (ev_ind e =? k) eqn:E.
    - cbn [exec fold_left]. apply IH; destruct e as [i|i]; cbn in *; unfold upd;
        assert (i = k) by lia; subst; rewrite ?Z.eqb_refl; congruence.
    - cbn [exec fold_left]. apply IH; destruct e as [i|i]; cbn in *; unfold upd;
        destruct (k =? i) eqn:E2; try assumption; lia.
  Qed.

  Lemma filter_interleave (p : event -> bool) ls t : interleave ls t ->
    interleave (map (filter p) ls) (filter p t).
  Proof.
    induction 1 as [ls H|ls1 a l ls2 t H IH].
    - constructor. intros l Hl. apply in_map_iff in Hl. destruct Hl as (l0 & <- & Hl0). now rewrite (H l0 Hl0).
    - rewrite map_app in *. cbn [map filter] in *. destruct (p a); [constructor; assumption|assumption].
  Qed.

  Lemma interleave_one {A} (ls : list (list A)) t : interleave ls t -> forall l1 l l2,
    ls = l1 ++ l :: l2 -> (forall x, In x l1 -> x = []) -> (forall x, In x l2 -> x = []) -> t = l.
  Proof.
    induction 1 as [ls H|ls1 a l ls2 t H IH]; intros l1 l0 l2 E H1 H2.
    - symmetry. apply H. rewrite E. apply in_or_app. cbn; auto.
    - assert (ls1 = l1 /\ l0 = a :: l /\ ls2 = l2) as (-> & -> & ->).
      { clear - E H1 H2. revert l1 E H1. induction ls1 as [|x ls1 IHl]; intros l1 E H1; destruct l1 as [|y l1]; cbn in E.
        - injection E as <- <-. auto.
        - injection E as E _. specialize (H1 y (or_introl eq_refl)). congruence.
        - injection E as Ex El. specialize (H2 (a :: l)). exfalso. assert (In (a :: l) l2). { rewrite <- El. apply in_or_app; cbn; auto. }
          specialize (H2 H). discriminate.
        - injection E as <- El. destruct (IHl l1 El) as (-> & ? & ?); auto. intros z Hz; apply H1; cbn; auto. }
      f_equal. eapply IH; eauto.
  Qed.

  Lemma interleave_empty {A} (ls : list (list A)) t : interleave ls t -> (forall x, In x ls -> x = []) -> t = [].
  Proof.
    intros HI Hx. destruct HI as [|ls1 a l ls2 t]; [reflexivity|].
    specialize (Hx (a :: l)). assert (In (a :: l) (ls1 ++ (a :: l) :: ls2)) by (apply in_or_app; cbn; auto).
    specialize (Hx H). discriminate.
  Qed.

  Lemma filter_about_none k l : ~ In k (map ind l) ->
    filter (about k) (flat_map (fun i => [Rd (ind i); Wr (ind i)]) l) = [].
  Proof.
    induction l as [|i l IH]; intros H; cbn [flat_map]; [reflexivity|]. rewrite filter_app, IH by (cbn in H; tauto).
    cbn [filter]. unfold about, ev_ind. cbn in H. destruct (ind i =? k) eqn:E; [exfalso; apply H; left; lia|reflexivity].
  Qed.

  Lemma filter_about_some k l : NoDup (map ind l) -> In k (map ind l) ->
    filter (about k) (flat_map (fun i => [Rd (ind i); Wr (ind i)]) l) = [Rd k; Wr k].
  Proof.
    induction l as [|i l IH]; intros HN HI; [contradiction|]. cbn [flat_map map] in *.
    inversion HN as [|? ? Hn HN']; subst. rewrite filter_app. cbn [filter].
    destruct (Z.eq_dec (ind i) k) as [E|E].
    - subst k. rewrite filter_about_none by assumption. unfold about, ev_ind. rewrite Z.eqb_refl. reflexivity.
    - destruct HI as [HI|HI]; [congruence|]. rewrite IH by assumption.
      unfold about, ev_ind. destruct (ind i =? k) eqn:E2; [lia|]. reflexivity.
  Qed.

  Lemma NoDup_app_inv {A} (a b : list A) : NoDup (a ++ b) -> NoDup a /\ NoDup b /\ (forall x, In x a -> ~ In x b).
  Proof.
    induction a as [|x a IH]; cbn; intros H; [repeat split; auto; constructor|].
    inversion H as [|? ? Hn H']; subst. destruct (IH H') as (I1 & I2 & I3). repeat split; auto.
    - constructor; auto. intros Hx. apply Hn. apply in_or_app; auto.
    - intros y [<-|Hy]; auto. intros Hb. apply Hn. apply in_or_app; auto.
  Qed.

  Lemma schedule_key bs t k : NoDup (map ind (getRegionIndices bs)) ->
    interleave (map block_events bs) t ->
    filter (about k) t = if inb k (map ind (getRegionIndices bs)) then [Rd k; Wr k] else [].
  Proof.
    intros HN HI. apply (filter_interleave (about k)) in HI. rewrite map_map in HI.
    destruct (inb k (map ind (getRegionIndices bs))) eqn:E.
    - apply inb_spec in E. unfold getRegionIndices in *. apply in_map_iff in E. destruct E as (i & Ei & Hi).
      apply in_flat_map in Hi. destruct Hi as (b & Hb & Hi).
      apply in_split in Hb. destruct Hb as (b1 & b2 & ->).
      rewrite flat_map_app in HN. cbn [flat_map] in HN. rewrite !map_app in HN.
      apply NoDup_app_inv in HN. destruct HN as (N1 & N2 & N3).
      apply NoDup_app_inv in N2. destruct N2 as (N2 & N4 & N5).
      rewrite map_app in HI. cbn [map] in HI.
      assert (Hk : In k (map ind (iter_block b))) by (rewrite <- Ei; now apply in_map).
      assert (Hnone : forall c, (In c b1 \/ In c b2) -> filter (about k) (block_events c) = []).
      { intros c Hc. unfold block_events. apply filter_about_none. intros Hin.
        assert (HH : forall bb, In c bb -> In k (map ind (flat_map iter_block bb))).
        { intros bb Hbb. rewrite map_flat_map. apply in_flat_map. exists c. auto. }
        destruct Hc as [Hc|Hc].
        - apply (N3 k (HH _ Hc)). apply in_or_app. auto.
        - apply (N5 k Hk). auto. }
      rewrite <- (filter_about_some k (iter_block b)) by assumption. fold (block_events b).
      eapply interleave_one; [exact HI|reflexivity| |].
      + intros x Hx. apply in_map_iff in Hx. destruct Hx as (c & <- & Hc). apply Hnone; auto.
      + intros x Hx. apply in_map_iff in Hx. destruct Hx as (c & <- & Hc). apply Hnone; auto.
    - eapply interleave_empty; [exact HI|]. intros x Hx. apply in_map_iff in Hx. destruct Hx as (c & <- & Hc).
      unfold block_events. apply filter_about_none. intros Hin.
      assert (inb k (map ind (getRegionIndices bs)) = true); [|congruence].
      apply inb_spec. unfold getRegionIndices. rewrite map_flat_map. apply in_flat_map. exists c; auto.
  Qed.

  Lemma schedule_result bs t m k : NoDup (map ind (getRegionIndices bs)) ->
    interleave (map block_events bs) t ->
    arr V (exec V body m t) k =
      (if inb k (map ind (getRegionIndices bs)) then body k (arr V m k) else arr V m k).
  Proof.
    intros HN HI. destruct (exec_proj k t m m eq_refl eq_refl) as [E _]. rewrite E.
    rewrite (schedule_key bs t k HN HI). destruct (inb _ _); [|reflexivity].
    cbn. unfold upd. now rewrite !Z.eqb_refl.
  Qed.

  Lemma interleave_cons {A} (l : list A) ls t : interleave ls t -> interleave (l :: ls) (l ++ t).
  Proof.
    intros H. induction l as [|a l IH]; cbn.
    - change ([] :: ls) with ([[]] ++ ls). induction H as [ls H|ls1 a l ls2 t H IH].
      + constructor. intros x [<-|Hx]; auto.
      + apply (il_step ([] :: ls1)). assumption.
    - apply (il_step []). assumption.
  Qed.
  Lemma serial_is_interleaving {A} (ls : list (list A)) : interleave ls (concat ls).
  Proof. induction ls as [|l ls IH]; cbn; [constructor; contradiction|]. now apply interleave_cons. Qed.
End Schedules.

Lemma sorted_nodup l : increasing l -> NoDup l.
Proof.
  unfold increasing. induction 1 as [|a l HS IH HF]; constructor; auto.
  intros Hin. rewrite Forall_forall in HF. specialize (HF a Hin). lia.
Qed.

(** * Assignments of blocks to threads *)
Lemma interleave_split {A} (ls : list (list A)) t : interleave ls t -> forall a l1 l2 b,
  ls = a ++ (l1 ++ l2) :: b -> interleave (a ++ l1 :: l2 :: b) t.
Proof.
  induction 1 as [ls H|ls1 e l ls2 t H IH]; intros a l1 l2 b E.
  - constructor. intros x Hx. apply in_app_iff in Hx. cbn in Hx.
    assert (Hl : l1 ++ l2 = []) by (apply H; rewrite E; apply in_or_app; cbn; auto).
    apply app_eq_nil in Hl. destruct Hl as [-> ->].
    destruct Hx as [Hx|[<-|[<-|Hx]]]; auto; apply H; rewrite E; apply in_or_app; cbn; auto.
  - assert (HE : (exists c, ls1 = a ++ (l1 ++ l2) :: c /\ b = c ++ (e :: l) :: ls2)
              \/ (ls1 = a /\ e :: l = l1 ++ l2 /\ ls2 = b)
              \/ (exists c, a = ls1 ++ (e :: l) :: c /\ ls2 = c ++ (l1 ++ l2) :: b)).
    { clear - E. revert a E. induction ls1 as [|x ls1 IH]; intros a E; destruct a as [|y a]; cbn in E.
      - injection E as E1 E2. right; left; auto.
      - injection E as E1 E2. subst. right; right. exists a; auto.
      - injection E as E1 E2. subst. left. exists ls1; auto.
      - injection E as -> E2. destruct (IH a E2) as [(c & -> & ->)|[(-> & -> & ->)|(c & -> & ->)]].
        + left. exists c; auto.
        + right; left; auto.
        + right; right. exists c; auto. }
    destruct HE as [(c & -> & ->)|[(-> & HE & ->)|(c & -> & ->)]].
    + assert (Hn := IH a l1 l2 (c ++ l :: ls2) ltac:(rewrite <- app_assoc; reflexivity)).
      replace (a ++ l1 :: l2 :: c ++ (e :: l) :: ls2) with ((a ++ l1 :: l2 :: c) ++ (e :: l) :: ls2)
        by (rewrite <- app_assoc; reflexivity).
      apply il_step. rewrite <- app_assoc. exact Hn.
    + destruct l1 as [|e' l1]; cbn in HE.
      * subst l2. replace (a ++ [] :: (e :: l) :: b) with ((a ++ [[]]) ++ (e :: l) :: b)
          by (rewrite <- app_assoc; reflexivity).
        apply il_step. rewrite <- app_assoc. cbn [app]. exact (IH a [] l b eq_refl).
      * injection HE as <- ->. apply il_step. exact (IH a l1 l2 b eq_refl).
    + replace ((ls1 ++ (e :: l) :: c) ++ l1 :: l2 :: b) with (ls1 ++ (e :: l) :: (c ++ l1 :: l2 :: b))
        by (rewrite <- app_assoc; reflexivity).
      apply il_step.
      replace (ls1 ++ l :: c ++ l1 :: l2 :: b) with ((ls1 ++ l :: c) ++ l1 :: l2 :: b)
        by (rewrite <- app_assoc; reflexivity).
      apply IH. rewrite <- app_assoc. reflexivity.
Qed.

Lemma interleave_drop_nil {A} (ls : list (list A)) t : interleave ls t -> forall a b,
  ls = a ++ [] :: b -> interleave (a ++ b) t.
Proof.
  induction 1 as [ls H|ls1 e l ls2 t H IH]; intros a b E.
  - constructor. intros x Hx. apply H. rewrite E. apply in_app_iff in Hx. apply in_or_app. cbn. tauto.
  - assert (HE : (exists c, ls1 = a ++ [] :: c /\ b = c ++ (e :: l) :: ls2)
              \/ (exists c, a = ls1 ++ (e :: l) :: c /\ ls2 = c ++ [] :: b)).
    { clear - E. revert a E. induction ls1 as [|x ls1 IH]; intros a E; destruct a as [|y a]; cbn in E.
      - discriminate.
      - injection E as E1 E2. subst. right. exists a; auto.
      - injection E as E1 E2. subst. left. exists ls1; auto.
      - injection E as -> E2. destruct (IH a E2) as [(c & -> & ->)|(c & -> & ->)].
        + left. exists c; auto.
        + right. exists c; auto. }
    destruct HE as [(c & -> & ->)|(c & -> & ->)].
    + rewrite app_assoc. apply il_step. rewrite <- app_assoc. apply IH. rewrite <- app_assoc. reflexivity.
    + rewrite <- app_assoc. cbn [app]. apply il_step.
      replace (ls1 ++ l :: c ++ b) with ((ls1 ++ l :: c) ++ b) by (rewrite <- app_assoc; reflexivity).
      apply IH. rewrite <- app_assoc. reflexivity.
Qed.

Lemma interleave_threads {A B} (g : B -> list A) (groups : list (list B)) t : forall done,
  interleave (map g done ++ map (flat_map g) groups) t -> interleave (map g (done ++ concat groups)) t.
Proof.
  induction groups as [|bs groups IH]; intros done H; cbn [map concat] in *.
  - now rewrite !app_nil_r in *.
  - revert done H. induction bs as [|b bs IHb]; intros done H; cbn [flat_map app] in *.
    + apply IH. eapply interleave_drop_nil; [exact H|reflexivity].
    + specialize (IHb (done ++ [b])). rewrite <- app_assoc in IHb. cbn [app] in IHb. apply IHb.
      rewrite map_app, <- app_assoc. cbn [map app]. eapply interleave_split; [exact H|reflexivity].
Qed.

Lemma threads_result V body bs groups t m k : NoDup (map ind (getRegionIndices bs)) ->
  Permutation (concat groups) bs ->
  interleave (map (flat_map block_events) groups) t ->
  arr V (exec V body m t) k =
    (if inb k (map ind (getRegionIndices bs)) then body k (arr V m k) else arr V m k).
Proof.
  intros HN HP HI. apply (interleave_threads block_events groups t []) in HI. cbn [app] in HI.
  assert (HPi : Permutation (map ind (getRegionIndices (concat groups))) (map ind (getRegionIndices bs))).
  { apply Permutation_map. unfold getRegionIndices. apply Permutation_flat_map. assumption. }
  rewrite (schedule_result V body (concat groups) t m k); [|eapply Permutation_NoDup; [apply Permutation_sym; exact HPi|exact HN]|exact HI].
  replace (inb k (map ind (getRegionIndices (concat groups)))) with (inb k (map ind (getRegionIndices bs))); [reflexivity|].
  apply eq_true_iff_eq. rewrite !inb_spec. split; intros Hin; eapply Permutation_in; try exact Hin;
    [apply Permutation_sym|]; exact HPi.
Qed.

(** * Statistics *)
Lemma fold_min_spec : forall l a, In (fold_left Z.min l a) (a :: l) /\ forall x, In x (a :: l) -> fold_left Z.min l a <= x.
Proof.
  induction l as [|b l IH]; intros a; cbn [fold_left].
  - split; [cbn; auto|]. intros x [<-|[]]; lia.
  - destruct (IH (Z.min a b)) as [H1 H2]. split.
    + destruct H1 as [H1|H1]; [|cbn; auto]. rewrite <- H1.
      destruct (Z.min_spec a b) as [[_ ->]|[_ ->]]; cbn; auto.
    + pose proof (H2 (Z.min a b) (or_introl eq_refl)). intros x [<-|[<-|Hx]]; [lia|lia|]. apply H2; cbn; auto.
Qed.
Lemma fold_max_spec : forall l a, In (fold_left Z.max l a) (a :: l) /\ forall x, In x (a :: l) -> x <= fold_left Z.max l a.
Proof.
  induction l as [|b l IH]; intros a; cbn [fold_left].
  - split; [cbn; auto|]. intros x [<-|[]]; lia.
  - destruct (IH (Z.max a b)) as [H1 H2]. split.
    + destruct H1 as [H1|H1]; [|cbn; auto]. rewrite <- H1.
      destruct (Z.max_spec a b) as [[_ ->]|[_ ->]]; cbn; auto.
    + pose proof (H2 (Z.max a b) (or_introl eq_refl)). intros x [<-|[<-|Hx]]; [lia|lia|]. apply H2; cbn; auto.
Qed.

(** * Combined statements *)
Lemma offsets_spec ny nz x y z : 0 < ny -> 0 <= x -> 0 <= y -> 0 <= z < nz ->
  let p x y z := mkInd (flat ny nz x y z) ny nz in
  (forall d, xp (p x y z) d = p (x + d) y z) /\
  (forall d, xm (p x y z) d = p (x - d) y z) /\
  (forall d, yp (p x y z) d = p x (y + d) z) /\
  (forall d, ym (p x y z) d = p x (y - d) z) /\
  (forall d, 0 <= d -> zp (p x y z) d = p x y ((z + d) mod nz)) /\
  (forall d, 0 <= d -> zm (p x y z) d = p x y ((z - d) mod nz)) /\
  (forall dx dy dz, ioffset (p x y z) dx dy dz = p (x + dx) (y + dy) ((z + dz) mod nz)).
Proof.
  intros Hny Hx Hy Hz p.
  assert (He : forall j a, ind j = a -> iny j = ny -> inz j = nz -> j = mkInd a ny nz).
  { intros [j1 j2 j3] a. cbn. congruence. }
  split; [|split; [|split; [|split; [|split; [|split]]]]].
  - intros d. apply He; try reflexivity. apply xp_spec.
  - intros d. apply He; try reflexivity. unfold xm. rewrite <- Z.add_opp_r. apply xp_spec.
  - intros d. apply He; try reflexivity. apply yp_spec.
  - intros d. apply He; try reflexivity. unfold ym. rewrite <- Z.add_opp_r. apply yp_spec.
  - intros d Hd. apply He; try reflexivity. apply zp_spec; assumption.
  - intros d Hd. apply He; try reflexivity. apply zm_spec; assumption.
  - intros dx dy dz. apply ioffset_spec; assumption.
Qed.

Lemma offsets_inverse ny nz k d : 0 < ny -> 0 < nz -> 0 <= k -> 
  let i := mkInd k ny nz in
  xm (xp i d) d = i /\ xp (xm i d) d = i /\ ym (yp i d) d = i /\ yp (ym i d) d = i /\
  (0 <= d -> zm (zp i d) d = i /\ zp (zm i d) d = i).
Proof.
  intros Hy Hz Hk i. unfold i, xm, xp, ym, yp. cbn [ind iny inz].
  split; [f_equal; ring|]. split; [f_equal; ring|]. split; [f_equal; ring|]. split; [f_equal; ring|].
  intros Hd. destruct (coords_flat ny nz k Hy Hz Hk) as (H1 & H2 & H3 & H4). cbv zeta in *.
  rewrite <- H4. generalize dependent (ix (mkInd k ny nz)). generalize dependent (iy (mkInd k ny nz)).
  generalize dependent (iz (mkInd k ny nz)). intros z Hzr y Hyr x Hx _.
  pose proof (Z.mod_pos_bound (z + d) nz Hz). pose proof (Z.mod_pos_bound (z - d) nz Hz).
  destruct (offsets_spec ny nz x y z Hy Hx ltac:(lia) Hzr) as (_ & _ & _ & _ & P & M & _).
  destruct (offsets_spec ny nz x y ((z + d) mod nz) Hy Hx ltac:(lia) ltac:(lia)) as (_ & _ & _ & _ & _ & M2 & _).
  destruct (offsets_spec ny nz x y ((z - d) mod nz) Hy Hx ltac:(lia) ltac:(lia)) as (_ & _ & _ & _ & P2 & _ & _).
  cbv zeta in *. rewrite P, M, M2, P2 by assumption.
  rewrite Zminus_mod_idemp_l, Zplus_mod_idemp_l.
  replace (z + d - d) with z by ring. replace (z - d + d) with z by ring.
  rewrite Z.mod_small by assumption. auto.
Qed.

Lemma blocks_spec maxsz l : 0 < maxsz ->
  let bs := getContiguousBlocks maxsz l in
  map ind (getRegionIndices bs) = map ind l /\
  (forall b, In b bs -> 1 <= ind (snd b) - ind (fst b) <= maxsz) /\
  (forall b1 b2, consecutive bs b1 b2 -> ind (snd b1) - ind (fst b1) = maxsz \/ ind (fst b2) <> ind (snd b1)).
Proof.
  intros Hm. destruct (blocks_loop_spec maxsz Hm (length l) l (le_n _)) as (H1 & H2 & _ & H4). auto.
Qed.

Lemma whole_block_shift period b s : 0 < period -> 0 <= b ->
  let blk := map (fun k => b * period + Z.of_nat k) (seq 0 (Z.to_nat period)) in
  Permutation (map (fun k => (k / period) * period + (k mod period + s) mod period) blk) blk.
Proof.
  intros Hp Hb blk. apply Permutation_sym, NoDup_Permutation_bis.
  - unfold blk. apply FinFun.Injective_map_NoDup; [intros u v E; lia|apply seq_NoDup].
  - rewrite map_length. lia.
  - intros k Hk. unfold blk in Hk. apply in_map_iff in Hk. destruct Hk as (n & <- & Hn). apply in_seq in Hn.
    set (k := b * period + Z.of_nat n).
    assert (Hk0 : 0 <= k) by (unfold k; nia).
    assert (Hq : k / period = b) by (unfold k; rewrite Z.div_add_l by lia; rewrite Z.div_small by lia; lia).
    assert (Hr : k mod period = Z.of_nat n).
    { unfold k. rewrite Z.add_comm, Z.mod_add by lia. apply Z.mod_small; lia. }
    pose proof (shift_inverse period k (- s) Hp Hk0) as HI. cbv zeta in HI. rewrite Z.opp_involutive in HI.
    apply in_map_iff. eexists; split; [exact HI|]. rewrite Hq, Hr. unfold blk. apply in_map_iff.
    pose proof (Z.mod_pos_bound (Z.of_nat n + - s) period Hp).
    exists (Z.to_nat ((Z.of_nat n + - s) mod period)). split; [lia|]. apply in_seq. lia.
Qed.

Lemma stats_spec maxsz l s ss :
  map (fun b => ind (snd b) - ind (fst b)) (getContiguousBlocks maxsz l) = s :: ss ->
  let st := getStats (region_of_indices l maxsz) in
  let sizes := s :: ss in
  numBlocks st = Z.of_nat (length (getContiguousBlocks maxsz l)) /\
  In (minBlockSize st) sizes /\ In (maxBlockSize st) sizes /\
  (forall x, In x sizes -> minBlockSize st <= x <= maxBlockSize st) /\
  numMinBlocks st = Z.of_nat (count_occ Z.eq_dec sizes (minBlockSize st)) /\
  numMaxBlocks st = Z.of_nat (count_occ Z.eq_dec sizes (maxBlockSize st)).
Proof.
  intros E st sizes. unfold st, getStats, region_of_indices. cbn [blocks]. rewrite E.
  cbn [numBlocks minBlockSize maxBlockSize numMinBlocks numMaxBlocks].
  destruct (fold_min_spec ss s) as [A1 A2]. destruct (fold_max_spec ss s) as [B1 B2].
  assert (HC : forall v l, countb (fun k => k =? v) l = Z.of_nat (count_occ Z.eq_dec l v)).
  { intros v l0. unfold countb. f_equal. induction l0 as [|a l0 IH]; [reflexivity|]. cbn [filter count_occ].
    destruct (Z.eq_dec a v) as [->|Hne]; [rewrite Z.eqb_refl; cbn [length]; lia|].
    replace (a =? v) with false by lia. exact IH. }
  rewrite !HC. repeat split; auto.
  rewrite <- E, map_length. reflexivity.
Qed.

Lemma ops_blocks_agree sortf r m r' :
  In r' [mask sortf r m; getIntersection sortf r m; asSorted sortf r; asUnique sortf r; region_plus r m] ->
  map ind (getRegionIndices (blocks r')) = map ind (indices r').
Proof.
  assert (H : forall l, map ind (getRegionIndices (getContiguousBlocks MAXREGIONBLOCKSIZE l)) = map ind l).
  { intros l. apply (blocks_spec MAXREGIONBLOCKSIZE l). reflexivity. }
  intros Hin. cbn in Hin. destruct Hin as [<-|[<-|[<-|[<-|[<-|[]]]]]]; apply H.
Qed.

Lemma region_offset_spec r off : map ind (indices (region_offset r off)) = map (fun k => k + off) (map ind (indices r)).
Proof.
  unfold region_offset. destruct (off =? 0) eqn:E.
  - assert (off = 0) by lia. subst. rewrite map_map. apply map_ext. intros; lia.
  - unfold setIndices; cbn [indices]. rewrite !map_map. reflexivity.
Qed.

Lemma pshift_terminates r shift period : 0 < period ->
  (forall i, In i (indices r) -> 0 <= ind i) ->
  exists r', (forall fuel, Z.abs shift <= Z.of_nat fuel -> periodicShift fuel r shift period = Ok r') /\
    map ind (indices r') = map (fun k => (k / period) * period + (k mod period + shift) mod period) (map ind (indices r)).
Proof.
  intros Hp Hi.
  destruct (pshift_spec (Z.to_nat (Z.abs shift)) r shift period Hp ltac:(nia) Hi) as (r' & E & M).
  exists r'. split; [|assumption]. intros fuel Hf.
  assert (Hle : (Z.to_nat (Z.abs shift) <= fuel)%nat) by lia.
  clear - Hle E. revert E. generalize dependent (Z.to_nat (Z.abs shift)). intros f0 Hle. revert shift fuel Hle.
  induction f0 as [|f0 IH]; intros shift fuel Hle; cbn [periodicShift].
  - destruct fuel; cbn [periodicShift]; [auto|]. destruct (_ || _); [auto|]. destruct (shift <? 0); [discriminate|auto].
  - destruct fuel as [|fuel]; [lia|]. cbn [periodicShift]. destruct (_ || _); [auto|]. destruct (shift <? 0); [|auto].
    apply IH. lia.
Qed.

Lemma pshift_there_and_back r shift period : 0 < period ->
  (forall i, In i (indices r) -> 0 <= ind i) ->
  exists r1 r2, (forall fuel, Z.abs shift <= Z.of_nat fuel ->
      periodicShift fuel r shift period = Ok r1 /\ periodicShift fuel r1 (- shift) period = Ok r2) /\
    map ind (indices r2) = map ind (indices r).
Proof.
  intros Hp Hi. destruct (pshift_terminates r shift period Hp Hi) as (r1 & E1 & M1).
  assert (Hi1 : forall i, In i (indices r1) -> 0 <= ind i).
  { intros i Hin. apply (in_map ind) in Hin. rewrite M1 in Hin. rewrite map_map in Hin. apply in_map_iff in Hin.
    destruct Hin as (j & <- & Hj). specialize (Hi j Hj). pose proof (Z.mod_pos_bound (ind j mod period + shift) period Hp).
    pose proof (Z.div_pos (ind j) period Hi Hp). nia. }
  destruct (pshift_terminates r1 (- shift) period Hp Hi1) as (r2 & E2 & M2).
  exists r1, r2. split; [intros fuel Hf; split; [apply E1; exact Hf|apply E2; lia]|].
  rewrite M2, M1, !map_map. apply map_ext_in. intros i Hin. apply shift_inverse; auto.
Qed.

Lemma schedule_dependence : exists V (body : Z -> V -> V) ls t1 t2 m k,
  interleave ls t1 /\ interleave ls t2 /\ arr V (exec V body m t1) k <> arr V (exec V body m t2) k.
Proof.
  exists nat, (fun _ => S), [[Rd 0; Wr 0]; [Rd 0; Wr 0]], [Rd 0; Wr 0; Rd 0; Wr 0], [Rd 0; Rd 0; Wr 0; Wr 0],
    (mkMem nat (fun _ => O) (fun _ => O)), 0.
  split; [apply (serial_is_interleaving [[Rd 0; Wr 0]; [Rd 0; Wr 0]])|]. split; [|cbv; discriminate].
  apply (il_step [] (Rd 0) [Wr 0] [[Rd 0; Wr 0]]).
  apply (il_step [[Wr 0]] (Rd 0) [Wr 0] []).
  apply (il_step [] (Wr 0) [] [[Wr 0]]).
  apply (il_step [[]] (Wr 0) [] []). constructor. intros l [<-|[<-|[]]]; reflexivity.
Qed.

Lemma ind2d_check_refuted : exists nz zstart zend, zend <> 0 /\ check_ind2d nz zstart zend = Ok tt.
Proof. exists 1, 0, 5. split; [discriminate|reflexivity]. Qed.
Lemma indperp_check_refuted : exists ny ystart yend, yend <> 0 /\ check_indperp ny ystart yend = Ok tt.
Proof. exists 1, 0, 5. split; [discriminate|reflexivity]. Qed.
Lemma offset_sizes_refuted : exists r off i,
  (forall j, In j (indices r) -> iny j = 3 /\ inz j = 4) /\ In i (indices (region_offset r off)) /\ iz i <> Z.rem (ind i) 4.
Proof.
  exists (region_of_indices [mkInd 1 3 4] 64), 1, (mkInd 2 (-1) (-1)).
  split; [|split; [cbn; auto|vm_compute; discriminate]]. intros j [<-|[]]. auto.
Qed.
