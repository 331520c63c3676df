(* The sizes of the 2D and 3D regions agree. *)
Require Import ZArith List Bool Lia.
Require Import Verif.Base Verif.RegionModel Verif.RegionSpec Verif.RegionProofs Verif.SolverModel Verif.SolverProofs.
Import ListNotations.
Local Open Scope Z_scope.

Definition in_box (b : box) (x y : Z) : Prop := bx0 b <= x <= bx1 b /\ by0 b <= y <= by1 b.
Lemma join_spec z1 ny nz maxsz : 0 < ny -> 0 < nz -> 0 < maxsz -> 0 <= z1 < nz -> forall bs r,
  (forall b, In b bs -> 0 <= by0 b /\ by1 b < ny) ->
  exists r', join_boxes z1 ny nz maxsz bs r = Ok r' /\
   forall k, In k (map ind (indices r')) <-> In k (map ind (indices r)) \/
     exists b x y z, In b bs /\ in_box b x y /\ 0 <= z <= z1 /\ k = (x * ny + y) * nz + z.
Proof.
  intros Hny Hnz Hm Hz. induction bs as [|b bs IH]; intros r H.
  - exists r. split; [reflexivity|]. intros k. split; [auto|]. intros [X|(b & _ & _ & _ & [] & _)]. exact X.
  - cbn [join_boxes]. destruct (H b (or_introl eq_refl)) as [H1 H2].
    destruct (box_spec (bx0 b) (bx1 b) (by0 b) (by1 b) 0 z1 ny nz Hny Hnz H1 H2 ltac:(lia) ltac:(lia)) as (l & E & _ & M & _).
    unfold region_box. rewrite E. cbn [bind]. destruct (Z.ltb_spec 0 maxsz); [|lia]. cbn [negb bind].
    destruct (IH (region_plus r (mkRegion l (getContiguousBlocks maxsz l) ny nz))) as (r' & E' & M'). { intros c Hc. apply H. now right. }
    exists r'. split; [exact E'|]. intros k. rewrite M'. cbn [region_plus region_of_indices indices]. rewrite map_app, in_app_iff, M. split.
    + intros [[X|(x & y & z & A & B & C & ->)]|(b' & x & y & z & A & B & C & ->)]; [auto| |].
      * right. exists b, x, y, z. unfold in_box. split; [now left|]. split; [tauto|]. split; [tauto|reflexivity].
      * right. exists b', x, y, z. split; [now right|]. split; [exact B|]. split; [exact C|reflexivity].
    + intros [X|(b' & x & y & z & [<- |A] & B & C & ->)]; [auto| |].
      * left. right. exists x, y, z. unfold in_box in B. split; [tauto|]. split; [tauto|]. split; [tauto|reflexivity].
      * right. exists b', x, y, z. tauto.
Qed.

Lemma bndry_sizes sortf ny nz maxsz bs : std_sort_contract sortf -> 0 < ny -> 0 < nz -> 0 < maxsz ->
  (forall b, In b bs -> 0 <= by0 b /\ by1 b < ny) ->
  exists r3 r2, bndry3d sortf ny nz maxsz bs = Ok r3 /\ bndry2d sortf ny maxsz bs = Ok r2 /\
    NoDup (map ind (indices r2)) /\ NoDup (map ind (indices r3)) /\
    (forall k, In k (map ind (indices r3)) <-> exists i z, In i (map ind (indices r2)) /\ 0 <= z < nz /\ k = i * nz + z) /\
    Z.of_nat (length (indices r3)) = nz * Z.of_nat (length (indices r2)).
Proof.
  intros SC Hny Hnz Hm Hb.
  destruct (join_spec (nz - 1) ny nz maxsz Hny Hnz Hm ltac:(lia) bs empty_region Hb) as (j3 & E3 & M3).
  destruct (join_spec 0 ny 1 maxsz Hny ltac:(lia) Hm ltac:(lia) bs empty_region Hb) as (j2 & E2 & M2).
  exists (asUnique sortf j3), (asUnique sortf j2). unfold bndry3d, bndry2d. rewrite E3, E2. cbn [bind].
  destruct (asUnique_spec sortf j3 SC) as [I3 U3]. destruct (asUnique_spec sortf j2 SC) as [I2 U2].
  apply sorted_nodup in I3. apply sorted_nodup in I2.
  assert (K : forall k, In k (map ind (indices (asUnique sortf j3))) <-> exists i z, In i (map ind (indices (asUnique sortf j2))) /\ 0 <= z < nz /\ k = i * nz + z).
  { intros k. rewrite U3, M3. cbn [empty_region indices map In]. split.
    - intros [[]|(b & x & y & z & A & B & C & ->)]. exists (x * ny + y), z. split; [|split; [lia|reflexivity]]. rewrite U2, M2. right. exists b, x, y, 0. split; [exact A|]. split; [exact B|]. split; lia.
    - intros (i & z & A & B & ->). rewrite U2, M2 in A. destruct A as [[]|(b & x & y & z' & A & B' & C & ->)]. right. exists b, x, y, z.
      split; [exact A|]. split; [exact B'|]. assert (z' = 0) as -> by lia. split; lia. }
  repeat split; auto; try apply K.
  rewrite <- (map_length ind (indices (asUnique sortf j3))), <- (map_length ind (indices (asUnique sortf j2))).
  set (L3 := map ind (indices (asUnique sortf j3))) in *. set (L2 := map ind (indices (asUnique sortf j2))) in *.
  set (P := flat_map (fun i => map (fun z => i * nz + z) (zrange nz)) L2).
  assert (NP : NoDup P).
  { unfold P. apply nodup_flat; auto.
    - intros a _. apply FinFun.Injective_map_NoDup; [intros x y; lia|apply nodup_zrange].
    - intros a b x _ _ Ha Hb'. apply in_map_iff in Ha as (z & <- & Hz). apply in_map_iff in Hb' as (z' & E & Hz'). apply in_zrange in Hz. apply in_zrange in Hz'. nia. }
  assert (EP : forall k, In k L3 <-> In k P).
  { intros k. rewrite K. unfold P. rewrite in_flat_map. split.
    - intros (i & z & A & B & ->). exists i. split; [exact A|]. apply in_map_iff. exists z. split; [reflexivity|]. now apply in_zrange.
    - intros (i & A & B). apply in_map_iff in B as (z & <- & B). apply in_zrange in B. eauto. }
  assert (length L3 = length P).
  { apply Nat.le_antisymm; apply NoDup_incl_length; auto; intros k Hk; now apply EP. }
  rewrite H. unfold P. clear - Hnz. induction L2 as [|i L IH]; [cbn; lia|]. cbn [flat_map length]. rewrite app_length, map_length, Nat2Z.inj_add, IH.
  rewrite zrange_length. lia.
Qed.
