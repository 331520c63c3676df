(** Property theorems C01-C07 (see /verif/properties.jsonl). *)
From Coq Require Import List ZArith Lia Bool Sorting Permutation.
From Verif Require Import Base RegionModel RegionSpec RegionProofs.
Import ListNotations.
Open Scope Z_scope.

(** ** C01 *)
Theorem C01_index_of_point_gives_back_point : forall ny nz x y z,
  0 <= x -> 0 <= y < ny -> 0 <= z < nz ->
  let i := mkInd (flat ny nz x y z) ny nz in ix i = x /\ iy i = y /\ iz i = z.
Proof. exact flat_coords. Qed.
Print Assumptions C01_index_of_point_gives_back_point.

Theorem C01_point_of_index_gives_back_index : forall nx ny nz k,
  0 < ny -> 0 < nz -> 0 <= k < nx * ny * nz ->
  let i := mkInd k ny nz in
  0 <= ix i < nx /\ 0 <= iy i < ny /\ 0 <= iz i < nz /\ flat ny nz (ix i) (iy i) (iz i) = k.
Proof.
  exact (fun nx ny nz k Hy Hz Hk => match coords_flat ny nz k Hy Hz (proj1 Hk) with
    | conj A (conj B (conj C D)) => conj (conj A (coords_bound nx ny nz k Hy Hz Hk)) (conj B (conj C D)) end).
Qed.
Print Assumptions C01_point_of_index_gives_back_index.

Theorem C01_no_two_points_share_storage : forall ny nz x y z x' y' z',
  0 <= x -> 0 <= y < ny -> 0 <= z < nz -> 0 <= x' -> 0 <= y' < ny -> 0 <= z' < nz ->
  flat ny nz x y z = flat ny nz x' y' z' -> x = x' /\ y = y' /\ z = z'.
Proof. exact flat_inj. Qed.
Print Assumptions C01_no_two_points_share_storage.

Example C01_case : let i := mkInd 23 3 4 in (ix i, iy i, iz i) = (1, 2, 3) /\ 0 <= 23 < 2 * 3 * 4.
Proof. vm_compute. intuition congruence. Qed.

(** ** C02 *)
Theorem C02_offsets_reach_the_neighbour : forall ny nz x y z, 0 < ny -> 0 <= x -> 0 <= y -> 0 <= z < nz ->
  let p x y z := mkInd (flat ny nz x y z) ny nz in
  (forall d, xp (p x y z) d = p (x + d) y z) /\
  (forall d, xm (p x y z) d = p (x - d) y z) /\
  (forall d, yp (p x y z) d = p x (y + d) z) /\
  (forall d, ym (p x y z) d = p x (y - d) z) /\
  (forall d, 0 <= d -> zp (p x y z) d = p x y ((z + d) mod nz)) /\
  (forall d, 0 <= d -> zm (p x y z) d = p x y ((z - d) mod nz)) /\
  (forall dx dy dz, ioffset (p x y z) dx dy dz = p (x + dx) (y + dy) ((z + dz) mod nz)).
Proof. exact offsets_spec. Qed.
Print Assumptions C02_offsets_reach_the_neighbour.

Theorem C02_plus_then_minus : forall ny nz k d, 0 < ny -> 0 < nz -> 0 <= k ->
  let i := mkInd k ny nz in
  xm (xp i d) d = i /\ xp (xm i d) d = i /\ ym (yp i d) d = i /\ yp (ym i d) d = i /\
  (0 <= d -> zm (zp i d) d = i /\ zp (zm i d) d = i).
Proof. exact offsets_inverse. Qed.
Print Assumptions C02_plus_then_minus.

Example C02_case : zp (mkInd 23 3 4) 6 = mkInd 21 3 4 /\ zm (mkInd 20 3 4) 1 = mkInd 23 3 4.
Proof. vm_compute. auto. Qed.

(** ** C03: the box constructor terminates (within its own point count), in bounds, and enumerates the box. An
    increasing list is determined by its set of elements, so this fixes the whole index vector. *)
Theorem C03_box_region : forall xstart xend ystart yend zstart zend ny nz,
  0 < ny -> 0 < nz -> 0 <= ystart -> yend < ny -> 0 <= zstart -> zend < nz ->
  exists l, createRegionIndices xstart xend ystart yend zstart zend ny nz = Ok l /\
    increasing (map ind l) /\
    (forall k, In k (map ind l) <->
       exists x y z, xstart <= x <= xend /\ ystart <= y <= yend /\ zstart <= z <= zend /\ k = flat ny nz x y z) /\
    (forall i, In i l -> iny i = ny /\ inz i = nz).
Proof. exact box_spec. Qed.
Print Assumptions C03_box_region.

Example C03_case : exists l, createRegionIndices 0 1 1 2 0 1 4 3 = Ok l /\ map ind l = [3;4;6;7;15;16;18;19].
Proof. eexists. vm_compute. auto. Qed.

(** The CHECK>1 test meant to reject a Region<Ind2D> with zend != 0 accepts it: it tests zstart twice. *)
Theorem C03_ind2d_zend_check_refuted : exists nz zstart zend, zend <> 0 /\ check_ind2d nz zstart zend = Ok tt.
Proof. exact ind2d_check_refuted. Qed.
Theorem C03_indperp_yend_check_refuted : exists ny ystart yend, yend <> 0 /\ check_indperp ny ystart yend = Ok tt.
Proof. exact indperp_check_refuted. Qed.

(** ** C04 *)
Theorem C04_blocks_cover_indices : forall maxsz l, 0 < maxsz ->
  let bs := getContiguousBlocks maxsz l in
  map ind (getRegionIndices bs) = map ind l /\
  (forall b, In b bs -> 1 <= ind (snd b) - ind (fst b) <= maxsz) /\
  (forall b1 b2, consecutive bs b1 b2 -> ind (snd b1) - ind (fst b1) = maxsz \/ ind (fst b2) <> ind (snd b1)).
Proof. exact blocks_spec. Qed.
Print Assumptions C04_blocks_cover_indices.

Theorem C04_rebuilding_is_identity : forall maxsz ny nz l,
  0 < maxsz -> Forall (fun j => iny j = ny /\ inz j = nz) l ->
  getRegionIndices (getContiguousBlocks maxsz l) = l.
Proof. exact blocks_roundtrip. Qed.
Print Assumptions C04_rebuilding_is_identity.

Theorem C04_stats : forall maxsz l s ss,
  map (fun b => ind (snd b) - ind (fst b)) (getContiguousBlocks maxsz l) = s :: ss ->
  let st := getStats (region_of_indices l maxsz) in
  let sizes := s :: ss in
  numBlocks st = Z.of_nat (length (getContiguousBlocks maxsz l)) /\
  In (minBlockSize st) sizes /\ In (maxBlockSize st) sizes /\
  (forall x, In x sizes -> minBlockSize st <= x <= maxBlockSize st) /\
  numMinBlocks st = Z.of_nat (count_occ Z.eq_dec sizes (minBlockSize st)) /\
  numMaxBlocks st = Z.of_nat (count_occ Z.eq_dec sizes (maxBlockSize st)).
Proof. exact stats_spec. Qed.
Print Assumptions C04_stats.

Definition mk34 (k : Z) : sind := mkInd k 3 4.
Example C04_case : let l := map mk34 [5;6;7;8;3;3;4;10] in
  map (fun b => (ind (fst b), ind (snd b))) (getContiguousBlocks 3 l) = [(5,8);(8,9);(3,4);(3,5);(10,11)]
  /\ Forall (fun j => iny j = 3 /\ inz j = 4) l.
Proof. vm_compute. split; [reflexivity|]. repeat constructor. Qed.

(** ** C05; [sortf] stands for std::sort, constrained only by its contract. *)
Theorem C05_set_algebra : forall sortf, std_sort_contract sortf -> forall r m,
  indices (mask sortf r m) = filter (fun v => negb (inb (ind v) (map ind (indices m)))) (indices r) /\
  indices (getIntersection sortf r m) = filter (fun v => inb (ind v) (map ind (indices m))) (indices r) /\
  (Permutation (indices r) (indices (asSorted sortf r)) /\ isorted (indices (asSorted sortf r))) /\
  (increasing (map ind (indices (asUnique sortf r))) /\
   forall k, In k (map ind (indices (asUnique sortf r))) <-> In k (map ind (indices r))) /\
  indices (region_plus r m) = indices r ++ indices m.
Proof.
  exact (fun sortf H r m => conj (mask_spec sortf r m H) (conj (intersection_spec sortf r m H)
    (conj (H (indices r)) (conj (asUnique_spec sortf r H) eq_refl)))).
Qed.
Print Assumptions C05_set_algebra.

Theorem C05_blocks_agree_with_indices : forall sortf r m r',
  In r' [mask sortf r m; getIntersection sortf r m; asSorted sortf r; asUnique sortf r; region_plus r m] ->
  map ind (getRegionIndices (blocks r')) = map ind (indices r').
Proof. exact ops_blocks_agree. Qed.
Print Assumptions C05_blocks_agree_with_indices.

Theorem C05_contract_inhabited : std_sort_contract isort.
Proof. exact isort_contract. Qed.
Example C05_case : let r := region_of_indices (map mk34 [7;2;3;3;9]) 64 in let m := region_of_indices (map mk34 [9;3]) 64 in
  map ind (indices (mask isort r m)) = [7;2] /\ map ind (indices (getIntersection isort r m)) = [3;3;9]
  /\ map ind (indices (asUnique isort r)) = [2;3;7;9].
Proof. vm_compute. auto. Qed.

(** ** C06 *)
Theorem C06_offset : forall r off, map ind (indices (region_offset r off)) = map (fun k => k + off) (map ind (indices r)).
Proof. exact region_offset_spec. Qed.
Print Assumptions C06_offset.

Theorem C06_periodic_shift : forall r shift period, 0 < period ->
  (forall i, In i (indices r) -> 0 <= ind i) ->
  exists r', (forall fuel, Z.abs shift <= Z.of_nat fuel -> periodicShift fuel r shift period = Ok r') /\
    map ind (indices r') = map (fun k => (k / period) * period + (k mod period + shift) mod period) (map ind (indices r)).
Proof. exact pshift_terminates. Qed.
Print Assumptions C06_periodic_shift.

Theorem C06_shift_permutes_whole_blocks : forall period b s, 0 < period -> 0 <= b ->
  let blk := map (fun k => b * period + Z.of_nat k) (seq 0 (Z.to_nat period)) in
  Permutation (map (fun k => (k / period) * period + (k mod period + s) mod period) blk) blk.
Proof. exact whole_block_shift. Qed.
Print Assumptions C06_shift_permutes_whole_blocks.

Theorem C06_shift_inverse : forall r shift period, 0 < period ->
  (forall i, In i (indices r) -> 0 <= ind i) ->
  exists r1 r2, (forall fuel, Z.abs shift <= Z.of_nat fuel ->
      periodicShift fuel r shift period = Ok r1 /\ periodicShift fuel r1 (- shift) period = Ok r2) /\
    map ind (indices r2) = map ind (indices r).
Proof. exact pshift_there_and_back. Qed.
Print Assumptions C06_shift_inverse.

Example C06_case : exists r', periodicShift 1 (region_of_indices (map mk34 [0;3;5;11]) 64) (-1) 4 = Ok r'
  /\ map ind (indices r') = [3;2;4;10].
Proof. eexists. vm_compute. auto. Qed.

(** The offset region of a Region that was not built by the box constructor carries indices whose own y/z sizes are -1:
    their x(), y(), z() are no longer those of the displaced point. *)
Theorem C06_offset_loses_grid_sizes_refuted : exists r off i,
  (forall j, In j (indices r) -> iny j = 3 /\ inz j = 4) /\ In i (indices (region_offset r off)) /\ iz i <> Z.rem (ind i) 4.
Proof. exact offset_sizes_refuted. Qed.
Print Assumptions C06_offset_loses_grid_sizes_refuted.

(** ** C07: blocks are dealt to threads in any way ([groups]), each thread runs its blocks in its own order, and the
    reads and writes of different threads interleave arbitrarily. *)
Theorem C07_any_schedule : forall V (body : Z -> V -> V) bs groups t m k,
  NoDup (map ind (getRegionIndices bs)) ->
  Permutation (concat groups) bs ->
  interleave (map (flat_map block_events) groups) t ->
  arr V (exec V body m t) k =
    (if inb k (map ind (getRegionIndices bs)) then body k (arr V m k) else arr V m k).
Proof. exact threads_result. Qed.
Print Assumptions C07_any_schedule.

Theorem C07_some_schedule_exists : forall A (ls : list (list A)), interleave ls (concat ls).
Proof. exact (@serial_is_interleaving). Qed.
Example C07_case : NoDup (map ind (getRegionIndices [(mk34 0, mk34 3); (mk34 4, mk34 6)])) /\
  Permutation (concat [[(mk34 4, mk34 6)]; [(mk34 0, mk34 3)]]) [(mk34 0, mk34 3); (mk34 4, mk34 6)].
Proof. split; [vm_compute; repeat constructor; cbn; intuition discriminate|cbn; apply perm_swap]. Qed.
(** Without distinct indices the result does depend on the schedule. *)
Theorem C07_needs_distinct_indices : exists V (body : Z -> V -> V) ls t1 t2 m k,
  interleave ls t1 /\ interleave ls t2 /\ arr V (exec V body m t1) k <> arr V (exec V body m t2) k.
Proof. exact schedule_dependence. Qed.
Print Assumptions C07_needs_distinct_indices.
