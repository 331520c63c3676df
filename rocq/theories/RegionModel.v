(** Model of include/bout/region.hxx: index arithmetic, Region construction, contiguous blocks, set
    operations and shifts. C++ [int] is unbounded [Z]; [/] and [%] are [Z.quot] and [Z.rem] (truncating). *)
From Coq Require Import List ZArith Lia Bool.
From Verif Require Import Base.
Import ListNotations.
Open Scope Z_scope.

(** region.hxx:159-168 [struct SpecificInd]: the flat index and the sizes of the y and z dimensions. *)
Record sind := mkInd { ind : Z; iny : Z; inz : Z }.

(** region.hxx:226-228 [x()], [y()], [z()]. *)
Definition ix (i : sind) : Z := Z.quot (Z.quot (ind i) (inz i)) (iny i).
Definition iy (i : sind) : Z := Z.rem (Z.quot (ind i) (inz i)) (iny i).
Definition iz (i : sind) : Z := Z.rem (ind i) (inz i).

(** region.hxx:270-272 [xp(dx)], [xm(dx)]. *)
Definition xp (i : sind) (dx : Z) : sind := mkInd (ind i + dx * iny i * inz i) (iny i) (inz i).
Definition xm (i : sind) (dx : Z) : sind := xp i (- dx).

(** region.hxx:274-284 [yp(dy)], [ym(dy)]. The CHECK>=3/4 assertions (abs(dy) < ny, target in bounds) throw in
    checking builds; they are the stated precondition of the theorems and not part of this definition. *)
Definition yp (i : sind) (dy : Z) : sind := mkInd (ind i + dy * inz i) (iny i) (inz i).
Definition ym (i : sind) (dy : Z) : sind := yp i (- dy).

(** region.hxx:289-293 [zp(dz)]: wraps around; the ASSERT3(dz >= 0) is the theorem's precondition. *)
Definition zp (i : sind) (dz : Z) : sind :=
  let dz := if dz <=? inz i then dz else Z.rem dz (inz i) in
  mkInd (if Z.rem (ind i + dz) (inz i) <? dz then ind i - inz i + dz else ind i + dz) (iny i) (inz i).

(** region.hxx:298-302 [zm(dz)]. *)
Definition zm (i : sind) (dz : Z) : sind :=
  let dz := if dz <=? inz i then dz else Z.rem dz (inz i) in
  mkInd (if Z.rem (ind i) (inz i) <? dz then ind i + inz i - dz else ind i - dz) (iny i) (inz i).

(** region.hxx:313-316 [offset(dx,dy,dz)]. *)
Definition ioffset (i : sind) (dx dy dz : Z) : sind :=
  let temp := if 0 <? dz then zp i dz else zm i (- dz) in
  xp (yp temp dy) dx.

(** region.hxx:172-195 [operator++] / [operator--]. *)
Definition iincr (i : sind) : sind := mkInd (ind i + 1) (iny i) (inz i).

(** region.hxx:320-323 [operator==] and 330-333 [operator<] compare only [ind]. *)
Definition ieqb (a b : sind) : bool := ind a =? ind b.
Definition iltb (a b : sind) : bool := ind a <? ind b.

(** utils.hxx:239-248 Matrix and 337-348 Tensor flat indexing ([data[i1*n2+i2]], [data[(i1*n2+i2)*n3+i3]]). *)
Definition matrix_flat (n2 i1 i2 : Z) : Z := i1 * n2 + i2.
Definition tensor_flat (n2 n3 i1 i2 i3 : Z) : Z := (i1 * n2 + i2) * n3 + i3.

(** region.hxx:481-... [class Region]: flattened indices, contiguous blocks (first inclusive, second exclusive)
    and the region's own copy of ny, nz (-1 unless built by the box constructor), lines 800-803. *)
Record region := mkRegion { indices : list sind; blocks : list (sind * sind); rny : Z; rnz : Z }.

(** region.hxx:827-848: the [while (!done)] loop of createRegionIndices. [fuel] bounds the number of iterations;
    running out of fuel or writing [region[j]] out of bounds is [UB]. *)
Fixpoint create_loop (fuel : nat) (xend ystart yend zstart zend ny nz : Z)
         (x y z : Z) (j : nat) (reg : list sind) : res (list sind) :=
  match fuel with
  | O => UB
  | S fuel' =>
    do reg' <- ofopt (vec_set reg j (mkInd ((x * ny + y) * nz + z) ny nz));
    if (x =? xend) && (y =? yend) && (z =? zend) then Ok reg'
    else
      let z' := z + 1 in
      if zend <? z' then
        let y' := y + 1 in
        if yend <? y' then
          create_loop fuel' xend ystart yend zstart zend ny nz (x + 1) ystart zstart (S j) reg'
        else create_loop fuel' xend ystart yend zstart zend ny nz x y' zstart (S j) reg'
      else create_loop fuel' xend ystart yend zstart zend ny nz x y z' (S j) reg'
  end.

(** region.hxx:807-850 createRegionIndices. ASSERT1 failures throw (CHECK >= 1 builds). *)
Definition createRegionIndices (xstart xend ystart yend zstart zend ny nz : Z) : res (list sind) :=
  if (xend + 1 <=? xstart) || (yend + 1 <=? ystart) || (zend + 1 <=? zstart) then Ok []
  else if negb (0 <? ny) then Throw
  else if negb (0 <? nz) then Throw
  else
    let len := (xend - xstart + 1) * (yend - ystart + 1) * (zend - zstart + 1) in
    if negb (0 <? len) then Throw
    else
      create_loop (Z.to_nat len) xend ystart yend zstart zend ny nz xstart ystart zstart 0
                  (repeat (mkInd (-1) ny nz) (Z.to_nat len)).

(** region.hxx:867-877: the inner [for] of getContiguousBlocks; [prev] is [indices[index-1]], the list is
    what starts at [indices[index]]. Returns the last index of the block and the rest. *)
Fixpoint take_block (maxsz count : Z) (prev : sind) (l : list sind) : sind * list sind :=
  if count <? maxsz then
    match l with
    | [] => (prev, l)
    | i :: l' => if ind i - ind prev =? 1 then take_block maxsz (count + 1) i l' else (prev, l)
    end
  else (prev, l).

(** region.hxx:856-888 getContiguousBlocks; [fuel] >= number of remaining points. *)
Fixpoint blocks_loop (fuel : nat) (maxsz : Z) (l : list sind) : list (sind * sind) :=
  match fuel, l with
  | S fuel', s :: l' =>
    let (last, rest) := take_block maxsz 1 s l' in
    (s, iincr last) :: blocks_loop fuel' maxsz rest
  | _, _ => []
  end.
Definition getContiguousBlocks (maxsz : Z) (l : list sind) : list (sind * sind) :=
  blocks_loop (length l) maxsz l.

(** region.hxx:112-115 BOUT_FOR_SERIAL: inner loop over one block, [for (index = first; index < second; ++index)]. *)
Fixpoint block_iter (n : nat) (i : sind) : list sind :=
  match n with O => [] | S n' => i :: block_iter n' (iincr i) end.
Definition iter_block (b : sind * sind) : list sind :=
  block_iter (Z.to_nat (ind (snd b) - ind (fst b))) (fst b).
(** region.hxx:891-897 getRegionIndices: BOUT_FOR_SERIAL over all blocks. *)
Definition getRegionIndices (bs : list (sind * sind)) : list sind := flat_map iter_block bs.

(** region.hxx:60-62 *)
Definition MAXREGIONBLOCKSIZE : Z := 64.

(** region.hxx:519-559: box constructor (the CHECK>1 tests on Ind2D/IndPerp are modelled separately below). *)
Definition region_box (xstart xend ystart yend zstart zend ny nz maxsz : Z) : res region :=
  do l <- createRegionIndices xstart xend ystart yend zstart zend ny nz;
  if negb (0 <? maxsz) then Throw else
  Ok (mkRegion l (getContiguousBlocks maxsz l) ny nz).
(** region.hxx:561-564: from indices; ny, nz keep their default -1. *)
Definition region_of_indices (l : list sind) (maxsz : Z) : region :=
  mkRegion l (getContiguousBlocks maxsz l) (-1) (-1).
(** region.hxx:566: from blocks. *)
Definition region_of_blocks (bs : list (sind * sind)) : region := mkRegion (getRegionIndices bs) bs (-1) (-1).
(** region.hxx:587-590 setIndices, 593-596 setBlocks. *)
Definition setIndices (r : region) (l : list sind) : region :=
  mkRegion l (getContiguousBlocks MAXREGIONBLOCKSIZE l) (rny r) (rnz r).
Definition setBlocks (r : region) (bs : list (sind * sind)) : region :=
  mkRegion (getRegionIndices bs) bs (rny r) (rnz r).

(** region.hxx:522-555: the CHECK>1 dimension tests of the box constructor. Note the second test of each pair
    checks [zstart] (resp. [ystart]) again where its message talks about [zend] (resp. [yend]). *)
Definition check_ind2d (nz zstart zend : Z) : res unit :=
  if negb (nz =? 1) then Throw else
  if negb (zstart =? 0) then Throw else
  if negb (zstart =? 0) then Throw else Ok tt.
Definition check_indperp (ny ystart yend : Z) : res unit :=
  if negb (ny =? 1) then Throw else
  if negb (ystart =? 0) then Throw else
  if negb (ystart =? 0) then Throw else Ok tt.

(** std::lower_bound on a vector sorted by [operator<] (libstdc++/libc++ halving loop); [fuel] >= count. *)
Fixpoint lower_bound (fuel : nat) (l : list sind) (val : sind) (first count : nat) : nat :=
  match fuel with
  | O => first
  | S fuel' =>
    match count with
    | O => first
    | _ =>
      let step := Nat.div2 count in
      if iltb (nth (first + step) l (mkInd 0 0 0)) val
      then lower_bound fuel' l val (first + step + 1) (count - (step + 1))
      else lower_bound fuel' l val first step
    end
  end.
(** std::binary_search: lower_bound, then check that the value found is not greater. *)
Definition binary_search (l : list sind) (val : sind) : bool :=
  let k := lower_bound (length l) l val 0 (length l) in
  match nth_error l k with
  | None => false
  | Some e => negb (iltb val e)
  end.

(** std::unique: drop each element equal to the one before it. *)
Fixpoint std_unique_from (prev : sind) (l : list sind) : list sind :=
  match l with
  | [] => []
  | i :: l' => if ieqb prev i then std_unique_from prev l' else i :: std_unique_from i l'
  end.
Definition std_unique (l : list sind) : list sind :=
  match l with [] => [] | i :: l' => i :: std_unique_from i l' end.

Section WithSort.
  (** [std::sort]: any function meeting the contract of std::sort (a sorted permutation). *)
  Variable sortf : list sind -> list sind.
  (** region.hxx:600-604 asSorted (and 607-610 sort). *)
  Definition asSorted (r : region) : region := region_of_indices (sortf (indices r)) MAXREGIONBLOCKSIZE.
  (** region.hxx:615-626 asUnique (and 629-632 unique). *)
  Definition asUnique (r : region) : region :=
    region_of_indices (std_unique (sortf (indices r))) MAXREGIONBLOCKSIZE.
  (** region.hxx:636-661 mask: remove_if + erase of the indices found by binary search in the sorted mask. *)
  Definition mask (r m : region) : region :=
    let maskIndices := sortf (indices m) in
    setIndices r (filter (fun v => negb (binary_search maskIndices v)) (indices r)).
  (** region.hxx:665-690 getIntersection. *)
  Definition getIntersection (r o : region) : region :=
    let otherIndices := sortf (indices o) in
    setIndices r (filter (fun v => negb (negb (binary_search otherIndices v))) (indices r)).
End WithSort.

(** region.hxx:937-942 operator+ . *)
Definition region_plus (l r : region) : region :=
  region_of_indices (indices l ++ indices r) MAXREGIONBLOCKSIZE.

(** region.hxx:699-715 offset: new indices carry the Region's own ny, nz. *)
Definition region_offset (r : region) (off : Z) : region :=
  if off =? 0 then r
  else setIndices r (map (fun i => mkInd (ind i + off) (rny r) (rnz r)) (indices r)).

(** region.hxx:723-747 periodicShift; the recursive call for negative shifts is bounded by [fuel]
    ([UB] = unbounded recursion); [period = 0] divides by zero. *)
Definition pshift1 (shift period : Z) (i : sind) : sind :=
  mkInd (Z.rem (ind i + shift) period + period * Z.quot (ind i) period) (iny i) (inz i).
Fixpoint periodicShift (fuel : nat) (r : region) (shift period : Z) : res region :=
  if (shift =? 0) || (period =? 1) then Ok r
  else if shift <? 0 then
    match fuel with
    | O => UB
    | S fuel' => periodicShift fuel' r (period + shift) period
    end
  else if (period =? 0) && negb (match indices r with [] => true | _ => false end) then UB
  else Ok (setIndices r (map (pshift1 shift period) (indices r))).

(** region.hxx:753-790 getStats (maxImbalance, a ratio of reals, is left out; numSmallBlocks compares
    [size < 0.5*max], i.e. [2*size < max]). *)
Record stats := mkStats { numBlocks : Z; minBlockSize : Z; numMinBlocks : Z;
                          maxBlockSize : Z; numMaxBlocks : Z; numSmallBlocks : Z }.
Definition countb {A} (f : A -> bool) (l : list A) : Z := Z.of_nat (length (filter f l)).
Definition getStats (r : region) : stats :=
  match map (fun b => ind (snd b) - ind (fst b)) (blocks r) with
  | [] => mkStats 0 0 0 0 0 0
  | s :: ss =>
    let sizes := s :: ss in
    let mn := fold_left Z.min ss s in
    let mx := fold_left Z.max ss s in
    mkStats (Z.of_nat (length sizes)) mn (countb (fun k => k =? mn) sizes)
            mx (countb (fun k => k =? mx) sizes) (countb (fun k => 2 * k <? mx) sizes)
  end.

(** OpenMP execution of BOUT_FOR (region.hxx:117-129): each block's iterations run in order on some thread, blocks
    on different threads interleave arbitrarily. An iteration at index [i] first reads element [i] of the
    array into a thread-private value, then writes element [i]. Everything else the body reads is not written by the
    loop and is folded into [body]. *)
Inductive event := Rd (i : Z) | Wr (i : Z).
Definition block_events (b : sind * sind) : list event :=
  flat_map (fun i => [Rd (ind i); Wr (ind i)]) (iter_block b).
Section Exec.
  Variable V : Type.
  Variable body : Z -> V -> V.
  Record mem := mkMem { arr : Z -> V; tmp : Z -> V }.
  Definition upd (f : Z -> V) (k : Z) (v : V) : Z -> V := fun j => if j =? k then v else f j.
  Definition exec1 (m : mem) (e : event) : mem :=
    match e with
    | Rd i => mkMem (arr m) (upd (tmp m) i (arr m i))
    | Wr i => mkMem (upd (arr m) i (body i (tmp m i))) (tmp m)
    end.
  Definition exec (m : mem) (es : list event) : mem := fold_left exec1 es m.
End Exec.
