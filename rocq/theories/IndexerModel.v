(** Model of the global numbering of cells: /repo/include/bout/globalindexer.hxx (GlobalIndexer<Field3D>) and
    /repo/include/bout/operatorstencil.hxx (OperatorStencil<Ind3D>, squareStencil, starStencil).

    GlobalIndexer<Field2D> is the instance nz = 1 (the offsets of the 2D stencils have dz = 0); FieldPerp (numbering along
    getXcomm, no y) is not modelled. There are no z guard cells (zstart = 0, zend = LocalNz - 1). The field of indices holds
    integers: int to double and std::round back are exact below 2^53. int overflow is not modelled. MPI_Scan of the sizes is
    the sum over the ranks up to this one. *)
From Coq Require Import ZArith List Bool String.
From Verif Require Import Base MeshModel TopoModel RegionModel CommModel BoundsModel.
Import ListNotations.
Open Scope Z_scope.

(** operatorstencil.hxx:46-77 IndexOffset; 97-118 index +/- offset. *)
Record ioff := mkoff { odx : Z; ody : Z; odz : Z }.
Definition iadd (i : sind) (o : ioff) : sind := ioffset i (odx o) (ody o) (odz o).
Definition isub (i : sind) (o : ioff) : sind := ioffset i (- odx o) (- ody o) (- odz o).

(** 141-156 OperatorStencil: test / part pairs in the order they were added. *)
Definition stencil := list ((sind -> bool) * list ioff).
(** 166-179 getStencilPart(const T&). *)
Fixpoint getStencilPart (st : stencil) (i : sind) : res (list ioff) :=
  match st with
  | [] => Throw
  | (test, part) :: st' => if test i then Ok part else getStencilPart st' i
  end.
Definition getStencilSize (st : stencil) (i : sind) : res Z := do p <- getStencilPart st i; Ok (Z.of_nat (List.length p)).
(** 233-241 getStencilNumber; -1 if no test passes. *)
Fixpoint number_from (st : stencil) (i : sind) (count : Z) : Z :=
  match st with
  | [] => -1
  | (test, _) :: st' => if test i then count else number_from st' i (count + 1)
  end.
Definition getStencilNumber (st : stencil) (i : sind) : Z := number_from st i 0.
(** 192-205 getIndicesWithStencilIncluding. *)
Fixpoint including_from (all st : stencil) (i : sind) (count : Z) : list sind :=
  match st with
  | [] => []
  | (_, part) :: st' =>
      flat_map (fun j => let k := isub i j in if getStencilNumber all k =? count then [k] else []) part
      ++ including_from all st' i (count + 1)
  end.
Definition getIndicesWithStencilIncluding (st : stencil) (i : sind) : list sind := including_from st st i 0.

(** std::set<Ind3D>::insert; the bool says whether it was new. *)
Fixpoint set_insert (i : sind) (l : list sind) : list sind * bool :=
  match l with
  | [] => ([i], true)
  | a :: l' => if iltb i a then (i :: l, true)
               else if iltb a i then let (r, b) := set_insert i l' in (a :: r, b)
               else (l, false)
  end.
(** globalindexer.hxx:167-173 insertIndex on (allInds, newInds). *)
Definition insertIndex (i : sind) (s : list sind * list sind) : list sind * list sind :=
  let (all', b) := set_insert i (fst s) in (all', if b then fst (set_insert i (snd s)) else snd s).
(** 53-57: the double loop over the interior and its stencils. *)
Fixpoint insert_stencils (st : stencil) (is : list sind) (s : list sind * list sind) : res (list sind * list sind) :=
  match is with
  | [] => Ok s
  | i :: is' => do part <- getStencilPart st i;
                insert_stencils st is' (fold_left (fun s j => insertIndex (iadd i j) s) part s)
  end.
(** 58-65: the while loop; [fuel] bounds the number of passes. *)
Fixpoint candidates (fuel : nat) (cand all : list sind) : res (list sind) :=
  match fuel with
  | O => UB
  | S f => match cand with
           | [] => Ok all
           | _ => let s := fold_left (fun s i => insertIndex i s) cand (all, []) in candidates f (snd s) (fst s)
           end
  end.

Record indexer := mkidx { regionAll : region; regionBndry : region; regionLowerY : region; regionUpperY : region; regionInnerX : region; regionOuterX : region }.
Section Indexer.
Variable sortf : list sind -> list sind.
(** 44-87: the regions. [rs] are the regions of the mesh. *)
Definition indexer_regions (st : stencil) (rs : rmap) : res indexer :=
  do nobndry <- getRegion "RGN_NOBNDRY" rs;
  do allCandidate <-
    (match st with
     | [] => Ok empty_region
     | _ => let allIndices := fold_left (fun l i => fst (set_insert i l)) (RegionModel.indices nobndry) [] in
            do s <- insert_stencils st (RegionModel.indices nobndry) (allIndices, []);
            do all <- candidates 2 (snd s) (fst s);
            Ok (region_of_indices all MAXREGIONBLOCKSIZE)
     end);
  let bndryCandidate := mask sortf allCandidate nobndry in
  do ix <- getRegion "RGN_INNER_X" rs; do ox <- getRegion "RGN_OUTER_X" rs;
  do ly <- getRegion "RGN_LOWER_Y" rs; do uy <- getRegion "RGN_UPPER_Y" rs;
  let rix := getIntersection sortf bndryCandidate ix in let rox := getIntersection sortf bndryCandidate ox in
  let rly := getIntersection sortf bndryCandidate ly in let ruy := getIntersection sortf bndryCandidate uy in
  let bndry := region_plus (region_plus (region_plus rly rix) rox) ruy in
  Ok (mkidx (asSorted sortf (region_plus nobndry bndry)) (asSorted sortf bndry) rly ruy rix rox).
End Indexer.
(** 150 size(). *)
Definition idx_size (I : indexer) : Z := Z.of_nat (List.length (RegionModel.indices (regionAll I))).

Section Numbers.
(** The indexers of the ranks. *)
Variable I : Z -> indexer.
(** 89-93: MPI_Scan(MPI_SUM) of the sizes. *)
Definition scan (r : Z) : Z := fold_left (fun a k => a + idx_size (I (Z.of_nat k))) (seq 0 (Z.to_nat r + 1)) 0.
Definition globalEnd (r : Z) : Z := scan r - 1.
Definition globalStart (r : Z) : Z := globalEnd r - idx_size (I r) + 1.
(** 94-96: the field, -1 (l.42) where no number is set; flat storage. *)
Fixpoint assign (is : list sind) (counter : Z) (f : Z -> Z) : Z -> Z :=
  match is with
  | [] => f
  | i :: is' => assign is' (counter + 1) (fun k => if k =? ind i then counter else f k)
  end.
Definition own_indices (r : Z) : Z -> Z := assign (RegionModel.indices (regionAll (I r))) (globalStart r) (fun _ => -1).
(** The same as the 3D field given to Mesh::communicate (109 initialise). *)
Definition own_field (ny nz r : Z) : field Z := mkfield true (fun x y z => own_indices r (tensor_flat ny nz x y z)).
End Numbers.

(** 115-128 getGlobal, isLocal on the field after initialise; an index outside of the field is an out of bounds read. *)
Definition getGlobal (size : Z) (f : field Z) (i : sind) : res Z :=
  if (0 <=? ind i) && (ind i <? size) then Ok (dat f (ix i) (iy i) (iz i)) else UB.
Definition isLocal (size start end_ : Z) (f : field Z) (i : sind) : res bool :=
  if ind i <? 0 then Ok false else
  do g <- getGlobal size f i; Ok ((start <=? g) && (g <=? end_)).

(** 183-207 calculateSparsity: the arrays are functions of the row, out of range rows are UB. *)
Section Sparsity.
Variables (st : stencil) (size start end_ : Z) (f : field Z) (nrow : Z).
Definition upd_row (a : Z -> Z) (n v : Z) : res (Z -> Z) :=
  if (0 <=? n) && (n <? nrow) then Ok (fun k => if k =? n then v else a k) else UB.
Fixpoint diag_init (is : list sind) (a : Z -> Z) : res (Z -> Z) :=
  match is with
  | [] => Ok a
  | i :: is' => do g <- getGlobal size f i; do s <- getStencilSize st i; do a' <- upd_row a (g - start) s; diag_init is' a'
  end.
Fixpoint off_rows (js : list sind) (a : (Z -> Z) * (Z -> Z)) : res ((Z -> Z) * (Z -> Z)) :=
  match js with
  | [] => Ok a
  | j :: js' =>
      do l <- isLocal size start end_ f j;
      if l then
        do g <- getGlobal size f j;
        let n := g - start in
        do d <- upd_row (fst a) n (fst a n - 1); do o <- upd_row (snd a) n (snd a n + 1);
        off_rows js' (d, o)
      else off_rows js' a
  end.
Fixpoint off_guards (is : list sind) (a : (Z -> Z) * (Z -> Z)) : res ((Z -> Z) * (Z -> Z)) :=
  match is with
  | [] => Ok a
  | i :: is' =>
      do g <- getGlobal size f i;
      do l <- isLocal size start end_ f i;
      do a' <- (if (0 <=? g) && negb l then off_rows (getIndicesWithStencilIncluding st i) a else Ok a);
      off_guards is' a'
  end.
Definition calculateSparsity (all guards : list sind) : res ((Z -> Z) * (Z -> Z)) :=
  do d <- diag_init all (fun _ => 0); off_guards guards (d, fun _ => 0).
End Sparsity.

(** operatorstencil.hxx:244-297 squareStencil and 299-339 starStencil; the std::set of offsets is sorted by dx, dy, dz. *)
Definition interior_test (m : mesh) (zs ze : Z) (i : sind) : bool :=
  (xstart m <=? ix i) && (ix i <=? xend m) && (ystart m <=? iy i) && (iy i <=? yend m) && (zs <=? iz i) && (iz i <=? ze).
Definition square_offsets : list ioff :=
  [mkoff (-1) (-1) 0; mkoff (-1) 0 (-1); mkoff (-1) 0 0; mkoff (-1) 0 1; mkoff (-1) 1 0;
   mkoff 0 (-1) (-1); mkoff 0 (-1) 0; mkoff 0 (-1) 1; mkoff 0 0 (-1); mkoff 0 0 0; mkoff 0 0 1; mkoff 0 1 (-1); mkoff 0 1 0; mkoff 0 1 1;
   mkoff 1 (-1) 0; mkoff 1 0 (-1); mkoff 1 0 0; mkoff 1 0 1; mkoff 1 1 0].
Definition star_offsets : list ioff :=
  [mkoff (-1) 0 0; mkoff 0 (-1) 0; mkoff 0 0 (-1); mkoff 0 0 0; mkoff 0 0 1; mkoff 0 1 0; mkoff 1 0 0].
Definition with_interior (offs : list ioff) (m : mesh) (zs ze : Z) : stencil :=
  [(interior_test m zs ze, offs); (fun _ => true, [mkoff 0 0 0])].
Definition squareStencil := with_interior square_offsets.
Definition starStencil := with_interior star_offsets.
