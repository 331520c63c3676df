(** What the regions and boundaries of a mesh must be, in terms of local indices and of the field lines of TopoSpec. *)
From Coq Require Import ZArith List Bool String Sorted.
From Verif Require Import MeshModel MeshSpec TopoModel TopoSpec RegionModel RegionSpec BndryModel BndrySpec RangeModel.
Import ListNotations.
Open Scope Z_scope.

(** The field line through local column [x] leaves the domain below this processor's first row / above its last row. *)
Definition leaves_below (m : mesh) (ix1 ix2 x : Z) : Prop :=
  below (g_ny m) (seps m) (x_lower ix1 ix2) (x_upper (seps m) ix1 ix2)
        (getGlobalXIndex m x) (getGlobalYIndexNoBoundaries m (ystart m)) = None.
Definition leaves_above (m : mesh) (ix1 ix2 x : Z) : Prop :=
  above (g_ny m) (seps m) (x_lower ix1 ix2) (x_upper (seps m) ix1 ix2)
        (getGlobalXIndex m x) (getGlobalYIndexNoBoundaries m (yend m)) = None.

(** Local points: all, and inside the domain (without guard cells) in each direction. *)
Definition inx (m : mesh) (x : Z) : Prop := xstart m <= x <= xend m.
Definition iny_ (m : mesh) (y : Z) : Prop := ystart m <= y <= yend m.
Definition anyx (m : mesh) (x : Z) : Prop := 0 <= x < LocalNx m.
Definition anyy (m : mesh) (y : Z) : Prop := 0 <= y < LocalNy m.

(** Columns of a y boundary whose field lines leave the domain ([leaves]); with include_corner_cells also the x guard
    columns of the first (last) processor, when the two columns next to them both leave the domain. *)
Definition target_columns (m : mesh) (cc : bool) (leaves : Z -> Prop) (x : Z) : Prop :=
  (inx m x /\ leaves x) \/
  (cc = true /\ PE_XIND m = 0 /\ 0 <= x < xstart m /\
     inx m (xstart m + 1) /\ leaves (xstart m) /\ leaves (xstart m + 1)) \/
  (cc = true /\ PE_XIND m = NXPE m - 1 /\ xend m < x < LocalNx m /\
     inx m (xend m - 1) /\ leaves (xend m) /\ leaves (xend m - 1)).

(** A region visits exactly the points satisfying [P], each once. *)
Definition enumerates (r : region) (ny nz : Z) (P : Z -> Z -> Z -> Prop) : Prop :=
  NoDup (map ind (indices r)) /\
  (forall i, In i (indices r) -> iny i = ny /\ inz i = nz) /\
  (forall k, In k (map ind (indices r)) <-> exists x y z, P x y z /\ k = flat ny nz x y z).

(** The standard regions by name ([zs],[ze] are zstart, zend; [nz] is LocalNz). [lo], [up] are the target columns below
    and above, [inb_], [outb] say that there is a boundary at the inner / outer x edge of this processor. *)
Definition standard_regions (m : mesh) (nz zs ze : Z) (lo up : Z -> Prop) (inb_ outb : Prop)
  : list (string * (Z -> Z -> Z -> Prop)) :=
  let inz_ z := zs <= z <= ze in
  let anyz z := 0 <= z < nz in
  let lower x y z := lo x /\ 0 <= y < ystart m /\ anyz z in
  let upper x y z := up x /\ yend m < y < LocalNy m /\ anyz z in
  let innerx x y z := inb_ /\ 0 <= x < xstart m /\ iny_ m y /\ anyz z in
  let outerx x y z := outb /\ xend m < x < LocalNx m /\ iny_ m y /\ anyz z in
  let nobndry x y z := inx m x /\ iny_ m y /\ inz_ z in
  let bndry x y z := lower x y z \/ upper x y z \/ innerx x y z \/ outerx x y z in
  [("RGN_ALL", fun x y z => anyx m x /\ anyy m y /\ anyz z);
   ("RGN_NOBNDRY", nobndry);
   ("RGN_NOX", fun x y z => inx m x /\ anyy m y /\ anyz z);
   ("RGN_NOY", fun x y z => anyx m x /\ iny_ m y /\ anyz z);
   ("RGN_NOZ", fun x y z => anyx m x /\ anyy m y /\ inz_ z);
   ("RGN_GUARDS", fun x y z => (anyx m x /\ anyy m y /\ anyz z) /\ ~ nobndry x y z);
   ("RGN_XGUARDS", fun x y z => anyx m x /\ ~ inx m x /\ iny_ m y /\ inz_ z);
   ("RGN_YGUARDS", fun x y z => inx m x /\ anyy m y /\ ~ iny_ m y /\ inz_ z);
   ("RGN_ZGUARDS", fun x y z => inx m x /\ iny_ m y /\ anyz z /\ ~ inz_ z);
   (* at most one coordinate outside the domain *)
   ("RGN_NOCORNERS", fun x y z => anyx m x /\ anyy m y /\ anyz z /\
      ((inx m x /\ iny_ m y) \/ (inx m x /\ inz_ z) \/ (iny_ m y /\ inz_ z)));
   ("RGN_LOWER_INNER_Y", fun x y z => PE_YIND m = 0 /\ lower x y z);
   ("RGN_LOWER_OUTER_Y", fun x y z => PE_YIND m <> 0 /\ lower x y z);
   ("RGN_LOWER_Y", lower);
   ("RGN_UPPER_INNER_Y", fun x y z => PE_YIND m <> NYPE m - 1 /\ upper x y z);
   ("RGN_UPPER_OUTER_Y", fun x y z => PE_YIND m = NYPE m - 1 /\ upper x y z);
   ("RGN_UPPER_Y", upper);
   ("RGN_INNER_X", innerx);
   ("RGN_OUTER_X", outerx);
   ("RGN_BNDRY", bndry);
   ("RGN_WITH_XBNDRIES", fun x y z => nobndry x y z \/ innerx x y z \/ outerx x y z);
   ("RGN_WITH_YBNDRIES", fun x y z => nobndry x y z \/ lower x y z \/ upper x y z);
   ("RGN_WITH_BNDRIES", fun x y z => nobndry x y z \/ bndry x y z)]%string.

(** Cells of a BoundaryRegion (BndrySpec.in_strip: all its guard cells). *)
Definition in_boundary (m : lmesh) (b : breg) (p : Z * Z) : Prop := in_strip m b 0 (b_width b) p.

(** A loop `for (it.first(); !it.isDone(); ++it)` over the RangeIterator [{l}] visits exactly the columns satisfying [P], in
    increasing order, each once. *)
Definition walks (m : mesh) (l : Z * Z) (P : Z -> Prop) : Prop :=
  exists xs, (forall fuel, (Z.to_nat (LocalNx m) <= fuel)%nat -> visit fuel (rfirst [mkN (fst l) (snd l) false]) = Some xs) /\
    StronglySorted Z.lt xs /\ forall x, In x xs <-> P x.

(** The cell is in a boundary region of that label. *)
Definition in_labelled (L : lmesh) (bs : list (string * breg)) (p : Z * Z) (lab : string) : Prop :=
  exists b, In (lab, b) bs /\ in_boundary L b p.

(** This processor has the inner / outer x edge of the domain, and [x] is beyond it. *)
Definition beyond_inner (m : mesh) (per : bool) (x : Z) : Prop := per = false /\ PE_XIND m = 0 /\ 0 <= x < xstart m.
Definition beyond_outer (m : mesh) (per : bool) (x : Z) : Prop := per = false /\ PE_XIND m = NXPE m - 1 /\ xend m < x < LocalNx m.
(** The row lies in one of the core's y ranges. *)
Definition core_row (m : mesh) (y : Z) : Prop :=
  let yg := getGlobalYIndexNoBoundaries m y in
  j11 (seps m) < yg <= j21 (seps m) \/ j12 (seps m) < yg <= j22 (seps m).

(** Which boundary a cell outside the domain belongs to. *)
Definition boundary_label (m : mesh) (cc per : bool) (ix1 ix2 x y : Z) (lab : string) : Prop :=
  (lab = "core"%string /\ beyond_inner m per x /\ iny_ m y /\ core_row m y) \/
  (lab = "pf"%string /\ beyond_inner m per x /\ iny_ m y /\ ~ core_row m y) \/
  (lab = "sol"%string /\ beyond_outer m per x /\ iny_ m y) \/
  (lab = "lower_target"%string /\ 0 <= y < ystart m /\ leaves_below m ix1 ix2 x /\
     (inx m x \/ (cc = true /\ (beyond_inner m per x \/ beyond_outer m per x)))) \/
  (lab = "upper_target"%string /\ yend m < y < LocalNy m /\ leaves_above m ix1 ix2 x /\
     (inx m x \/ (cc = true /\ (beyond_inner m per x \/ beyond_outer m per x)))).
