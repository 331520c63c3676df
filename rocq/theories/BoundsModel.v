(** Model of the standard regions and the boundaries of a BoutMesh:
    - /repo/src/mesh/mesh.cxx:623-655 Mesh::createDefaultRegions (3D part), getRegion3D 557-565, addRegion3D 593-601;
    - /repo/src/mesh/impls/bout/boutmesh.cxx:924-989 createXBoundaries, createYBoundaries, 2419-2745 addBoundaryRegions,
      2772-2967 iterateBndry{Lower,Upper}{,Inner,Outer}Y.
    The 2D regions (mesh.cxx:663-683, boutmesh.cxx:2746-2769) have the same text with LocalNz = 1, zstart = zend = 0 (their
    RGN_ZGUARDS is built from two empty boxes, as here for those values), so they are the instance nz = 1, zs = ze = 0 of
    this model.  Not modelled: the Perp regions, the RGN_*_X_THIN regions, log output, and the block structure of a
    region beyond what RegionModel has. *)
From Coq Require Import ZArith List Bool String.
From Verif Require Import Base MeshModel TopoModel RegionModel BndryModel.
Import ListNotations.
Open Scope Z_scope.

(** boutmesh.cxx:1488-1490, 1560-1562. *)
Definition firstX (m : mesh) : bool := PE_XIND m =? 0.
Definition lastX (m : mesh) : bool := PE_XIND m =? NXPE m - 1.
Definition firstY (m : mesh) : bool := PE_YIND m =? 0.
Definition lastY (m : mesh) : bool := PE_YIND m =? NYPE m - 1.

(** The text shared by the six iterateBndry functions and the six y regions of addBoundaryRegions, e.g.
    boutmesh.cxx:2848-2864: limits from the connections, clipped to xstart..xend, then extended over the corners.
    [din], [dout], [split] are DDATA_INDEST, DDATA_OUTDEST, DDATA_XSPLIT, or the UDATA_ ones. *)
Definition y_limits (m : mesh) (din dout split : Z) : Z * Z :=
  let xs := 0 in
  let xe := LocalNx m - 1 in
  let xs := if (din >=? 0) && (split >? xstart m) then split else xs in
  let xe := if (dout >=? 0) && (split <? xend m + 1) then split - 1 else xe in
  let xs := if xs <? xstart m then xstart m else xs in
  let xe := if xe >? xend m then xend m else xe in
  (xs, xe).
(** e.g. boutmesh.cxx:2858-2866; [cc] is include_corner_cells. *)
Definition corner_limits (m : mesh) (cc : bool) (l : Z * Z) : Z * Z :=
  let (xs, xe) := l in
  let xs := if cc && firstX m && (xs =? xstart m) && (xe >? xstart m) then 0 else xs in
  let xe := if cc && lastX m && (xe =? xend m) && (xs <? xend m) then LocalNx m - 1 else xe in
  (xs, xe).
Definition no_limits : Z * Z := (-1, -2).

(** boutmesh.cxx:2772-2805 iterateBndryLowerInnerY (limits of the RangeIterator). *)
Definition lower_inner (m : mesh) (c : conn) (cc : bool) : Z * Z :=
  if negb (firstY m) then no_limits else corner_limits m cc (y_limits m (D_IN c) (D_OUT c) (D_XSPLIT c)).
(** 2807-2840 iterateBndryLowerOuterY. *)
Definition lower_outer (m : mesh) (c : conn) (cc : bool) : Z * Z :=
  if negb (firstY m) then corner_limits m cc (y_limits m (D_IN c) (D_OUT c) (D_XSPLIT c)) else no_limits.
(** 2842-2868 iterateBndryLowerY. *)
Definition lower_y (m : mesh) (c : conn) (cc : bool) : Z * Z :=
  corner_limits m cc (y_limits m (D_IN c) (D_OUT c) (D_XSPLIT c)).
(** 2870-2903 iterateBndryUpperInnerY. *)
Definition upper_inner (m : mesh) (c : conn) (cc : bool) : Z * Z :=
  if negb (lastY m) then corner_limits m cc (y_limits m (U_IN c) (U_OUT c) (U_XSPLIT c)) else no_limits.
(** 2905-2937 iterateBndryUpperOuterY. *)
Definition upper_outer (m : mesh) (c : conn) (cc : bool) : Z * Z :=
  if negb (lastY m) then no_limits else corner_limits m cc (y_limits m (U_IN c) (U_OUT c) (U_XSPLIT c)).
(** 2939-2965 iterateBndryUpperY. *)
Definition upper_y (m : mesh) (c : conn) (cc : bool) : Z * Z :=
  corner_limits m cc (y_limits m (U_IN c) (U_OUT c) (U_XSPLIT c)).
(** 2532-2563: in addBoundaryRegions the corner test of RGN_UPPER_INNER_Y stands after the whole if. *)
Definition upper_inner_region (m : mesh) (c : conn) (cc : bool) : Z * Z :=
  corner_limits m cc (if negb (lastY m) then y_limits m (U_IN c) (U_OUT c) (U_XSPLIT c) else no_limits).

(** regionMap3D (mesh.hxx: std::map from names): an association list.  mesh.cxx:593-601 addRegion3D throws when the name is
    taken; mesh.cxx:557-565 getRegion3D throws when it is missing. *)
Definition rmap := list (string * region).
Fixpoint lookup (n : string) (rs : rmap) : option region :=
  match rs with
  | [] => None
  | (k, r) :: rs' => if String.eqb k n then Some r else lookup n rs'
  end.
Definition addRegion (n : string) (r : region) (rs : rmap) : res rmap :=
  match lookup n rs with Some _ => Throw | None => Ok ((n, r) :: rs) end.
Definition getRegion (n : string) (rs : rmap) : res region :=
  match lookup n rs with Some r => Ok r | None => Throw end.

Section Regions.
(** std::sort, as in RegionModel. *)
Variable sortf : list sind -> list sind.
(** LocalNz, zstart, zend and maxregionblocksize of the mesh. *)
Variables (nz zs ze mb : Z).

Definition box3 (m : mesh) (x0 x1 y0 y1 z0 z1 : Z) : res region :=
  region_box x0 x1 y0 y1 z0 z1 (LocalNy m) nz mb.

(** mesh.cxx:625-655. *)
Definition createDefaultRegions (m : mesh) : res rmap :=
  do all <- box3 m 0 (LocalNx m - 1) 0 (LocalNy m - 1) 0 (nz - 1);
  do rs <- addRegion "RGN_ALL" all [];
  do nob <- box3 m (xstart m) (xend m) (ystart m) (yend m) zs ze;
  do rs <- addRegion "RGN_NOBNDRY" nob rs;
  do r <- box3 m (xstart m) (xend m) 0 (LocalNy m - 1) 0 (nz - 1);
  do rs <- addRegion "RGN_NOX" r rs;
  do r <- box3 m 0 (LocalNx m - 1) (ystart m) (yend m) 0 (nz - 1);
  do rs <- addRegion "RGN_NOY" r rs;
  do r <- box3 m 0 (LocalNx m - 1) 0 (LocalNy m - 1) zs ze;
  do rs <- addRegion "RGN_NOZ" r rs;
  do rs <- addRegion "RGN_GUARDS" (mask sortf all nob) rs;
  do a <- box3 m 0 (xstart m - 1) (ystart m) (yend m) zs ze;
  do b <- box3 m (xend m + 1) (LocalNx m - 1) (ystart m) (yend m) zs ze;
  do rs <- addRegion "RGN_XGUARDS" (region_plus a b) rs;
  do a <- box3 m (xstart m) (xend m) 0 (ystart m - 1) zs ze;
  do b <- box3 m (xstart m) (xend m) (yend m + 1) (LocalNy m - 1) zs ze;
  do rs <- addRegion "RGN_YGUARDS" (region_plus a b) rs;
  do a <- box3 m (xstart m) (xend m) (ystart m) (yend m) 0 (zs - 1);
  do b <- box3 m (xstart m) (xend m) (ystart m) (yend m) (ze + 1) (nz - 1);
  do rs <- addRegion "RGN_ZGUARDS" (region_plus a b) rs;
  do nob <- getRegion "RGN_NOBNDRY" rs;
  do xg <- getRegion "RGN_XGUARDS" rs;
  do yg <- getRegion "RGN_YGUARDS" rs;
  do zg <- getRegion "RGN_ZGUARDS" rs;
  addRegion "RGN_NOCORNERS" (asUnique sortf (region_plus (region_plus (region_plus nob xg) yg) zg)) rs.

(** A default constructed Region, region.hxx:517. *)
Definition empty_region : region := mkRegion [] [] (-1) (-1).
(** boutmesh.cxx:2719-2722: bndry3d += getRegion3D(name) over all_boundaries. *)
Fixpoint join_all (names : list string) (rs : rmap) (acc : region) : res region :=
  match names with
  | [] => Ok acc
  | n :: ns => do r <- getRegion n rs; join_all ns rs (region_plus acc r)
  end.

(** boutmesh.cxx:2419-2745. [per] is periodicX. *)
Definition addBoundaryRegions (m : mesh) (c : conn) (cc per : bool) (rs : rmap) : res rmap :=
  let low n (l : Z * Z) rs := do r <- box3 m (fst l) (snd l) 0 (ystart m - 1) 0 (nz - 1); addRegion n r rs in
  let upp n (l : Z * Z) rs := do r <- box3 m (fst l) (snd l) (yend m + 1) (LocalNy m - 1) 0 (nz - 1); addRegion n r rs in
  do rs <- low "RGN_LOWER_INNER_Y"%string (lower_inner m c cc) rs;
  do rs <- low "RGN_LOWER_OUTER_Y"%string (lower_outer m c cc) rs;
  do rs <- low "RGN_LOWER_Y"%string (lower_y m c cc) rs;
  do rs <- upp "RGN_UPPER_INNER_Y"%string (upper_inner_region m c cc) rs;
  do rs <- upp "RGN_UPPER_OUTER_Y"%string (upper_outer m c cc) rs;
  do rs <- upp "RGN_UPPER_Y"%string (upper_y m c cc) rs;
  let ys := ["RGN_LOWER_INNER_Y"; "RGN_LOWER_OUTER_Y"; "RGN_LOWER_Y";
             "RGN_UPPER_INNER_Y"; "RGN_UPPER_OUTER_Y"; "RGN_UPPER_Y"]%string in
  do r <- (if firstX m && negb per then box3 m 0 (xstart m - 1) (ystart m) (yend m) 0 (nz - 1)
           else box3 m 0 (-1) 0 0 0 0);
  do rs <- addRegion "RGN_INNER_X" r rs;
  let all := (if firstX m && negb per then ys ++ ["RGN_INNER_X"%string] else ys) in
  do r <- (if lastX m && negb per then box3 m (xend m + 1) (LocalNx m - 1) (ystart m) (yend m) 0 (nz - 1)
           else box3 m 0 (-1) 0 0 0 0);
  do rs <- addRegion "RGN_OUTER_X" r rs;
  let all := (if lastX m && negb per then all ++ ["RGN_OUTER_X"%string] else all) in
  do b <- join_all all rs empty_region;
  do rs <- addRegion "RGN_BNDRY" (asUnique sortf b) rs;
  do nob <- getRegion "RGN_NOBNDRY" rs;
  do ix <- getRegion "RGN_INNER_X" rs;
  do ox <- getRegion "RGN_OUTER_X" rs;
  do rs <- addRegion "RGN_WITH_XBNDRIES" (asUnique sortf (region_plus (region_plus nob ix) ox)) rs;
  do ly <- getRegion "RGN_LOWER_Y" rs;
  do uy <- getRegion "RGN_UPPER_Y" rs;
  do rs <- addRegion "RGN_WITH_YBNDRIES" (asUnique sortf (region_plus (region_plus nob ly) uy)) rs;
  do bn <- getRegion "RGN_BNDRY" rs;
  addRegion "RGN_WITH_BNDRIES" (asUnique sortf (region_plus nob bn)) rs.

(** Both, in the order of BoutMesh::load (boutmesh.cxx:548, 554). *)
Definition mesh_regions (m : mesh) (c : conn) (cc per : bool) : res rmap :=
  do rs <- createDefaultRegions m; addBoundaryRegions m c cc per rs.
End Regions.

(** The local limits read by the BoundaryRegion constructors. *)
Definition lmesh_of (m : mesh) (nz : Z) : lmesh := mkL (LocalNx m) (LocalNy m) nz (xstart m) (xend m) (ystart m) (yend m).

(** boutmesh.cxx:924-953 createXBoundaries: the regions, with their labels. *)
Definition createXBoundaries (m : mesh) (nz : Z) (per : bool) : list (string * breg) :=
  if per then [] else if MXG m <=? 0 then [] else
  (if PE_XIND m =? 0 then
     let yg := getGlobalYIndexNoBoundaries m (MYG m) in
     let s := seps m in
     if ((yg >? j11 s) && (yg <=? j21 s)) || ((yg >? j12 s) && (yg <=? j22 s))
     then [("core"%string, mk_region (lmesh_of m nz) XIn (ystart m) (yend m))]
     else [("pf"%string, mk_region (lmesh_of m nz) XIn (ystart m) (yend m))]
   else []) ++
  (if PE_XIND m =? NXPE m - 1 then [("sol"%string, mk_region (lmesh_of m nz) XOut (ystart m) (yend m))] else []).

(** boutmesh.cxx:955-989 createYBoundaries. *)
Definition createYBoundaries (m : mesh) (c : conn) (nz : Z) (cc : bool) : list (string * breg) :=
  if MYG m <=? 0 then [] else
  let bxs := if cc && (I_DEST c =? -1) then 0 else xstart m in
  let bxe := if cc && (O_DEST c =? -1) then LocalNx m - 1 else xend m in
  let L := lmesh_of m nz in
  (if (U_IN c <? 0) && (U_XSPLIT c >? bxs)
   then [("upper_target"%string, mk_region L YUp bxs (U_XSPLIT c - 1))] else []) ++
  (if (U_OUT c <? 0) && (U_XSPLIT c <=? bxe)
   then [("upper_target"%string, mk_region L YUp (U_XSPLIT c) bxe)] else []) ++
  (if (D_IN c <? 0) && (D_XSPLIT c >? bxs)
   then [("lower_target"%string, mk_region L YDown bxs (D_XSPLIT c - 1))] else []) ++
  (if (D_OUT c <? 0) && (D_XSPLIT c <=? bxe)
   then [("lower_target"%string, mk_region L YDown (D_XSPLIT c) bxe)] else []).

(** The vector `boundary` of the mesh, boutmesh.cxx:545-546. *)
Definition boundaries (m : mesh) (c : conn) (nz : Z) (cc per : bool) : list (string * breg) :=
  createXBoundaries m nz per ++ createYBoundaries m c nz cc.

(** boutmesh.cxx:992-1052 getPossibleBoundaries: the labels of the boundaries of a few ranks.  mesh_copy (ctor 1739-1758) is
    rebuilt from the same sizes and separatrix indices for another rank, i.e. it is the mesh of that rank; its Mesh base is
    default constructed, so include_corner_cells = true (mesh.hxx:102).  std::set is a list, used up to membership. *)
Definition labels_at (M : Z -> mesh) (C : Z -> conn) (nz : Z) (per : bool) (xr yr : Z) : list string :=
  if (xr <? 0) || (xr >=? NXPE (M 0)) then [] else
  if (yr <? 0) || (yr >=? NYPE (M 0)) then [] else
  let q := NXPE (M 0) * yr + xr in
  map fst (boundaries (M q) (C q) nz true per).
Fixpoint labels_ys (M : Z -> mesh) (C : Z -> conn) (nz : Z) (per : bool) (ys : list Z) : res (list string) :=
  match ys with
  | [] => Ok []
  | y :: ys' => do p <- YPROC (M 0) y;
                do r <- labels_ys M C nz per ys';
                Ok (labels_at M C nz per 0 p ++ r)
  end.
Definition getPossibleBoundaries (M : Z -> mesh) (C : Z -> conn) (nz : Z) (per : bool) : res (list string) :=
  let s := seps (M 0) in
  do r <- labels_ys M C nz per [0; j11 s; j12 s; nyin s - 1; nyin s; j21 s; j22 s; g_ny (M 0) - 1];
  Ok (labels_at M C nz per (NXPE (M 0) - 1) 0 ++ r).
