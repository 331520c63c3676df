(** What a global numbering of the cells must be, in terms of local points and of BoundsSpec. *)
From Coq Require Import ZArith List Bool Sorted.
From Verif Require Import MeshModel MeshSpec TopoModel TopoSpec RegionModel RegionSpec BoundsSpec IndexerModel.
Import ListNotations.
Open Scope Z_scope.

(** The offsets of a stencil at a point: those of the first part whose test accepts the point. *)
Definition offsets_at (st : stencil) (i : sind) (part : list ioff) : Prop :=
  exists n test, nth_error st n = Some (test, part) /\ test i = true /\
    forall k t p, (k < n)%nat -> nth_error st k = Some (t, p) -> t i = false.

Definition pt (ny nz x y z : Z) : sind := mkInd (flat ny nz x y z) ny nz.
Definition interior (m : mesh) (nz x y z : Z) : Prop := inx m x /\ iny_ m y /\ 0 <= z < nz.
(** Some interior point's stencil reads the cell (z is periodic). *)
Definition read_by_stencil (st : stencil) (m : mesh) (nz x y z : Z) : Prop :=
  exists x' y' z' part o, interior m nz x' y' z' /\ offsets_at st (pt (LocalNy m) nz x' y' z') part /\ In o part /\
    x = x' + odx o /\ y = y' + ody o /\ z = (z' + odz o) mod nz.
(** Cells of the boundaries of this processor, BoundsSpec. *)
Definition boundary_cell (m : mesh) (cc per : bool) (ix1 ix2 x y : Z) : Prop :=
  (target_columns m cc (leaves_below m ix1 ix2) x /\ 0 <= y < ystart m) \/
  (target_columns m cc (leaves_above m ix1 ix2) x /\ yend m < y < LocalNy m) \/
  (beyond_inner m per x /\ iny_ m y) \/ (beyond_outer m per x /\ iny_ m y).
(** The cells that get a number on this processor. *)
Definition numbered (st : stencil) (m : mesh) (nz : Z) (cc per : bool) (ix1 ix2 x y z : Z) : Prop :=
  interior m nz x y z \/ (boundary_cell m cc per ix1 ix2 x y /\ read_by_stencil st m nz x y z).

(** The stencil does not reach further than the guard cells, and is defined at all interior points if it has any part. *)
Definition fits (st : stencil) (m : mesh) (nz : Z) : Prop :=
  (forall x y z part o, interior m nz x y z -> offsets_at st (pt (LocalNy m) nz x y z) part -> In o part ->
     - MXG m <= odx o <= MXG m /\ - MYG m <= ody o <= MYG m) /\
  (st <> [] -> forall x y z, interior m nz x y z -> exists part, offsets_at st (pt (LocalNy m) nz x y z) part).

(** No corner cell gets a number that the exchange of guard cells then replaces. *)
Definition settled (st : stencil) (m : mesh) (nz : Z) (cc per : bool) (ix1 ix2 : Z) : Prop :=
  forall x y z, numbered st m nz cc per ix1 ix2 x y z ->
    inx m x \/ iny_ m y \/
    (per = false /\ (y < ystart m -> leaves_below m ix1 ix2 x) /\ (yend m < y -> leaves_above m ix1 ix2 x)).
