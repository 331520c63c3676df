(** Where the rows of the grid are in a grid file. *)
From Coq Require Import ZArith Reals Bool.
From Verif Require Import MeshModel GridModel.
Open Scope Z_scope.

(** The file holds, without boundary rows ([g] = 0), rows 0..ny-1 of the grid. With [g] boundary rows it holds [g] rows of the
    lower boundary, the grid, and [g] rows of the upper boundary; with two pairs of targets the boundary rows of the two
    targets in the middle come after [ny_inner] rows of the grid. *)
Definition file_row (g ny_inner : Z) (two_targets : bool) (gy : Z) : Z :=
  if g =? 0 then gy else g + gy + (if two_targets && (ny_inner <=? gy) then 2 * g else 0).
(** The row for the local row [y] of processor [m]: its own, and for guard cells the row as far from the edge of the processor
    (the nearest one if there are no boundary rows). *)
Definition local_file_row (m : mesh) (g ny_inner : Z) (two_targets : bool) (y : Z) : Z :=
  let row y := file_row g ny_inner two_targets (getGlobalYIndexNoBoundaries m y) in
  if y <? ystart m then row (ystart m) - (if g =? 0 then 0 else ystart m - y)
  else if y <=? yend m then row y
  else row (yend m) + (if g =? 0 then 0 else y - yend m).
(** Element of an array of the file. *)
Definition elem3 (n1 n2 : Z) (d : Z -> R) (x y z : Z) : R := d ((x * n1 + y) * n2 + z).
(** Cell (x, y, z) of a field on [m]. *)
Definition cell (m : mesh) (nz : Z) (f : Z -> R) (x y z : Z) : R := f ((x * LocalNy m + y) * nz + z).
