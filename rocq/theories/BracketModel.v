(** Model of the Poisson bracket operators: src/mesh/difops.cxx:614-1162 bracket, methods BRACKET_ARAKAWA, BRACKET_ARAKAWA_OLD and
    BRACKET_CTU, without 3D metrics (the default build).

    Simplifications: BoutReal is R; a Field3D is a function of x, y, z and a Field2D of x, y; the result is [None] where the
    code leaves it unset ([emptyFrom]). Reads in z through a row pointer are checked against the row length ([UB] outside);
    x neighbours of the interior are guard cells and are not checked. BOUT_FOR over RGN_NOBNDRY and the OpenMP loops are done in
    the order x, y. Cell locations are not modelled. *)
From Coq Require Import Reals ZArith List Bool.
From Verif Require Import Base.
Import ListNotations.
Local Open Scope R_scope.

Record pmesh := PMesh { xstart : Z; xend : Z; ystart : Z; yend : Z; LocalNz : Z }.
Definition field3 := Z -> Z -> Z -> R.
Definition field2 := Z -> Z -> R.
Definition out3 := Z -> Z -> Z -> option R.

(** for (int i = a; i < b; i++) *)
Definition zrange (a b : Z) : list Z := map (fun i => (a + Z.of_nat i)%Z) (seq 0 (Z.to_nat (b - a))).

(** result(x, y, z) = v *)
Definition set3 (o : out3) (x y z : Z) (v : R) : out3 :=
  fun x' y' z' => if ((x' =? x) && (y' =? y) && (z' =? z))%Z%bool then Some v else o x' y' z'.

(** One row: a list of (jz, jzp, jzm), each writes result(jx, jy, jz); the indices must lie in the row. *)
Fixpoint rows (ncz : Z) (cell : Z -> Z -> Z -> R) (x y : Z) (l : list (Z * Z * Z)) (o : out3) : res out3 :=
  match l with
  | [] => Ok o
  | (jz, jzp, jzm) :: l' =>
      if ((0 <=? jz) && (jz <? ncz) && (0 <=? jzp) && (jzp <? ncz) && (0 <=? jzm) && (jzm <? ncz))%Z%bool
      then rows ncz cell x y l' (set3 o x y jz (cell jz jzp jzm)) else UB
  end.
(** lines 1010-1087 and 702-752: the first value, the middle block, the last value *)
Definition split_loop (ncz : Z) : list (Z * Z * Z) :=
  [(0, 1, ncz - 1)]%Z ++ map (fun jz => (jz, jz + 1, jz - 1)%Z) (zrange 1 (ncz - 1)) ++ [(ncz - 1, 0, ncz - 2)]%Z.
(** lines 1115-1123 and 770-776: the single loop of ARAKAWA_OLD *)
Definition single_loop (ncz : Z) : list (Z * Z * Z) :=
  map (fun jz => (jz, if (jz + 1 <? ncz)%Z then (jz + 1)%Z else 0%Z, if (jz - 1 >=? 0)%Z then (jz - 1)%Z else (ncz - 1)%Z)) (zrange 0 ncz).

(** The loop over the points of the X-Y plane. *)
Fixpoint over_xy (body : Z -> Z -> out3 -> res out3) (l : list (Z * Z)) (o : out3) : res out3 :=
  match l with [] => Ok o | (x, y) :: l' => do o' <- body x y o; over_xy body l' o' end.
Definition nobndry (m : pmesh) : list (Z * Z) :=
  flat_map (fun x => map (fun y => (x, y)) (zrange (ystart m) (yend m + 1))) (zrange (xstart m) (xend m + 1)).

(** lines 1024-1038 (and 1049-1063, 1074-1088, 1131-1149): one point, all three rows of f and g *)
Definition arakawa_cell (Fxm Fx Fxp Gxm Gx Gxp : Z -> R) (spacingFactor : R) (jz jzp jzm : Z) : R :=
  let Jpp := (Fx jzp - Fx jzm) * (Gxp jz - Gxm jz) - (Fxp jz - Fxm jz) * (Gx jzp - Gx jzm) in
  let Jpx := Gxp jz * (Fxp jzp - Fxp jzm) - Gxm jz * (Fxm jzp - Fxm jzm) - Gx jzp * (Fxp jzp - Fxm jzp) + Gx jzm * (Fxp jzm - Fxm jzm) in
  let Jxp := Gxp jzp * (Fx jzp - Fxp jz) - Gxm jzm * (Fxm jz - Fx jzm) - Gxm jzp * (Fx jzp - Fxm jz) + Gxp jzm * (Fxp jz - Fx jzm) in
  (Jpp + Jpx + Jxp) * spacingFactor.
(** lines 707-716 (and 724-733, 742-751): f three-dimensional, g two-dimensional *)
Definition arakawa32_cell (fxm fc fxp : Z -> R) (gxm gc gxp spacingFactor : R) (jz jzp jzm : Z) : R :=
  let Jpp := 2 * (fc jzp - fc jzm) * (gxp - gxm) in
  let Jpx := gxp * (fxp jzp - fxp jzm) - gxm * (fxm jzp - fxm jzm) + gc * (fxp jzm - fxp jzp - fxm jzm + fxm jzp) in
  (Jpp + Jpx) * spacingFactor.
(** lines 778-799: the same in ARAKAWA_OLD; spacingFactor = (1 / (12 dz)) / dx *)
Definition arakawa32_old_cell (fxm fc fxp : Z -> R) (gxm gc gxp spacingFactor : R) (jz jzp jzm : Z) : R :=
  let Jpp := (fc jzp - fc jzm) * (gxp - gxm) - (fxp jz - fxm jz) * (gc - gc) in
  let Jpx := gxp * (fxp jzp - fxp jzm) - gxm * (fxm jzp - fxm jzm) - gc * (fxp jzp - fxm jzp) + gc * (fxp jzm - fxm jzm) in
  let Jxp := gxp * (fc jzp - fxp jz) - gxm * (fxm jz - fc jzm) - gxm * (fc jzp - fxm jz) + gxp * (fxp jz - fc jzm) in
  (Jpp + Jpx + Jxp) * spacingFactor.

Definition unset : out3 := fun _ _ _ => None.

(** bracket(Field3D, Field3D): lines 984-1090 (ARAKAWA) and 1091-1153 (ARAKAWA_OLD); [gnx], [gnz] are GlobalNx, GlobalNz,
    lines 881-885. [old] selects the method. *)
Definition arakawa33 (old : bool) (gnx gnz : Z) (m : pmesh) (dx dz : field2) (f g : field3) : res out3 :=
  if ((gnx =? 1) || (gnz =? 1))%Z%bool then Ok (fun _ _ _ => Some 0)
  else
    over_xy (fun x y =>
      rows (LocalNz m)
        (arakawa_cell (f (x - 1)%Z y) (f x y) (f (x + 1)%Z y) (g (x - 1)%Z y) (g x y) (g (x + 1)%Z y) (1 / (12 * dz x y * dx x y)))
        x y (if old then single_loop (LocalNz m) else split_loop (LocalNz m))) (nobndry m) unset.
(** bracket(Field3D, Field2D): lines 682-757 (ARAKAWA), 758-806 (ARAKAWA_OLD) *)
Definition arakawa32 (old : bool) (m : pmesh) (dx dz : field2) (f : field3) (g : field2) : res out3 :=
  over_xy (fun x y =>
    rows (LocalNz m)
      (if old
       then arakawa32_old_cell (f (x - 1)%Z y) (f x y) (f (x + 1)%Z y) (g (x - 1)%Z y) (g x y) (g (x + 1)%Z y) (1 / (12 * dz x y) / dx x y)
       else arakawa32_cell (f (x - 1)%Z y) (f x y) (f (x + 1)%Z y) (g (x - 1)%Z y) (g x y) (g (x + 1)%Z y) (1 / (12 * dz x y * dx x y)))
      x y (if old then single_loop (LocalNz m) else split_loop (LocalNz m))) (nobndry m) unset.
(** bracket(Field2D, Field3D): lines 846-849 *)
Definition arakawa23 (m : pmesh) (dx dz : field2) (f : field2) (g : field3) : res out3 :=
  do o <- arakawa32 false m dx dz g f; Ok (fun x y z => option_map Ropp (o x y z)).
(** bracket(Field2D, Field2D): lines 627-630 *)
Definition arakawa22 : out3 := fun _ _ _ => Some 0.

(** ** BRACKET_CTU, bracket(Field3D, Field3D): lines 887-983 *)
(** lines 908-917: Vx = DDZ(f), Vz = -DDX(f) *)
Definition ctu_vx (ncz : Z) (dz : field2) (f : field3) (x y z : Z) : R :=
  (f x y (Z.rem (z + 1) ncz) - f x y (Z.rem (z - 1 + ncz) ncz)) / (2 * dz x y).
Definition ctu_vz (dx : field2) (f : field3) (x y z : Z) : R :=
  (f (x - 1)%Z y z - f (x + 1)%Z y z) / (1 / 2 * dx (x - 1)%Z y + dx x y + 1 / 2 * dx (x + 1)%Z y).
(** lines 919-921: the limits given to solver->setMaxTimestep at this point *)
Definition ctu_limits (ncz : Z) (dx dz : field2) (f : field3) (x y z : Z) : list R :=
  [Rabs (dx x y) / (Rabs (ctu_vx ncz dz f x y z) + 1 / 10 ^ 16); dz x y / (Rabs (ctu_vz dx f x y z) + 1 / 10 ^ 16)].
(** lines 928-978, one point; [dt] is solver->getCurrentTimestep() *)
Definition ctu_cell (ncz : Z) (dx dz : field2) (dt : R) (f g : field3) (x y z : Z) : R :=
  let zm := Z.rem (z - 1 + ncz) ncz in
  let zp := Z.rem (z + 1) ncz in
  let vx := ctu_vx ncz dz f x y z in
  let vz := ctu_vz dx f x y z in
  (* transverse z correction at column x' *)
  let cz (x' : Z) := (1 / 2 * dt / dz x y) * (if Rgt_dec vz 0 then vz * (g x' y zm - g x' y z) else vz * (g x' y z - g x' y zp)) in
  let '(gp, gm) := if Rgt_dec vx 0 then (g x y z + cz x, g (x - 1)%Z y z + cz (x - 1)%Z)
                   else (g (x + 1)%Z y z + cz (x + 1)%Z, g x y z + cz x) in
  let result := vx * (gp - gm) / dx x y in
  (* transverse x correction at row z' *)
  let cx (z' : Z) := (1 / 2 * dt / dx x y) * (if Rgt_dec vx 0 then vx * (g (x - 1)%Z y z' - g x y z') else vx * (g x y z' - g (x + 1)%Z y z')) in
  let '(gp, gm) := if Rgt_dec vz 0 then (g x y z + cx z, g x y zm + cx zm) else (g x y zp + cx zp, g x y z + cx z) in
  result + vz * (gp - gm) / dz x y.
(** lines 650-680, bracket(Field3D, Field2D) with BRACKET_CTU, one point *)
Definition ctu32_cell (ncz : Z) (dx dz : field2) (f : field3) (g : field2) (x y z : Z) : R :=
  let vx := ctu_vx ncz dz f x y z in
  let '(gp, gm) := if Rgt_dec vx 0 then (g x y, g (x - 1)%Z y) else (g (x + 1)%Z y, g x y) in
  vx * (gp - gm) / dx x y.
