(** Model of the interpolation classes: src/mesh/interpolation/{bilinear,lagrange_4pt,hermite_spline,monotonic_hermite_spline}_xz.cxx,
    src/mesh/interpolation/hermite_spline_z.cxx, src/mesh/interpolation_xz.cxx and include/bout/interpolation.hxx.

    Simplifications: BoutReal is R (the range checks on t_x and t_z are kept although they cannot fail in R); [floor] then
    [static_cast<int>] is the integer part, without overflow of int; a Field3D is a function of the three indices, every read
    is checked against the extent of the local array (a read outside is [UB]). The loops [BOUT_FOR] over the region are done in
    the region's order. *)
From Coq Require Import Reals ZArith List.
From Verif Require Import Base DerivModel.
Import ListNotations.
Local Open Scope R_scope.

(** The local mesh: array extents and the range of non-boundary X indices. *)
Record lmesh := Mesh { LocalNx : Z; LocalNy : Z; LocalNz : Z; xstart : Z; xend : Z }.
Definition pt : Type := Z * Z * Z.

(** One (X, Z) plane of a field: a checked read. *)
Definition plane := Z -> Z -> R.
Definition rd (m : lmesh) (f : plane) (i k : Z) : res R :=
  if ((0 <=? i) && (i <? LocalNx m) && (0 <=? k) && (k <? LocalNz m))%Z%bool then Ok (f i k) else UB.

(** The wrap of the Z index, [((k % ncz) + ncz) % ncz], with C's remainder: bilinear_xz.cxx:112, lagrange_4pt_xz.cxx:106,
    hermite_spline_xz.cxx:88, hermite_spline_z.cxx:83. *)
Definition wrap (ncz k : Z) : Z := Z.rem (Z.rem k ncz + ncz) ncz.

(** The range check on t_x and t_z: bilinear_xz.cxx:70-80 and the same in the other classes. *)
Definition check_range (t : R) : res unit :=
  if Rlt_dec t 0 then Throw else if Rgt_dec t 1 then Throw else Ok tt.

(** ** Bilinear: bilinear_xz.cxx *)
Record bilinear_w := BW { bi : Z; bk : Z; w0 : R; w1 : R; w2 : R; w3 : R }.

(** lines 57-85, one point *)
Definition bilinear_weights (dx dz : R) : res bilinear_w :=
  let i := Int_part dx in
  let k := Int_part dz in
  let t_x := dx - IZR i in
  let t_z := dz - IZR k in
  let t_x1 := 1 - t_x in
  let t_z1 := 1 - t_z in
  do _ <- check_range t_x; do _ <- check_range t_z;
  Ok (BW i k (t_x1 * t_z1) (t_x * t_z1) (t_x1 * t_z) (t_x * t_z)).

(** lines 108-118, one point *)
Definition bilinear_point (m : lmesh) (f : plane) (w : bilinear_w) : res R :=
  let ncz := LocalNz m in
  let z_mod := wrap ncz (bk w) in
  let z_mod_p1 := Z.rem (z_mod + 1) ncz in
  do a <- rd m f (bi w) z_mod; do b <- rd m f (bi w + 1) z_mod;
  do c <- rd m f (bi w) z_mod_p1; do d <- rd m f (bi w + 1) z_mod_p1;
  Ok (a * w0 w + b * w1 w + c * w2 w + d * w3 w).

(** ** Four-point Lagrange: lagrange_4pt_xz.cxx *)
Record lagrange_w := LW { li : Z; lk : Z; lt_x : R; lt_z : R }.

(** lines 52-78, one point *)
Definition lagrange_weights (m : lmesh) (dx dz : R) : res lagrange_w :=
  let i := Int_part dx in
  let k := Int_part dz in
  let t_x := dx - IZR i in
  let t_z := dz - IZR k in
  let '(i, t_x) := if (i =? xend m)%Z then ((i - 1)%Z, 1) else (i, t_x) in
  do _ <- check_range t_x; do _ <- check_range t_z;
  Ok (LW i k t_x t_z).

(** lines 155-162 *)
Definition lagrange_4pt (v2m vm vp v2p offset : R) : R :=
  - offset * (offset - 1) * (offset - 2) * v2m / 6 + 0.5 * (offset * offset - 1) * (offset - 2) * vm
  - 0.5 * offset * (offset + 1) * (offset - 2) * vp + offset * (offset * offset - 1) * v2p / 6.

(** lines 117-134: the Z interpolation of one row *)
Definition lagrange_row (m : lmesh) (f : plane) (j z2m z zp z2p : Z) (t : R) : res R :=
  do a <- rd m f j z2m; do b <- rd m f j z; do c <- rd m f j zp; do d <- rd m f j z2p;
  Ok (lagrange_4pt a b c d t).

(** lines 96-137, one point *)
Definition lagrange_point (m : lmesh) (f : plane) (w : lagrange_w) : res R :=
  let jx := li w in
  let jx2mnew := if (jx =? 0)%Z then 0%Z else (jx - 1)%Z in
  let jxpnew := (jx + 1)%Z in
  let jx2pnew := if (jx =? LocalNx m - 2)%Z then jxpnew else (jxpnew + 1)%Z in
  let ncz := LocalNz m in
  let jz := wrap ncz (lk w) in
  let jzpnew := Z.rem (jz + 1) ncz in
  let jz2pnew := Z.rem (jz + 2) ncz in
  let jz2mnew := Z.rem (jz - 1 + ncz) ncz in
  do x0 <- lagrange_row m f jx2mnew jz2mnew jz jzpnew jz2pnew (lt_z w);
  do x1 <- lagrange_row m f jx jz2mnew jz jzpnew jz2pnew (lt_z w);
  do x2 <- lagrange_row m f jxpnew jz2mnew jz jzpnew jz2pnew (lt_z w);
  do x3 <- lagrange_row m f jx2pnew jz2mnew jz jzpnew jz2pnew (lt_z w);
  Ok (lagrange_4pt x0 x1 x2 x3 (lt_x w)).

(** ** Cubic Hermite spline: hermite_spline_xz.cxx *)
Record h4 := H4 { h00 : R; h01 : R; h10 : R; h11 : R }.
(** lines 103-113; hermite_spline_z.cxx:95-98 *)
Definition hermite_basis (t : R) : h4 :=
  H4 (2 * t * t * t - 3 * t * t + 1) (- (2) * t * t * t + 3 * t * t) (t * (1 - t) * (1 - t)) (t * t * t - t * t).

Record hermite_w := HW { hi : Z; hk : Z; hx : h4; hz : h4 }.

(** lines 68-113, one point *)
Definition hermite_weights (m : lmesh) (dx dz : R) : res hermite_w :=
  let i := Int_part dx in
  let k := Int_part dz in
  let t_x := dx - IZR i in
  let t_z := dz - IZR k in
  let '(i, t_x) := if (xend m <=? i)%Z then ((xend m - 1)%Z, 1) else (i, t_x) in
  let '(i, t_x) := if (i <? xstart m)%Z then (xstart m, 0) else (i, t_x) in
  let k := wrap (LocalNz m) k in
  do _ <- check_range t_x; do _ <- check_range t_z;
  Ok (HW i k (hermite_basis t_x) (hermite_basis t_z)).

(** lines 198-220: [g] interpolated in X at Z index [k], with [gx] its X derivative *)
Definition hermite_row (m : lmesh) (g gx : plane) (i k : Z) (h : h4) : res R :=
  do a <- rd m g i k; do b <- rd m g (i + 1) k; do c <- rd m gx i k; do d <- rd m gx (i + 1) k;
  Ok (a * h00 h + b * h01 h + c * h10 h + d * h11 h).

(** lines 189-225, one point; [fx], [fz], [fxz] are the derivatives in index space computed (and communicated) at lines
    163-182 *)
Definition hermite_point (m : lmesh) (f fx fz fxz : plane) (w : hermite_w) : res R :=
  let z_mod := hk w in
  let z_mod_p1 := Z.rem (z_mod + 1) (LocalNz m) in
  do f_z <- hermite_row m f fx (hi w) z_mod (hx w);
  do f_zp1 <- hermite_row m f fx (hi w) z_mod_p1 (hx w);
  do fz_z <- hermite_row m fz fxz (hi w) z_mod (hx w);
  do fz_zp1 <- hermite_row m fz fxz (hi w) z_mod_p1 (hx w);
  Ok (f_z * h00 (hz w) + f_zp1 * h01 (hz w) + fz_z * h10 (hz w) + fz_zp1 * h11 (hz w)).

(** The derivatives in index space, lines 163-182: DDX and DDZ with the default method C2 (index_derivs.cxx:73-75), X through
    neighbouring cells and Z through the periodic neighbours. The value of [fx] is the central difference wherever it is
    computed or received from the neighbouring processor; only the non-boundary X range is read by [hermite_point]. *)
Definition ddx_plane (f : plane) : plane := fun i k => DDX_C2 (populate SNone (fun j => f j k) i).
Definition ddz_plane (ncz : Z) (f : plane) : plane := fun i k => DDX_C2 (populate SNone (fun j => f i (Z.modulo j ncz)) k).
Definition spline_point (m : lmesh) (f : plane) (w : hermite_w) : res R :=
  let fz := ddz_plane (LocalNz m) f in
  hermite_point m f (ddx_plane f) fz (ddx_plane fz) w.

(** hermite_spline_xz.cxx:140-152 getWeightsForYApproximation: Z positions and weights *)
Definition y_approximation (m : lmesh) (w : hermite_w) : list (Z * R) :=
  let ncz := LocalNz m in
  let k_mod := hk w in
  let k_mod_m1 := if (0 <? k_mod)%Z then (k_mod - 1)%Z else (ncz - 1)%Z in
  let k_mod_p1 := Z.rem (k_mod + 1) ncz in
  let k_mod_p2 := Z.rem (k_mod + 2) ncz in
  [(k_mod_m1, - 0.5 * h10 (hz w)); (k_mod, h00 (hz w) - 0.5 * h11 (hz w));
   (k_mod_p1, h01 (hz w) + 0.5 * h10 (hz w)); (k_mod_p2, 0.5 * h11 (hz w))].

(** ** Monotonic Hermite spline: monotonic_hermite_spline_xz.cxx:62-135 *)
(** utils.hxx:468-488 BOUTMAX, BOUTMIN *)
Definition MAX2 (a c : R) : R := if Rgt_dec c a then c else a.
Definition MIN2 (a c : R) : R := if Rlt_dec c a then c else a.
Definition monotonic_point (m : lmesh) (f : plane) (w : hermite_w) : res R :=
  let ncz := LocalNz m in
  let z_mod := wrap ncz (hk w) in
  let z_mod_p1 := Z.rem (z_mod + 1) ncz in
  do result <- spline_point m f (HW (hi w) z_mod (hx w) (hz w));
  do a <- rd m f (hi w) z_mod; do b <- rd m f (hi w + 1) z_mod;
  do c <- rd m f (hi w) z_mod_p1; do d <- rd m f (hi w + 1) z_mod_p1;
  let localmax := MAX2 a (MAX2 b (MAX2 c d)) in
  let localmin := MIN2 a (MIN2 b (MIN2 c d)) in
  let result := if Rgt_dec result localmax then localmax else result in
  let result := if Rlt_dec result localmin then localmin else result in
  Ok result.

(** ** Hermite spline in Z only: hermite_spline_z.cxx *)
(** lines 70-98, one point *)
Definition zspline_weights (m : lmesh) (dz : R) : res (Z * h4) :=
  let corner := Int_part dz in
  let t_z := dz - IZR corner in
  let corner := wrap (LocalNz m) corner in
  do _ <- check_range t_z; Ok (corner, hermite_basis t_z).
(** lines 169-179, one point at X index [i]; [zp] of an index wraps (region.hxx Ind3D::zp, modelled in RegionModel) *)
Definition zspline_point (m : lmesh) (f : plane) (i : Z) (w : Z * h4) : res R :=
  let fz := ddz_plane (LocalNz m) f in
  let '(corner, h) := w in
  let corner_zp1 := Z.modulo (corner + 1) (LocalNz m) in
  do a <- rd m f i corner; do b <- rd m f i corner_zp1; do c <- rd m fz i corner; do d <- rd m fz i corner_zp1;
  Ok (a * h00 h + b * h01 h + c * h10 h + d * h11 h).

(** ** The loops over the region, common to the four XZ classes.
    The object's state is the skip mask and the weights of every point; a point whose weights were never calculated holds
    uninitialised values ([None]; reading them is [UB]). *)
Definition pt_eqb (p q : pt) : bool :=
  let '(x, y, z) := p in let '(x', y', z') := q in ((x =? x') && (y =? y') && (z =? z'))%Z%bool.
Definition upd {A} (st : pt -> option A) (p : pt) (a : A) : pt -> option A := fun q => if pt_eqb q p then Some a else st q.

(** calcWeights: bilinear_xz.cxx:48-86 *)
Fixpoint calcWeights {W} (calc : R -> R -> res W) (skip : pt -> bool) (delta_x delta_z : pt -> R) (region : list pt)
    (st : pt -> option W) : res (pt -> option W) :=
  match region with
  | [] => Ok st
  | i :: rest =>
      if skip i then calcWeights calc skip delta_x delta_z rest st
      else do w <- calc (delta_x i) (delta_z i); calcWeights calc skip delta_x delta_z rest (upd st i w)
  end.

(** interpolate: bilinear_xz.cxx:94-121; the result starts as an unset field ([emptyFrom]) *)
Fixpoint interpolate_loop {W} (m : lmesh) (point : plane -> W -> res R) (skip : pt -> bool) (y_offset : Z) (f : pt -> R)
    (st : pt -> option W) (region : list pt) (out : pt -> option R) : res (pt -> option R) :=
  match region with
  | [] => Ok out
  | (x, y, z) :: rest =>
      if skip (x, y, z) then interpolate_loop m point skip y_offset f st rest out
      else
        let y_next := (y + y_offset)%Z in
        if ((0 <=? y_next) && (y_next <? LocalNy m))%Z%bool then
          do w <- ofopt (st (x, y, z));
          do v <- point (fun i k => f (i, y_next, k)) w;
          interpolate_loop m point skip y_offset f st rest (upd out (x, y_next, z) v)
        else UB
  end.
Definition interpolate {W} (m : lmesh) (point : plane -> W -> res R) (skip : pt -> bool) (y_offset : Z) (f : pt -> R)
    (st : pt -> option W) (region : list pt) : res (pt -> option R) :=
  interpolate_loop m point skip y_offset f st region (fun _ => None).

(** bilinear_xz.cxx:124-134: calculate the weights, then interpolate *)
Definition interpolate_with {W} (m : lmesh) (calc : R -> R -> res W) (point : plane -> W -> res R) (skip : pt -> bool)
    (y_offset : Z) (f : pt -> R) (delta_x delta_z : pt -> R) (st : pt -> option W) (region : list pt) : res (pt -> option R) :=
  do st' <- calcWeights calc skip delta_x delta_z region st;
  interpolate m point skip y_offset f st' region.

(** ** interpolate(Field2D, delta_x): interpolation_xz.cxx:51-83, one point; [static_cast<int>] truncates towards zero *)
Definition truncate (r : R) : Z := if Rle_dec 0 r then Int_part r else (- Int_part (- r))%Z.
Definition rdx (nx : Z) (f : Z -> R) (i : Z) : res R := if ((0 <=? i) && (i <? nx))%Z%bool then Ok (f i) else UB.
Definition interpolate2d_point (nx : Z) (f : Z -> R) (jx : Z) (delta_x : R) : res R :=
  let jxnew := truncate delta_x in
  let xs := delta_x - IZR jxnew in
  let jxnew := (jxnew + jx)%Z in
  let '(jxnew, xs) := if (jxnew <? 0)%Z then (0%Z, 0) else if (nx - 1 <=? jxnew)%Z then ((nx - 2)%Z, 1) else (jxnew, xs) in
  do a <- rdx nx f jxnew; do b <- rdx nx f (jxnew + 1); Ok (a * (1 - xs) + b * xs).

(** ** Staggered interpolation: interpolation.hxx:36-38 and the calls in [interp_to], lines 97-184 *)
Definition interp (s : stencil) : R := (9 * (DerivModel.m s + DerivModel.p s) - DerivModel.mm s - DerivModel.pp s) / 16.
Definition interp_to_line (s : stagger) (f : Z -> R) (i : Z) : R := interp (populate s f i).
