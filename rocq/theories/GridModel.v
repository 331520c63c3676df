(** Model of reading from a grid file: GridFile (/repo/src/mesh/data/gridfromfile.cxx, include/bout/griddata.hxx) and
    Mesh::get (src/mesh/mesh.cxx:95-180).

    The netCDF file is read into an Options tree by the constructor (options_netcdf.cxx): here a function from names to the
    value and the source attribute. Numbers convert as in OptConvModel; double is exact real arithmetic. Not modelled:
    FieldPerp, the cell location and direction attributes, output to the log, and the FFT format of 3D variables
    (readgrid_3dvar_fft), which is the parameter [fft]. [chk] is the value of the macro CHECK. A field is its flat storage;
    allocate() leaves arbitrary values [init]. *)
From Coq Require Import ZArith Reals List Bool String.
From Verif Require Import Base StringsModel OptConvModel MeshModel RegionModel CommModel.
Import ListNotations.
Open Scope Z_scope.

(** Values of the Options tree: scalars, Array, Matrix, Tensor (flat storage, utils.hxx:200-360). *)
Inductive entry :=
| Scalar (v : oval)
| Arr1 (n : Z) (d : Z -> R)
| Arr2 (n0 n1 : Z) (d : Z -> R)
| Arr3 (n0 n1 n2 : Z) (d : Z -> R).
(** The children of the Options: value, and whether the source is that of defaults. *)
Definition store := string -> option (entry * bool).
(** Options::isSet(key), options.hxx:668-678, options.cxx:236-248. *)
Definition isSet (D : store) (name : string) : bool := match D name with Some (_, dflt) => negb dflt | None => false end.
(** Options::force, options.hxx:393-396. *)
Definition force (D : store) (name : string) (e : entry) (dflt : bool) : store :=
  fun n => if String.eqb n name then Some (e, dflt) else D n.

Section Scalars.
Variable rtext : R -> str.
Variable L : ExprModel.lang.
Variable power : R -> R -> R.
Variable named : str -> list (ExprEvalModel.ctx -> res R) -> ExprEvalModel.ctx -> res R.
Variable resolved : str -> ExprEvalModel.ctx -> res R.
(** data[name].as<T> of an entry that holds an array is an error. *)
Definition as_scalar {A} (conv : oval -> res A) (D : store) (name : string) : res A :=
  match D name with Some (Scalar v, _) => conv v | _ => Throw end.
(** gridfromfile.cxx:55-67 get(std::string): the default is recorded with the source of defaults. *)
Definition get_string (D : store) (name : string) (def : str) : res (str * bool * store) :=
  let success := isSet D name in
  let D' := if success then D else force D name (Scalar (OS def)) true in
  do v <- as_scalar (as_string rtext) D' name; Ok (v, success, D').
(** 90-102 get(int), 104-119 get(BoutReal): the default is recorded with an empty source. *)
Definition get_int (D : store) (name : string) (def : Z) : res (Z * bool * store) :=
  let success := isSet D name in
  let D' := if success then D else force D name (Scalar (OI def)) false in
  do v <- as_scalar (as_int L power named resolved) D' name; Ok (v, success, D').
Definition get_real (D : store) (name : string) (def : R) : res (R * bool * store) :=
  let success := isSet D name in
  let D' := if success then D else force D name (Scalar (OR def)) false in
  do v <- as_scalar (as_real L power named resolved) D' name; Ok (v, success, D').
End Scalars.
(** 35 hasVar. *)
Definition hasVar := isSet.
(** 472-487 get(std::vector<BoutReal>): copy_n past the end is undefined. *)
Definition get_vector (D : store) (name : string) (len offset : Z) : res (option (list R)) :=
  if negb (isSet D name) then Ok None else
  match D name with
  | Some (Arr1 n d, _) => if (0 <=? offset) && (offset + len <=? n) then Ok (Some (map d (zrange offset (offset + len)))) else UB
  | _ => Throw
  end.

Fixpoint mfor {A} (l : list Z) (body : Z -> A -> res A) (a : A) : res A :=
  match l with [] => Ok a | i :: l' => do a' <- body i a; mfor l' body a' end.

(** An element of a Matrix or Tensor (checked with CHECK > 1), of a field (checked with CHECK > 2). *)
Definition flat_index (checked : bool) (n0 n1 n2 x y z : Z) : res Z :=
  if checked && negb ((0 <=? x) && (x <? n0) && (0 <=? y) && (y <? n1) && (0 <=? z) && (z <? n2)) then Throw else
  let k := tensor_flat n1 n2 x y z in
  if (0 <=? k) && (k <? n0 * n1 * n2) then Ok k else UB.

Section Fields.
Variable chk : Z.
Variable m : mesh.
Variables (numberOfXPoints : Z).
(** griddata.hxx:178-179: y_boundary_guards and ny_inner of the file, 0 if they are not there. *)
Variables (grid_yguards ny_inner : Z).
Definition assert1 (b : bool) : res unit := if (1 <=? chk) && negb b then Throw else Ok tt.
Definition assign_at (nz x y z : Z) (v : R) (f : Z -> R) : res (Z -> R) :=
  do k <- flat_index (3 <=? chk) (LocalNx m) (LocalNy m) nz x y z; Ok (fun i => if i =? k then v else f i).
Definition value_at (nz x y z : Z) (f : Z -> R) : res R :=
  do k <- flat_index (3 <=? chk) (LocalNx m) (LocalNy m) nz x y z; Ok (f k).
(** The loops of readField for Field2D (385-389, nz = nzf = 1) and of readgrid_3dvar_real (669-677): [nz] is LocalNz, [nzf]
    the size in the file. *)
Definition read_loops (n0 n1 nzf nz : Z) (d : Z -> R) (ys yd ny_to_read xs xd nx_to_read : Z) (f : Z -> R) : res (Z -> R) :=
  mfor (zrange xs (xs + nx_to_read)) (fun x => mfor (zrange ys (ys + ny_to_read)) (fun y => mfor (zrange 0 nzf) (fun z f =>
    do k <- flat_index (2 <=? chk) n0 n1 nzf x y z;
    assign_at nz (x - xs + xd) (y - ys + yd) z (d k) f))) f.
(** 645-656: arguments that do not make sense. *)
Definition sensible (ys yd ny_to_read xs xd nx_to_read : Z) : bool :=
  (0 <=? ys) && (0 <=? yd) && (0 <=? ny_to_read) && (0 <=? xs) && (0 <=? xd) && (0 <=? nx_to_read).
Variable fft : entry -> Z -> Z -> Z -> Z -> Z -> Z -> (Z -> R) -> res (Z -> R).
(** 376-390 readField(Field2D), 392-433 readField(Field3D). *)
Definition readField (k3 : bool) (nz : Z) (D : store) (e : entry) (ys yd ny_to_read xs xd nx_to_read : Z) (f : Z -> R) : res (Z -> R) :=
  if negb k3 then match e with Arr2 n0 n1 d => read_loops n0 n1 1 1 d ys yd ny_to_read xs xd nx_to_read f | _ => Throw end
  else if hasVar D "nz" then
    match e with
    | Arr3 n0 n1 n2 d =>
        if negb (n2 =? nz) then Throw else
        if negb (sensible ys yd ny_to_read xs xd nx_to_read) then Throw else
        read_loops n0 n1 n2 nz d ys yd ny_to_read xs xd nx_to_read f
    | _ => UB (* size[2] of a vector of two *)
    end
  else match e with Arr3 _ _ _ _ => fft e ys yd ny_to_read xs xd nx_to_read f | _ => Throw end.
(** 325-345: guard cells in x copied from the nearest point. *)
Definition fill_x (nz : Z) (f : Z -> R) : res (Z -> R) :=
  let copy from x := mfor (zrange 0 (LocalNy m)) (fun y => mfor (zrange 0 nz) (fun z f => do v <- value_at nz from y z f; assign_at nz x y z v f)) in
  do f1 <- mfor (zrange 0 (xstart m)) (copy (xstart m)) f;
  mfor (zrange (xend m + 1) (LocalNx m)) (copy (xend m)) f1.
(** 347-365: guard cells in y. *)
Definition fill_y (nz : Z) (f : Z -> R) : res (Z -> R) :=
  mfor (zrange 0 (LocalNx m)) (fun x f =>
    let copy from y := mfor (zrange 0 nz) (fun z f => do v <- value_at nz x from z f; assign_at nz x y z v f) in
    do f1 <- mfor (zrange 0 (ystart m)) (copy (ystart m)) f;
    mfor (zrange (yend m + 1) (LocalNy m)) (copy (yend m)) f1) f.
(** 2329-2335 of boutmesh.cxx. *)
Definition numberOfYBoundaries : Z := if negb (j21 (seps m) =? j12 (seps m)) then 2 else 1.
Section Convert.
Variable asreal : oval -> res R.
(** 160-372 getField for Field2D ([k3] = false) and Field3D. [nz] is LocalNz. *)
Definition getField (k3 : bool) (LocalNz : Z) (D : store) (name : string) (def : R) (init : Z -> R) : res (bool * (Z -> R)) :=
  if negb (isSet D name) then Ok (false, fun _ => def) else
  match D name with
  | None => UB
  | Some (Scalar v, _) => do r <- asreal v; Ok (true, fun _ => r)
  | Some (Arr1 n d, _) => Throw (* not of size 1, or as<BoutReal> of an Array *)
  | Some (e, _) =>
      let '(n0, n1, three) := match e with Arr2 n0 n1 _ => (n0, n1, false) | Arr3 n0 n1 _ _ => (n0, n1, true) | _ => (1, 1, false) end in
      if three && negb k3 then Ok (false, fun _ => def) else
      let nz := if k3 then LocalNz else 1 in
      let mxg := Z.quot (LocalNx m - (xend m - xstart m + 1)) 2 in
      let myg := Z.quot (LocalNy m - (yend m - ystart m + 1)) 2 in
      do a1 <- assert1 (Z.rem (LocalNx m - (xend m - xstart m + 1)) 2 =? 0);
      do a2 <- assert1 (Z.rem (LocalNy m - (yend m - ystart m + 1)) 2 =? 0);
      let xs := OffsetX m in
      do ys <- (if numberOfXPoints >? 1 then
                  do a <- assert1 (numberOfXPoints =? 2);
                  Ok (if OffsetY m >=? ny_inner then OffsetY m + 2 * grid_yguards else OffsetY m)
                else Ok (OffsetY m));
      let grid_xguards := Z.quot (n0 - (GlobalNx m - 2 * mxg)) 2 in
      do a3 <- assert1 (Z.rem (n0 - (GlobalNx m - 2 * mxg)) 2 =? 0);
      do x <- (if grid_xguards >=? 0 then
                 let xd := grid_xguards - mxg in do a <- assert1 (xd >=? 0); Ok (LocalNx m, xd)
               else if grid_xguards =? 0 then Ok (LocalNx m - 2 * mxg, mxg)
               else Throw);
      do y <- (if grid_yguards >? 0 then
                 do a <- assert1 (n1 =? GlobalNy m);
                 let yd := grid_yguards - myg in do b <- assert1 (yd >=? 0); Ok (LocalNy m, yd)
               else if grid_yguards =? 0 then
                 do a <- assert1 (n1 =? GlobalNy m - numberOfYBoundaries * 2 * myg); Ok (LocalNy m - 2 * myg, myg)
               else Throw);
      do f <- readField k3 nz D e ys (snd y) (fst y) xs (snd x) (fst x) init;
      do f1 <- (if n0 =? GlobalNx m - 2 * mxg then fill_x nz f else Ok f);
      do f2 <- (if grid_yguards =? 0 then fill_y nz f1 else Ok f1);
      Ok (true, f2)
  end.
End Convert.
End Fields.
(** 14-26 the constructor: y_boundary_guards and ny_inner as they are in the file (withDefault does not change the value read). *)
Definition file_int (D : store) (name : string) : res Z :=
  match D name with Some (Scalar (OI n), _) => Ok n | None => Ok 0 | _ => Throw end.
