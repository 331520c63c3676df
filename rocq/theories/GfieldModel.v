(** Model of src/field/globalfield.cxx and include/bout/globalfield.hxx: GlobalField2D / GlobalField3D gather and scatter.

    [M p] is the mesh object of rank p (MeshModel). A field on rank p is a function of local indices, defined inside the local
    array; reading or writing outside is [UB]. Buffers and the global array are functions of the flat index with a size.
    GlobalField2D is the case LocalNz = 1: its code is that of the 3D class without the z loop (buffer index x*ysize + y,
    data index jx*ny + jy). MPI: a message arrives unchanged at the receive posted for it (tag 3141 or 1413 and the rank); the
    order in which MPI_Waitany reports the messages is arbitrary ([order]). *)
From Coq Require Import ZArith List Bool.
From Verif Require Import Base MeshModel AverageModel.
Import ListNotations.
Open Scope Z_scope.

(** ** 24-36 proc_local_origin, 38-62 proc_origin, 64-84 proc_size: the x and y parts. *)
Definition local_xorig (m : mesh) (proc : Z) : Z := if Z.rem proc (NXPE m) =? 0 then 0 else xstart m.
Definition local_yorig (m : mesh) (proc : Z) : Z := ystart m.
Definition xorig (m : mesh) (proc : Z) : Z :=
  let pex := Z.rem proc (NXPE m) in
  let x := pex * (xend m - xstart m + 1) in
  if negb (pex =? 0) then x + xstart m else x.
Definition yorig (m : mesh) (proc : Z) : Z := Z.quot proc (NXPE m) * (yend m - ystart m + 1).
Definition xsize (m : mesh) (proc : Z) : Z :=
  let pex := Z.rem proc (NXPE m) in
  let lx := xend m - xstart m + 1 in
  let lx := if pex =? 0 then lx + xstart m else lx in
  if pex =? NXPE m - 1 then lx + xstart m else lx.
Definition ysize (m : mesh) (proc : Z) : Z := yend m - ystart m + 1.

Section G.
Variable V : Type.
Variable M : Z -> mesh.
Variable npes nz : Z.          (* number of ranks, LocalNz (1 for a GlobalField2D) *)

Definition msg_len (m : mesh) (p : Z) : Z := xsize m p * ysize m p * nz.   (* 245-249, 453-458 *)

(** Memory: flat arrays with bounds, and local fields. *)
Definition buf := Z -> V.
Definition wr (size : Z) (b : buf) (k : Z) (v : V) : res buf :=
  if (0 <=? k) && (k <? size) then Ok (fun i => if i =? k then v else b i) else UB.
Definition rd (size : Z) (b : buf) (k : Z) : res V := if (0 <=? k) && (k <? size) then Ok (b k) else UB.
Definition fld := Z -> Z -> Z -> V.
Definition in_local (m : mesh) (x y z : Z) : bool :=
  (0 <=? x) && (x <? LocalNx m) && ((0 <=? y) && (y <? LocalNy m)) && ((0 <=? z) && (z <? nz)).
Definition frd (m : mesh) (f : fld) (x y z : Z) : res V := if in_local m x y z then Ok (f x y z) else UB.
Definition fwr (m : mesh) (f : fld) (x y z : Z) (v : V) : res fld :=
  if in_local m x y z then Ok (fun a b c => if (a =? x) && (b =? y) && (c =? z) then v else f a b c) else UB.

(** for x < xs, for y < ys, for z < nz. *)
Definition upto (k : Z) : list Z := map Z.of_nat (seq 0 (Z.to_nat k)).
Definition cells (xs ys : Z) : list (Z * Z * Z) :=
  flat_map (fun x => flat_map (fun y => map (fun z => (x, y, z)) (upto nz)) (upto ys)) (upto xs).
Fixpoint each {S : Type} (l : list (Z * Z * Z)) (body : S -> Z -> Z -> Z -> res S) (s : S) : res S :=
  match l with [] => Ok s | (x, y, z) :: l' => do s' <- body s x y z; each l' body s' end.

(** The global array of rank [d]: 256-258 (91-93), index operator globalfield.hxx: jz + nz*jy + nz*ny*jx. *)
Definition gny (m : mesh) : Z := GlobalNy m - numberOfYBoundaries m * 2 * ystart m.
Definition gsize (m : mesh) : Z := GlobalNx m * gny m * nz.
Definition gidx (m : mesh) (jx jy jz : Z) : Z := jz + nz * jy + nz * gny m * jx.

(** 7-23 and 255-275: constructor on rank [r] for data on rank [proc]. *)
Definition construct (r proc : Z) : res unit :=
  if gsize (M r) <=? 0 then Throw else if (proc <? 0) || (npes <=? proc) then Throw else Ok tt.

(** 349-370 sending: the packed buffer of rank p. *)
Definition pack (p : Z) (f : fld) (junk : buf) : res buf :=
  let m := M p in
  each (cells (xsize m p) (ysize m p))
    (fun b x y z => do v <- frd m f (local_xorig m p + x) (local_yorig m p + y) z;
                    wr (msg_len m p) b (x * ysize m p * nz + y * nz + z) v) junk.

(** 288-347 on rank [d]: its own data, then the messages as they arrive. *)
Definition own_copy (d : Z) (f : fld) (g : buf) : res buf :=
  let m := M d in
  each (cells (xsize m d) (ysize m d))
    (fun g x y z => do v <- frd m f (local_xorig m d + x) (local_yorig m d + y) z;
                    wr (gsize m) g (gidx m (x + xorig m d) (y + yorig m d) z) v) g.
Definition unpack (d p : Z) (b : buf) (g : buf) : res buf :=
  let m := M d in
  each (cells (xsize m p) (ysize m p))
    (fun g x y z => do v <- rd (msg_len m p) b (x * ysize m p * nz + y * nz + z);
                    wr (gsize m) g (gidx m (x + xorig m p) (y + yorig m p) z) v) g.
Fixpoint receive (d : Z) (f : Z -> fld) (junk : Z -> buf) (order : list Z) (g : buf) : res buf :=
  match order with
  | [] => Ok g
  | p :: o =>
    do b <- pack p (f p) (junk p);
    if negb (msg_len (M p) p =? msg_len (M d) p) then UB
    else do g' <- unpack d p b g; receive d f junk o g'
  end.
(** gather onto rank d of the fields [f]; [order] lists the other ranks as their messages arrive. *)
Definition gather (d : Z) (f : Z -> fld) (order : list Z) (junk : Z -> buf) (g : buf) : res buf :=
  do u <- construct d d;
  do g1 <- own_copy d (f d) g; receive d f junk order g1.

(** 376-451 scatter: the result on rank r of the global array [g] of rank d; [junk] the contents of an allocated field. *)
Definition scatter (d r : Z) (g : buf) (jb : buf) (junk : fld) : res fld :=
  let m := M r in
  if r =? d then
    each (cells (xsize m r) (ysize m r))
      (fun f x y z => do v <- rd (gsize m) g (gidx m (x + xorig m r) (y + yorig m r) z);
                      fwr m f (local_xorig m r + x) (local_yorig m r + y) z v) junk
  else
    let md := M d in
    do b <- each (cells (xsize md r) (ysize md r))
              (fun b x y z => do v <- rd (gsize md) g (gidx md (x + xorig md r) (y + yorig md r) z);
                              wr (msg_len md r) b (x * ysize md r * nz + y * nz + z) v) jb;
    if msg_len m r <? msg_len md r then UB
    else
      each (cells (xsize m r) (ysize m r))
        (fun f x y z => do v <- rd (msg_len m r) b (x * ysize m r * nz + y * nz + z);
                        fwr m f (local_xorig m r + x) (local_yorig m r + y) z v) junk.
End G.
