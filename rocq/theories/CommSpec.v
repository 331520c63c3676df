(** What guard-cell communication must do, on local indices and on the global grid. *)
From Coq Require Import ZArith List Bool.
From Verif Require Import MeshModel MeshSpec TopoModel TopoSpec CommModel.
Import ListNotations.
Open Scope Z_scope.


(** Moving [n] cells along the field line, upwards for n > 0; TopoSpec.above/below are one step. *)
Fixpoint steps_below (n : nat) (ny : Z) (s : yseps) (lo up x y : Z) : option Z :=
  match n with
  | O => Some y
  | S n' => match below ny s lo up x y with
            | Some y' => steps_below n' ny s lo up x y'
            | None => None
            end
  end.

(** Global x index with periodic wrap-around. *)
Definition wrapx (per : bool) (nx mxg xg : Z) : Z := if per then (xg - mxg) mod (nx - 2 * mxg) + mxg else xg.

(** The global y index a local row stands for: for a guard row, the row reached along the field line from this rank's
    last (first) row; [None] beyond a target plate or the end of the domain. *)
Definition row_target (m : mesh) (ix1 ix2 x yl : Z) : option Z :=
  let s := seps m in
  if yl <? ystart m then steps_below (Z.to_nat (ystart m - yl)) (g_ny m) s (x_lower ix1 ix2) (x_upper s ix1 ix2) x
                                     (getGlobalYIndexNoBoundaries m (ystart m))
  else if yend m <? yl then steps_above (Z.to_nat (yl - yend m)) (g_ny m) s (x_lower ix1 ix2) (x_upper s ix1 ix2) x
                                     (getGlobalYIndexNoBoundaries m (yend m))
  else Some (getGlobalYIndexNoBoundaries m yl).

Section Spec.
Context {V : Type}.

(** Value of field number [k] of a list of fields. *)
Definition val (vs : list (field V)) (k : nat) (x y z : Z) : option V :=
  match nth_error vs k with Some f => Some (dat f x y z) | None => None end.

(** [z] is a z index of field number [k]: 0..nz-1 for 3D fields, 0 for 2D fields. *)
Definition zok (nz : Z) (vs : list (field V)) (k : nat) (z : Z) : bool :=
  match nth_error vs k with
  | Some f => if is3D f then (0 <=? z) && (z <? nz) else z =? 0
  | None => false
  end.

(** All ranks communicate the same list of 2D/3D fields. *)
Definition same_fields (npes : Z) (W : Z -> list (field V)) : Prop :=
  forall r, 0 <= r < npes -> map is3D (W r) = map is3D (W 0).

(** One exchange seen from one rank with local sizes mx, my (without guards), mxg, myg and neighbours
    [up x], [down x] (by local x), [inn], [out]; -1 is "none".  The guard cell takes the neighbour's cell that
    coincides with it; all other cells keep their value. *)
Definition expected (o : mode) (mx my mxg myg nz : Z) (up down : Z -> Z) (inn out : Z)
                    (W : Z -> list (field V)) (me : Z) (k : nat) (x y z : Z) : option V :=
  let inx := (0 <=? x) && (x <? mx + 2 * mxg) in
  let xrows := if corners o then (0 <=? y) && (y <? my + 2 * myg) else (myg <=? y) && (y <? myg + my) in
  if negb (zok nz (W me) k z) then val (W me) k x y z
  else if does_y o && inx && (my + myg <=? y) && (y <? my + 2 * myg) && negb (up x =? -1)
       then val (W (up x)) k x (y - my) z
  else if does_y o && inx && (0 <=? y) && (y <? myg) && negb (down x =? -1)
       then val (W (down x)) k x (y + my) z
  else if does_x o && xrows && (0 <=? x) && (x <? mxg) && negb (inn =? -1)
       then val (W inn) k (x + mx) y z
  else if does_x o && xrows && (mx + mxg <=? x) && (x <? mx + 2 * mxg) && negb (out =? -1)
       then val (W out) k (x - mx) y z
  else val (W me) k x y z.

(** A rank's own cells in x: its interior, and the boundary cells where it has no neighbour. *)
Definition owned_x (m : mesh) (c : conn) (xl : Z) : Prop :=
  MXG m <= xl < MXG m + MXSUB m \/ (I_DEST c = -1 /\ 0 <= xl < MXG m)
  \/ (O_DEST c = -1 /\ MXSUB m + MXG m <= xl < LocalNx m).

(** The ranks hold global fields F: every rank has the right values on its own cells. *)
Definition holds (npes nz : Z) (M : Z -> mesh) (C : Z -> conn) (W : Z -> list (field V))
                 (F : nat -> Z -> Z -> Z -> option V) : Prop :=
  forall r k xl yl z, 0 <= r < npes -> owned_x (M r) (C r) xl -> ystart (M r) <= yl <= yend (M r) ->
    zok nz (W r) k z = true ->
    val (W r) k xl yl z = F k (getGlobalXIndex (M r) xl) (getGlobalYIndexNoBoundaries (M r) yl) z.
End Spec.
