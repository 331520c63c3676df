(** Specification vocabulary for C81. *)
From Coq Require Import ZArith List.
From Verif Require Import Base MeshModel.
Open Scope Z_scope.

(** The local cells of a rank that are part of the global array: the x range without inner guard cells but with the x
    boundaries of the grid on the first and last rank in x; the y range without guard cells and boundaries. *)
Definition owned (m : mesh) (x y : Z) : Prop :=
  (if PE_XIND m =? 0 then 0 else xstart m) <= x <= (if PE_XIND m =? NXPE m - 1 then LocalNx m - 1 else xend m) /\
  ystart m <= y <= yend m.
(** All ranks loaded the same grid. *)
Definition ranks (npes nx ny mxg myg : Z) s user (M : Z -> mesh) : Prop :=
  0 < npes /\ 0 < ny /\ 0 <= mxg /\ 0 <= myg /\
  forall p, 0 <= p < npes -> load_decomposition npes p nx ny mxg myg s user = Ok (M p).
(** [g] holds F at the flat index of global point (gx, gy, z) of an array with ny rows and nz points in z. *)
Definition holds {V} (ny nz : Z) (g : Z -> V) (gx gy z : Z) (v : V) : Prop := g ((gx * ny + gy) * nz + z) = v.
