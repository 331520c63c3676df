(** What FciModel should do, without its helpers. *)
From Coq Require Import Reals ZArith List.
From Verif Require Import Base InterpModel FciModel.
Import ListNotations.
Local Open Scope R_scope.

(** A point of the domain. *)
Definition in_domain (m : fmesh) (p : pt) : Prop :=
  let '(x, y, z) := p in (xstart (lm m) <= x <= xend (lm m))%Z /\ (ystart m <= y <= yend m)%Z /\ (0 <= z < LocalNz (lm m))%Z.
(** The line from [p] ends inside of the domain. *)
Definition stays (m : fmesh) (l : lines) (p : pt) : Prop := IZR (xstart (lm m)) <= xt l p <= IZR (xend (lm m)).
(** The point of the slice at offset [o] on the line from [p]. *)
Definition image (o : Z) (p : pt) : pt := let '(x, y, z) := p in (x, (y + o)%Z, z).
(** A mesh with enough guard cells for the slices. *)
Definition fits (m : fmesh) : Prop := (0 <= ystart m)%Z /\ (yend m + ystart m < LocalNy (lm m))%Z.

(** Where the line from [p] hits the boundary, in index space: half way in y; x and z such that the linearised change of (R, Z) is
    that to the end of the line (if the linear equations have one solution). [RX], [RZ], [ZX], [ZZ]: centred differences at [p], one
    sided at the ends in z. *)
Definition zdiff (m : fmesh) (F : pt -> R) (p : pt) : R :=
  let '(x, y, z) := p in
  if (z =? 0)%Z then F (x, y, (1 mod LocalNz (lm m))%Z) - F p
  else if (z =? LocalNz (lm m) - 1)%Z then F p - F (x, y, (z - 1)%Z)
  else (F (x, y, (z + 1)%Z) - F (x, y, (z - 1)%Z)) / 2.
Definition xdiff (F : pt -> R) (p : pt) : R := let '(x, y, z) := p in (F ((x + 1)%Z, y, z) - F ((x - 1)%Z, y, z)) / 2.
Definition foot (m : fmesh) (g : grid) (l : lines) (o : Z) (p : pt) (sx sy sz : R) : Prop :=
  let '(x, y, z) := p in
  sy = IZR y + IZR o / 2 /\
  (xdiff (Rg g) p * zdiff m (Zg g) p - zdiff m (Rg g) p * xdiff (Zg g) p <> 0 ->
   xdiff (Rg g) p * (sx - IZR x) + zdiff m (Rg g) p * (sz - IZR z) = Rprime l p - Rg g p /\
   xdiff (Zg g) p * (sx - IZR x) + zdiff m (Zg g) p * (sz - IZR z) = Zprime l p - Zg g p).
(** The value asked for: an expression is evaluated at a position, a field at the point the line starts from. *)
Definition value_at (v : source) (p : pt) (sx sy sz : R) : R := match v with Gen e => e sx sy sz | FromField a => a p | Real r => r end.

(** Interpolation at one point: [calc] then [point]. *)
Definition interpolated {W} (calc : R -> R -> res W) (point : plane -> W -> res R) (f : pt -> R) (l : lines) (o : Z) (p : pt) (v : R) : Prop :=
  let '(x, y, z) := p in (do w <- calc (xt l p) (zt l p); point (fun i k => f (i, (y + o)%Z, k)) w) = Ok v.
(** The grid file has all the lines, their ends have weights, and a line that stays can be interpolated. *)
Definition interpolable {W} (calc : R -> R -> res W) (point : plane -> W -> res R) (m : fmesh) (g : grid) (f : pt -> R) : Prop :=
  forall o, (1 <= Z.abs o <= ystart m)%Z -> exists l, line_data g o = Some l /\
    forall p, in_domain m p -> (exists w, calc (xt l p) (zt l p) = Ok w) /\ (stays m l p -> exists v, interpolated calc point f l o p v).
(** A value per cell: [q] is a polynomial of degree 2 along the line, distance measured towards the boundary. *)
Definition quadratic (a b c : R) (s : R) : R := a + b * s + c * s * s.
