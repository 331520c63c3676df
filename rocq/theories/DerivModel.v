(** Model of src/mesh/index_derivs.cxx and include/bout/stencils.hxx: the finite-difference schemes on one grid line.
    BoutReal is modelled by the real numbers R (no rounding, no NaN); a line of cells is a function from Z. *)
From Coq Require Import Reals ZArith.
Local Open Scope R_scope.

(** stencils.hxx:33-37. *)
Record stencil := St { mm : R; m : R; c : R; p : R; pp : R }.
Inductive stagger := SNone | C2L | L2C.
(** stencils.hxx:40-119 populateStencil, for the directions X, Y, Z (f[i.plus<k>] is f at the cell k further along the line;
    for YOrthogonal it is the parallel slice's value, again the k-th neighbour). With one guard cell mm and/or pp stay NaN:
    the schemes registered with one guard cell are proved not to look at them. *)
Definition populate (s : stagger) (f : Z -> R) (i : Z) : stencil :=
  match s with
  | SNone => St (f (i - 2)%Z) (f (i - 1)%Z) (f i) (f (i + 1)%Z) (f (i + 2)%Z)
  | C2L => St (f (i - 2)%Z) (f (i - 1)%Z) (f i) (f i) (f (i + 1)%Z)
  | L2C => St (f (i - 1)%Z) (f i) (f i) (f (i + 1)%Z) (f (i + 2)%Z)
  end.

Definition WENO_SMALL : R := 1 / 10 ^ 8.                                  (* index_derivs.hxx:53 *)
Definition SQ (x : R) := x * x.                                            (* utils.hxx:455 *)
Definition SIGN (a : R) : R := if Rlt_dec a 0 then -1 else 1.              (* utils.hxx:500 *)

(** index_derivs.cxx:73-75, 78-80, 83-102, 105-113. *)
Definition DDX_C2 (f : stencil) := 1 / 2 * (p f - m f).
Definition DDX_C4 (f : stencil) := (8 * p f - 8 * m f + mm f - pp f) / 12.
Definition DDX_CWENO2 (f : stencil) :=
  let dc := 1 / 2 * (p f - m f) in let dl := c f - m f in let dr := p f - c f in
  let isl := SQ dl in let isr := SQ dr in
  let isc := 13 / 3 * SQ (p f - 2 * c f + m f) + 1 / 4 * SQ (p f - m f) in
  let al := 1 / 4 / SQ (WENO_SMALL + isl) in
  let ar := 1 / 4 / SQ (WENO_SMALL + isr) in
  let ac := 1 / 2 / SQ (WENO_SMALL + isc) in
  (al * dl + ar * dr + ac * dc) / (al + ar + ac).
Definition DDX_S2 (f : stencil) :=
  (8 * p f - 8 * m f + mm f - pp f) / 12 + SIGN (c f) * (pp f - 4 * p f + 6 * c f - 4 * m f + mm f) / 12.
(** index_derivs.cxx:122-136. *)
Definition D2DX2_C2 (f : stencil) := p f + m f - 2 * c f.
Definition D2DX2_C4 (f : stencil) := (- pp f + 16 * p f - 30 * c f + 16 * m f - mm f) / 12.
Definition D4DX4_C2 (f : stencil) := pp f - 4 * p f + 6 * c f - 4 * m f + mm f.
(** index_derivs.cxx:149-219 (the code after the first return of each function is unreachable). *)
Definition VDDX_C2 (vc : R) (f : stencil) := vc * (1 / 2) * (p f - m f).
Definition VDDX_C4 (vc : R) (f : stencil) := vc * (8 * p f - 8 * m f + mm f - pp f) / 12.
Definition VDDX_U1 (vc : R) (f : stencil) := if Rge_dec vc 0 then vc * (c f - m f) else vc * (p f - c f).
Definition VDDX_U2 (vc : R) (f : stencil) :=
  if Rge_dec vc 0 then vc * (3 / 2 * c f - 2 * m f + 1 / 2 * mm f) else vc * (- (1 / 2) * pp f + 2 * p f - 3 / 2 * c f).
Definition VDDX_U3 (vc : R) (f : stencil) :=
  if Rge_dec vc 0 then vc * (4 * p f - 12 * m f + 2 * mm f + 6 * c f) / 12
  else vc * (- 4 * m f + 12 * p f - 2 * pp f - 6 * c f) / 12.
Definition VDDX_WENO3 (vc : R) (f : stencil) :=
  let r := if Rgt_dec vc 0
           then (WENO_SMALL + SQ (c f - 2 * m f + mm f)) / (WENO_SMALL + SQ (p f - 2 * c f + m f))
           else (WENO_SMALL + SQ (pp f - 2 * p f + c f)) / (WENO_SMALL + SQ (p f - 2 * c f + m f)) in
  let deriv := if Rgt_dec vc 0 then - mm f + 3 * m f - 3 * c f + p f else - m f + 3 * c f - 3 * p f + pp f in
  let w := 1 / (1 + 2 * r * r) in
  vc * (1 / 2 * ((p f - m f) - w * deriv)).
(** index_derivs.cxx:222-262. *)
Definition larger (ma a : R) : R := if Rgt_dec a ma then a else ma.
Definition DDX_CWENO3 (f : stencil) :=
  let ma := larger (larger (larger (larger (Rabs (c f)) (Rabs (m f))) (Rabs (p f))) (Rabs (mm f))) (Rabs (pp f)) in
  let sp := St (mm f + ma) (m f + ma) (c f + ma) (p f + ma) (pp f + ma) in
  let sm := St (ma - mm f) (ma - m f) (ma - c f) (ma - p f) (ma - pp f) in
  VDDX_WENO3 (1 / 2) sp + VDDX_WENO3 (- (1 / 2)) sm.
(** index_derivs.cxx:269-306. *)
Definition FDDX_U1 (v f : stencil) :=
  let vs := 1 / 2 * (m v + c v) in
  let result := if Rge_dec vs 0 then vs * m f else vs * c f in
  let vs := 1 / 2 * (c v + p v) in
  - (result - (if Rge_dec vs 0 then vs * c f else vs * p f)).
Definition FDDX_U2 (v f : stencil) :=
  let vs := 1 / 2 * (m v + c v) in
  let result := if Rge_dec vs 0 then vs * (3 / 2 * m f - 1 / 2 * mm f) else vs * (3 / 2 * c f - 1 / 2 * p f) in
  let vs := 1 / 2 * (c v + p v) in
  - (result - (if Rge_dec vs 0 then vs * (3 / 2 * c f - 1 / 2 * m f) else vs * (3 / 2 * p f - 1 / 2 * pp f))).
Definition FDDX_C2 (v f : stencil) := 1 / 2 * (p v * p f - m v * m f).
Definition FDDX_C4 (v f : stencil) := (8 * p v * p f - 8 * m v * m f + mm v * mm f - pp v * pp f) / 12.
(** index_derivs.cxx:329-344 (staggered). *)
Definition DDX_C2_stag (f : stencil) := p f - m f.
Definition DDX_C4_stag (f : stencil) := (27 * (p f - m f) - (pp f - mm f)) / 24.
Definition D2DX2_C2_stag (f : stencil) := (pp f + mm f - p f - m f) / 2.
(** index_derivs.cxx:347-390. *)
Definition VDDX_U1_stag (v f : stencil) :=
  let result := if Rge_dec (m v) 0 then m v * m f else m v * c f in
  let result := result - (if Rge_dec (p v) 0 then p v * c f else p v * p f) in
  - result - c f * (p v - m v).
Definition VDDX_U2_stag (v f : stencil) :=
  let result := if Rge_dec (p v) 0 then p v * (3 / 2 * c f - 1 / 2 * m f) else p v * (3 / 2 * p f - 1 / 2 * pp f) in
  let result := result - (if Rge_dec (m v) 0 then m v * (3 / 2 * m f - 1 / 2 * mm f) else m v * (3 / 2 * c f - 1 / 2 * p f)) in
  result - c f * (p v - m v).
Definition VDDX_C2_stag (v f : stencil) := 1 / 2 * (p v + m v) * (1 / 2) * (p f - m f).
Definition VDDX_C4_stag (v f : stencil) := (9 * (m v + p v) - mm v - pp v) / 16 * (8 * p f - 8 * m f + mm f - pp f) / 12.
(** index_derivs.cxx:392-416. *)
Definition FDDX_U1_stag (v f : stencil) :=
  let result := if Rge_dec (m v) 0 then m v * m f else m v * c f in
  - (result - (if Rge_dec (p v) 0 then p v * c f else p v * p f)).
Definition FDDX_U2_stag (v f : stencil) :=
  let result := if Rge_dec (p v) 0 then p v * (3 / 2 * c f - 1 / 2 * m f) else p v * (3 / 2 * p f - 1 / 2 * pp f) in
  result - (if Rge_dec (m v) 0 then m v * (3 / 2 * m f - 1 / 2 * mm f) else m v * (3 / 2 * c f - 1 / 2 * p f)).

(** index_derivs.hxx:84-119 DerivativeType: the driver, at one cell. *)
Definition standard (func : stencil -> R) (s : stagger) (var : Z -> R) (i : Z) : R := func (populate s var i).
Definition upwind (func : R -> stencil -> R) (vel var : Z -> R) (i : Z) : R := func (vel i) (populate SNone var i).
Definition flux (func : stencil -> stencil -> R) (s : stagger) (vel var : Z -> R) (i : Z) : R :=
  func (populate s vel i) (populate SNone var i).

(** * Cell-edge reconstructions: include/bout/fv_ops.hxx:75-163 *)
Record edges := Edges { eL : R; eR : R }.
Definition BOUTMIN2 (a b : R) := if Rlt_dec b a then b else a.           (* utils.hxx:481-488 *)
Definition BOUTMIN3 (a b d : R) := BOUTMIN2 a (BOUTMIN2 b d).
Definition Upwind (n : stencil) := Edges (c n) (c n).
Definition Fromm (n : stencil) := Edges (c n - 1 / 4 * (p n - m n)) (c n + 1 / 4 * (p n - m n)).
Definition minmod2 (a b : R) : R := if Rle_dec (a * b) 0 then 0 else if Rlt_dec (Rabs a) (Rabs b) then a else b.
Definition MinMod (n : stencil) :=
  let slope := minmod2 (p n - c n) (c n - m n) in Edges (c n - 1 / 2 * slope) (c n + 1 / 2 * slope).
Definition minmod3 (a b d : R) : R :=
  if Rle_dec (a * b) 0 then 0 else if Rle_dec (a * d) 0 then 0 else SIGN a * BOUTMIN3 (Rabs a) (Rabs b) (Rabs d).
Definition MC (n : stencil) :=
  let slope := minmod3 (2 * (p n - c n)) (1 / 2 * (p n - m n)) (2 * (c n - m n)) in
  Edges (c n - 1 / 2 * slope) (c n + 1 / 2 * slope).
(** utils.hxx:511-513. *)
Definition MINMOD (a b : R) : R := 1 / 2 * (SIGN a + SIGN b) * BOUTMIN2 (Rabs a) (Rabs b).
