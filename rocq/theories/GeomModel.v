(** Model of the metric tensor and vector algebra: include/bout/utils.hxx invert3x3, src/mesh/coordinates.cxx (metric inversion,
    Jacobian, connection coefficients), src/field/vector3d.cxx and src/field/vecops.cxx. One grid cell at a time (every loop is
    BOUT_FOR over cells with no dependence between cells); BoutReal is R. CELL_VSHIFT vectors are not modelled. *)
From Coq Require Import Reals ZArith Bool.
From Verif Require Import Base.
Local Open Scope R_scope.

(** Matrix<BoutReal>(3,3): a(i,j), row-major. *)
Record mat := Mat { a00 : R; a01 : R; a02 : R; a10 : R; a11 : R; a12 : R; a20 : R; a21 : R; a22 : R }.

(** utils.hxx:399-441. Returns the int result and the (possibly overwritten) matrix. *)
Definition invert3x3 (a : mat) (small : R) : res (Z * mat) :=
  let A := a11 a * a22 a - a12 a * a21 a in
  let B := a12 a * a20 a - a10 a * a22 a in
  let C := a10 a * a21 a - a11 a * a20 a in
  let det := a00 a * A + a01 a * B + a02 a * C in
  if Rlt_dec (Rabs det) (Rabs small) then
    if Rge_dec small 0 then Throw else Ok (1%Z, a)
  else
    let D := a02 a * a21 a - a01 a * a22 a in
    let E := a00 a * a22 a - a02 a * a20 a in
    let F := a01 a * a20 a - a00 a * a21 a in
    let G := a01 a * a12 a - a02 a * a11 a in
    let H := a02 a * a10 a - a00 a * a12 a in
    let I := a00 a * a11 a - a01 a * a10 a in
    let detinv := 1 / det in
    Ok (0%Z, Mat (A * detinv) (D * detinv) (G * detinv) (B * detinv) (E * detinv) (H * detinv) (C * detinv) (F * detinv) (I * detinv)).

(** The six stored components of a symmetric tensor: g11 g22 g33 g12 g13 g23 or g_11 ... *)
Record sym := Sym { s11 : R; s22 : R; s33 : R; s12 : R; s13 : R; s23 : R }.
Definition small_default : R := 1 / 10 ^ 15.                              (* utils.hxx:399, the default argument *)
(** coordinates.cxx:1233-1258 (calcCovariant) and 1289-1314 (calcContravariant) at one cell: the same text with the roles of g_ij and
    g^ij exchanged. A return value of 1 from invert3x3 is impossible with the default (positive) [small]. *)
Definition calc_inverse (g : sym) : res sym :=
  let a := Mat (s11 g) (s12 g) (s13 g) (s12 g) (s22 g) (s23 g) (s13 g) (s23 g) (s33 g) in
  do r <- invert3x3 a small_default;
  let b := snd r in
  Ok (Sym (a00 b) (a11 b) (a22 b) (a01 b) (a02 b) (a12 b)).
(** coordinates.cxx:1337-1344 jacobian at one cell: checkPositive throws on g <= 0. *)
Definition jacobian (gup : sym) : res R :=
  let g := s11 gup * s22 gup * s33 gup + 2 * s12 gup * s13 gup * s23 gup - s11 gup * s23 gup * s23 gup - s22 gup * s13 gup * s13 gup
           - s33 gup * s12 gup * s12 gup in
  if Rle_dec g 0 then Throw else Ok (1 / sqrt g).
(** coordinates.cxx:1349: Bxy = sqrt(g_22)/J. *)
Definition Bxy (glow : sym) (J : R) : R := sqrt (s22 glow) / J.

(** vector3d.hxx: components and whether they are covariant. *)
Record vec := Vec { vx : R; vy : R; vz : R; covariant : bool }.
(** Coordinates at the cell: g^ij, g_ij, J. *)
Record coords := Coords { gup : sym; glow : sym; cJ : R }.
(** vector3d.cxx:65-116 / 117-171 (the branch without CELL_VSHIFT). *)
Definition lower_with (g : sym) (v : vec) (co : bool) : vec :=
  Vec (s11 g * vx v + s12 g * vy v + s13 g * vz v) (s22 g * vy v + s12 g * vx v + s23 g * vz v)
      (s33 g * vz v + s13 g * vx v + s23 g * vy v) co.
Definition toCovariant (m : coords) (v : vec) : vec := if covariant v then v else lower_with (glow m) v true.
Definition toContravariant (m : coords) (v : vec) : vec := if covariant v then lower_with (gup m) v false else v.
(** vector3d.cxx:247-261, 283-297: operator+=, operator-=. *)
Definition vadd (m : coords) (v rhs : vec) : vec :=
  let v := if covariant rhs then toCovariant m v else toContravariant m v in
  Vec (vx v + vx rhs) (vy v + vy rhs) (vz v + vz rhs) (covariant v).
Definition vsub (m : coords) (v rhs : vec) : vec :=
  let v := if covariant rhs then toCovariant m v else toContravariant m v in
  Vec (vx v - vx rhs) (vy v - vy rhs) (vz v - vz rhs) (covariant v).
(** vector3d.cxx:271-280, 313-345: unary minus, *= and /= by a scalar. *)
Definition vneg (v : vec) : vec := Vec (vx v * -1) (vy v * -1) (vz v * -1) (covariant v).
Definition vscale (v : vec) (k : R) : vec := Vec (vx v * k) (vy v * k) (vz v * k) (covariant v).
(** vector3d.cxx:366-392: CROSS. *)
Definition cross (m : coords) (lhs rhs : vec) : vec :=
  let rco := toCovariant m rhs in
  let lco := toCovariant m lhs in
  Vec ((vy lco * vz rco - vz lco * vy rco) / cJ m) ((vz lco * vx rco - vx lco * vz rco) / cJ m)
      ((vx lco * vy rco - vy lco * vx rco) / cJ m) false.
(** vector3d.cxx:462-492: operator* (dot product). *)
Definition dot (m : coords) (v rhs : vec) : R :=
  if xorb (covariant rhs) (covariant v) then vx v * vx rhs + vy v * vy rhs + vz v * vz rhs
  else
    let g := if covariant v then gup m else glow m in
    (vx v * vx rhs * s11 g + vy v * vy rhs * s22 g + vz v * vz rhs * s33 g) +
    ((vx v * vy rhs + vy v * vx rhs) * s12 g + (vx v * vz rhs + vz v * vx rhs) * s13 g + (vy v * vz rhs + vz v * vy rhs) * s23 g).
(** vector3d.cxx:599-601. *)
Definition vabs (m : coords) (v : vec) : R := sqrt (dot m v v).

(** * Connection coefficients: coordinates.cxx:970-1030 *)
(** The values at the cell of DDX, DDY, DDZ of the metric components; [uX], [uY], [uZ] are those of the g^ij. *)
Record dmetric := DMetric { dX : sym; dY : sym; dZ : sym; uX : sym; uY : sym; uZ : sym }.
(** G<i>_11, G<i>_22, G<i>_33, G<i>_12, G<i>_13, G<i>_23. *)
Record christoffel := Chr { G1 : sym; G2 : sym; G3 : sym }.
Definition geometry (g : sym) (d : dmetric) : christoffel :=
  let g11 := s11 g in let g22 := s22 g in let g33 := s33 g in let g12 := s12 g in let g13 := s13 g in let g23 := s23 g in
  Chr
  (Sym (1/2 * g11 * s11 (dX d) + g12 * (s12 (dX d) - 1/2 * s11 (dY d)) + g13 * (s13 (dX d) - 1/2 * s11 (dZ d)))
       (g11 * (s12 (dY d) - 1/2 * s22 (dX d)) + 1/2 * g12 * s22 (dY d) + g13 * (s23 (dY d) - 1/2 * s22 (dZ d)))
       (g11 * (s13 (dZ d) - 1/2 * s33 (dX d)) + g12 * (s23 (dZ d) - 1/2 * s33 (dY d)) + 1/2 * g13 * s33 (dZ d))
       (1/2 * g11 * s11 (dY d) + 1/2 * g12 * s22 (dX d) + 1/2 * g13 * (s13 (dY d) + s23 (dX d) - s12 (dZ d)))
       (1/2 * g11 * s11 (dZ d) + 1/2 * g12 * (s12 (dZ d) + s23 (dX d) - s13 (dY d)) + 1/2 * g13 * s33 (dX d))
       (1/2 * g11 * (s12 (dZ d) + s13 (dY d) - s23 (dX d)) + 1/2 * g12 * (s22 (dZ d) + s23 (dY d) - s23 (dY d)) + 1/2 * g13 * s33 (dY d)))
  (Sym (1/2 * g12 * s11 (dX d) + g22 * (s12 (dX d) - 1/2 * s11 (dY d)) + g23 * (s13 (dX d) - 1/2 * s11 (dZ d)))
       (* line 992 differentiates g23 (contravariant), not g_23 *)
       (g12 * (s12 (dY d) - 1/2 * s22 (dX d)) + 1/2 * g22 * s22 (dY d) + g23 * (s23 (uY d) - 1/2 * s22 (dZ d)))
       (g12 * (s13 (dZ d) - 1/2 * s33 (dX d)) + g22 * (s23 (dZ d) - 1/2 * s33 (dY d)) + 1/2 * g23 * s33 (dZ d))
       (1/2 * g12 * s11 (dY d) + 1/2 * g22 * s22 (dX d) + 1/2 * g23 * (s13 (dY d) + s23 (dX d) - s12 (dZ d)))
       (1/2 * g12 * (s11 (dZ d) + s13 (dX d) - s13 (dX d)) + 1/2 * g22 * (s12 (dZ d) + s23 (dX d) - s13 (dY d)) + 1/2 * g23 * s33 (dX d))
       (1/2 * g12 * (s12 (dZ d) + s13 (dY d) - s23 (dX d)) + 1/2 * g22 * s22 (dZ d) + 1/2 * g23 * s33 (dY d)))
  (Sym (1/2 * g13 * s11 (dX d) + g23 * (s12 (dX d) - 1/2 * s11 (dY d)) + g33 * (s13 (dX d) - 1/2 * s11 (dZ d)))
       (g13 * (s12 (dY d) - 1/2 * s22 (dX d)) + 1/2 * g23 * s22 (dY d) + g33 * (s23 (dY d) - 1/2 * s22 (dZ d)))
       (g13 * (s13 (dZ d) - 1/2 * s33 (dX d)) + g23 * (s23 (dZ d) - 1/2 * s33 (dY d)) + 1/2 * g33 * s33 (dZ d))
       (1/2 * g13 * s11 (dY d) + 1/2 * g23 * s22 (dX d) + 1/2 * g33 * (s13 (dY d) + s23 (dX d) - s12 (dZ d)))
       (1/2 * g13 * s11 (dZ d) + 1/2 * g23 * (s12 (dZ d) + s23 (dX d) - s13 (dY d)) + 1/2 * g33 * s33 (dX d))
       (1/2 * g13 * (s12 (dZ d) + s13 (dY d) - s23 (dX d)) + 1/2 * g23 * s22 (dZ d) + 1/2 * g33 * s33 (dY d))).

(** coordinates.cxx:1021-1029: G1, G2, G3 from the cell values of DDX(J g^1j), DDY(J g^2j), DDZ(J g^3j). *)
Definition Gs (J : R) (jX jY jZ : sym) : R * R * R :=
  ((s11 jX + s12 jY + s13 jZ) / J, (s12 jX + s22 jY + s23 jZ) / J, (s13 jX + s23 jY + s33 jZ) / J).
(** coordinates.cxx:1812-1829 Laplace(Field3D): [fx fy fz] first derivatives, [f2] second derivatives (D2DXDY in s12 ...). *)
Definition Laplace (g : sym) (Gs : R * R * R) (fx fy fz : R) (f2 : sym) : R :=
  let '(G1, G2, G3) := Gs in
  G1 * fx + G2 * fy + G3 * fz + s11 g * s11 f2 + s22 g * s22 f2 + s33 g * s33 f2 + 2 * (s12 g * s12 f2 + s13 g * s13 f2 + s23 g * s23 f2).

(** vecops.cxx:371-475 V_dot_Grad of a vector: VDDX(vcn.x, a.x) etc. enter through their cell values, here v * d (central schemes);
    [aX] = (DDX a.x, DDX a.y, DDX a.z), ... *)
Record tri := Tri { t1 : R; t2 : R; t3 : R }.
Definition V_dot_Grad (m : coords) (G : christoffel) (v a : vec) (aX aY aZ : tri) : vec :=
  let w := toContravariant m v in
  let adv (f : tri -> R) := vx w * f aX + vy w * f aY + vz w * f aZ in
  if covariant a then
    Vec (adv t1 - vx w * (s11 (G1 G) * vx a + s11 (G2 G) * vy a + s11 (G3 G) * vz a)
                - vy w * (s12 (G1 G) * vx a + s12 (G2 G) * vy a + s12 (G3 G) * vz a)
                - vz w * (s13 (G1 G) * vx a + s13 (G2 G) * vy a + s13 (G3 G) * vz a))
        (adv t2 - vx w * (s12 (G1 G) * vx a + s12 (G2 G) * vy a + s12 (G3 G) * vz a)
                - vy w * (s22 (G1 G) * vx a + s22 (G2 G) * vy a + s22 (G3 G) * vz a)
                - vz w * (s23 (G1 G) * vx a + s23 (G2 G) * vy a + s23 (G3 G) * vz a))
        (adv t3 - vx w * (s13 (G1 G) * vx a + s13 (G2 G) * vy a + s13 (G3 G) * vz a)
                - vy w * (s23 (G1 G) * vx a + s23 (G2 G) * vy a + s23 (G3 G) * vz a)
                - vz w * (s33 (G1 G) * vx a + s33 (G2 G) * vy a + s33 (G3 G) * vz a)) true
  else
    let row (g : sym) := vx w * (s11 g * vx a + s12 g * vy a + s13 g * vz a) + vy w * (s12 g * vx a + s22 g * vy a + s23 g * vz a)
                         + vz w * (s13 g * vx a + s23 g * vy a + s33 g * vz a) in
    Vec (adv t1 + row (G1 G)) (adv t2 + row (G2 G)) (adv t3 + row (G3 G)) false.

(** * Grad, Div, Curl on fields (vecops.cxx:70-97, 243-279 Div, 281-310 Curl) *)
(** A field is a function of the cell; DDX, DDY, DDZ are arbitrary operators on fields. The co/contravariant conversions are the
    identity here: the arguments are already in the components the operators work with. *)
Definition cell : Type := Z * Z * Z.
Definition fld := cell -> R.
Record vfld := VF { fx : fld; fy : fld; fz : fld }.
Definition Grad (Dx Dy Dz : fld -> fld) (f : fld) : vfld := VF (Dx f) (Dy f) (Dz f).
Definition Div (Dx Dy Dz : fld -> fld) (J : fld) (v : vfld) : fld := fun i =>
  (Dy (fun k => J k * fy v k) i + Dx (fun k => J k * fx v k) i + Dz (fun k => J k * fz v k) i) / J i.
Definition Curl (Dx Dy Dz : fld -> fld) (J torsion : fld) (v : vfld) : vfld :=
  VF (fun i => (Dy (fz v) i - Dz (fy v) i) / J i) (fun i => (Dz (fx v) i - Dx (fz v) i) / J i)
     (fun i => (Dx (fy v) i - Dy (fx v) i) / J i - torsion i * fz v i / J i).
