(** Specification vocabulary: tensors by indices. *)
From Coq Require Import Reals ZArith Bool.
From Verif Require Import Base GeomModel.
Local Open Scope R_scope.

Inductive ax := X | Y | Z.
Definition delta (i j : ax) : R := match i, j with X, X | Y, Y | Z, Z => 1 | _, _ => 0 end.
Definition sum3 (f : ax -> R) : R := f X + f Y + f Z.
Definition m_at (a : mat) (i j : ax) : R :=
  match i, j with X, X => a00 a | X, Y => a01 a | X, Z => a02 a | Y, X => a10 a | Y, Y => a11 a | Y, Z => a12 a
  | Z, X => a20 a | Z, Y => a21 a | Z, Z => a22 a end.
Definition s_at (g : sym) (i j : ax) : R :=
  match i, j with X, X => s11 g | Y, Y => s22 g | Z, Z => s33 g | X, Y | Y, X => s12 g | X, Z | Z, X => s13 g | Y, Z | Z, Y => s23 g end.
Definition v_at (v : vec) (i : ax) : R := match i with X => vx v | Y => vy v | Z => vz v end.
Definition t_at (t : tri) (i : ax) : R := match i with X => t1 t | Y => t2 t | Z => t3 t end.
Definition inverse_of (a b : ax -> ax -> R) : Prop :=
  (forall i j, sum3 (fun k => a i k * b k j) = delta i j) /\ (forall i j, sum3 (fun k => b i k * a k j) = delta i j).
Definition determinant (a : ax -> ax -> R) : R :=
  a X X * (a Y Y * a Z Z - a Y Z * a Z Y) - a X Y * (a Y X * a Z Z - a Y Z * a Z X) + a X Z * (a Y X * a Z Y - a Y Y * a Z X).
(** g^ij and g_ij are inverse to each other. *)
Definition good_coords (m : coords) : Prop := inverse_of (s_at (gup m)) (s_at (glow m)).
(** Two representations of the same vector: equal contravariant components. *)
Definition contra (m : coords) (v : vec) (i : ax) : R :=
  if covariant v then sum3 (fun j => s_at (gup m) i j * v_at v j) else v_at v i.
Definition same_vector (m : coords) (v w : vec) : Prop := forall i, contra m v i = contra m w i.
(** The metric inner product. *)
Definition inner (m : coords) (v w : vec) : R := sum3 (fun i => sum3 (fun j => s_at (glow m) i j * contra m v i * contra m w j)).
(** The Christoffel symbol of the second kind; [d l i j] is the derivative of g_ij along l. *)
Definition Gamma (g : ax -> ax -> R) (d : ax -> ax -> ax -> R) (i j k : ax) : R :=
  1 / 2 * sum3 (fun l => g i l * (d k l j + d j l k - d l j k)).
Definition d_at (d : dmetric) (l i j : ax) : R := s_at (match l with X => dX d | Y => dY d | Z => dZ d end) i j.
Definition G_at (G : christoffel) (i j k : ax) : R := s_at (match i with X => G1 G | Y => G2 G | Z => G3 G end) j k.
(** Linear operators on fields and commutation. *)
Definition linear_op (D : fld -> fld) : Prop :=
  (forall f g i, D (fun k => f k + g k) i = D f i + D g i) /\ (forall a f i, D (fun k => a * f k) i = a * D f i) /\
  (forall f g, (forall i, f i = g i) -> forall i, D f i = D g i).
Definition commute (D E : fld -> fld) : Prop := forall f i, D (E f) i = E (D f) i.
(** Second-order central difference in x on a grid whose dx depends on x only (and y, z likewise). *)
Definition Cx (dx : BinInt.Z -> R) (f : fld) : fld := fun '(x, y, z) => (f (x + 1, y, z)%Z - f (x - 1, y, z)%Z) / (2 * dx x).
Definition Cy (dy : BinInt.Z -> R) (f : fld) : fld := fun '(x, y, z) => (f (x, y + 1, z)%Z - f (x, y - 1, z)%Z) / (2 * dy y).
Definition Cz (dz : BinInt.Z -> R) (f : fld) : fld := fun '(x, y, z) => (f (x, y, z + 1)%Z - f (x, y, z - 1)%Z) / (2 * dz z).
