(* Vocabulary for the boundary-condition theorems, independent of how BndryModel computes:
   where the guard cells of a region are, polynomials, and "nothing else changed". *)
Require Import ZArith List Bool Reals.
Require Import Verif.BndryModel.
Import ListNotations.
Local Open Scope Z_scope.

(* The k-th cell outwards on the grid line with tangential index t: k = 0 is the guard cell
   next to the domain, k = width-1 the outermost, k = -1 the last cell of the domain. The
   boundary lies half-way between k = -1 and k = 0. *)
Definition gcell (m : lmesh) (b : breg) (k t : Z) : pos :=
  match b_side b with
  | XIn => (b_width b - 1 - k, t)
  | XOut => (LNx m - b_width b + k, t)
  | YDown => (t, b_width b - 1 - k)
  | YUp => (t, LNy m - b_width b + k)
  end.

(* The index of a position along the boundary. *)
Definition tang (b : breg) (p : pos) : Z :=
  match b_side b with XIn | XOut => snd p | YDown | YUp => fst p end.

(* The grid spacing across the boundary at a position. *)
Definition spacing (b : breg) (dx dy : vfun) (p : pos) (z : Z) : R :=
  match b_side b with XIn | XOut => dx p z | YDown | YUp => dy p z end.

(* The region fits in the local array, with at least d cells of the array inwards of it. *)
Definition fits (m : lmesh) (b : breg) (d : Z) : Prop :=
  0 <= b_width b /\ 0 <= b_lo b /\
  match b_side b with
  | XIn | XOut => b_width b + d <= LNx m /\ b_hi b < LNy m
  | YDown | YUp => b_width b + d <= LNy m /\ b_hi b < LNx m
  end.

(* p is one of the cells k0 <= k < width (k0 = 0: a guard cell) of the region. *)
Definition in_strip (m : lmesh) (b : breg) (k0 k1 : Z) (p : pos) : Prop :=
  exists k t, k0 <= k < k1 /\ b_lo b <= t <= b_hi b /\ p = gcell m b k t.

(* Cells outside the strip are unchanged, and so is everything at other z indices. *)
Definition only_changes (m : lmesh) (b : breg) (k0 k1 : Z) (f f' : field) : Prop :=
  forall p z, ~ (in_strip m b k0 k1 p /\ 0 <= z < LNz m) -> f' p z = f p z.

(* Every grid line crossing the region satisfies P (before, after, position, z). *)
Definition on_lines (m : lmesh) (b : breg) (f f' : field)
    (P : (Z -> R) -> (Z -> R) -> pos -> Z -> Prop) : Prop :=
  forall t z, b_lo b <= t <= b_hi b -> 0 <= z < LNz m ->
    P (fun k => f (gcell m b k t) z) (fun k => f' (gcell m b k t) z) (gcell m b 0 t) z.

(* Polynomials with coefficients cs, lowest first; value and derivative. *)
Fixpoint peval (cs : list R) (x : R) : R :=
  match cs with [] => 0%R | c :: cs' => (c + x * peval cs' x)%R end.
Fixpoint pderiv (cs : list R) (x : R) : R :=
  match cs with [] => 0%R | c :: cs' => (peval cs' x + x * pderiv cs' x)%R end.

(* Outward distance of cell k from the boundary, in cells, when the cell centres are used
   (boundary half-way) ... *)
Definition dist (k : Z) : R := (IZR k + 1 / 2)%R.
(* ... and when cell e itself lies on the boundary (staggered field). *)
Definition dist_from (e k : Z) : R := IZR (k - e).

(* The cells k0 <= k < k1 of a line are samples of the polynomial. *)
Definition samples (l : Z -> R) (at_ : Z -> R) (cs : list R) (k0 k1 : Z) : Prop :=
  forall k, k0 <= k < k1 -> l k = peval cs (at_ k).

(* A condition of order n on the value: the polynomial of degree < n through the guard cell
   k = 0 and the n-1 cells inwards of it takes the value v on the boundary, and every further
   guard cell lies on it too; and it is exact: when the domain cells are samples of a
   polynomial of degree < n with value v on the boundary, so are all the guard cells. *)
Definition imposes_value (n w : Z) (l l' : Z -> R) (v : R) : Prop :=
  forall cs, Z.of_nat (length cs) = n ->
    (samples l' dist cs (1 - n) 1 -> peval cs 0 = v /\ samples l' dist cs (1 - n) w) /\
    (samples l dist cs (1 - n) 0 -> peval cs 0 = v -> samples l' dist cs (1 - n) w).

(* The same on the outward derivative per cell, for the guard cells k < w. The polynomial has
   degree < n; the derivative is taken through the cells k >= k0. *)
Definition imposes_gradient (n k0 w : Z) (l l' : Z -> R) (g : R) : Prop :=
  forall cs, Z.of_nat (length cs) = n ->
    (samples l' dist cs k0 1 -> pderiv cs 0 = g) /\
    (samples l dist cs (Z.min k0 (- w)) 0 -> pderiv cs 0 = g -> samples l' dist cs (Z.min k0 (- w)) w).

(* Cell e of a staggered field lies on the boundary. Its value is v, and the cells outwards of
   it continue the polynomial of degree < n through e and the n-1 cells inwards. *)
Definition continues (n e w : Z) (l' : Z -> R) : Prop :=
  forall cs, Z.of_nat (length cs) = n ->
    samples l' (dist_from e) cs (e + 1 - n) (e + 1) -> samples l' (dist_from e) cs (e + 1 - n) w.

(* The cell of a staggered field that lies on the boundary. *)
Definition edge_cell (s : side) : Z := if is_upper s then 0 else -1.

(* Enough turns of the loops. *)
Definition enough (b : breg) (fuel : nat) : Prop :=
  b_width b * (b_hi b + 1 - b_lo b) <= Z.of_nat fuel /\ b_hi b + 1 - b_lo b <= Z.of_nat fuel.

(* what a Dirichlet condition of order n does on a line *)
Definition dirichlet_line (n : Z) (stagger : bool) (loc : cloc) (b : breg) (l l' : Z -> R) (v : R) : Prop :=
  if staggered_here stagger loc (b_side b)
  then l' (edge_cell (b_side b)) = v /\ continues n (edge_cell (b_side b)) (b_width b) l'
  else imposes_value n (b_width b) l l' v.

