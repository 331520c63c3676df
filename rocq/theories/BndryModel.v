(* Boundary regions and the standard boundary conditions
   (/repo/src/mesh/boundary_region.cxx, /repo/src/mesh/boundary_standard.cxx).

   Simplifications, for the whole file:
   - BoutReal is the type R of real numbers: no rounding, no infinities.
   - A field is a total map from (x,y) and z to R; the array bounds are kept and
     every access outside [0,LocalNx) x [0,LocalNy) x [0,LocalNz) is [UB].
   - An assignment of the C++ text is a [stmt]: target cell, constant, and a list of
     (coefficient, cell) that are read. All the standard conditions are such affine
     assignments, executed one after the other.
   - The loops over bndry do not change bndry in their bodies, so a loop is the list
     of the positions it visits; a list is [None] if the loop has not ended after the
     given number of turns.
   - val is fg->generate(Context(..)) at each position and z index: an arbitrary
     function of them (zero when there is no generator). Metric components are
     arbitrary functions of (x,y,z). *)
Require Import ZArith List Bool Reals.
Require Import Verif.Base.
Import ListNotations.
Local Open Scope Z_scope.

(* include/bout/mesh.hxx: the local index limits a region constructor reads. *)
Record lmesh := mkL { LNx : Z; LNy : Z; LNz : Z; m_xstart : Z; m_xend : Z; m_ystart : Z; m_yend : Z }.

(* include/bout/boundary_region.hxx:17-30, BndryLoc (the four standard ones). *)
Inductive side := XIn | XOut | YDown | YUp.

(* boundary_region.cxx:10-18,60-69,112-121,163-171: the bx, by of each constructor. *)
Definition bx (s : side) : Z := match s with XIn => -1 | XOut => 1 | _ => 0 end.
Definition by_ (s : side) : Z := match s with YDown => -1 | YUp => 1 | _ => 0 end.

(* A region after construction: lo, hi are ys,ye (X sides) or xs,xe (Y sides). *)
Record breg := mkB { b_side : side; b_lo : Z; b_hi : Z; b_width : Z }.

(* boundary_region.cxx:10-18 (XIn), 60-69 (XOut), 112-121 (YDown), 163-171 (YUp). *)
Definition mk_region (m : lmesh) (s : side) (mn mx : Z) : breg :=
  let w := match s with
           | XIn => m_xstart m
           | XOut => LNx m - m_xend m - 1
           | YDown => m_ystart m
           | YUp => LNy m - m_yend m - 1
           end in
  if mx <? mn then mkB s mx mn w else mkB s mn mx w.

Definition pos := (Z * Z)%type.

(* first(): boundary_region.cxx:20-23, 71-74, 123-126, 173-176. *)
Definition first (m : lmesh) (b : breg) : pos :=
  match b_side b with
  | XIn => (b_width b - 1, b_lo b)
  | XOut => (LNx m - b_width b, b_lo b)
  | YDown => (b_lo b, b_width b - 1)
  | YUp => (b_lo b, LNy m - b_width b)
  end.

(* next(): boundary_region.cxx:25-32, 76-83, 128-135, 178-185. *)
Definition next (m : lmesh) (b : breg) (p : pos) : pos :=
  let (x, y) := p in
  match b_side b with
  | XIn => if b_hi b <? y + 1 then (x - 1, b_lo b) else (x, y + 1)
  | XOut => if b_hi b <? y + 1 then (x + 1, b_lo b) else (x, y + 1)
  | YDown => if y - 1 <? 0 then (x + 1, b_width b - 1) else (x, y - 1)
  | YUp => if LNy m <=? y + 1 then (x + 1, LNy m - b_width b) else (x, y + 1)
  end.

(* next1d(): boundary_region.cxx:34-37, 85-88, 137-140, 187-190. *)
Definition next1d (b : breg) (p : pos) : pos :=
  let (x, y) := p in
  match b_side b with XIn | XOut => (x, y + 1) | YDown | YUp => (x + 1, y) end.

(* nextX(): boundary_region.cxx:39-44, 90-95, 142-147, 192-197. *)
Definition nextX (m : lmesh) (b : breg) (p : pos) : pos :=
  let (x, y) := p in
  match b_side b with
  | XIn => (x - 1, if b_hi b <? y then b_lo b else y)
  | XOut => (x + 1, if b_hi b <? y then b_lo b else y)
  | YDown => (x + 1, if y <? 0 then b_width b - 1 else y)
  | YUp => (x + 1, if LNy m <=? y then LNy m - b_width b else y)
  end.

(* nextY(): boundary_region.cxx:46-51, 97-102, 149-154, 199-204. *)
Definition nextY (m : lmesh) (b : breg) (p : pos) : pos :=
  let (x, y) := p in
  match b_side b with
  | XIn => (if x <? 0 then b_width b - 1 else x, y + 1)
  | XOut => (if LNx m <=? x then LNx m - b_width b else x, y + 1)
  | YDown => (if b_hi b <? x then b_lo b else x, y - 1)
  | YUp => (if b_hi b <? x then b_lo b else x, y + 1)
  end.

(* isDone(): boundary_region.cxx:53-55, 104-106, 156-158, 206-208. *)
Definition isDone (m : lmesh) (b : breg) (p : pos) : bool :=
  let (x, y) := p in
  match b_side b with
  | XIn => (x <? 0) || (b_hi b <? y)
  | XOut => (LNx m <=? x) || (b_hi b <? y)
  | YDown => (b_hi b <? x) || (y <? 0)
  | YUp => (b_hi b <? x) || (LNy m <=? y)
  end.

(* for (; !done; step) visit *)
Fixpoint walk (step : pos -> pos) (done : pos -> bool) (fuel : nat) (p : pos) : option (list pos) :=
  if done p then Some [] else
  match fuel with
  | O => None
  | S n => match walk step done n (step p) with Some l => Some (p :: l) | None => None end
  end.

(* for (bndry->first(); !bndry->isDone(); bndry->next1d()) *)
Definition walk1d (m : lmesh) (b : breg) (fuel : nat) : option (list pos) :=
  walk (next1d b) (isDone m b) fuel (first m b).
(* for (bndry->first(); !bndry->isDone(); bndry->next()) *)
Definition walk_all (m : lmesh) (b : breg) (fuel : nat) : option (list pos) :=
  walk (next m b) (isDone m b) fuel (first m b).

(* The nested loop of boundary_standard.cxx:2610-2621 (ZeroLaplace, and 2659-2682,
   2711-2724, 2746-2782): for (first; !isDone; nextY) do { visit; nextX } while (!isDone).
   Fuel bounds the total number of steps. *)
Fixpoint walk_in (m : lmesh) (b : breg) (fuel : nat) (p : pos) : option (list pos * pos) :=
  match fuel with
  | O => None
  | S n => let q := nextX m b p in
           if isDone m b q then Some ([p], q)
           else match walk_in m b n q with Some (l, r) => Some (p :: l, r) | None => None end
  end.
Fixpoint walk_out (m : lmesh) (b : breg) (fuel infuel : nat) (p : pos) : option (list pos) :=
  if isDone m b p then Some [] else
  match fuel with
  | O => None
  | S n => match walk_in m b infuel p with
           | None => None
           | Some (l, q) => match walk_out m b n infuel (nextY m b q) with
                            | Some r => Some (l ++ r) | None => None end
           end
  end.

(* ---------- assignments ---------- *)
Definition field := pos -> Z -> R.
Record stmt := mkS { s_tgt : pos; s_z : Z; s_cst : R; s_trm : list (R * pos) }.

Definition pos_eqb (p q : pos) : bool := (fst p =? fst q) && (snd p =? snd q).
Definition upd (f : field) (p : pos) (z : Z) (v : R) : field :=
  fun q k => if pos_eqb q p && (k =? z) then v else f q k.
Definition in_bounds (m : lmesh) (p : pos) (z : Z) : bool :=
  (0 <=? fst p) && (fst p <? LNx m) && (0 <=? snd p) && (snd p <? LNy m) && (0 <=? z) && (z <? LNz m).

Definition value (f : field) (z : Z) (c : R) (l : list (R * pos)) : R :=
  fold_left (fun a t => a + fst t * f (snd t) z)%R l c.

(* Field3D::operator()(x,y,z), include/bout/field3d.hxx:376-395: unchecked below CHECK 3. *)
Definition exec (m : lmesh) (f : field) (s : stmt) : res field :=
  if in_bounds m (s_tgt s) (s_z s) && forallb (fun t => in_bounds m (snd t) (s_z s)) (s_trm s)
  then Ok (upd f (s_tgt s) (s_z s) (value f (s_z s) (s_cst s) (s_trm s)))
  else UB.
Fixpoint exec_all (m : lmesh) (f : field) (l : list stmt) : res field :=
  match l with [] => Ok f | s :: l' => do g <- exec m f s; exec_all m g l' end.

(* for (int i = a; i < b; i++) *)
Definition zrange (a b : Z) : list Z := map (fun i => a + Z.of_nat i) (seq 0 (Z.to_nat (b - a))).

(* (bndry->x + i*bndry->bx, bndry->y + i*bndry->by) *)
Definition off (b : breg) (p : pos) (i : Z) : pos :=
  (fst p + i * bx (b_side b), snd p + i * by_ (b_side b)).

Definition vfun := pos -> Z -> R.

(* include/bout/bout_types.hxx: CELL_LOC, the four proper locations. *)
Inductive cloc := CENTRE | XLOW | YLOW | ZLOW.

(* f(xi,yi,zk) = 2 f(-1) - f(-2)                     (e.g. boundary_standard.cxx:337-338) *)
Definition extrap2 (b : breg) (p : pos) (z i : Z) : stmt :=
  mkS (off b p i) z 0 [(2, off b p (i - 1)); (-1, off b p (i - 2))]%R.
(* f(xi,yi,zk) = 3 f(-1) - 3 f(-2) + f(-3)           (e.g. 1018-1020) *)
Definition extrap3 (b : breg) (p : pos) (z i : Z) : stmt :=
  mkS (off b p i) z 0 [(3, off b p (i - 1)); (-3, off b p (i - 2)); (1, off b p (i - 3))]%R.
(* f(xi,yi,zk) = 4 f(-1) - 6 f(-2) + 4 f(-3) - f(-4) (e.g. 1485-1488) *)
Definition extrap4 (b : breg) (p : pos) (z i : Z) : stmt :=
  mkS (off b p i) z 0
    [(4, off b p (i - 1)); (-6, off b p (i - 2)); (4, off b p (i - 3)); (-1, off b p (i - 4))]%R.

(* Is the field shifted in the direction normal to this boundary (boundary_standard.cxx:
   321 and 388 with 324/344/363 and 391/411/430)? *)
Definition staggered_here (stagger : bool) (loc : cloc) (s : side) : bool :=
  stagger && match loc, s with
             | XLOW, XIn | XLOW, XOut | YLOW, YDown | YLOW, YUp => true
             | _, _ => false
             end.
(* bndry->bx > 0 or bndry->by > 0 *)
Definition is_upper (s : side) : bool := match s with XOut | YUp => true | _ => false end.

Section Conditions.
Variables (m : lmesh) (stagger : bool) (loc : cloc) (b : breg) (val : vfun).
Let s := b_side b.
Let w := b_width b.
Let zs := zrange 0 (LNz m).

(* BoundaryDirichlet::apply(Field3D&, t), boundary_standard.cxx:298-583, at one boundary
   position. Staggered onto the boundary: 324-342 and 391-409 (upper), 344-361 (inner x:
   line 353 assigns the first guard cell and the i = 0 turn overwrites it), 411-428
   (lower y). CELL_XLOW/CELL_YLOW at the other boundaries: 363-384, 430-452. Otherwise
   (also CELL_ZLOW 454-509, whose generator is given other arguments): 510-582. *)
Definition dirichlet (p : pos) : list stmt :=
  if stagger && match loc with XLOW | YLOW => true | _ => false end then
    flat_map (fun z =>
      if staggered_here stagger loc s then
        if is_upper s then
          mkS (off b p 0) z (val p z) [] :: map (extrap2 b p z) (zrange 1 w)
        else
          match s with
          | XIn => [mkS (off b p (-1)) z (val p z) []; mkS (off b p 0) z 0 [(1%R, off b p (-1))]]
          | _ => [mkS (off b p (-1)) z (val p z) []]
          end ++ map (extrap2 b p z) (zrange 0 w)
      else
        mkS (off b p 0) z (2 * val p z)%R [((-1)%R, off b p (-1))] :: map (extrap2 b p z) (zrange 1 w)) zs
  else
    map (fun z => mkS (off b p 0) z (2 * val p z)%R [((-1)%R, off b p (-1))]) zs ++
    flat_map (fun i => map (fun z => mkS (off b p i) z (val p z) []) zs) (zrange 1 w).

(* BoundaryDirichlet::apply(Field2D&, t), boundary_standard.cxx:135-294, seen as a field
   with LocalNz = 1: as above, except that the standard case extrapolates (278-291) and the
   inner x case has no extra assignment (177-195). *)
Definition dirichlet_2d (p : pos) : list stmt :=
  flat_map (fun z =>
    if staggered_here stagger loc s then
      if is_upper s then
        mkS (off b p 0) z (val p z) [] :: map (extrap2 b p z) (zrange 1 w)
      else
        mkS (off b p (-1)) z (val p z) [] :: map (extrap2 b p z) (zrange 0 w)
    else
      mkS (off b p 0) z (2 * val p z)%R [((-1)%R, off b p (-1))] :: map (extrap2 b p z) (zrange 1 w)) zs.

(* BoundaryDirichlet_O3::apply(Field3D&, t), boundary_standard.cxx:800-1023. *)
Definition dirichlet_o3 (p : pos) : list stmt :=
  flat_map (fun z =>
    if staggered_here stagger loc s then
      if is_upper s then
        mkS (off b p 0) z (val p z) [] :: map (extrap3 b p z) (zrange 1 w)
      else
        mkS (off b p (-1)) z (val p z) [] :: map (extrap3 b p z) (zrange 0 w)
    else
      mkS (off b p 0) z (8 / 3 * val p z)%R [((-2)%R, off b p (-1)); ((1 / 3)%R, off b p (-2))]
      :: map (extrap3 b p z) (zrange 1 w)) zs.

(* BoundaryDirichlet_O4::apply(Field3D&, t), boundary_standard.cxx:1257-1493. *)
Definition dirichlet_o4 (p : pos) : list stmt :=
  flat_map (fun z =>
    if staggered_here stagger loc s then
      if is_upper s then
        mkS (off b p 0) z (val p z) [] :: map (extrap4 b p z) (zrange 1 w)
      else
        mkS (off b p (-1)) z (val p z) [] :: map (extrap4 b p z) (zrange 0 w)
    else
      mkS (off b p 0) z (16 / 5 * val p z)%R
        [((-3)%R, off b p (-1)); (1%R, off b p (-2)); ((-(1 / 5))%R, off b p (-3))]
      :: map (extrap4 b p z) (zrange 1 w)) zs.

(* BoundaryDirichlet_4thOrder::apply(Field3D&), boundary_standard.cxx:1543-1562. *)
Definition dirichlet_4th (p : pos) : list stmt :=
  flat_map (fun z =>
    [mkS (off b p 0) z (128 / 35 * val p z)%R
       [((-4)%R, off b p (-1)); (2%R, off b p (-2)); ((-(4 / 3))%R, off b p (-3)); ((1 / 7)%R, off b p (-4))];
     mkS (off b p 1) z (- (128 / 5) * val p z)%R
       [(9%R, off b p 0); (18%R, off b p (-1)); ((-4)%R, off b p (-2)); ((3 / 5)%R, off b p (-3))]]) zs.

(* Metric spacings dx(x,y,z), dy(x,y,z). *)
Variables (dx dy : vfun).

(* delta = bx*dx(x,y,z) + by*dy(x,y,z)      (e.g. boundary_standard.cxx:2174-2175) *)
Definition delta (p : pos) (z : Z) : R := (IZR (bx s) * dx p z + IZR (by_ s) * dy p z)%R.

(* BoundaryNeumann::apply(Field3D&, t), boundary_standard.cxx:1941-2191. Staggered onto the
   boundary: 1970-1998 and 2054-2080 (upper), 1999-2025 and 2081-2108 (lower); everything
   else: 2026-2051, 2109-2139, 2140-2163, 2166-2190. *)
Definition neumann (p : pos) : list stmt :=
  flat_map (fun z =>
    if staggered_here stagger loc s then
      let h := fun q => match s with XIn | XOut => dx q z | YDown | YUp => dy q z end in
      if is_upper s then
        mkS (off b p 0) z (2 * (val p z * h p) / 3)%R
          [((4 / 3)%R, off b p (-1)); ((-(1 / 3))%R, off b p (-2))]
        :: map (extrap3 b p z) (zrange 1 w)
      else
        mkS (off b p (-1)) z (- (2 * (val p z * h (off b p (-1)))) / 3)%R
          [((4 / 3)%R, off b p (-2)); ((-(1 / 3))%R, off b p (-3))]
        :: map (extrap3 b p z) (zrange 0 w)
    else
      mkS (off b p 0) z (delta p z * val p z)%R [(1%R, off b p (-1))] ::
      (if w =? 2 then [mkS (off b p 1) z (3 * delta p z * val p z)%R [(1%R, off b p (-2))]] else [])) zs.

(* BoundaryNeumann_O4::apply(Field3D&, t), boundary_standard.cxx:2282-2324: throws when
   staggered, or (after the first assignment) when the width is 2. *)
Definition neumann_o4 (p : pos) : list stmt :=
  flat_map (fun z =>
    [mkS (off b p 0) z (12 * delta p z * val p z / 11)%R
       [((17 / 22)%R, off b p (-1)); ((9 / 22)%R, off b p (-2));
        ((-(5 / 22))%R, off b p (-3)); ((1 / 22)%R, off b p (-4))]]) zs.

(* BoundaryNeumann_4thOrder::apply(Field3D&), boundary_standard.cxx:2389-2416. *)
Definition neumann_4th (p : pos) : list stmt :=
  flat_map (fun z =>
    let d := (- delta p z)%R in
    [mkS (off b p 0) z (12 * d / 11 * val p z)%R
       [((17 / 22)%R, off b p (-1)); ((9 / 22)%R, off b p (-2));
        ((-(5 / 22))%R, off b p (-3)); ((1 / 22)%R, off b p (-4))];
     mkS (off b p 1) z (-24 * d * val p z)%R
       [(27%R, off b p 0); ((-27)%R, off b p (-1)); (1%R, off b p (-2))]]) zs.

(* BoundaryFree_O2::apply(Field3D&), boundary_standard.cxx:3168-3288. *)
Definition free_o2 (p : pos) : list stmt :=
  flat_map (fun z =>
    map (extrap2 b p z)
      (zrange (if staggered_here stagger loc s && negb (is_upper s) then -1 else 0) w)) zs.

(* BoundaryFree_O3::apply(Field3D&), boundary_standard.cxx:3430-3557. *)
Definition free_o3 (p : pos) : list stmt :=
  flat_map (fun z =>
    map (extrap3 b p z)
      (zrange (if staggered_here stagger loc s && negb (is_upper s) then -1 else 0) w)) zs.

(* BoundaryConstGradient::apply(Field3D&), boundary_standard.cxx:2565-2575; run at every
   guard cell (bndry->next()). *)
Definition const_gradient (p : pos) : list stmt := map (fun z => extrap2 b p z 0) zs.

(* BoundaryRobin::apply(Field3D&), boundary_standard.cxx:2530-2553; run at every guard cell.
   The test fabs(bval) < 1e-12 is a parameter here: [small]. *)
Variables (aval bval gval : R) (small : bool).
Definition robin (p : pos) : list stmt :=
  let sign := if (bx s <? 0) || (by_ s <? 0) then (-1)%R else 1%R in
  map (fun z =>
    if small then mkS (off b p 0) z (gval / aval)%R []
    else mkS (off b p 0) z (sign * gval / bval)%R [((1 - sign * aval / bval)%R, off b p (-1))]) zs.

(* BoundaryNeumannPar::apply(Field3D&), boundary_standard.cxx:2463-2475; at every guard cell. *)
Variable g_22 : vfun.
Definition neumann_par (p : pos) : list stmt :=
  map (fun z => mkS (off b p 0) z 0 [(sqrt (g_22 p z / g_22 (off b p (-1)) z), off b p (-1))]) zs.

(* The two loop headers over the positions. *)
Definition apply1d (fuel : nat) (body : pos -> list stmt) (f : field) : res field :=
  match walk1d m b fuel with None => UB | Some ps => exec_all m f (flat_map body ps) end.
Definition apply_all (fuel : nat) (body : pos -> list stmt) (f : field) : res field :=
  match walk_all m b fuel with None => UB | Some ps => exec_all m f (flat_map body ps) end.

(* BoundaryRelax::apply_ddt(Field3D&), boundary_standard.cxx:3619-3635: op->apply on a copy g
   of f, then ddt(f) = r*(g - f) at every guard cell. The assignment to ddt reads g and f at
   the same cell, so it is a map over the visited positions. *)
Variable rate : R.
Definition relax_ddt (fuel : nat) (op : field -> res field) (f dt : field) : res field :=
  do g <- op f;
  match walk_all m b fuel with
  | None => UB
  | Some ps =>
      Ok (fold_left (fun d p => fold_left (fun d z => upd d p z (rate * (g p z - f p z))%R) zs d) ps dt)
  end.

(* apply_ddt of the other conditions, e.g. BoundaryDirichlet::apply_ddt(Field3D&),
   boundary_standard.cxx:592-603. *)
Definition zero_ddt (fuel : nat) (dt : field) : res field :=
  match walk_all m b fuel with
  | None => UB
  | Some ps => Ok (fold_left (fun d p => fold_left (fun d z => upd d p z 0%R) zs d) ps dt)
  end.
End Conditions.

(* BoundaryWidth::apply, boundary_standard.cxx:3655-3668: the wrapped operation runs on the
   same region with another width, which is restored afterwards. *)
Definition with_width (b : breg) (wid : Z) : breg := mkB (b_side b) (b_lo b) (b_hi b) wid.
