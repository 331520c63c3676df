(** Model of the flux coordinate independent transform (src/mesh/parallel/fci.cxx, fci.hxx), the parallel boundary regions
    (src/mesh/parallel_boundary_region.cxx) and the parallel boundary conditions (src/mesh/parallel_boundary_op.cxx).

    Simplifications. BoutReal is R. One processor in x (the indices in the grid file are used as local ones). The interpolation
    class is any pair (calculation of the weights of a point, interpolation of a point) of InterpModel. The maps of the cell corners
    (used by integrate only) and the angle of a hit, always PI, are left out; so is the wrapping of zt_prime (fci.cxx 168-175), done
    after the weights are calculated and not used afterwards. A value of a parallel slice that was not set is [None]; reading
    it is [UB]. Fields own their slices (see C80 for sharing). ASSERTs are on. *)
From Coq Require Import Reals ZArith List.
From Verif Require Import Base InterpModel.
Import ListNotations.
Local Open Scope R_scope.

(** The local mesh with the range in y. *)
Record fmesh := mkFmesh { lm : lmesh; ystart : Z; yend : Z }.
Definition zr (a b : Z) : list Z := map (fun i => (a + Z.of_nat i)%Z) (seq 0 (Z.to_nat (b - a + 1))).
(** RGN_NOBNDRY in its order (C68). *)
Definition interior (m : fmesh) : list pt :=
  flat_map (fun x => flat_map (fun y => map (fun z => (x, y, z)) (zr 0 (LocalNz (lm m) - 1))) (zr (ystart m) (yend m)))
           (zr (xstart (lm m)) (xend (lm m))).

(** What the grid file says about the lines to the plane [offset] further: forward_xt_prime, ... (fci.cxx 85-113); real-space
    coordinates of the points (79-80) are in [grid]. *)
Record lines := mkLines { xt : pt -> R; zt : pt -> R; Rprime : pt -> R; Zprime : pt -> R }.
Record grid := mkGrid { Rg : pt -> R; Zg : pt -> R; dyg : pt -> R; line_data : Z -> option lines }.

(** parallel_boundary_region.hxx 26-35; add_point appends. *)
Record hit := mkHit { hpt : pt; s_x : R; s_y : R; s_z : R; hlength : R }.
Definition zp (m : fmesh) (z : Z) : Z := ((z + 1) mod LocalNz (lm m))%Z.
Definition zm (m : fmesh) (z : Z) : Z := ((z - 1) mod LocalNz (lm m))%Z.
(** fci.cxx 194-253: the hit of the line from (x, y, z). *)
Definition make_hit (m : fmesh) (g : grid) (l : lines) (offset : Z) (i : pt) : hit :=
  let '(x, y, z) := i in
  let dR_dx := 0.5 * (Rg g ((x + 1)%Z, y, z) - Rg g ((x - 1)%Z, y, z)) in
  let dZ_dx := 0.5 * (Zg g ((x + 1)%Z, y, z) - Zg g ((x - 1)%Z, y, z)) in
  let dz_of (F : pt -> R) :=
    if (z =? 0)%Z then F (x, y, zp m z) - F i
    else if (z =? LocalNz (lm m) - 1)%Z then F i - F (x, y, zm m z)
    else 0.5 * (F (x, y, zp m z) - F (x, y, zm m z)) in
  let dR_dz := dz_of (Rg g) in
  let dZ_dz := dz_of (Zg g) in
  let det := dR_dx * dZ_dz - dR_dz * dZ_dx in
  let dR := Rprime l i - Rg g i in
  let dZ := Zprime l i - Zg g i in
  let dx := (dZ_dz * dR - dR_dz * dZ) / det in
  let dz := (dR_dx * dZ - dZ_dx * dR) / det in
  mkHit i (IZR x + dx) (IZR y + 0.5 * IZR offset) (IZR z + dz) (0.5 * dyg g i).

(** FCIMap: offset, weights and mask of the interpolation object (fci.hxx 42-56). *)
Record fmap (W : Type) := mkMap { moffset : Z; mweights : pt -> option W; mmask : pt -> bool }.
Arguments mkMap {W} _ _ _.
Arguments moffset {W} _.
Arguments mweights {W} _ _.
Arguments mmask {W} _ _.
(** fci.cxx 166-254: one point of the loop. *)
Definition add_line (m : fmesh) (g : grid) (l : lines) (offset : Z) (s : (pt -> bool) * list hit * list hit) (i : pt) : (pt -> bool) * list hit * list hit :=
  let '(mask, inner, outer) := s in
  if andb (if Rle_dec (IZR (xstart (lm m))) (xt l i) then true else false) (if Rle_dec (xt l i) (IZR (xend (lm m))) then true else false) then s
  else ((fun q => if pt_eqb q i then true else mask q),
        (if Rlt_dec (xt l i) 0 then inner ++ [make_hit m g l offset i] else inner),
        (if Rlt_dec (xt l i) 0 then outer else outer ++ [make_hit m g l offset i])).
(** 49-257: the constructor FCIMap. *)
Definition FCIMap {W} (calc : R -> R -> res W) (m : fmesh) (g : grid) (offset : Z) (inner outer : list hit) : res (fmap W * list hit * list hit) :=
  if (offset =? 0)%Z then Throw
  else match line_data g offset with
       | None => Throw
       | Some l =>
           do w <- calcWeights calc (fun _ => false) (xt l) (zt l) (interior m) (fun _ => None);
           let '(mask, inner, outer) := fold_left (add_line m g l offset) (interior m) (fun _ => false, inner, outer) in
           Ok (mkMap offset w mask, inner, outer)
       end.

(** A parallel boundary region, and the four of them in the order in which they are added to the mesh (fci.hxx 80-94). *)
Inductive label := FCI_forward | FCI_backward.
Record bregion := mkRegion { blabel : label; bdir : Z; bpoints : list hit }.
Record transform (W : Type) := mkT { fwd_in : list hit; bkwd_in : list hit; fwd_out : list hit; bkwd_out : list hit; field_line_maps : list (fmap W) }.
Arguments mkT {W} _ _ _ _ _.
Arguments fwd_in {W} _.
Arguments bkwd_in {W} _.
Arguments fwd_out {W} _.
Arguments bkwd_out {W} _.
Arguments field_line_maps {W} _.
Definition par_boundary {W} (t : transform W) : list bregion :=
  [mkRegion FCI_forward 1 (fwd_in t); mkRegion FCI_backward (-1) (bkwd_in t);
   mkRegion FCI_forward 1 (fwd_out t); mkRegion FCI_backward (-1) (bkwd_out t)].
(** fci.hxx 96-102: the maps for offset = [o], ..., [n] of them, forward and backward. *)
Fixpoint build_maps {W} (calc : R -> R -> res W) (m : fmesh) (g : grid) (n : nat) (o : Z) (t : transform W) : res (transform W) :=
  match n with
  | O => Ok t
  | S n' =>
      do f <- FCIMap calc m g o (fwd_in t) (fwd_out t);
      let '(fm, fi, fo) := f in
      do b <- FCIMap calc m g (- o)%Z (bkwd_in t) (bkwd_out t);
      let '(bm, bi, bo) := b in
      build_maps calc m g n' (o + 1)%Z (mkT fi bi fo bo (field_line_maps t ++ [fm; bm]))
  end.
Definition FCITransform {W} (calc : R -> R -> res W) (m : fmesh) (g : grid) : res (transform W) :=
  build_maps calc m g (Z.to_nat (ystart m)) 1 (mkT [] [] [] [] []).

(** A Field3D with its parallel slices: ynext(o), for 1 <= |o| <= ystart. *)
Record field := mkField { base : pt -> R; slice : Z -> pt -> option R }.
Definition set_slice (f : field) (o : Z) (v : pt -> option R) : field := mkField (base f) (fun o' => if (o' =? o)%Z then v else slice f o').
(** fci.cxx 337-351 calcParallelSlices. *)
Fixpoint calc_slices {W} (point : plane -> W -> res R) (m : fmesh) (maps : list (fmap W)) (f : field) : res field :=
  match maps with
  | [] => Ok f
  | k :: maps' =>
      do v <- interpolate (lm m) point (mmask k) (moffset k) (base f) (mweights k) (interior m);
      calc_slices point m maps' (set_slice f (moffset k) v)
  end.
Definition calcParallelSlices {W} (point : plane -> W -> res R) (m : fmesh) (t : transform W) (f : pt -> R) : res field :=
  calc_slices point m (field_line_maps t) (mkField f (fun _ _ => None)).

(** parallel_boundary_op.hxx 60-72, parallel_boundary_op.cxx 10-53: where the value comes from; the time is fixed. *)
Inductive source := Gen (e : R -> R -> R -> R) | FromField (a : pt -> R) | Real (r : R).
Definition getValue_index (v : source) (p : pt) : R :=
  match v with Gen e => let '(x, y, z) := p in e (IZR x) (IZR y) (IZR z) | FromField a => a p | Real r => r end.
Definition getValue_hit (v : source) (h : hit) : R :=
  match v with Gen e => e (s_x h) (s_y h) (s_z h) | FromField a => a (hpt h) | Real r => r end.

(** The conditions: one point of the loops. *)
Inductive condition := Dirichlet | Dirichlet_O3 | Dirichlet_interp | Neumann.
(** 79-103, 131-163, 191-219, 247-273. *)
Definition next_value (c : condition) (v : source) (dy : pt -> R) (dir : Z) (f : field) (h : hit) : res R :=
  let '(x, y, z) := hpt h in
  let f_prev := ofopt (slice f (- dir)%Z (x, (y - dir)%Z, z)) in
  let fi := base f (hpt h) in
  match c with
  | Dirichlet =>
      let value := getValue_hit v h in
      let y_prime := hlength h in
      let f2 := (fi - value) * (dy (hpt h) - y_prime) / y_prime in
      Ok (value - f2)
  | Dirichlet_O3 =>
      let fb := getValue_hit v h in
      do f1 <- f_prev;
      let f2 := fi in
      let l1 := dy (hpt h) in
      let l2 := hlength h in
      let l3 := dy (hpt h) - l2 in
      let denom := l1 * l1 * l2 + l1 * l2 * l2 in
      let term1 := l2 * l2 * l3 + l2 * l3 * l3 in
      let term2 := l1 * (l1 + l2 + l3) * (l2 + l3) in
      let term3 := l3 * ((l1 + l2) * l3 + (l1 + l2) * (l1 + l2)) in
      Ok ((term1 * f1 + term2 * fb - term3 * f2) / denom)
  | Dirichlet_interp =>
      let fs := getValue_hit v h in
      let dyi := dy (hpt h) in
      let s := hlength h * dyi in
      do f1 <- f_prev;
      Ok (f1 * (1 - 2 * s / (dyi + s)) + 2 * fi * ((s - dyi) / s) + fs * (dyi / s - (2 / s + 1)))
  | Neumann => Ok (fi + IZR dir * getValue_index v (hpt h) * dy (hpt h))
  end.
Fixpoint apply_points (c : condition) (v : source) (dy : pt -> R) (dir : Z) (hs : list hit) (f : field) : res field :=
  match hs with
  | [] => Ok f
  | h :: hs' =>
      do r <- next_value c v dy dir f h;
      let '(x, y, z) := hpt h in
      apply_points c v dy dir hs' (set_slice f dir (upd (slice f dir) (x, (y + dir)%Z, z) r))
  end.
Definition apply (m : fmesh) (c : condition) (v : source) (dy : pt -> R) (b : bregion) (f : field) : res field :=
  if (ystart m <? 1)%Z then Throw (* field3d.cxx 165 *) else apply_points c v dy (bdir b) (bpoints b) f.
(** field3d.cxx 468-510: the same condition on all regions. *)
Fixpoint apply_all (m : fmesh) (c : condition) (v : source) (dy : pt -> R) (bs : list bregion) (f : field) : res field :=
  match bs with [] => Ok f | b :: bs' => do f <- apply m c v dy b f; apply_all m c v dy bs' f end.
Definition applyParallelBoundary {W} (m : fmesh) (c : condition) (v : source) (dy : pt -> R) (t : transform W) (f : field) : res field :=
  apply_all m c v dy (par_boundary t) f.
(** 512-532: on a named region; the first with that name. *)
Definition label_eqb (a b : label) : bool := match a, b with FCI_forward, FCI_forward | FCI_backward, FCI_backward => true | _, _ => false end.
Definition applyParallelBoundary_region {W} (m : fmesh) (name : label) (c : condition) (v : source) (dy : pt -> R) (t : transform W) (f : field) : res field :=
  match find (fun b => label_eqb (blabel b) name) (par_boundary t) with Some b => apply m c v dy b f | None => Ok f end.
