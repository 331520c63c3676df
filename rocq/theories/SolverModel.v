(* The state vector of /repo/src/solver/solver.cxx: getLocalN, loop_vars_op, loop_vars, load_vars,
   save_vars, load_derivs, save_derivs, set_id, globalIndex and the split branch of run_rhs.

   Simplifications: a field is a function from flat indices to values, a list of 2D or 3D fields is
   a function from positions in the list; all variables live on the one global mesh and different
   variables are different objects; udata is a function on the integers (so writes outside it
   show); vectors and their bases, cell locations and allocation checks are not modelled, nor is the communication at the end of
   globalIndex. The five cases of the switch in loop_vars_op are one traversal with a
   different statement inside; the statement is [slot_op]. *)
Require Import ZArith List Bool.
Require Import Verif.Base.
Import ListNotations.
Local Open Scope Z_scope.

Section M.
Variable V : Type.
Variables (zero one : V) (add : V -> V -> V).

(* VarStr, include/bout/solver.hxx:380-400 *)
Record vflags := mkVar { evolve_bndry : bool; constraint : bool }.
(* f2d, f3d and the regions and nz of the mesh *)
Record solver := mkSolver {
  f2d : list vflags; f3d : list vflags;
  bndry2 : list Z;          (* mesh->getRegion2D("RGN_BNDRY") *)
  bulk2 : list Z;           (* mesh->getRegion2D("RGN_NOBNDRY") *)
  nz : Z }.

(* *f.var and *f.F_var of every variable *)
Record store := mkStore {
  var2 : nat -> Z -> V; var3 : nat -> Z -> V;
  der2 : nat -> Z -> V; der3 : nat -> Z -> V }.

Inductive op := LOAD_VARS | LOAD_DERIVS | SET_ID | SAVE_VARS | SAVE_DERIVS.

Definition zupd (f : Z -> V) (k : Z) (v : V) : Z -> V := fun j => if j =? k then v else f j.
Definition fupd (f : nat -> Z -> V) (n : nat) (k : Z) (v : V) : nat -> Z -> V :=
  fun m => if Nat.eqb m n then zupd (f n) k v else f m.

(* p, udata, and the fields *)
Definition state : Type := Z * (Z -> V) * store.

(* Mesh::ind2Dto3D, include/bout/mesh.hxx:731-733 *)
Definition ind2Dto3D (s : solver) (i2d jz : Z) : Z := i2d * nz s + jz.

(* the statements of the cases of loop_vars_op, solver.cxx:1027-1163, for a 2D variable ... *)
Definition slot_op2 (o : op) (k : nat) (f : vflags) (i : Z) (x : state) : state :=
  let '(p, u, m) := x in
  match o with
  | LOAD_VARS => (p + 1, u, mkStore (fupd (var2 m) k i (u p)) (var3 m) (der2 m) (der3 m))
  | LOAD_DERIVS => (p + 1, u, mkStore (var2 m) (var3 m) (fupd (der2 m) k i (u p)) (der3 m))
  | SET_ID => (p + 1, zupd u p (if constraint f then zero else one), m)
  | SAVE_VARS => (p + 1, zupd u p (var2 m k i), m)
  | SAVE_DERIVS => (p + 1, zupd u p (der2 m k i), m)
  end.
(* ... and for a 3D variable *)
Definition slot_op3 (o : op) (k : nat) (f : vflags) (i : Z) (x : state) : state :=
  let '(p, u, m) := x in
  match o with
  | LOAD_VARS => (p + 1, u, mkStore (var2 m) (fupd (var3 m) k i (u p)) (der2 m) (der3 m))
  | LOAD_DERIVS => (p + 1, u, mkStore (var2 m) (var3 m) (der2 m) (fupd (der3 m) k i (u p)))
  | SET_ID => (p + 1, zupd u p (if constraint f then zero else one), m)
  | SAVE_VARS => (p + 1, zupd u p (var3 m k i), m)
  | SAVE_DERIVS => (p + 1, zupd u p (der3 m k i), m)
  end.

(* for (const auto& f : fs) { if (bndry && !f.evolve_bndry) continue; ... } *)
Fixpoint each_var (body : nat -> vflags -> state -> state) (bndry : bool) (fs : list vflags) (k : nat) (x : state) : state :=
  match fs with
  | [] => x
  | f :: fs' => each_var body bndry fs' (S k) (if bndry && negb (evolve_bndry f) then x else body k f x)
  end.

(* for (int jz = 0; jz < nz; jz++) *)
Definition zrange (n : Z) : list Z := map Z.of_nat (seq 0 (Z.to_nat n)).

(* loop_vars_op, solver.cxx:1019-1164 *)
Definition loop_vars_op (s : solver) (o : op) (bndry : bool) (x : state) (i2d : Z) : state :=
  let x := each_var (fun k f => slot_op2 o k f i2d) bndry (f2d s) 0 x in
  fold_left (fun x jz => each_var (fun k f => slot_op3 o k f (ind2Dto3D s i2d jz)) bndry (f3d s) 0 x) (zrange (nz s)) x.

(* loop_vars, solver.cxx:1167-1182; the final p is kept. *)
Definition loop_vars (s : solver) (o : op) (u : Z -> V) (m : store) : state :=
  let x := fold_left (loop_vars_op s o true) (bndry2 s) (0, u, m) in
  fold_left (loop_vars_op s o false) (bulk2 s) x.

(* load_vars 1184-1205, load_derivs 1207-1228, save_vars 1231-1263, save_derivs 1265-1289, set_id 1291 *)
Definition load_vars (s : solver) (u : Z -> V) (m : store) : store := snd (loop_vars s LOAD_VARS u m).
Definition load_derivs (s : solver) (u : Z -> V) (m : store) : store := snd (loop_vars s LOAD_DERIVS u m).
Definition save_vars (s : solver) (m : store) (u : Z -> V) : Z -> V := snd (fst (loop_vars s SAVE_VARS u m)).
Definition save_derivs (s : solver) (m : store) (u : Z -> V) : Z -> V := snd (fst (loop_vars s SAVE_DERIVS u m)).
Definition set_id (s : solver) (m : store) (u : Z -> V) : Z -> V := snd (fst (loop_vars s SET_ID u m)).

(* run_rhs with splitOperator, solver.cxx:1365-1386: each call pre_rhs; run; post_rhs is one function
   of the fields. The garbage in the two new arrays is [g]. *)
Definition add_arrays (n : Z) (a b : Z -> V) : Z -> V := fun p => if (0 <=? p) && (p <? n) then add (a p) (b p) else a p.
Definition run_rhs_split (s : solver) (nv : Z) (convective diffusive : store -> store) (g : Z -> V) (m : store) : store :=
  let tmp := save_vars s m g in
  let m1 := convective m in
  let m2 := load_vars s tmp m1 in
  let tmp := save_derivs s m2 tmp in
  let m3 := diffusive m2 in
  let tmp2 := save_derivs s m3 g in
  load_derivs s (add_arrays nv tmp tmp2) m3.
End M.

(* ---------- counting ---------- *)
(* local_N_sum, solver.cxx:976-980, with the sizes of the regions of the variable *)
Definition local_N_sum (size_bndry size_bulk value : Z) (f : vflags) : Z :=
  value + (if evolve_bndry f then size_bndry else 0) + size_bulk.
(* getLocalN, solver.cxx:982-1001, without the cache: size3_* are the sizes of the 3D regions. *)
Definition countN (s : solver) (size3_bndry size3_bulk : Z) : Z :=
  fold_left (local_N_sum (Z.of_nat (length (bndry2 s))) (Z.of_nat (length (bulk2 s)))) (f2d s) 0
  + fold_left (local_N_sum size3_bndry size3_bulk) (f3d s) 0.
(* getLocalN with cacheLocalN, a static variable of the function. *)
Definition getLocalN (cache : Z) (s : solver) (size3_bndry size3_bulk : Z) : Z * Z :=
  if negb (cache =? -1) then (cache, cache) else let n := countN s size3_bndry size3_bulk in (n, n).

(* ---------- globalIndex, solver.cxx:1293-1355, before the communication ---------- *)
Definition count_bndry (fs : list vflags) : Z := fold_left (fun n f => if evolve_bndry f then n + 1 else n) fs 0.
Definition iupd (f : Z -> Z) (k v : Z) : Z -> Z := fun j => if j =? k then v else f j.
Definition index_cell (s : solver) (n2 n3 : Z) (x : Z * (Z -> Z)) (i2d : Z) : Z * (Z -> Z) :=
  let '(ind, index) := x in
  let x := (ind + (n2 + n3), iupd index (ind2Dto3D s i2d 0) ind) in
  fold_left (fun x jz => let '(ind, index) := x in (ind + n3, iupd index (ind2Dto3D s i2d jz) ind)) (tl (zrange (nz s))) x.
Definition globalIndex (s : solver) (localStart : Z) : Z * (Z -> Z) :=
  let n2 := Z.of_nat (length (f2d s)) in
  let n3 := Z.of_nat (length (f3d s)) in
  let b2 := count_bndry (f2d s) in
  let b3 := count_bndry (f3d s) in
  let x := (localStart, fun _ => -1) in
  let x := if 0 <? b2 + b3 then fold_left (index_cell s b2 b3) (bndry2 s) x else x in
  fold_left (index_cell s n2 n3) (bulk2 s) x.

(* ---------- RGN_BNDRY, /repo/src/mesh/impls/bout/boutmesh.cxx:2716-2726 and 2746-2754 ---------- *)
Require Verif.RegionModel.
(* A boundary region is a box; in 3D it covers all of z (boutmesh.cxx:2447-2714). *)
Record box := mkBox { bx0 : Z; bx1 : Z; by0 : Z; by1 : Z }.
(* bndry += getRegion(name) over all_boundaries, from an empty region; then unique() *)
Fixpoint join_boxes (z1 ny nz maxsz : Z) (bs : list box) (r : RegionModel.region) : res RegionModel.region :=
  match bs with
  | [] => Ok r
  | b :: bs' =>
      do rb <- RegionModel.region_box (bx0 b) (bx1 b) (by0 b) (by1 b) 0 z1 ny nz maxsz;
      join_boxes z1 ny nz maxsz bs' (RegionModel.region_plus r rb)
  end.
Definition empty_region : RegionModel.region := RegionModel.mkRegion [] [] (-1) (-1).
Definition bndry3d (sortf : list RegionModel.sind -> list RegionModel.sind) (ny lnz maxsz : Z) (bs : list box) : res RegionModel.region :=
  do r <- join_boxes (lnz - 1) ny lnz maxsz bs empty_region; Ok (RegionModel.asUnique sortf r).
Definition bndry2d (sortf : list RegionModel.sind -> list RegionModel.sind) (ny maxsz : Z) (bs : list box) : res RegionModel.region :=
  do r <- join_boxes 0 ny 1 maxsz bs empty_region; Ok (RegionModel.asUnique sortf r).
