(** Model of the reductions of fields: min, max, mean, isUniform, getUniform (/repo/include/bout/field.hxx:298-453).

    A field is its flat storage on every rank (f r k), the region is that of RegionModel on every rank. BoutReal is R, so
    infinities and NaN are not modelled, except that mean is None for the NaN of 0 / 0. checkData (CHECK) passes. An OpenMP
    reduction gives every thread a private copy that starts from the identity of the operation (for min and max: no number,
    None) and combines the copies with the original; MPI_Allreduce combines the values of all ranks in some order. *)
From Coq Require Import ZArith Reals List Bool Permutation.
From Verif Require Import Base MeshModel RegionModel.
Import ListNotations.

(** BOUT_FOR_OMP (region.hxx:117-126): without OpenMP serial, with OpenMP the blocks are dealt to threads. *)
Inductive sched := Serial | Threads (groups : list (list (sind * sind))).
Definition allowed (rg : region) (s : sched) : Prop := match s with Serial => True | Threads gs => Permutation (concat gs) (blocks rg) end.
Definition reduce {T} (comb : T -> T -> T) (ident : T) (body : T -> sind -> T) (start : T) (rg : region) (s : sched) : T :=
  match s with
  | Serial => fold_left body (getRegionIndices (blocks rg)) start
  | Threads gs => fold_left comb (map (fun bs => fold_left body (flat_map iter_block bs) ident) gs) start
  end.
(** MPI_Allreduce over the ranks in the order [ranks]. *)
Definition allreduce {T} (op : T -> T -> T) (ranks : list Z) (v : Z -> T) (dflt : T) : T :=
  match ranks with [] => dflt | r :: rs => fold_left op (map v rs) (v r) end.
(** All ranks take part: if the call is undefined on one of them it is for all. *)
Fixpoint on_all {T} (ranks : list Z) (v : Z -> res T) : res (list T) :=
  match ranks with [] => Ok [] | r :: rs => do a <- v r; do l <- on_all rs v; Ok (a :: l) end.
Definition all_op {T} (op : T -> T -> T) (ranks : list Z) (v : Z -> res T) : res T :=
  do l <- on_all ranks v; match l with [] => UB | a :: l' => Ok (fold_left op l' a) end.

Section Reductions.
(** [less a b]: the test f[i] < result of min (319-323), f[i] > result of max (404-408). *)
Variable less : R -> R -> Prop.
Variable less_dec : forall a b, {less a b} + {~ less a b}.
Definition better (x : R) (r : option R) : option R :=
  match r with None => Some x | Some y => if less_dec x y then Some x else r end.
Definition comb (a b : option R) : option R := match b with None => a | Some x => better x a end.
(** 316-323; the first element of an empty region does not exist. *)
Definition extreme_local (rg : region) (s : sched) (f : Z -> R) : res R :=
  match indices rg with
  | [] => UB
  | i0 :: _ => match reduce comb None (fun r i => better (f (ind i)) r) (Some (f (ind i0))) rg s with Some v => Ok v | None => UB end
  end.
(** 325-331. *)
Definition pick (a b : R) : R := if less_dec b a then b else a.
Definition extreme (ranks : list Z) (rg : Z -> region) (s : Z -> sched) (f : Z -> Z -> R) (allpe : bool) (r : Z) : res R :=
  if allpe then all_op pick ranks (fun q => extreme_local (rg q) (s q) (f q)) else extreme_local (rg r) (s r) (f r).
End Reductions.
Definition fmin := extreme Rlt Rlt_dec.
Definition fmax := extreme Rgt (fun a b => Rlt_dec b a).

(** 435-453 mean; None is 0 / 0. *)
Definition sum_count (rg : region) (s : sched) (f : Z -> R) : R * Z :=
  reduce (fun a b => ((fst a + fst b)%R, (snd a + snd b)%Z)) (0%R, 0%Z) (fun a i => ((fst a + f (ind i))%R, (snd a + 1)%Z)) (0%R, 0%Z) rg s.
Definition mean (ranks : list Z) (rg : Z -> region) (s : Z -> sched) (f : Z -> Z -> R) (allpe : bool) (r : Z) : option R :=
  let local q := sum_count (rg q) (s q) (f q) in
  let '(result, count) := if allpe then (allreduce Rplus ranks (fun q => fst (local q)) 0%R, allreduce Z.add ranks (fun q => snd (local q)) 0%Z) else local r in
  if (count =? 0)%Z then None else Some (result / IZR count)%R.

(** 342-359 isUniform; [almost] is almost_equal(., ., 10). The break leaves the loop over one block only, which does not
    change the result. *)
Section Uniform.
Variable almost : R -> R -> bool.
Definition uniform_local (rg : region) (f : Z -> R) : res bool :=
  match indices rg with
  | [] => UB
  | i0 :: _ => let element := f (ind i0) in
      Ok (forallb (fun i => (if Req_EM_T (f (ind i)) element then true else false) || almost (f (ind i)) element) (getRegionIndices (blocks rg)))
  end.
Definition isUniform (ranks : list Z) (rg : Z -> region) (f : Z -> Z -> R) (allpe : bool) (r : Z) : res bool :=
  if allpe then all_op orb (* MPI_LOR *) ranks (fun q => uniform_local (rg q) (f q)) else uniform_local (rg r) (f r).
(** 369-383 getUniform; [chk] is CHECK. *)
Definition getUniform (chk : Z) (ranks : list Z) (rg : Z -> region) (f : Z -> Z -> R) (allpe : bool) (r : Z) : res R :=
  do ok <- (if (1 <? chk)%Z then isUniform ranks rg f allpe r else Ok true);
  if ok then match indices (rg r) with [] => UB | i0 :: _ => Ok (f r (ind i0)) end else Throw.
End Uniform.
(** RGN_NOBNDRY of Field3D (mesh.cxx:627-629) and, with nz = 1, of Field2D (658-660); [maxsz] is maxregionblocksize. *)
Definition nobndry (m : mesh) (nz maxsz : Z) : res region :=
  region_box (xstart m) (xend m) (ystart m) (yend m) 0 (nz - 1) (LocalNy m) nz maxsz.
