(** Specification vocabulary for the reductions of fields. *)
From Coq Require Import ZArith Reals List.
From Verif Require Import RegionModel.
Import ListNotations.

(** The cells of a region, and the region's blocks enumerate them (C04, C05: true of every region that is constructed). *)
Definition cells (rg : region) : list Z := map ind (indices rg).
Definition good_region (rg : region) : Prop := map ind (getRegionIndices (blocks rg)) = cells rg.
(** The values a field takes on a region, on the given ranks. *)
Definition values (ranks : list Z) (rg : Z -> region) (f : Z -> Z -> R) : list R := flat_map (fun q => map (f q) (cells (rg q))) ranks.
Definition is_least (l : list R) (m : R) : Prop := In m l /\ forall x, In x l -> (m <= x)%R.
Definition is_greatest (l : list R) (m : R) : Prop := In m l /\ forall x, In x l -> (x <= m)%R.
Fixpoint total (l : list R) : R := match l with [] => 0%R | x :: t => (x + total t)%R end.
(** Sum divided by number of values. *)
Definition is_mean (l : list R) (m : R) : Prop := l <> [] /\ (m * INR (length l) = total l)%R.
Definition all_equal (l : list R) : Prop := forall x y, In x l -> In y l -> x = y.

(** All the points of a grid. *)
Definition upto (n : Z) : list Z := map Z.of_nat (seq 0 (Z.to_nat n)).
Definition grid_points (nx ny nz : Z) : list (Z * Z * Z) :=
  flat_map (fun x => flat_map (fun y => map (fun z => (x, y, z)) (upto nz)) (upto ny)) (upto nx).
