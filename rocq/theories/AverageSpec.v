(** Specification vocabulary for the averages and the non-linear filter. *)
From Coq Require Import ZArith Reals List.
From Verif Require Import MeshModel ReduceSpec.
Import ListNotations.

(** a, a+1, .., b *)
Definition from_to (a b : Z) : list Z := map (fun k => (a + Z.of_nat k)%Z) (seq 0 (Z.to_nat (b - a + 1))).
(** The values of the field in column x, at the rows of the ranks l without guard cells. *)
Definition line_values (M : Z -> mesh) (f : Z -> Z -> Z -> Z -> R) (l : list Z) (x z : Z) : list R :=
  flat_map (fun q => map (fun y => f q x y z) (from_to (ystart (M q)) (yend (M q)))) l.
(** The sum of the n first values. *)
Definition sum_n (n : nat) (f : nat -> R) : R := total (map f (seq 0 n)).
(** No point inside is a strict local extremum. *)
Definition no_extremum (n : nat) (f : nat -> R) : Prop :=
  forall i : nat, (1 <= i)%nat -> (i + 1 < n)%nat -> ~ (f (i - 1)%nat < f i /\ f (i + 1)%nat < f i)%R /\ ~ (f i < f (i - 1)%nat /\ f i < f (i + 1)%nat)%R.
(** The sum of the jumps between neighbours. *)
Definition variation (n : nat) (f : nat -> R) : R := total (map (fun j => Rabs (f (j + 1)%nat - f j)) (seq 0 (n - 1))).
