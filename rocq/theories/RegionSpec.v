(** Specification vocabulary for Regions, independent of the model's functions. *)
From Coq Require Import List ZArith Lia Bool Sorting Permutation.
From Verif Require Import RegionModel.
Import ListNotations.
Open Scope Z_scope.

(** Row-major storage position of point (x,y,z) in a field with [ny] by [nz] points per x. *)
Definition flat (ny nz x y z : Z) : Z := (x * ny + y) * nz + z.

(** Strictly increasing list of integers (hence without repetition, and determined by its set of elements). *)
Definition increasing (l : list Z) : Prop := StronglySorted Z.lt l.

(** [interleave ls t]: trace [t] executes the programs [ls] concurrently, each in its own order. *)
Inductive interleave {A : Type} : list (list A) -> list A -> Prop :=
| il_nil : forall ls, (forall l, In l ls -> l = []) -> interleave ls []
| il_step : forall ls1 a l ls2 t,
    interleave (ls1 ++ l :: ls2) t -> interleave (ls1 ++ (a :: l) :: ls2) (a :: t).

(** Two consecutive elements of a list. *)
Definition consecutive {A} (l : list A) (a b : A) : Prop := exists l1 l2, l = l1 ++ a :: b :: l2.

(** Ascending order on the stored position, and the contract of std::sort: a sorted permutation of the input. *)
Definition isorted (l : list sind) : Prop := StronglySorted (fun a b => ind a <= ind b) l.
Definition std_sort_contract (f : list sind -> list sind) : Prop :=
  forall l, Permutation l (f l) /\ isorted (f l).

(** Membership as a boolean. *)
Definition inb (k : Z) (l : list Z) : bool := existsb (Z.eqb k) l.
