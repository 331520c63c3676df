(** Specification vocabulary for integer ranges. *)
From Coq Require Import List ZArith.
From Verif Require Import RangeModel.
Import ListNotations.
Open Scope Z_scope.

(** The integers a, a+1, ..., b (none when b < a). *)
Definition ints (a b : Z) : list Z := map (fun k => a + Z.of_nat k) (seq 0 (Z.to_nat (b - a + 1))).
(** What a chain of ranges stands for: the concatenation of its ranges. *)
Definition elements (chain : list rnode) : list Z := flat_map (fun nd => ints (is_ nd) (ie_ nd)) chain.
Definition nonnull (nd : rnode) : Prop := is_ nd <= ie_ nd.
