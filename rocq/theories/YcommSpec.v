(** What a communicator along y must be, in terms of the field lines of TopoSpec. *)
From Coq Require Import ZArith List Bool.
From Verif Require Import MeshModel MeshSpec TopoModel TopoSpec.
Import ListNotations.
Open Scope Z_scope.

Section S.
Variables (npes ny : Z) (M : Z -> mesh) (ix1 ix2 : Z).
(** First and last global row of rank [q]. *)
Definition first_row (q : Z) : Z := getGlobalYIndexNoBoundaries (M q) (ystart (M q)).
Definition last_row (q : Z) : Z := getGlobalYIndexNoBoundaries (M q) (yend (M q)).
Definition up_from (x q : Z) : option Z := above ny (seps (M 0)) (x_lower ix1 ix2) (x_upper (seps (M 0)) ix1 ix2) x (last_row q).
Definition down_from (x q : Z) : option Z := below ny (seps (M 0)) (x_lower ix1 ix2) (x_upper (seps (M 0)) ix1 ix2) x (first_row q).

(** The field line at global [x] goes on from the last row of rank [a] to the first row of rank [b], and back. *)
Definition follows (x a b : Z) : Prop := up_from x a = Some (first_row b) /\ down_from x b = Some (last_row a).

(** The field line at global [x] through the rows of rank [r] is closed. *)
Definition closed_at (x r : Z) : Prop :=
  closed_line ny (seps (M 0)) (x_lower ix1 ix2) (x_upper (seps (M 0)) ix1 ix2) x (first_row r).

(** [l] lists the ranks with the x position of rank [r] that the field line through [r] at global [x] passes, once each and
    in order along it: an open line from end to end, a closed one once round. *)
Definition line_procs (x r : Z) (l : list Z) : Prop :=
  In r l /\ NoDup l /\ (forall q, In q l -> 0 <= q < npes /\ PE_XIND (M q) = PE_XIND (M r)) /\
  (forall l1 a b l2, l = l1 ++ a :: b :: l2 -> follows x a b) /\
  exists h t, hd_error l = Some h /\ hd_error (rev l) = Some t /\
    (closed_at x r -> follows x t h) /\ (~ closed_at x r -> down_from x h = None /\ up_from x t = None).
End S.
