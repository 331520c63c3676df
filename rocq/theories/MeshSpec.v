(** Specification vocabulary for the domain decomposition; mentions only plain integers. *)
From Coq Require Import ZArith Reals List.
From Verif Require Import MeshModel.
Import ListNotations.
Open Scope Z_scope.

(** Ordering that valid separatrix indices satisfy on a grid of [ny] points. *)
Definition ordered_seps (ny : Z) (s : yseps) : Prop :=
  -1 <= j11 s /\ j11 s <= j21 s /\ j21 s <= j12 s /\ j12 s <= j22 s /\ j22 s < ny.

Definition double_null (s : yseps) : Prop := j21 s <> j12 s.

(** [y] is the last point before a branch cut or an internal target. *)
Definition is_cut (s : yseps) (y : Z) : Prop :=
  y = j11 s \/ y = j22 s \/ (double_null s /\ (y = j21 s \/ y = j12 s \/ y = nyin s - 1)).

(** [nype] is an acceptable number of y processors: ny divides evenly, no cut is inside a subdomain (the point
    after each cut starts a subdomain), and subdomains hold the guard cells unless there is just one. *)
Definition acceptable_nype (ny myg : Z) (s : yseps) (nype : Z) : Prop :=
  0 < nype /\
  exists mysub, ny = nype * mysub /\ 0 < mysub /\
    (forall y, is_cut s y -> (mysub | y + 1)) /\
    (nype = 1 \/ myg <= mysub).

(** A candidate NXPE for [npes] processors. *)
Definition candidate (npes nx mxg ny myg : Z) (s : yseps) (nxpe : Z) : Prop :=
  0 < nxpe /\ (nxpe | nx - 2 * mxg) /\
  exists nype, npes = nxpe * nype /\ acceptable_nype ny myg s nype.

(** NXPE giving square subdomains. *)
Definition ideal_nxpe (npes nx mxg ny : Z) : R := sqrt (IZR ((nx - 2 * mxg) * npes) / IZR ny).
