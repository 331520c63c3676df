(** What the tokamak topology means, on global indices only.  A point is (x,y) with 0 <= x < nx (boundary cells
    included) and 0 <= y < ny.  [lo] and [up] are the x positions of the separatrices of the lower and the upper
    X-point: cells with x < lo (x < up) are inside them. *)
From Coq Require Import ZArith Bool.
From Verif Require Import MeshModel MeshSpec.
Open Scope Z_scope.

Definition is_double (s : yseps) : bool := negb (j21 s =? j12 s).

(** The y index of the next cell along the field line, upwards; [None] at a target plate or domain end. *)
Definition above (ny : Z) (s : yseps) (lo up x y : Z) : option Z :=
  if (x <? lo) && (y =? j22 s) then Some (j11 s + 1)                       (* core, through the lower X-point *)
  else if (x <? lo) && (y =? j11 s) then Some (j22 s + 1)                  (* lower private flux region *)
  else if is_double s && (x <? up) && (y =? j21 s) then Some (j12 s + 1)   (* core, past the upper X-point *)
  else if is_double s && (x <? up) && (y =? j12 s) then Some (j21 s + 1)   (* upper private flux region *)
  else if is_double s && (y =? nyin s - 1) then None                       (* upper inner target *)
  else if y =? ny - 1 then None                                            (* end of the domain *)
  else Some (y + 1).

(** The same downwards. *)
Definition below (ny : Z) (s : yseps) (lo up x y : Z) : option Z :=
  if (x <? lo) && (y =? j11 s + 1) then Some (j22 s)
  else if (x <? lo) && (y =? j22 s + 1) then Some (j11 s)
  else if is_double s && (x <? up) && (y =? j12 s + 1) then Some (j21 s)
  else if is_double s && (x <? up) && (y =? j21 s + 1) then Some (j12 s)
  else if is_double s && (y =? nyin s) then None                           (* upper outer target *)
  else if y =? 0 then None
  else Some (y - 1).

(** Separatrix positions used for the lower and the upper X-point. *)
Definition x_lower (ix1 ix2 : Z) : Z := ix1.
Definition x_upper (s : yseps) (ix1 ix2 : Z) : Z := if is_double s then ix2 else ix1.

(** Non-degenerate separatrix descriptions: legs and core regions are not empty, subdomains have at least two points
    in y, and the lower legs are both present or both absent. *)
Record regular (ny mysub : Z) (s : yseps) : Prop := {
  r_mysub : 2 <= mysub;
  r_ends : j11 s = -1 <-> j22 s = ny - 1;
  r_single : j21 s = j12 s -> j11 s < j22 s;
  r_double : j21 s <> j12 s -> j11 s < j21 s /\ j21 s < nyin s - 1 /\ nyin s - 1 < j12 s /\ j12 s < j22 s
}.

(** The field line through (x,y) closes on itself after [n] steps upwards. *)
Fixpoint steps_above (n : nat) (ny : Z) (s : yseps) (lo up x y : Z) : option Z :=
  match n with
  | O => Some y
  | S n' => match above ny s lo up x y with
            | Some y' => steps_above n' ny s lo up x y'
            | None => None
            end
  end.
Definition closed_line (ny : Z) (s : yseps) (lo up x y : Z) : Prop :=
  exists n, (0 < n)%nat /\ steps_above n ny s lo up x y = Some y.
From Verif Require Import TopoModel.

(** Sends and receives between processors pair up: what P sends through the top of its inner (outer) x range goes to Q
    exactly when Q expects, at the bottom of its inner (outer) range, data from P; both split x at the same place,
    so the messages have the same length; and the same in x. *)
Definition messages_match (npes : Z) (C : Z -> conn) : Prop :=
  forall P Q, 0 <= P < npes -> 0 <= Q < npes ->
    (U_IN (C P) = Q <-> D_IN (C Q) = P) /\
    (U_OUT (C P) = Q <-> D_OUT (C Q) = P) /\
    (U_IN (C P) = Q \/ U_OUT (C P) = Q -> U_XSPLIT (C P) = D_XSPLIT (C Q)) /\
    (O_DEST (C P) = Q <-> I_DEST (C Q) = P).

(** A mesh loaded on [npes] processors: every rank's decomposition and connections. *)
Definition loaded (npes nx ny mxg myg : Z) (s : yseps) (user : option (Z + Z)) (ix1 ix2 : Z) (per : bool)
                  (M : Z -> mesh) (C : Z -> conn) (core : Z -> bool) : Prop :=
  0 < npes /\ 0 < ny /\ 0 <= mxg /\ 0 <= myg /\
  forall r, 0 <= r < npes ->
    load_decomposition npes r nx ny mxg myg s user = Base.Ok (M r) /\
    topology npes r (M r) ix1 ix2 per = Base.Ok (C r, core r).
