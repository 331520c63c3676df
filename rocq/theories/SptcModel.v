(** Model of the schedule of LaplaceSPT (src/invert/laplace/impls/spt/spt.cxx): the slices of a Field3D passed concurrently
    from processor to processor, every processor executing the same sequence of calls of start, next and finish, with MPI
    point to point messages.

    Simplifications. The computations of start and next are parameters (SptModel gives them); a message is the content of
    data.buffer (the part that is used). Local data of a slice are [L]. Slices are numbered from 0 (the code: from ys); all
    processors of a row have the same ys, ye (mesh.cxx 400-432: the answer is combined over the row). MPI: messages between two
    processors with the same tag are received in order; comm_tag is different for every slice (spt.cxx 70-72), so there is a
    queue for each sender, receiver and slice. A receive is written into the buffer at any time between its posting and the
    wait; a send may return at once (buffered) or block until the receive is posted. Which Throw ends a computation is not
    modelled: the theorems are about computations that succeed. *)
From Coq Require Import List Arith Bool ZArith.
From Verif Require Import Base.
Import ListNotations.

(** What a processor does for slice [s]: the computations, and the calls of the mesh. [out]: towards larger x. *)
Inductive act :=
| AFirst (s : nat) | AMid (s : nat) | ATurn (s : nat) | AMidb (s : nat) | AFstb (s : nat)
| AIrecv (s : nat) (out : bool) | AWait (s : nat) | ASend (s : nat) (out : bool).

(** data.proc and data.dir. *)
Record ctl := mkCtl { proc : Z; dir : Z }.

(** spt.cxx 337-378 (start) on processor [r] of [N]. *)
Definition start_code (N r s : nat) : list act * ctl :=
  ((if r =? 0 then [AFirst s; ASend s true] else if r =? 1 then [AIrecv s false] else []),
   mkCtl 1%Z (if N =? 2 then (-1)%Z else 1%Z)).
(** 386-500 (next): what is done, the new data.proc and data.dir, and whether it returns non-zero. *)
Definition next_code (N r s : nat) (c : ctl) : list act * ctl * bool :=
  if (proc c <? 0)%Z then ([], c, true)
  else
    let a :=
      if (Z.of_nat r =? proc c)%Z then
        AWait s ::
        (if r =? N - 1 then ATurn s else if (dir c >? 0)%Z then AMid s else if r =? 0 then AFstb s else AMidb s) ::
        (if negb (r =? 0) then [ASend s (dir c >? 0)%Z] else [])
      else if (Z.of_nat r =? proc c + dir c)%Z then [AIrecv s (negb (dir c >? 0)%Z)]
      else [] in
    let p := (proc c + dir c)%Z in
    (a, mkCtl p (if (p =? Z.of_nat N - 1)%Z then -1 else dir c)%Z, false).

(** ** The sequence of calls (solve(Field3D) 137-171; solve(FieldPerp) is the case of one slice without the middle loop). It is
    written once for any kind of control state [C] and output [Out]. *)
Section Calls.
Variables C Out : Type.
Variable start : nat -> list Out * C.
Variable next : nat -> C -> list Out * C * bool.
Definition set_c (cs : nat -> C) (s : nat) (c : C) : nat -> C := fun t => if t =? s then c else cs t.
(** next on slices s, ..., s+m-1; the last result. *)
Fixpoint pass (m s : nat) (cs : nat -> C) (last : bool) : list Out * (nat -> C) * bool :=
  match m with
  | O => ([], cs, last)
  | S m' => let '(o, c, b) := next s (cs s) in
            let '(os, cs', b') := pass m' (S s) (set_c cs s c) b in (o ++ os, cs', b')
  end.
(** 145-153: start slice s, then next on the slices before; m slices from s. *)
Fixpoint starts (m s : nat) (cs : nat -> C) : list Out * (nat -> C) :=
  match m with
  | O => ([], cs)
  | S m' => let '(o, c) := start s in
            let '(o1, cs1, _) := pass s 0 (set_c cs s c) false in
            let '(o2, cs2) := starts m' (S s) cs1 in (o ++ o1 ++ o2, cs2)
  end.
(** 155-161, the do while loop; None: more than [fuel] turns. *)
Fixpoint turns (fuel ns : nat) (cs : nat -> C) : option (list Out * (nat -> C)) :=
  match fuel with
  | O => None
  | S f => let '(o, cs1, b) := pass ns 0 cs false in
           if b then Some (o, cs1) else match turns f ns cs1 with Some (o', cs2) => Some (o ++ o', cs2) | None => None end
  end.
(** 518-519, the loop in finish. *)
Fixpoint whiles (fuel s : nat) (c : C) : option (list Out * C) :=
  match fuel with
  | O => None
  | S f => let '(o, c1, b) := next s c in
           if b then Some (o, c1) else match whiles f s c1 with Some (o', c2) => Some (o ++ o', c2) | None => None end
  end.
(** 168-171. *)
Fixpoint finishes (fuel m s : nat) (cs : nat -> C) : option (list Out) :=
  match m with
  | O => Some []
  | S m' => match whiles fuel s (cs s) with
            | None => None
            | Some (o, c) => match finishes fuel m' (S s) (set_c cs s c) with Some o' => Some (o ++ o') | None => None end
            end
  end.
Definition solve3d (fuel ns : nat) (cs : nat -> C) : option (list Out) :=
  let '(o1, cs1) := starts ns 0 cs in
  match turns fuel ns cs1 with
  | None => None
  | Some (o2, cs2) => match finishes fuel ns 0 cs2 with Some o3 => Some (o1 ++ o2 ++ o3) | None => None end
  end.
(** 86-122, slice 0. *)
Definition solveperp (fuel : nat) : option (list Out) :=
  let '(o1, c) := start 0 in match whiles fuel 0 c with Some (o, _) => Some (o1 ++ o) | None => None end.
End Calls.
Arguments pass {C Out} _ _ _ _ _.
Arguments starts {C Out} _ _ _ _ _.
Arguments turns {C Out} _ _ _ _.
Arguments whiles {C Out} _ _ _ _.
Arguments finishes {C Out} _ _ _ _ _.
Arguments solve3d {C Out} _ _ _ _ _.
Arguments solveperp {C Out} _ _ _.
Arguments set_c {C} _ _ _.

(** What processor [r] does: [ns] slices of a Field3D, or a FieldPerp. The initial data.proc, data.dir do not matter. *)
Definition code3d (fuel N ns r : nat) (junk : nat -> ctl) : option (list act) := solve3d (start_code N r) (next_code N r) fuel ns junk.
Definition codeperp (fuel N r : nat) : option (list act) := solveperp (start_code N r) (next_code N r) fuel.

(** ** Executions. *)
Inductive handle := HNone | HPend (src : nat) | HDone.

Section Run.
Variables L Msg : Type.
Variable N : nat.
(** The computations, for slice, processor, local data and buffer (SptModel: s_first, s_mid, s_turn, s_midb, s_fstb). *)
Variable fst0 : nat -> Msg -> L -> res (L * Msg).
Variables mid turn midb : nat -> nat -> L -> Msg -> res (L * Msg).
Variable fstb : nat -> L -> Msg -> res L.

Record cfg := mkCfg {
  rem : nat -> list act;               (* what processor r still has to do *)
  work : nat -> nat -> L;              (* local data, for processor and slice *)
  buf : nat -> nat -> Msg;             (* data.buffer *)
  hnd : nat -> nat -> handle;          (* data.recv_handle *)
  chan : nat -> nat -> nat -> list Msg (* messages sent and not delivered: sender, receiver, slice *)
}.
Definition upd1 {A} (f : nat -> A) (r : nat) (v : A) : nat -> A := fun q => if q =? r then v else f q.
Definition upd2 {A} (f : nat -> nat -> A) (r s : nat) (v : A) : nat -> nat -> A := fun q t => if (q =? r) && (t =? s) then v else f q t.
Definition upd3 {A} (f : nat -> nat -> nat -> A) (p r s : nat) (v : A) : nat -> nat -> nat -> A :=
  fun o q t => if (o =? p) && (q =? r) && (t =? s) then v else f o q t.

(** The slice and the result of a computation. *)
Definition computes (r : nat) (a : act) (c : cfg) : option (nat * res (L * Msg)) :=
  match a with
  | AFirst s => Some (s, fst0 s (buf c r s) (work c r s))
  | AMid s => Some (s, mid s r (work c r s) (buf c r s))
  | ATurn s => Some (s, turn s r (work c r s) (buf c r s))
  | AMidb s => Some (s, midb s r (work c r s) (buf c r s))
  | AFstb s => Some (s, do l <- fstb s (work c r s) (buf c r s); Ok (l, buf c r s))
  | _ => None
  end.
(** The neighbour (boutmesh.cxx 1492-1552: PROC_NUM(PE_XIND + 1, ..), PROC_NUM(PE_XIND - 1, ..)). *)
Definition neighbour (r : nat) (out : bool) : nat := if out then S r else r - 1.

Inductive step (c : cfg) : cfg -> Prop :=
| st_compute r a rest s l b : r < N -> rem c r = a :: rest -> computes r a c = Some (s, Ok (l, b)) ->
    step c (mkCfg (upd1 (rem c) r rest) (upd2 (work c) r s l) (upd2 (buf c) r s b) (hnd c) (chan c))
| st_irecv r s out rest : r < N -> rem c r = AIrecv s out :: rest ->
    step c (mkCfg (upd1 (rem c) r rest) (work c) (buf c) (upd2 (hnd c) r s (HPend (neighbour r out))) (chan c))
| st_wait r s rest : r < N -> rem c r = AWait s :: rest -> hnd c r s = HDone ->
    step c (mkCfg (upd1 (rem c) r rest) (work c) (buf c) (upd2 (hnd c) r s HNone) (chan c))
| st_send r s out rest : r < N -> rem c r = ASend s out :: rest ->
    step c (mkCfg (upd1 (rem c) r rest) (work c) (buf c) (hnd c)
             (upd3 (chan c) r (neighbour r out) s (chan c r (neighbour r out) s ++ [buf c r s])))
| st_deliver r s src m ms : r < N -> hnd c r s = HPend src -> chan c src r s = m :: ms ->
    step c (mkCfg (rem c) (work c) (upd2 (buf c) r s m) (upd2 (hnd c) r s HDone) (upd3 (chan c) src r s ms)).

(** A send that must wait for buffer space in the MPI library: its receive has not been posted. *)
Definition needs_buffering (c c' : cfg) : Prop :=
  exists r s out rest, r < N /\ rem c r = ASend s out :: rest /\ rem c' r = rest /\ hnd c (neighbour r out) s <> HPend r.

(** What must not happen: processor [r], about to do [a], touches a buffer that is being received into, loses a request, waits
    for nothing, or names a processor that does not exist; or a computation fails. *)
Definition faulty (c : cfg) (r : nat) (a : act) : Prop :=
  match a with
  | AIrecv s out => hnd c r s <> HNone \/ (if out then N <= S r else r = 0)
  | AWait s => hnd c r s = HNone
  | ASend s out => hnd c r s <> HNone \/ (if out then N <= S r else r = 0)
  | _ => match computes r a c with Some (s, Ok _) => hnd c r s <> HNone | _ => True end
  end.

Inductive steps : nat -> cfg -> cfg -> Prop :=
| steps_0 c : steps 0 c c
| steps_S n c c1 c2 : steps n c c1 -> step c1 c2 -> steps (S n) c c2.
End Run.
Arguments mkCfg {L Msg} _ _ _ _ _.
Arguments rem {L Msg} _ _.
Arguments work {L Msg} _ _ _.
Arguments buf {L Msg} _ _ _.
Arguments hnd {L Msg} _ _ _.
Arguments chan {L Msg} _ _ _ _.
