(** Sequential programs that exchange messages with MPI_Isend, MPI_Irecv and MPI_Wait, run side by side on [N] processors.
    Used for PcrModel.

    What is modelled of MPI: messages are matched by source, destination and tag, in the order sent (non-overtaking); an
    MPI_Irecv names its source and tag (no wildcards in the code modelled); MPI_Wait on a receive returns when a message is there;
    MPI_Wait on a send returns when the receive has been posted, or earlier if MPI buffers the message ([eager], arbitrary).
    The processors run in any order; a delay of a message is the receiver not being run.
    Errors in the use of MPI end in [Bad]: a request that is in use or was not started, a rank that does not exist, two pending
    receives for the same source and tag, writing a send buffer while a send from it is pending ([Reuse] comes before such a
    write in the programs). Simplifications: one communicator; a receive buffer is not modelled, the program gets the message when
    it waits (the code looks at it only then); the payload of a message is any value. *)
From Coq Require Import List Arith Bool.
Import ListNotations.

Definition chan := (nat * nat * nat)%type.   (* source, destination, tag *)
Definition chan_eqb (c d : chan) : bool :=
  let '(a, b, t) := c in let '(a', b', t') := d in (a =? a') && (b =? b') && (t =? t').

Section Mpi.
Variables (M D : Type).

(** What a processor still has to do; [req] is the index of the MPI_Request used. *)
Inductive prog :=
| Ret (d : D)
| Bad
| Isend (req dst tag : nat) (m : M) (k : prog)
| Irecv (req src tag : nat) (k : prog)
| WaitRecv (req : nat) (k : M -> prog)
| WaitSend (req : nat) (k : prog)
| Reuse (k : prog).

Inductive request := RSend (c : chan) | RRecv (c : chan).
Definition pending := list (nat * request).
Fixpoint lookup (r : nat) (e : pending) : option request :=
  match e with [] => None | (s, q) :: e' => if r =? s then Some q else lookup r e' end.
Fixpoint remove (r : nat) (e : pending) : pending :=
  match e with [] => [] | (s, q) :: e' => if r =? s then e' else (s, q) :: remove r e' end.
Definition is_send (q : nat * request) : bool := match snd q with RSend _ => true | _ => false end.
Definition is_recv_on (c : chan) (q : nat * request) : bool := match snd q with RRecv d => chan_eqb c d | _ => false end.
Definition free (r : nat) (e : pending) : bool := match lookup r e with None => true | _ => false end.

(** A channel: messages sent and not yet taken, how many were sent, how many receives were posted. *)
Record cstate := mkCh { queue : list M; sent : nat; posted : nat }.
Record state := mkSt { procs : nat -> prog * pending; chans : chan -> cstate }.
Definition set_proc (f : nat -> prog * pending) (p : nat) v := fun q => if q =? p then v else f q.
Definition set_chan (f : chan -> cstate) (c : chan) v := fun d => if chan_eqb d c then v else f d.

Variable N : nat.
Variable eager : chan -> nat -> bool.

(** One step of processor [p], if it can do one. *)
Definition step (p : nat) (st : state) : option state :=
  let '(pr, e) := procs st p in
  let go v := Some (mkSt (set_proc (procs st) p v) (chans st)) in
  let goc v c w := Some (mkSt (set_proc (procs st) p v) (set_chan (chans st) c w)) in
  match pr with
  | Ret _ | Bad => None
  | Isend r dst tag m k =>
    let c := (p, dst, tag) in let s := chans st c in
    if (dst <? N) && free r e then goc (k, (r, RSend c) :: e) c (mkCh (queue s ++ [m]) (S (sent s)) (posted s)) else go (Bad, e)
  | Irecv r src tag k =>
    let c := (src, p, tag) in let s := chans st c in
    if (src <? N) && free r e && negb (existsb (is_recv_on c) e) then goc (k, (r, RRecv c) :: e) c (mkCh (queue s) (sent s) (S (posted s)))
    else go (Bad, e)
  | WaitRecv r k =>
    match lookup r e with
    | Some (RRecv c) => let s := chans st c in
      match queue s with m :: t => goc (k m, remove r e) c (mkCh t (sent s) (posted s)) | [] => None end
    | _ => go (Bad, e)
    end
  | WaitSend r k =>
    match lookup r e with
    | Some (RSend c) => let s := chans st c in
      if eager c (sent s) || (sent s <=? posted s) then go (k, remove r e) else None
    | _ => go (Bad, e)
    end
  | Reuse k => if existsb is_send e then go (Bad, e) else go (k, e)
  end.

(** [n] steps of processors below [N], in any order. *)
Inductive steps : nat -> state -> state -> Prop :=
| steps_nil st : steps 0 st st
| steps_cons n p st st' st'' : p < N -> step p st = Some st' -> steps n st' st'' -> steps (S n) st st''.
(** Nothing more can happen. *)
Definition halted (st : state) : Prop := forall p, p < N -> step p st = None.
Definition empty_chan : cstate := mkCh [] 0 0.
Definition initial (P : nat -> prog) : state := mkSt (fun p => (P p, [])) (fun _ => empty_chan).
End Mpi.
Arguments Ret {M D} d.
Arguments Bad {M D}.
Arguments Isend {M D}.
Arguments Irecv {M D}.
Arguments WaitRecv {M D}.
Arguments WaitSend {M D}.
Arguments Reuse {M D}.
Arguments procs {M D}.
Arguments chans {M D}.
Arguments mkSt {M D}.
Arguments mkCh {M}.
Arguments queue {M}.
Arguments sent {M}.
Arguments posted {M}.
Arguments set_proc {M D}.
Arguments set_chan {M}.

(** Sequencing. *)
Fixpoint bind {M D E} (m : prog M D) (f : D -> prog M E) : prog M E :=
  match m with
  | Ret d => f d
  | Bad => Bad
  | Isend r d t v k => Isend r d t v (bind k f)
  | Irecv r s t k => Irecv r s t (bind k f)
  | WaitRecv r k => WaitRecv r (fun v => bind (k v) f)
  | WaitSend r k => WaitSend r (bind k f)
  | Reuse k => Reuse (bind k f)
  end.
Declare Scope mpi_scope.
Notation "'mdo' x <- m ; k" := (bind m (fun x => k)) (at level 200, x name, m at level 100, k at level 200) : mpi_scope.
Notation "m ;; k" := (bind m (fun _ => k)) (at level 100, right associativity) : mpi_scope.
Definition when {M} (b : bool) (m : prog M unit) : prog M unit := if b then m else Ret tt.
Definition must {M} (b : bool) : prog M unit := if b then Ret tt else Bad.
Definition isend {M} (r d t : nat) (v : M) : prog M unit := Isend r d t v (Ret tt).
Definition irecv {M} (r s t : nat) : prog M unit := Irecv r s t (Ret tt).
Definition wait_recv {M} (r : nat) : prog M M := WaitRecv r Ret.
Definition wait_send {M} (r : nat) : prog M unit := WaitSend r (Ret tt).
Definition fill {M} : prog M unit := Reuse (Ret tt).
