(** Specification of the concurrent solve of LaplaceSPT: what every execution must satisfy. *)
From Coq Require Import List Arith.
From Verif Require SptModel.
From Verif Require Import Base SptcModel.
Import ListNotations.

Section S.
Variables L Msg : Type.
Variable N : nat.
Variable fst0 : nat -> Msg -> L -> res (L * Msg).
Variables mid turn midb : nat -> nat -> L -> Msg -> res (L * Msg).
Variable fstb : nat -> L -> Msg -> res L.
(** Processor r is about to run [prog r]; no message is under way and no receive is posted. *)
Definition initial (prog : nat -> list act) (c0 : cfg L Msg) : Prop :=
  (forall r, r < N -> rem c0 r = prog r) /\ (forall r s, hnd c0 r s = HNone) /\ forall p q s, chan c0 p q s = [].
Definition finished (c : cfg L Msg) : Prop := forall r, r < N -> rem c r = [].
(** [result s r]: what slice s is on processor r if the processors worked on that slice alone, one after the other. *)
Definition one_by_one (ns : nat) (c0 : cfg L Msg) (result : nat -> nat -> L) : Prop :=
  forall s, s < ns -> SptModel.chain L Msg N (fst0 s (buf c0 0 s)) (mid s) (turn s) (midb s) (fstb s) (fun r => work c0 r s) = Ok (result s).
(** Every execution from [c0], at every moment: bounded length; no misuse of a buffer or request, no failed computation; some
    processor can go on, even if no send is buffered; and at the end the results are those of the sequential calculation, all
    messages have been received and all requests completed. *)
Definition runs_well (ns : nat) (c0 : cfg L Msg) (result : nat -> nat -> L) : Prop :=
  forall n c, steps L Msg N fst0 mid turn midb fstb n c0 c ->
    n <= 10 * ns * N /\
    (forall r a rest, r < N -> rem c r = a :: rest -> ~ faulty L Msg N fst0 mid turn midb fstb c r a) /\
    (finished c \/ exists c', step L Msg N fst0 mid turn midb fstb c c' /\ ~ needs_buffering L Msg N c c') /\
    (finished c -> (forall r s, r < N -> s < ns -> work c r s = result s r /\ hnd c r s = HNone) /\ forall p q s, chan c p q s = []).
(** Some execution gets to the end. *)
Definition can_finish (c0 : cfg L Msg) : Prop := exists n c, steps L Msg N fst0 mid turn midb fstb n c0 c /\ finished c.
End S.
Arguments initial {L Msg} _ _ _.
Arguments finished {L Msg} _ _.
