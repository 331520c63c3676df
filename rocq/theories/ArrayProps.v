(** Property theorem C08. *)
From Coq Require Import List ZArith Lia Bool Arith.
From Verif Require Import Base ArrayModel ArraySpec ArrayProofs.
Import ListNotations.

(** Every legal history runs without exception, use of freed memory or access to a missing Array. *)
Theorem C08_history_never_stuck : forall V os, legal_run V (init V) os -> exists s, run V (init V) os = Ok s.
Proof. exact history_never_stuck. Qed.
Print Assumptions C08_history_never_stuck.

(** In every reachable state each operation has exactly the effect on values given in ArraySpec.v: Arrays behave as
    independent values although blocks are shared and recycled. A write needs [unique()], which the next theorem provides. *)
Theorem C08_operations_act_on_values : forall V s o, reachable V s -> legal V (observe V s) o ->
  match o with OWrite _ v _ _ => unique V s v = true | _ => True end ->
  exists s', step V s o = Ok s' /\ effect V (observe V s) o (observe V s').
Proof. exact reachable_step. Qed.
Print Assumptions C08_operations_act_on_values.

Theorem C08_ensure_unique_then_write : forall V s v j i x d, reachable V s -> observe V s v = Data V d -> i < length d ->
  exists s1 s2, step V s (OEnsureUnique V v j) = Ok s1 /\ unique V s1 v = true /\ step V s1 (OWrite V v i x) = Ok s2 /\
    (forall w, w <> v -> observe V s2 w = observe V s w) /\
    exists d1 y d2, d = d1 ++ y :: d2 /\ length d1 = i /\ observe V s2 v = Data V (d1 ++ x :: d2).
Proof. exact cow. Qed.
Print Assumptions C08_ensure_unique_then_write.

(** No Array dangles; a stored (reusable) block belongs to no Array and is stored once; no block leaks. *)
Theorem C08_store_isolation : forall V s, reachable V s ->
  (forall v, observe V s v <> Dangling V) /\
  (forall b, In b (store V s) -> forall v, lookup (vars V s) v <> Some (Some b)) /\
  NoDup (store V s) /\
  (forall b, heap V s b <> None -> In b (store V s) \/ exists v, lookup (vars V s) v = Some (Some b)).
Proof. exact reachable_safe. Qed.
Print Assumptions C08_store_isolation.

(** A history with sharing, recycling through the store, and writes. *)
Definition demo : list (op nat) :=
  [ONew nat 1 3 (fun k => k); OCopy nat 2 1; OEnsureUnique nat 2 (fun _ => 9); OWrite nat 2 0 7; OClear nat 1;
   ONew nat 3 3 (fun _ => 8); OCopy nat 4 2; OMoveAssign nat 3 4; ODestroy nat 2; OSwap nat 1 3; OCleanup nat].
Example C08_case : legal_run nat (init nat) demo /\
  exists s, run nat (init nat) demo = Ok s /\ observe nat s 1 = Data nat [7; 1; 2] /\ observe nat s 3 = Empty nat.
Proof.
  split; [|eexists; vm_compute; repeat split].
  unfold demo. 
  repeat (apply lr_cons; [cbn [legal]; unfold alive; try (vm_compute; intuition congruence);
                          try (eexists; split; [vm_compute; reflexivity|cbn; lia])|vm_compute; auto|];
          let s := fresh "s" in let E := fresh "E" in intros s E; vm_compute in E; injection E as <-).
  apply lr_nil.
Qed.
