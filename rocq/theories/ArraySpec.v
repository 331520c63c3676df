(** Specification of Array as independent values: what each operation may change. *)
From Coq Require Import List Arith.
From Verif Require Import ArrayModel.
Import ListNotations.
Section S.
  Variable V : Type.
  Notation world := (nat -> view V).
  Definition others_same (vs : list nat) (a a' : world) : Prop := forall w, ~ In w vs -> a' w = a w.
  Definition alive (a : world) (v : nat) : Prop := a v <> NoVar V.

  (** What the caller must respect: declared names are new, used names are in scope, writes are in range. *)
  Definition legal (a : world) (o : op V) : Prop :=
    match o with
    | ONewEmpty _ v | ONew _ v _ _ => ~ alive a v
    | OCopy _ v w | OMoveNew _ v w => ~ alive a v /\ alive a w
    | OAssign _ v w | OMoveAssign _ v w | OSwap _ v w => alive a v /\ alive a w
    | ORealloc _ v _ _ | OClear _ v | ODestroy _ v | OEnsureUnique _ v _ => alive a v
    | OWrite _ v i _ => exists d, a v = Data V d /\ i < length d
    | OCleanup _ | OUseStoreFalse _ => True
    end.
  (** The effect on values. *)
  Definition effect (a : world) (o : op V) (a' : world) : Prop :=
    match o with
    | ONewEmpty _ v => a' v = Empty V /\ others_same [v] a a'
    | ONew _ v len _ => (exists d, a' v = Data V d /\ length d = len) /\ others_same [v] a a'
    | OCopy _ v w => a' v = a w /\ others_same [v] a a'
    | OMoveNew _ v w => a' v = a w /\ a' w = Empty V /\ others_same [v; w] a a'
    | OAssign _ v w => a' v = a w /\ others_same [v] a a'
    | OMoveAssign _ v w => (v <> w -> a' v = a w /\ a' w = Empty V) /\ (v = w -> a' v = a v) /\ others_same [v; w] a a'
    | OSwap _ v w => a' v = a w /\ a' w = a v /\ others_same [v; w] a a'
    | ORealloc _ v len _ => (exists d, a' v = Data V d /\ length d = len) /\ others_same [v] a a'
    | OClear _ v => a' v = Empty V /\ others_same [v] a a'
    | ODestroy _ v => a' v = NoVar V /\ others_same [v] a a'
    | OEnsureUnique _ v _ => others_same [] a a'
    | OWrite _ v i x =>
      (exists d1 y d2, a v = Data V (d1 ++ y :: d2) /\ length d1 = i /\ a' v = Data V (d1 ++ x :: d2)) /\ others_same [v] a a'
    | OCleanup _ | OUseStoreFalse _ => others_same [] a a'
    end.
End S.
