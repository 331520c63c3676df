(** Shared vocabulary: outcomes of C++ calls, and small list helpers used by several models. *)
From Coq Require Import List ZArith Lia Bool.
Import ListNotations.

(** Outcome of a modelled call: a value, a C++ exception (BoutException and relatives), or undefined
    behaviour / non-termination (out-of-bounds access, division by zero, exhausted loop fuel). *)
Inductive res (A : Type) : Type :=
| Ok (a : A)
| Throw
| UB.
Arguments Ok {A} a.
Arguments Throw {A}.
Arguments UB {A}.

Definition bind {A B} (m : res A) (f : A -> res B) : res B :=
  match m with
  | Ok a => f a
  | Throw => Throw
  | UB => UB
  end.

Definition is_ok {A} (m : res A) : bool := match m with Ok _ => true | _ => false end.

Notation "'do' x <- m ; f" := (bind m (fun x => f)) (at level 200, x name, m at level 100, f at level 200).

(** Write element [j] of a vector; [None] when out of bounds. *)
Fixpoint vec_set {A} (l : list A) (j : nat) (v : A) : option (list A) :=
  match l, j with
  | [], _ => None
  | _ :: t, O => Some (v :: t)
  | h :: t, S j' => match vec_set t j' v with Some t' => Some (h :: t') | None => None end
  end.

Definition ofopt {A} (o : option A) : res A := match o with Some a => Ok a | None => UB end.
