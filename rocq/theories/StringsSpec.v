(** Specification vocabulary for strings. *)
From Coq Require Import List Arith Ascii String.
Import ListNotations.

(** [align a b n]: string [a] is turned into [b], reading both once from left to right, by keeping, substituting,
    deleting, inserting characters or swapping two adjacent ones, with [n] edits in total. *)
Inductive align {A : Type} : list A -> list A -> nat -> Prop :=
| al_nil : align [] [] 0
| al_keep : forall x a b n, align a b n -> align (x :: a) (x :: b) n
| al_subst : forall x y a b n, align a b n -> align (x :: a) (y :: b) (S n)
| al_delete : forall x a b n, align a b n -> align (x :: a) b (S n)
| al_insert : forall y a b n, align a b n -> align a (y :: b) (S n)
| al_swap : forall x y a b n, align a b n -> align (x :: y :: a) (y :: x :: b) (S n).
(** The least number of edits. *)
Definition least_edits {A} (a b : list A) (n : nat) : Prop := align a b n /\ forall m, align a b m -> n <= m.

(** Pieces joined by a delimiter. *)
Fixpoint join {A} (d : A) (l : list (list A)) : list A :=
  match l with
  | [] => []
  | [p] => p
  | p :: l' => p ++ d :: join d l'
  end.

(** The first (last) character, if there is one, is not in [cs]. *)
Definition begins_outside {A} (cs s : list A) : Prop := match s with [] => True | c :: _ => ~ In c cs end.
Definition ends_outside {A} (cs s : list A) : Prop := s = [] \/ exists p c, s = p ++ [c] /\ ~ In c cs.

(** The alphabet, for lower-casing. *)
Definition capitals : list ascii := list_ascii_of_string "ABCDEFGHIJKLMNOPQRSTUVWXYZ"%string.
Definition smalls : list ascii := list_ascii_of_string "abcdefghijklmnopqrstuvwxyz"%string.
