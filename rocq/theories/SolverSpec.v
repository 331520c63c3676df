(* What the theorems about the solver's state vector say. *)
Require Import ZArith List Bool.
Require Import Verif.SolverModel.
Import ListNotations.
Local Open Scope Z_scope.

(* The two regions of the mesh have no repeated or common cells, and there is a z point. *)
Definition good_mesh (s : solver) : Prop :=
  NoDup (bndry2 s) /\ NoDup (bulk2 s) /\ (forall i, In i (bndry2 s) -> ~ In i (bulk2 s)) /\ 1 <= nz s.

(* Where a value lives: cell i of the k-th 2D variable, or point (i, z) of the k-th 3D variable. *)
Inductive place := In2 (k : nat) (i : Z) | In3 (k : nat) (i z : Z).
(* The places the solver evolves: every cell of the bulk, and those boundary cells of variables whose boundaries evolve. *)
Definition evolves_at (s : solver) (f : vflags) (i : Z) : Prop :=
  In i (bulk2 s) \/ (In i (bndry2 s) /\ evolve_bndry f = true).
Definition evolved (s : solver) (w : place) : Prop :=
  match w with
  | In2 k i => exists f, nth_error (f2d s) k = Some f /\ evolves_at s f i
  | In3 k i z => exists f, nth_error (f3d s) k = Some f /\ evolves_at s f i /\ 0 <= z < nz s
  end.
(* The value of a variable, and of its time derivative, at a place. *)
Definition value {V} (s : solver) (m : store V) (w : place) : V :=
  match w with In2 k i => var2 V m k i | In3 k i z => var3 V m k (i * nz s + z) end.
Definition deriv {V} (s : solver) (m : store V) (w : place) : V :=
  match w with In2 k i => der2 V m k i | In3 k i z => der3 V m k (i * nz s + z) end.
Definition flags_of (s : solver) (w : place) : option vflags :=
  match w with In2 k _ => nth_error (f2d s) k | In3 k _ _ => nth_error (f3d s) k end.

(* [layout s N at_]: at_ is a one-to-one numbering of the evolved places by 0..N-1. *)
Definition layout (s : solver) (N : Z) (at_ : Z -> place) : Prop :=
  (forall p, 0 <= p < N -> evolved s (at_ p)) /\
  (forall p q, 0 <= p < N -> 0 <= q < N -> at_ p = at_ q -> p = q) /\
  (forall w, evolved s w -> exists p, 0 <= p < N /\ at_ p = w).

(* How many of the variables before the k-th evolve at cell i. *)
Fixpoint before (s : solver) (fs : list vflags) (bnd : bool) (k : nat) : Z :=
  match fs, k with
  | f :: fs', S k' => (if bnd && negb (evolve_bndry f) then 0 else 1) + before s fs' bnd k'
  | _, _ => 0
  end.
