(** Specification for C80: what each operation on Field3D objects means when fields are independent values. *)
From Coq Require Import List ZArith Lia Bool Arith.
From Verif Require Import Base FvalModel.
Import ListNotations.

Section Spec.
  Variable V : Type.
  Variable ar : bop -> V -> V -> V.
  Variable one : V.
  Variables nx ny nz : nat.
  Notation view := (view V).
  Notation op := (op V).
  Notation rhs := (rhs V).
  Definition vals : Type := slot -> view.

  Definition alive (a : vals) (x : slot) : Prop := a x <> Absent V.
  Definition has_data (a : vals) (x : slot) : Prop := exists d, a x = Data V d.
  Definition fresh (a : vals) (v : nat) : Prop := forall q, a (Var v, q) = Absent V /\ a (Ddt v, q) = Absent V.
  (** [x] is one of the parallel slices of [p]. *)
  Definition slice (p x : slot) : Prop := snd p = Main /\ fst x = fst p /\ snd x <> Main.
  Definition no_slices (a : vals) (p : slot) : Prop := forall x, slice p x -> a x = Absent V.
  Definition elem (a : vals) (x : slot) (k : nat) : option V :=
    match a x with Data _ d => nth_error d k | _ => None end.
  (** Flat index of point (ix, iy, iz). *)
  Definition at3 (ix iy iz : nat) : nat := (ix * ny + iy) * nz + iz.
  Definition inside (ix iy iz : nat) : Prop := ix < nx /\ iy < ny /\ iz < nz.

  Definition rhs_legal (a : vals) (r : rhs) : Prop :=
    match r with RField _ q => has_data a q | RReal _ _ => True | R2D _ d => length d = nx * ny end.
  Definition not_own_slice (p : slot) (r : rhs) : Prop := match r with RField _ q => ~ slice p q | _ => True end.

  (** When an operation may be used. *)
  Definition legal (a : vals) (o : op) : Prop :=
    match o with
    | NewEmpty _ v => fresh a v
    | NewCopy _ v q => fresh a v /\ alive a q
    | NewMove _ v w => fresh a v /\ alive a (Var w, Main)
    | NewBinary _ v _ p r _ => fresh a v /\ has_data a p /\ rhs_legal a r
    | CopyAssign _ p q => alive a p /\ alive a q /\ ~ slice p q /\ (snd p <> Main -> no_slices a q)
    | MoveAssign _ p q => alive a p /\ alive a q /\ p <> q /\ ~ slice p q /\ (snd p <> Main -> no_slices a q)
    | SetReal _ p _ _ => alive a p
    | Set2D _ p d _ => alive a p /\ length d = nx * ny
    | SetPerp _ p jy d _ => alive a p /\ jy < ny /\ length d = nx * nz
    | Update _ p _ r _ => has_data a p /\ rhs_legal a r /\ not_own_slice p r
    | Allocate _ p _ => alive a p
    | Write _ p i _ => has_data a p /\ i < nx * ny * nz
    | Split _ p _ => alive a p /\ snd p = Main
    | ClearSl _ p => alive a p
    | TimeDeriv _ v _ => alive a (Var v, Main)
    | Swap _ v w => alive a (Var v, Main) /\ alive a (Var w, Main)
    | Destroy _ v => alive a (Var v, Main)
    end.

  (** Value of operand [r] at flat index [k]. *)
  Definition rhs_at (a : vals) (r : rhs) (k : nat) : option V :=
    match r with RField _ q => elem a q k | RReal _ x => Some x | R2D _ d => nth_error d (k / nz) end.
  (** x o y; division by a Field2D or a number is multiplication by the reciprocal. *)
  Definition calc (o : bop) (r : rhs) (x y : V) : V :=
    match r, o with
    | RField _ _, _ => ar o x y
    | _, Div => ar Mul x (ar Div one y)
    | _, _ => ar o x y
    end.

  (** Nothing outside [p] and its slices changes. *)
  Definition only (p : slot) (a a' : vals) : Prop := forall x, x <> p -> ~ slice p x -> a' x = a x.
  Definition slices_gone (p : slot) (a' : vals) : Prop := forall x, slice p x -> a' x = Absent V.
  (** [p] holds an array of the size of the mesh. *)
  Definition full (p : slot) (a' : vals) : Prop := exists d, a' p = Data V d /\ length d = nx * ny * nz.
  (** The slices of [p] become those of [q]. *)
  Definition slices_from (p q : slot) (a a' : vals) : Prop :=
    forall x, slice p x -> (snd q = Main -> a' x = a (fst q, snd x)) /\ (snd q <> Main -> a' x = Absent V).

  Definition effect (a : vals) (o : op) (a' : vals) : Prop :=
    match o with
    | NewEmpty _ v => a' (Var v, Main) = Empty V /\ (forall x, x <> (Var v, Main) -> a' x = a x)
    | NewCopy _ v q =>
      only (Var v, Main) a a' /\ a' (Var v, Main) = a q /\ slices_from (Var v, Main) q a a'
    | NewMove _ v w =>
      (forall q, a' (Var v, q) = a (Var w, q) /\ a' (Ddt v, q) = a (Ddt w, q)) /\
      a' (Var w, Main) = Empty V /\
      (forall q, (q <> Main -> a' (Var w, q) = Absent V) /\ a' (Ddt w, q) = Absent V) /\
      (forall x, owner (fst x) <> v -> owner (fst x) <> w -> a' x = a x)
    | NewBinary _ v o p r _ =>
      (forall x, x <> (Var v, Main) -> a' x = a x) /\ full (Var v, Main) a' /\
      (forall k, k < nx * ny * nz -> exists x y, elem a p k = Some x /\ rhs_at a r k = Some y /\
         elem a' (Var v, Main) k = Some (calc o r x y))
    | CopyAssign _ p q =>
      if slot_eqb p q then (forall x, a' x = a x)
      else only p a a' /\ a' p = a q /\ slices_from p q a a'
    | MoveAssign _ p q =>
      a' p = a q /\ slices_from p q a a' /\ (q <> p -> ~ slice p q -> a' q = Empty V) /\
      (forall x, slice q x -> x <> p -> a' x = Absent V) /\
      (forall x, x <> p -> ~ slice p x -> x <> q -> ~ slice q x -> a' x = a x)
    | SetReal _ p x _ =>
      only p a a' /\ slices_gone p a' /\ full p a' /\
      (forall k, k < nx * ny * nz -> elem a' p k = Some x)
    | Set2D _ p d _ =>
      only p a a' /\ slices_gone p a' /\ full p a' /\
      (forall ix iy iz, inside ix iy iz -> elem a' p (at3 ix iy iz) = nth_error d (ix * ny + iy))
    | SetPerp _ p jy d _ =>
      only p a a' /\ slices_gone p a' /\ full p a' /\
      (forall ix iz, inside ix jy iz -> elem a' p (at3 ix jy iz) = nth_error d (ix * nz + iz)) /\
      (forall ix iy iz, inside ix iy iz -> iy <> jy -> has_data a p ->
         elem a' p (at3 ix iy iz) = elem a p (at3 ix iy iz))
    | Update _ p o r _ =>
      only p a a' /\ slices_gone p a' /\ full p a' /\
      (forall k, k < nx * ny * nz -> exists x y, elem a p k = Some x /\ rhs_at a r k = Some y /\
         elem a' p k = Some (calc o r x y))
    | Allocate _ p _ =>
      (forall x, x <> p -> a' x = a x) /\ full p a' /\ (has_data a p -> a' p = a p)
    | Write _ p i x =>
      (forall y, y <> p -> a' y = a y) /\ full p a' /\ elem a' p i = Some x /\
      (forall k, k <> i -> elem a' p k = elem a p k)
    | Split _ p ystart =>
      (forall x, ~ slice p x -> a' x = a x) /\
      ((exists x, slice p x /\ a x <> Absent V) -> forall x, a' x = a x) /\
      (no_slices a p -> forall k, a' (fst p, Up k) = (if k <? ystart then Empty V else Absent V) /\
                                  a' (fst p, Down k) = (if k <? ystart then Empty V else Absent V))
    | ClearSl _ p => slices_gone p a' /\ (forall x, ~ slice p x -> a' x = a x)
    | TimeDeriv _ v _ =>
      (forall x, x <> (Ddt v, Main) -> a' x = a x) /\
      (a (Ddt v, Main) <> Absent V -> a' (Ddt v, Main) = a (Ddt v, Main)) /\
      (a (Ddt v, Main) = Absent V -> full (Ddt v, Main) a')
    | Swap _ v w =>
      (forall q, a' (Var v, q) = a (Var w, q) /\ a' (Ddt v, q) = a (Ddt w, q) /\
                 a' (Var w, q) = a (Var v, q) /\ a' (Ddt w, q) = a (Ddt v, q)) /\
      (forall x, owner (fst x) <> v -> owner (fst x) <> w -> a' x = a x)
    | Destroy _ v =>
      (forall x, owner (fst x) = v -> a' x = Absent V) /\ (forall x, owner (fst x) <> v -> a' x = a x)
    end.

  (** The objects an operation may change. *)
  Definition target (o : op) (x : slot) : Prop :=
    match o with
    | NewEmpty _ v | NewCopy _ v _ | NewBinary _ v _ _ _ _ | Destroy _ v | TimeDeriv _ v _ => owner (fst x) = v
    | NewMove _ v w | Swap _ v w => owner (fst x) = v \/ owner (fst x) = w
    | CopyAssign _ p _ | SetReal _ p _ _ | Set2D _ p _ _ | SetPerp _ p _ _ _ | Update _ p _ _ _ | Split _ p _ | ClearSl _ p
    | Allocate _ p _ | Write _ p _ _ => x = p \/ slice p x
    | MoveAssign _ p q => x = p \/ slice p x \/ x = q \/ slice q x
    end.
End Spec.

Section Histories.
  Variable V : Type.
  Variable ar : bop -> V -> V -> V.
  Variable one : V.
  Variables nx ny nz : nat.
  Variables order3 order2 orderp : list nat.
  Notation step := (step V ar one nx ny nz order3 order2 orderp).
  (** States a program can reach with legal operations. *)
  Inductive reach : st V -> Prop :=
  | reach_init : reach (init V)
  | reach_step s o s' : reach s -> legal V nx ny nz (observe V s) o -> step s o = Ok s' -> reach s'.
  (** Element writes only to data that is not shared. *)
  Definition writes_own (s : st V) (o : op V) : Prop := match o with Write _ p _ _ => unique V s p = true | _ => True end.
  (** [os] is a legal history from [s] to [s'] that writes single elements only to unshared data. *)
  Inductive history : st V -> list (op V) -> st V -> Prop :=
  | h_nil s : history s [] s
  | h_cons s o s1 os s' : legal V nx ny nz (observe V s) o -> writes_own s o -> step s o = Ok s1 -> history s1 os s' ->
      history s (o :: os) s'.
End Histories.
