(** Model of LaplaceSPT (src/invert/laplace/impls/spt/spt.cxx): the Thomas algorithm for tridiagonal systems in x, passed from
    processor to processor; and of the way the slices of a Field3D are processed concurrently.

    Simplifications. dcomplex is an arbitrary type [F] with field operations (no rounding); the test bet == 0.0 is [is_zero].
    The rows avec, bvec, cvec, bk of the matrices of a slice (tridagMatrix, see LaplaceModel) are given; an array over x is a
    function of the local index, with length [len] = LocalNx checked; xk and gam have arbitrary contents at first (Matrix
    does not initialise). The Fourier transforms before and after (spt.cxx 329-334, 510-527) are FftModel. OpenMP threads over kz
    work on different rows. A receive writes its buffer when the message is taken by the wait; the code does not touch the
    buffer in between. *)
From Coq Require Import List Arith Bool ZArith.
From Verif Require Import Base.
Import ListNotations.

Section Spt.
Variable F : Type.
Variables (f0 : F) (fmul fsub fdiv : F -> F -> F).
Variable is_zero : F -> bool.
Local Infix "-!" := fsub (at level 50, left associativity).
Local Infix "*!" := fmul (at level 40, left associativity).
Local Infix "/!" := fdiv (at level 40, left associativity).
Variable len : nat.    (* LocalNx *)
Notation arr := (nat -> F).
Definition set (f : arr) (i : nat) (v : F) : arr := fun k => if k =? i then v else f k.

(** spt.cxx 215-236, the loop over j (232 is the test); [m] iterations from element [k]. *)
Fixpoint forward_loop (a b c r : arr) (m k : nat) (u gam : arr) (bet : F) : res (arr * arr * F) :=
  match m with
  | O => Ok (u, gam, bet)
  | S m' =>
    let gam := set gam k (c (k - 1) /! bet) in
    let bet := b k -! a k *! gam k in
    if is_zero bet then Throw
    else forward_loop a b c r m' (S k) (set u k ((r k -! a k *! u (k - 1)) /! bet)) gam bet
  end.
(** 211-240 tridagForward on the [n] elements from index [o] of the arrays; c[-1] is the element before, if there is one. *)
Definition tridagForward (a b c r : arr) (o n : nat) (u gam : arr) (bet um : F) (start : bool) : res (arr * arr * F * F) :=
  if (n =? 0) || (len <? o + n) then UB
  else
    do g <- (if start then Ok (gam, b o)
             else if o =? 0 then UB
             else let gam := set gam o (c (o - 1) /! bet) in Ok (gam, b o -! a o *! gam o));
    let '(gam, bet) := g in
    let u := set u o (if start then r o /! bet else (r o -! a o *! um) /! bet) in
    do t <- forward_loop a b c r (n - 1) (S o) u gam bet;
    let '(u, gam, bet) := t in Ok (u, gam, bet, u (o + n - 1)).
(** 250-261 tridagBack; the loop over j downwards. *)
Fixpoint back_loop (o m : nat) (gam : arr) (u : arr) : arr :=
  match m with
  | O => u
  | S j => back_loop o j gam (set u (o + j) (u (o + j) -! gam (o + j + 1) *! u (o + j + 1)))
  end.
Definition tridagBack (u : arr) (o n : nat) (gam : arr) (gp up : F) : res (arr * F * F) :=
  if (n =? 0) || (len <? o + n) then UB
  else
    let u := set u (o + n - 1) (u (o + n - 1) -! gp *! up) in
    let u := back_loop o (n - 1) gam u in
    Ok (u, gam o, u o).

(** The work of one processor for one slice and one mode: the matrix rows, and the arrays xk and gam. *)
Record rows := mkRows { ra : arr; rb : arr; rc : arr; rr : arr }.
Record work := mkWork { xk : arr; gm : arr }.
Variables (xstart xend : nat).

(** 347-357 (start, first processor). *)
Definition first_forward (s : rows) (w : work) : res (work * (F * F)) :=
  do t <- tridagForward (ra s) (rb s) (rc s) (rr s) 0 (xend + 1) (xk w) (gm w) f0 f0 true;
  let '(u, g, bet, um) := t in Ok (mkWork u g, (bet, um)).
(** 425-442. *)
Definition mid_forward (s : rows) (w : work) (msg : F * F) : res (work * (F * F)) :=
  do t <- tridagForward (ra s) (rb s) (rc s) (rr s) xstart (xend - xstart + 1) (xk w) (gm w) (fst msg) (snd msg) false;
  let '(u, g, bet, um) := t in Ok (mkWork u g, (bet, um)).
(** 396-421, the last processor. *)
Definition turn_around (s : rows) (w : work) (msg : F * F) : res (work * (F * F)) :=
  do t <- tridagForward (ra s) (rb s) (rc s) (rr s) xstart (xend + 1) (xk w) (gm w) (fst msg) (snd msg) false;
  let '(u, g, bet, um) := t in
  do t2 <- tridagBack u xstart (len - xstart) g f0 f0;
  let '(u2, gp, up) := t2 in Ok (mkWork u2 g, (gp, up)).
(** 462-477. *)
Definition mid_back (w : work) (msg : F * F) : res (work * (F * F)) :=
  do t <- tridagBack (xk w) xstart (xend - xstart + 1) (gm w) (fst msg) (snd msg);
  let '(u, gp, up) := t in Ok (mkWork u (gm w), (gp, up)).
(** 447-457. *)
Definition first_back (w : work) (msg : F * F) : res work :=
  do t <- tridagBack (xk w) 0 (xend + 1) (gm w) (fst msg) (snd msg);
  let '(u, _, _) := t in Ok (mkWork u (gm w)).
End Spt.
Arguments mkRows {F} _ _ _ _.
Arguments mkWork {F} _ _.
Arguments xk {F} _.
Arguments gm {F} _.

(** ** One slice over [N] processors, one after the other: the order in which the message travels (C83 shows that every
    concurrent execution does this). [fst0], [mid], [turn], [midb], [fstb]: the five computations, for all modes. *)
Section Chain.
Variables L Msg : Type.
Variable N : nat.
Variable fst0 : L -> res (L * Msg).
Variables mid turn midb : nat -> L -> Msg -> res (L * Msg).
Variable fstb : L -> Msg -> res L.
Definition upd {A} (f : nat -> A) (p : nat) (v : A) : nat -> A := fun q => if q =? p then v else f q.
(** Processors p, p+1, ..., p+k-1 forward. *)
Fixpoint chain_forward (k p : nat) (w : nat -> L) (m : Msg) : res ((nat -> L) * Msg) :=
  match k with O => Ok (w, m) | S k' => do t <- mid p (w p) m; chain_forward k' (S p) (upd w p (fst t)) (snd t) end.
(** Processors k, k-1, ..., 1 backward. *)
Fixpoint chain_back (k : nat) (w : nat -> L) (m : Msg) : res ((nat -> L) * Msg) :=
  match k with O => Ok (w, m) | S k' => do t <- midb k (w k) m; chain_back k' (upd w k (fst t)) (snd t) end.
Definition chain (w : nat -> L) : res (nat -> L) :=
  if N <? 2 then Throw (* 309-311 *)
  else
    do t <- fst0 (w 0);
    do t1 <- chain_forward (N - 2) 1 (upd w 0 (fst t)) (snd t);
    do t2 <- turn (N - 1) (fst t1 (N - 1)) (snd t1);
    do t3 <- chain_back (N - 2) (upd (fst t1) (N - 1) (fst t2)) (snd t2);
    do l <- fstb (fst t3 0) (snd t3); Ok (upd (fst t3) 0 l).
End Chain.

(** The loops over kz = 0 .. maxmode: mode by mode, failing if one fails; [d] is what was there before. *)
Fixpoint all_modes {A} (modes : nat) (f : nat -> res A) (d : nat -> A) : res (nat -> A) :=
  match modes with
  | O => Ok d
  | S k => do g <- all_modes k f d; do v <- f k; Ok (fun i => if i =? k then v else g i)
  end.

(** ** The computations for all modes of a slice: [S p kz] the rows of the matrix of mode kz on processor p. *)
Section Slice.
Variable F : Type.
Variables (f0 : F) (fmul fsub fdiv : F -> F -> F).
Variable is_zero : F -> bool.
Variables (len xstart xend modes : nat).
Definition local := nat -> work F.
Definition message := nat -> F * F.
Definition each_mode (f : nat -> res (work F * (F * F))) (l : local) (m : message) : res (local * message) :=
  do t <- all_modes modes f (fun k => (l k, m k)); Ok (fun k => fst (t k), fun k => snd (t k)).
Variable S : nat -> nat -> rows F.
Definition s_first (junk : message) (l : local) : res (local * message) :=
  each_mode (fun k => first_forward F f0 fmul fsub fdiv is_zero len xend (S 0 k) (l k)) l junk.
Definition s_mid (p : nat) (l : local) (m : message) : res (local * message) :=
  each_mode (fun k => mid_forward F fmul fsub fdiv is_zero len xstart xend (S p k) (l k) (m k)) l m.
Definition s_turn (p : nat) (l : local) (m : message) : res (local * message) :=
  each_mode (fun k => turn_around F f0 fmul fsub fdiv is_zero len xstart xend (S p k) (l k) (m k)) l m.
Definition s_midb (p : nat) (l : local) (m : message) : res (local * message) :=
  each_mode (fun k => mid_back F fmul fsub len xstart xend (l k) (m k)) l m.
Definition s_fstb (l : local) (m : message) : res local := all_modes modes (fun k => first_back F fmul fsub len xend (l k) (m k)) l.
(** A slice over [N] processors. *)
Definition solve_slice (N : nat) (junk : message) (w : nat -> local) : res (nat -> local) :=
  chain local message N (s_first junk) s_mid s_turn s_midb s_fstb w.
End Slice.
