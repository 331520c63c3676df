(** LaplaceXZcyclic: src/invert/laplacexz/impls/cyclic/laplacexz-cyclic.cxx.

    Simplifications.  Exact real arithmetic.  All processors along x together ([layout] of LaplaceModel: number of
    processors, points each, guard cells); fields and metrics are global arrays (y counted from ystart, global x), of
    which processor [p] sees the part from x index [p * mx] on, as after communication.  Metrics and coefficients do
    not depend on z.  [rfft], [irfft]: FftModel (C56).  [CyclicReduce]: CyclicModel (C25).  The x-z metric component,
    assumed small by the code (78), does not occur.  Mesh and location assertions left out. *)
From Coq Require Import List Arith Bool Reals.
From Coquelicot Require Import Complex.
From Verif Require Import Base CyclicModel CyclicProps FftModel LaplaceModel.
Import ListNotations.
Local Open Scope R_scope.

Definition field2 := nat -> nat -> R.
Definition field3d := nat -> nat -> nat -> R.

(** Mesh: layout, number of y points, metric (y, x), points in z, length in z. *)
Record xzmesh := XZMesh { xl : layout; nys : nat; mJ : field2; mg11 : field2; mg33 : field2; mdx : field2; xnz : nat; xzl : R }.

Section Xz.
Variables (M : xzmesh) (fin fout : bflags).
Let P := np (xl M).
Let MX := mx (xl M).
Let G := g (xl M).

(** 18-22 *)
Definition nmode : nat := (xnz M / 2 + 1)%nat.
Definition nsys : nat := (nmode * nys M)%nat.
(** 25-36: first and last x index with equations, their number. *)
Definition xstart (p : nat) : nat := if (p =? 0)%nat then (G - 1)%nat else G.
Definition xend (p : nat) : nat := if (p =? P - 1)%nat then (G + MX)%nat else (G + MX - 1)%nat.
Definition nloc (p : nat) : nat := (xend p - xstart p + 1)%nat.

(** 121-129, 134-142: coefficient of the difference between the points [x] and [x']. *)
Definition avg (f : nat -> R) (x x' : nat) : R := 0.5 * (f x + f x').
Definition face (A : field2) (y x x' : nat) : R :=
  avg (A y) x x' * avg (mJ M y) x x' * avg (mg11 M y) x x' / (mJ M y x * avg (mdx M y) x x' * mdx M y x).

Definition neumann (fl : bflags) (kz : nat) : bool :=
  (((kz =? 0)%nat && b_dc_grad fl) || (negb (kz =? 0)%nat && b_ac_grad fl))%bool.

(** 62-168 [setCoefs]: the three coefficients of row [q] of system [s] on processor [p]; [ind] counts the modes of
    each y, so y and kz are quotient and remainder. *)
Definition coefs := nat -> nat -> nat -> R * R * R.
Definition setCoefs (A B : field2) : coefs := fun p s q =>
  let y := (s / nmode)%nat in
  let kz := (s mod nmode)%nat in
  let kw := kwave (xzl M) kz in
  if ((p =? 0) && (q =? 0))%nat%bool then
    if neumann fin kz then (0, 1, -1) else (0, 0.5, 0.5)
  else if ((p =? P - 1) && (q =? nloc p - 1))%nat%bool then
    if neumann fout kz then (-1, 1, 0) else (0.5, 0.5, 0)
  else
    let x := (p * MX + (q + xstart p))%nat in
    let vp := face A y x (x + 1) in
    let vm := face A y x (x - 1) in
    (0 + vm, 0 + B y x - vp - vm - A y x * (kw * kw) * mg33 M y x, 0 + vp).
(** 54-59: the constructor sets A = 1, B = 0. *)
Definition constructor : coefs := setCoefs (fun _ _ => 1) (fun _ _ => 0).

Definition ca (c : coefs) p s q : R := fst (fst (c p s q)).
Definition cb (c : coefs) p s q : R := snd (fst (c p s q)).
Definition cc (c : coefs) p s q : R := snd (c p s q).

(** 180-257: the right hand side. The outer boundary value is computed (226-251) and then set to zero whatever the
    flags (253-255). *)
Definition rhs_of (c : coefs) (rhs x0 : field3d) (p s q : nat) : C :=
  let y := (s / nmode)%nat in
  let kz := (s mod nmode)%nat in
  let two := fun (f : field3d) u x v x' => Cplus (Cmult (RtoC u) (rfft (xnz M) (f y x) kz)) (Cmult (RtoC v) (rfft (xnz M) (f y x') kz)) in
  if ((p =? 0) && (q =? 0))%nat%bool then
    if b_set fin then two x0 (cb c p s q) (G - 1)%nat (cc c p s q) G
    else if b_rhs fin then two rhs (cb c p s q) (G - 1)%nat (cc c p s q) G
    else RtoC 0
  else if ((p =? P - 1) && (q =? nloc p - 1))%nat%bool then
    let last := (p * MX + (G + MX - 1))%nat in
    let v := if b_set fout then two x0 (ca c p s q) last (cb c p s q) (last + 1)%nat
             else if b_rhs fout then two rhs (ca c p s q) last (cb c p s q) (last + 1)%nat
             else RtoC 0 in
    let v := RtoC 0 in
    v
  else rfft (xnz M) (rhs y (p * MX + (q + xstart p))%nat) kz.

(** 170-291 [solve]: the rows written on each processor, (p, y, local x, z). *)
Definition xzsolve (c : coefs) (rhs x0 : field3d) (ord1 ord2 : nat -> list nat) (mem : nat -> memory C)
    : res (nat -> nat -> nat -> nat -> R) :=
  do x <- solveC nsys P false nloc
            (fun p s => fill_coefs C (fun q => RtoC (ca c p s q)) (fun q => RtoC (cb c p s q)) (fun q => RtoC (cc c p s q))
                                   (rhs_of c rhs x0 p s)) ord1 ord2 mem;
  Ok (fun p y ix j => irfft (xnz M) (fun kz => x p (y * nmode + kz)%nat (ix - xstart p)%nat) j).
End Xz.

(** The coefficients held by the object after calls of [setCoefs] with the pairs in [l]. *)
Definition after (M : xzmesh) (fin fout : bflags) (l : list (field2 * field2)) : coefs :=
  fold_left (fun _ AB => setCoefs M fin fout (fst AB) (snd AB)) l (constructor M fin fout).
