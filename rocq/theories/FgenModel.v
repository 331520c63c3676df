(** Field generators: src/field/fieldgenerators.cxx and fieldgenerators.hxx (gauss, H, ballooning, mixmode, TanhHat, round).

    Simplifications.  Exact arithmetic.  A generator is a function of the context, of which the four standard values are
    modelled; arguments that throw are not.  The number of arguments is checked by the parser model (C17); here the
    optional ones are given.  Conversions to int are in range. *)
From Coq Require Import Arith Bool ZArith Reals.
From Verif Require Import Base LaplaceModel MaskModel.
Local Open Scope R_scope.

(** generator_context.hxx *)
Record context := Ctx { cx : R; cy : R; cz : R; ct : R }.
Definition context0 : context := Ctx 0 0 0 0.
Definition gen := context -> R.

(** static_cast<int>: towards zero. *)
Definition to_int (x : R) : Z := if Rle_dec 0 x then Int_part x else (- Int_part (- x))%Z.
(** utils.hxx:462-464 *)
Definition ROUND (x : R) : Z := if Rlt_dec 0 x then to_int (x + 0.5) else to_int (x - 0.5).

(** fieldgenerators.cxx:28-31 *)
Definition gauss (X s : gen) : gen := fun c => let sigma := s c in exp (- ((X c / sigma) * (X c / sigma)) / 2) / (sqrt (2 * PI) * sigma).
(** 43-45 *)
Definition heaviside (a : gen) : gen := fun c => if Rlt_dec 0 (a c) then 1 else 0.

(** 68-110.  [lx], [sym], [p]: the processors in x and this one (GlobalX, MaskModel); [periodicY jx]: None on open surfaces,
    otherwise the twist-shift angle; None: an exception, or the division by zero with one point in x. *)
Fixpoint ball_sum (arg : gen) (c : context) (ts zlength : R) (n : nat) (value : R) : R :=
  match n with
  | O => value
  | S m => let i := INR n in
      ball_sum arg c ts zlength m value
        + arg (Ctx (cx c) (cy c - i * (2 * PI)) (cz c + i * ts * (2 * PI) / zlength) (ct c))
        + arg (Ctx (cx c) (cy c + i * (2 * PI)) (cz c - i * ts * (2 * PI) / zlength) (ct c))
  end.
Definition ballooning (l : layout) (sym : bool) (p : nat) (periodicY : Z -> option R) (zlength : R) (arg : gen) (ball_n : nat) (c : context) : option R :=
  if (ball_n <? 1)%nat then None else
  let xstart := g l in let xend := (g l + mx l - 1)%nat in
  if (xend - xstart =? 0)%nat then None else
  let dx := (GlobalX l sym p xend - GlobalX l sym p xstart) / INR (xend - xstart) in
  let jx := ROUND ((cx c - GlobalX l sym p 0) / dx) in
  Some (match periodicY jx with Some ts => ball_sum arg c ts zlength ball_n (arg c) | None => 0 end).

(** 162-181 *)
Definition fmod (x B : R) : R := x - B * IZR (Int_part (x / B)).
Fixpoint logistic (n : nat) (x : R) : R := match n with O => x | S m => let y := logistic m x in 3.99 * y * (1 - y) end.
Definition genRand (seed : R) : R :=
  let seed := if Rlt_dec seed 0 then seed * -1 else seed in
  let niter := (11 + Z.rem (23 + ROUND seed) 79)%Z in
  let A := 0.01 in let B := 1.23456789 in
  let x := (A + fmod seed B) / (B + 2 * A) in
  logistic (Z.to_nat niter) x.
(** 114-121, 139-160 *)
Definition phase (seed : R) (i : nat) : R := PI * (2 * genRand (seed + INR i) - 1).
Fixpoint mix_sum (n : nat) (a : R) (ph : nat -> R) : R := match n with
  | O => 0
  | S i => mix_sum i a ph + (1 / (1 + Rabs (INR i - 4)) ^ 2) * cos (INR i * a + ph i)
  end.
Definition mixmode (arg : gen) (seed : R) : gen := fun c => mix_sum 14 (arg c) (phase seed).

(** 213-222 *)
Definition TanhHat (X width center steepness : gen) : gen := fun c =>
  let w := width context0 in let c0 := center context0 in let s := steepness context0 in
  0.5 * (tanh (s * (X c - (c0 - 0.5 * w))) - tanh (s * (X c - (c0 + 0.5 * w)))).
