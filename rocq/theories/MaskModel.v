(** Radial sources, sinks and masks: src/physics/sourcex.cxx.

    Simplifications.  The processors of one row in x hold arrays with the local x index and any other indices [k] (y and z);
    the exchange in y, which copies values at the same x, is left out.  Arithmetic is exact, except in [TanH_fl], which has
    the infinities and NaN of floating point numbers but no rounding. *)
From Coq Require Import Arith Bool ZArith Reals.
From Verif Require Import Base LaplaceModel.
Local Open Scope R_scope.

(** sourcex.cxx:15-18 *)
Definition TanH (a : R) : R := let temp := exp a in (temp - 1 / temp) / (temp + 1 / temp).

(** The same with overflow: results beyond [big] are infinite, and the arithmetic of IEEE 754 for infinities and NaN. *)
Inductive fl := Fin (x : R) | PInf | NInf | NaN.
Definition rnd (big x : R) : fl := if Rlt_dec big x then PInf else if Rlt_dec x (- big) then NInf else Fin x.
Definition fadd (big : R) (a b : fl) : fl :=
  match a, b with
  | Fin x, Fin y => rnd big (x + y)
  | NaN, _ | _, NaN => NaN
  | PInf, NInf | NInf, PInf => NaN
  | PInf, _ | _, PInf => PInf
  | NInf, _ | _, NInf => NInf
  end.
Definition fopp (a : fl) : fl := match a with Fin x => Fin (- x) | PInf => NInf | NInf => PInf | NaN => NaN end.
(** Division; a zero divisor counts as positive zero. *)
Definition fdiv (big : R) (a b : fl) : fl :=
  match a, b with
  | NaN, _ | _, NaN => NaN
  | Fin x, Fin y => if Req_EM_T y 0 then (if Rlt_dec 0 x then PInf else if Rlt_dec x 0 then NInf else NaN) else rnd big (x / y)
  | Fin _, _ => Fin 0
  | PInf, Fin y => if Rlt_dec y 0 then NInf else PInf
  | NInf, Fin y => if Rlt_dec y 0 then PInf else NInf
  | _, _ => NaN
  end.
Definition TanH_fl (big : R) (a : R) : fl :=
  let temp := rnd big (exp a) in
  let one_temp := fdiv big (Fin 1) temp in
  fdiv big (fadd big temp (fopp one_temp)) (fadd big temp one_temp).

Section Mask.
Variable l : layout.
Variable symX perX : bool.   (* boutmesh.cxx:58 symmetricGlobalX; periodicX *)

(** boutmesh.cxx:3017-3023, 1621 and 352 (MX = nx - 2 MXG): processor [p], local index [jx]. *)
Definition GlobalX (p jx : nat) : R :=
  let MX := (np l * mx l)%nat in
  let nx := (MX + 2 * g l)%nat in
  let gi := (jx + p * mx l)%nat in
  if symX then (0.5 + INR gi - (INR nx - INR MX) * 0.5) / INR MX else INR gi / INR MX.

(** A field: processor, local x index, other indices. *)
Definition field := nat -> nat -> nat -> R.

(** The exchange of guard cells in x (C47). *)
Definition communicate (F : field) : field := fun p ix k =>
  if (ix <? g l)%nat then
    if (0 <? p)%nat then F (p - 1)%nat (ix + mx l)%nat k else if perX then F (np l - 1)%nat (ix + mx l)%nat k else F p ix k
  else if (g l + mx l <=? ix)%nat then
    if (p + 1 <? np l)%nat then F (p + 1)%nat (ix - mx l)%nat k else if perX then F 0%nat (ix - mx l)%nat k else F p ix k
  else F p ix k.

(** 21-37 *)
Definition source_tanhx (swidth slength : R) : field :=
  communicate (fun p ix _ => let lx := GlobalX p ix - slength in let dampl := TanH (lx / swidth) in 0.5 * (1.0 - dampl)).
(** 40-56 *)
Definition source_expx2 (swidth slength : R) : field :=
  communicate (fun p ix _ => let lx := GlobalX p ix - slength in let dampl := exp (- lx * lx / swidth / swidth) in dampl).
(** 59-76 *)
Definition sink_tanhx (f : field) (swidth slength : R) : field :=
  communicate (fun p ix k => let rlx := 1 - GlobalX p ix - slength in let dampr := TanH (rlx / swidth) in 0.5 * (1.0 - dampr) * f p ix k).
(** 79-99 *)
Definition mask_x (f : field) : field :=
  communicate (fun p ix k => let lx := GlobalX p ix in let dampl := TanH (lx / 40) in let dampr := TanH ((1 - lx) / 40) in
    (1.0 - dampl * dampr) * f p ix k).
(** 102-121 *)
Definition sink_tanhxl (f : field) (swidth slength : R) : field :=
  communicate (fun p ix k => let lx := GlobalX p ix - slength in let dampl := TanH (lx / swidth) in 0.5 * (1.0 - dampl) * f p ix k).
(** 124-143 *)
Definition sink_tanhxr (f : field) (swidth slength : R) : field :=
  communicate (fun p ix k => let rlx := 1 - GlobalX p ix - slength in let dampr := TanH (rlx / swidth) in 0.5 * (1.0 - dampr) * f p ix k).
(** 146-171 *)
Definition buff_x (f : field) : field :=
  let dampl := 1 in let dampr := 1 in let deltal := 0.05 in let deltar := 0.05 in
  communicate (fun p ix k => let lx := GlobalX p ix in let rlx := 1 - lx in
    (dampl * exp (- (lx * lx) / (deltal * deltal)) + dampr * exp (- (rlx * rlx) / (deltar * deltar))) * f p ix k).
End Mask.
