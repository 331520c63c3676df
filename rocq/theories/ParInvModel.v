(** Model of the inversion of parallel derivatives with the cyclic solver:
    src/invert/parderiv/impls/cyclic/cyclic.cxx:55-245 ([InvertParCR]) and
    src/invert/pardiv/impls/cyclic/pardiv_cyclic.cxx:55-240 ([InvertParDivCR]), with the parts of
    src/mesh/surfaceiter.cxx:33-64 and boutmesh.cxx:2314-2327 that say which surfaces are closed.

    Simplifications. Exact real and complex arithmetic. One flux surface (one x index): the surfaces are treated one
    after another and independently. Metrics and coefficients do not depend on z (Field2D: the code is not compiled
    with 3D metrics). Every processor of the surface has [my] interior points and [gd] (= ystart) guard cells on each
    side; processor [p] sees the global arrays from index [p * my] on, guard cells included, as after communication.
    [rfft], [irfft] are the transforms of FftModel, [solveC] is the parallel solver of CyclicModel. *)
From Coq Require Import List Arith Bool ZArith Reals.
From Coquelicot Require Import Complex.
From Verif Require Import Base CyclicModel CyclicSpec CyclicProps FftModel LaplaceModel.
Import ListNotations.
Local Open Scope R_scope.

(** The fields read along y: coefficients A .. E, the metric component g_22, the grid spacing dy, its correction d1_dy
    and the Jacobian. *)
Record ydata := YData {
  yA : nat -> R; yB : nat -> R; yC : nat -> R; yD : nat -> R; yE : nat -> R;
  yg22 : nat -> R; ydy : nat -> R; yd1 : nat -> R; yJ : nat -> R }.

(** What a processor whose arrays start at global index [o] sees. *)
Definition yview (o : nat) (m : ydata) : ydata :=
  let f := fun (a : nat -> R) i => a (o + i)%nat in
  YData (f (yA m)) (f (yB m)) (f (yC m)) (f (yD m)) (f (yE m)) (f (yg22 m)) (f (ydy m)) (f (yd1 m)) (f (yJ m)).

(** A flux surface: number of processors along y, points of each, guard cells; closed or open; whether the field is at
    CELL_YLOW; the twist-shift angle (boutmesh.cxx:2318-2327: ShiftAngle, or 0 without TwistShift). *)
Record surface := Surface { np : nat; my : nat; gd : nat; closed : bool; ylow : bool; ts : R }.

(** surfaceiter.cxx:33-64 *)
Definition firstY (s : surface) (p : nat) : bool := (negb (closed s) && (p =? 0)%nat)%bool.
Definition lastY (s : surface) (p : nat) : bool := (negb (closed s) && (p =? np s - 1)%nat)%bool.

(** cyclic.cxx:115-135: [local_ystart], [y0] and [size]. *)
Definition local_ystart (s : surface) (p : nat) : nat := if (firstY s p && ylow s)%bool then (gd s + 1)%nat else gd s.
Definition y0 (s : surface) (p : nat) : nat := if firstY s p then gd s else 0%nat.
Definition LocalNy (s : surface) : nat := (my s + 2 * gd s)%nat.
Definition size (s : surface) (p : nat) : nat :=
  (LocalNy s - 2 * gd s + (if firstY s p then if ylow s then gd s - 1 else gd s else 0) + (if lastY s p then gd s else 0))%nat.

(** cyclic.cxx:45-46 (constructor): [sg = sqrt(g_22); sg = DDY(1. / sg) / sg], with second-order central differences. *)
Definition sg (m : ydata) (y : nat) : R :=
  (1 / sqrt (yg22 m (y + 1)%nat) - 1 / sqrt (yg22 m (y - 1)%nat)) / 2 / ydy m y / sqrt (yg22 m y).

(** cyclic.cxx:150-177, one point and one mode; [Im] is [dcomplex(0, 1)]. *)
Definition par_coefs (non_uniform : bool) (m : ydata) (y : nat) (kw : R) : coef3 :=
  let acoef := yA m y in
  let bcoef := yB m y / yg22 m y in
  let ccoef := yC m y in
  let dcoef := yD m y in
  let ecoef := yE m y + sg m y * yB m y in
  let ecoef := if non_uniform then ecoef + bcoef * yd1 m y else ecoef in
  let bcoef := bcoef / (ydy m y * ydy m y) in
  let ccoef := ccoef / ydy m y in
  let ecoef := ecoef / ydy m y in
  ((bcoef - 0.5 * ecoef, - (0.5 * kw * ccoef)) : C,
   RtoC (acoef - 2 * bcoef - kw * kw * dcoef),
   (bcoef + 0.5 * ecoef, 0.5 * kw * ccoef) : C).

(** pardiv_cyclic.cxx:147-177, one point. *)
Definition div_coefs (m : ydata) (y : nat) (kw : R) : coef3 :=
  let Left := fun (f : nat -> R) => 0.5 * (f y + f (y - 1)%nat) in
  let Right := fun (f : nat -> R) => 0.5 * (f y + f (y + 1)%nat) in
  let acoef := yA m y in
  let bcoef_L := Left (yB m) * Left (yJ m) / (Left (ydy m) * Left (yg22 m) * yJ m y * ydy m y) in
  let bcoef_R := Right (yB m) * Right (yJ m) / (Right (ydy m) * Right (yg22 m) * yJ m y * ydy m y) in
  (RtoC bcoef_L, RtoC (acoef - (bcoef_L + bcoef_R)), RtoC bcoef_R).

(** cyclic.cxx:141-180: the rows of one mode that are filled from the points of the grid; [old] is what the arrays held
    before. [rows]: the values at the local y indices. *)
Definition inner_system (s : surface) (p nz : nat) (zl : R) (co : nat -> R -> coef3) (rows : nat -> nat -> R) (old : tvec)
    (k : nat) : tvec :=
  let ys := local_ystart s p in
  let n := (LocalNy s - gd s - ys)%nat in
  let pt := fun {A} (f : nat -> A) (other : nat -> A) i =>
    if ((y0 s p <=? i) && (i <? y0 s p + n))%nat%bool then f (i - y0 s p + ys)%nat else other i in
  TVec (pt (fun y => fst (fst (co y (kwave zl k)))) (va old))
       (pt (fun y => snd (fst (co y (kwave zl k)))) (vb old))
       (pt (fun y => snd (co y (kwave zl k))) (vc old))
       (pt (fun y => rfft nz (rows y) k) (vk old)).

(** cyclic.cxx:183-203: the phase at the two ends of a closed surface. *)
Definition twist (s : surface) (p : nat) (zl : R) (k : nat) (t : tvec) : tvec :=
  let t1 := if (p =? 0)%nat then
      TVec (fun i => if (i =? 0)%nat then Cmult (va t 0%nat) (cos (kwave zl k * ts s), - sin (kwave zl k * ts s)) else va t i) (vb t) (vc t) (vk t)
    else t in
  if (p =? np s - 1)%nat then
    let e := (LocalNy s - 2 * gd s - 1)%nat in
    TVec (va t1) (vb t1) (fun i => if (i =? e)%nat then Cmult (vc t1 e) (cos (kwave zl k * ts s), sin (kwave zl k * ts s)) else vc t1 i) (vk t1)
  else t1.

(** cyclic.cxx:204-229: zero gradient at the two ends of an open surface. *)
Definition ends (s : surface) (p : nat) (t : tvec) : tvec :=
  let put := fun (cond : nat -> bool) a b c (t : tvec) =>
    let w := fun (v : R) (old : nat -> C) i => if cond i then RtoC v else old i in
    TVec (w a (va t)) (w b (vb t)) (w c (vc t)) (w 0 (vk t)) in
  let t1 := if firstY s p then put (fun i => i <? gd s)%nat 0 1 (-1) t else t in
  if lastY s p then put (fun i => (size s p - gd s <=? i) && (i <? size s p))%nat%bool (-1) 1 0 t1 else t1.

(** cyclic.cxx:148-229: the system of mode [k] on processor [p]. *)
Definition system (s : surface) (p nz : nat) (zl : R) (co : nat -> R -> coef3) (rows : nat -> nat -> R) (old : tvec) (k : nat) : tvec :=
  let t := inner_system s p nz zl co rows old k in
  if closed s then twist s p zl k t else ends s p t.

(** cyclic.cxx:139-245 for one surface, all processors together: [co p] the coefficients and [rows p] the values of the
    field-aligned right hand side at the local y indices of processor [p]; [old p k] the memory in which the system is
    built; [ord1], [ord2], [mem] as in [CyclicModel.solve_all]. Result: the row at local index [y], for the indices
    from [local_ystart - y0] on (236-245). *)
Definition solve_aligned (s : surface) (nz : nat) (zl : R) (co : nat -> nat -> R -> coef3) (rows : nat -> nat -> nat -> R)
    (old : nat -> nat -> tvec) (ord1 ord2 : nat -> list nat) (mem : nat -> memory C) : res (nat -> nat -> nat -> R) :=
  let sys := fun p k => system s p nz zl (co p) (rows p) (old p k) k in
  do x <- solveC (1 + nz / 2) (np s) (closed s) (size s)
            (fun p k => fill_coefs C (va (sys p k)) (vb (sys p k)) (vc (sys p k)) (vk (sys p k))) ord1 ord2 mem;
  Ok (fun p y => irfft nz (fun k => x p k (y + y0 s p - local_ystart s p)%nat)).

(** shiftedmetric.cxx:115-166: one row to and from field-aligned coordinates at global index [i]; [None]: the identity
    transform. *)
Definition to_row (nz : nat) (zl : R) (tr : option (nat -> R)) (i : nat) (r : nat -> R) : nat -> R :=
  match tr with None => r | Some zShift => if (nz =? 1)%nat then r else shift_phases nz (toAlignedPhs zl (zShift i)) r end.
Definition from_row (nz : nat) (zl : R) (tr : option (nat -> R)) (i : nat) (r : nat -> R) : nat -> R :=
  match tr with None => r | Some zShift => if (nz =? 1)%nat then r else shift_phases nz (fromAlignedPhs zl (zShift i)) r end.

(** cyclic.cxx:50-58, 247 [solve]: to field-aligned coordinates, solve, and back. The result is meaningful at the
    interior points (region RGN_NOBNDRY); with the identity transform the boundary rows are returned too. *)
Definition solve (s : surface) (nz : nat) (zl : R) (tr : option (nat -> R)) (co : nat -> nat -> R -> coef3)
    (f : nat -> nat -> nat -> R) (old : nat -> nat -> tvec) (ord1 ord2 : nat -> list nat) (mem : nat -> memory C)
    : res (nat -> nat -> nat -> R) :=
  do u <- solve_aligned s nz zl co (fun p y => to_row nz zl tr (p * my s + y) (f p y)) old ord1 ord2 mem;
  Ok (fun p y => from_row nz zl tr (p * my s + y) (u p y)).

Definition invert_par (s : surface) (nz : nat) (zl : R) (tr : option (nat -> R)) (non_uniform : bool) (M : ydata) :=
  solve s nz zl tr (fun p => par_coefs non_uniform (yview (p * my s) M)).
Definition invert_pardiv (s : surface) (nz : nat) (zl : R) (tr : option (nat -> R)) (M : ydata) :=
  solve s nz zl tr (fun p => div_coefs (yview (p * my s) M)).
