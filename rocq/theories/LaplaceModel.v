(** Model of the perpendicular Laplacian inversion with the cyclic solver:
    src/invert/laplace/invert_laplace.cxx:285-772 ([tridagCoefs], [tridagMatrix]),
    src/invert/laplace/impls/cyclic/cyclic_laplace.cxx:51-302 (constructor and [solve(FieldPerp, FieldPerp)]),
    of [Coordinates::Delp2], src/mesh/coordinates.cxx:1656-1714,
    and of the boundary condition zerolaplace2, src/mesh/boundary_standard.cxx:2732-2785.

    Simplifications. Exact real and complex arithmetic. One y index and one cell location. Metrics and coefficients do
    not depend on z (Field2D: the code refuses 3D metrics). The discrete sine transform variant ([dst]) is left out.
    [rfft], [irfft] are the transforms of FftModel, whose cached plan is the subject of C56. The pointers to the
    coefficients are never null because [LaplaceCyclic] always passes its four fields. Every processor has [mx] interior
    points and [xstart] guard cells on each side; processor [p] sees the global arrays from index [p * mx] on, guard
    cells included, as after communication. Flags are booleans, one for each bit tested. *)
From Coq Require Import List Arith Bool ZArith Reals.
From Coquelicot Require Import Complex.
From Verif Require Import Base CyclicModel CyclicSpec CyclicProps FftModel.
Import ListNotations.
Local Open Scope R_scope.

(** The fields read along x: metric components (coordinates.hxx), grid spacing, integrated shear, and the
    coefficients A, C1, C2, D set by [setCoefA] etc. (cyclic_laplace.hxx:69-120). *)
Record xdata := XData {
  g11 : nat -> R; g33 : nat -> R; g13 : nat -> R; G1 : nat -> R; G3 : nat -> R;
  g_11 : nat -> R; g_22 : nat -> R; dx : nat -> R; Ishear : nat -> R;
  cA : nat -> R; cC1 : nat -> R; cC2 : nat -> R; cD : nat -> R }.

(** What a processor whose arrays start at global index [o] sees. *)
Definition view (o : nat) (m : xdata) : xdata :=
  let f := fun (a : nat -> R) i => a (o + i)%nat in
  XData (f (g11 m)) (f (g33 m)) (f (g13 m)) (f (G1 m)) (f (G3 m)) (f (g_11 m)) (f (g_22 m)) (f (dx m)) (f (Ishear m))
        (f (cA m)) (f (cC1 m)) (f (cC2 m)) (f (cD m)).

(** invert_laplace.hxx:115-170: the bits of inner_boundary_flags or outer_boundary_flags that are tested. *)
Record bflags := BFlags {
  b_dc_grad : bool; b_ac_grad : bool; b_ac_lap : bool; b_dc_lap : bool; b_dc_gradpar : bool; b_dc_gradparinv : bool;
  b_cylinder : bool; b_set : bool; b_rhs : bool; b_one : bool }.

(** Options of the solver: all_terms, nonuniform, mesh IncIntShear and periodicX, the global flags ZERO_DC and
    BOTH_BNDRY_ONE, the inner and outer boundary flags, maxmode. *)
Record opts := Opts {
  all_terms : bool; nonuniform : bool; IncIntShear : bool; periodicX : bool; zero_DC : bool; both_one : bool;
  inner : bflags; outer : bflags; maxmode : nat }.

(** One row of the tridiagonal matrix of one mode. *)
Definition coef3 := (C * C * C)%type.

(** invert_laplace.cxx:285-384 [tridagCoefs], on a processor with [LocalNx] points. *)
Definition tridagCoefs (o : opts) (LocalNx : nat) (m : xdata) (jx : nat) (kwave : R) : coef3 :=
  let coef1 := g11 m jx in
  let coef2 := g33 m jx in
  let coef3 := 2 * g13 m jx in
  let coef4 := if all_terms o then G1 m jx else 0 in
  let coef5 := if all_terms o then G3 m jx else 0 in
  let coef1 := coef1 * cD m jx in
  let coef2 := coef2 * cD m jx in
  let coef3 := coef3 * cD m jx in
  let coef4 := coef4 * cD m jx in
  let coef5 := coef5 * cD m jx in
  let coef4 :=
    if nonuniform o then
      if (negb (jx =? 0) && negb (jx =? LocalNx - 1))%nat%bool
      then coef4 - 0.5 * ((dx m (jx + 1)%nat - dx m (jx - 1)%nat) / (dx m jx * dx m jx)) * coef1
      else coef4
    else coef4 in
  let inside := ((0 <? jx) && (jx <? LocalNx - 1))%nat%bool in
  let dc2dx_over_c1 := (cC2 m (jx + 1)%nat - cC2 m (jx - 1)%nat) / (2 * dx m jx * cC1 m jx) in
  let coef4 := if inside then coef4 + g11 m jx * dc2dx_over_c1 else coef4 in
  let coef5 := if inside then coef5 + g13 m jx * dc2dx_over_c1 else coef5 in
  let coef2 := if IncIntShear o then coef2 + g11 m jx * Ishear m jx * Ishear m jx else coef2 in
  let coef3 := if IncIntShear o then 0 else coef3 in
  let coef1 := coef1 / (dx m jx * dx m jx) in
  let coef3 := coef3 / (2 * dx m jx) in
  let coef4 := coef4 / (2 * dx m jx) in
  ((coef1 - coef4, - kwave * coef3) : C,
   (- 2 * coef1 - kwave * kwave * coef2, kwave * coef5) : C,
   (coef1 + coef4, kwave * coef3) : C).

(** The four vectors filled for one mode on one processor: avec, bvec, cvec, bk. *)
Record tvec := TVec { va : nat -> C; vb : nat -> C; vc : nat -> C; vk : nat -> C }.

(** Loops [for ix < w] writing element [ix], and writing element [ncx - ix]. *)
Definition low_rows (w : nat) (f : nat -> coef3) (t : tvec) : tvec :=
  let sel := fun (pr : coef3 -> C) (old : nat -> C) i => if (i <? w)%nat then pr (f i) else old i in
  TVec (sel (fun c => fst (fst c)) (va t)) (sel (fun c => snd (fst c)) (vb t)) (sel snd (vc t)) (vk t).
Definition high_rows (ncx w : nat) (f : nat -> coef3) (t : tvec) : tvec :=
  let sel := fun (pr : coef3 -> C) (old : nat -> C) i =>
    if ((i <=? ncx) && (ncx - i <? w))%nat%bool then pr (f (ncx - i)%nat) else old i in
  TVec (sel (fun c => fst (fst c)) (va t)) (sel (fun c => snd (fst c)) (vb t)) (sel snd (vc t)) (vk t).
Definition low_zero (w : nat) (t : tvec) : tvec :=
  TVec (va t) (vb t) (vc t) (fun i => if (i <? w)%nat then RtoC 0 else vk t i).
Definition high_zero (ncx w : nat) (t : tvec) : tvec :=
  TVec (va t) (vb t) (vc t) (fun i => if ((i <=? ncx) && (ncx - i <? w))%nat%bool then RtoC 0 else vk t i).

Definition cr3 (a b c : R) : coef3 := (RtoC a, RtoC b, RtoC c).

(** invert_laplace.cxx:453-471, and cyclic_laplace.cxx:118-130: widths of the boundaries. *)
Definition inbndry (o : opts) (xstart : nat) : nat :=
  if b_one (inner o) then 1 else if (both_one o || (xstart <? 2)%nat)%bool then 1 else xstart.
Definition outbndry (o : opts) (xstart : nat) : nat :=
  if b_one (outer o) then 1 else if (both_one o || (xstart <? 2)%nat)%bool then 1 else xstart.

(** invert_laplace.cxx:488-642: inner boundary. *)
Definition inner_rows (o : opts) (xstart : nat) (m : xdata) (kz : nat) (kwave : R) (t : tvec) : res tvec :=
  let fl := inner o in
  let w := inbndry o xstart in
  let t := if (b_rhs fl || b_set fl)%bool then t else low_zero w t in
  if (kz =? 0)%nat then
    if (b_dc_grad fl && (b_set fl || b_rhs fl))%bool then
      Ok (low_rows w (fun ix => cr3 0 (-1 / sqrt (g_11 m ix) / dx m ix) (1 / sqrt (g_11 m ix) / dx m ix)) t)
    else if b_dc_grad fl then Ok (low_rows w (fun _ => cr3 0 (-1) 1) t)
    else if b_dc_gradpar fl then
      Ok (low_rows w (fun ix => cr3 0 (1 / sqrt (g_22 m ix)) (-1 / sqrt (g_22 m (ix + 1)%nat))) t)
    else if b_dc_gradparinv fl then
      Ok (low_rows w (fun ix => cr3 0 (sqrt (g_22 m ix)) (- sqrt (g_22 m (ix + 1)%nat))) t)
    else if b_dc_lap fl then
      let ksq := - cA m w in
      if Rlt_dec ksq 0 then Throw
      else let k := sqrt ksq in
           Ok (low_rows w (fun ix => cr3 0 1 (- exp (- k * dx m ix / sqrt (g11 m ix)))) t)
    else if b_cylinder fl then Ok (low_rows w (fun _ => cr3 0 1 (-1)) t)
    else Ok (low_rows w (fun _ => cr3 0 0.5 0.5) t)
  else
    if (b_ac_grad fl && (b_set fl || b_rhs fl))%bool then
      Ok (low_rows w (fun ix => cr3 0 (-1 / sqrt (g_11 m ix) / dx m ix) (1 / sqrt (g_11 m ix) / dx m ix)) t)
    else if b_ac_grad fl then Ok (low_rows w (fun _ => cr3 0 (-1) 1) t)
    else if b_ac_lap fl then
      Ok (low_rows w (fun ix => cr3 0 1 (- exp (-1 * sqrt (g33 m ix / g11 m ix) * kwave * dx m ix))) t)
    else if b_cylinder fl then
      Ok (low_rows w (fun _ => cr3 0 1 (if (kz mod 2 =? 0)%nat then -1 else 1)) t)
    else Ok (low_rows w (fun _ => cr3 0 0.5 0.5) t).

(** invert_laplace.cxx:644-760: outer boundary. The DC branches GRADPAR, GRADPARINV and LAP test the inner flags and
    run to [inbndry] (681, 687, 693); GRADPAR reads [g_22(ncx - ix + 1)] (683), which is outside the array for
    [ix = 0] when [xs = 0]; LAP takes A at [inbndry] (697); the gradient conditions use the metric at the row number
    [ncx - ix] (661-664), not at the position [xs + ncx - ix] of the row. *)
Definition outer_rows (o : opts) (xstart LocalNx ncx xe : nat) (m : xdata) (kz : nat) (kwave : R) (t : tvec) : res tvec :=
  let fl := outer o in
  let w := outbndry o xstart in
  let win := inbndry o xstart in
  let t := if (b_rhs fl || b_set fl)%bool then t else high_zero ncx w t in
  let grad := fun ix => cr3 (-1 / sqrt (g_11 m (ncx - ix)%nat) / dx m (ncx - ix)%nat)
                            (1 / sqrt (g_11 m (ncx - ix)%nat) / dx m (ncx - ix)%nat) 0 in
  if (kz =? 0)%nat then
    if (b_dc_grad fl && (b_set fl || b_rhs fl))%bool then Ok (high_rows ncx w grad t)
    else if b_dc_grad fl then Ok (high_rows ncx w (fun _ => cr3 1 (-1) 0) t)
    else if b_dc_gradpar (inner o) then
      if (LocalNx <=? ncx + 1)%nat then UB
      else Ok (high_rows ncx win
             (fun ix => cr3 (1 / sqrt (g_22 m (ncx - ix + 1)%nat)) (-1 / sqrt (g_22 m (ncx - ix)%nat)) 0) t)
    else if b_dc_gradparinv (inner o) then
      Ok (high_rows ncx win (fun ix => cr3 (sqrt (g_22 m (ncx - ix - 1)%nat)) (- sqrt (g_22 m (ncx - ix)%nat)) 0) t)
    else if b_dc_lap (inner o) then
      let ksq := - cA m win in
      if Rlt_dec ksq 0 then Throw
      else let k := sqrt ksq in
           Ok (high_rows ncx win
                 (fun ix => cr3 (- exp (- k * dx m (ncx - ix)%nat / sqrt (g11 m (ncx - ix)%nat))) 1 0) t)
    else Ok (high_rows ncx w (fun _ => cr3 0.5 0.5 0) t)
  else
    if (b_ac_grad fl && (b_set fl || b_rhs fl))%bool then Ok (high_rows ncx w grad t)
    else if b_ac_grad fl then Ok (high_rows ncx w (fun _ => cr3 1 (-1) 0) t)
    else if b_ac_lap fl then
      Ok (high_rows ncx w (fun ix =>
            cr3 (- exp (-1 * sqrt (g33 m (xe - ix)%nat / g11 m (xe - ix)%nat) * kwave * dx m (xe - ix)%nat)) 1 0) t)
    else Ok (high_rows ncx w (fun _ => cr3 0.5 0.5 0) t).

(** The decomposition in x: [np] processors, [mx] points each, [g] guard cells. *)
Record layout := Layout { np : nat; mx : nat; g : nat }.
Definition LocalNx (l : layout) : nat := mx l + 2 * g l.

(** cyclic_laplace.cxx:73-84 and invert_laplace.cxx:440-451 (with [includeguards] false): first and last x index. *)
Definition xs (l : layout) (o : opts) (p : nat) : nat := if ((p =? 0)%nat && negb (periodicX o))%bool then 0 else g l.
Definition xe (l : layout) (o : opts) (p : nat) : nat :=
  if ((p =? np l - 1)%nat && negb (periodicX o))%bool then LocalNx l - 1 else g l + mx l - 1.
(** cyclic_laplace.cxx:85: number of rows. *)
Definition nrows (l : layout) (o : opts) (p : nat) : nat := (xe l o p - xs l o p + 1)%nat.

(** invert_laplace.cxx:424-772 [tridagMatrix] on processor [p] of the layout; [m] is what this processor sees, [bk] the
    right hand side passed in. *)
Definition tridagMatrix (l : layout) (o : opts) (p : nat) (m : xdata) (kz : nat) (kwave : R) (bk : nat -> C) : res tvec :=
  let ncx := (xe l o p - xs l o p)%nat in
  let row := fun ix => tridagCoefs o (LocalNx l) m (xs l o p + ix) kwave in
  let t := TVec (fun ix => fst (fst (row ix)))
                (fun ix => Cplus (snd (fst (row ix))) (RtoC (cA m (xs l o p + ix)%nat)))
                (fun ix => snd (row ix)) bk in
  if negb (periodicX o) then
    do t1 <- (if (p =? 0)%nat then inner_rows o (g l) m kz kwave t else Ok t);
    if (p =? np l - 1)%nat then outer_rows o (g l) (LocalNx l) ncx (xe l o p) m kz kwave t1 else Ok t1
  else if ((kz =? 0) && (p =? 0))%nat%bool then
    let at0 := fun (v : C) (old : nat -> C) i => if (i =? 0)%nat then v else old i in
    Ok (TVec (at0 (RtoC 0) (va t)) (at0 (RtoC 1) (vb t)) (at0 (RtoC 0) (vc t)) (at0 (RtoC 0) (vk t)))
  else Ok t.

(** cyclic_laplace.cxx:198-215: which row is transformed; [x0] in the boundary when the value is set. *)
Definition source_row (l : layout) (o : opts) (p ix : nat) (rhs x0 : nat -> R) : nat -> R :=
  if (((ix <? inbndry o (g l))%nat && b_set (inner o) && (p =? 0)%nat)
      || ((LocalNx l - ix - 1 <? outbndry o (g l))%nat && b_set (outer o) && (p =? np l - 1)%nat))%bool
  then x0 else rhs.

(** cyclic_laplace.cxx:217-232: the matrices of all modes on processor [p]. [rhs], [x0]: local rows. *)
Definition tvec0 : tvec := TVec (fun _ => RtoC 0) (fun _ => RtoC 0) (fun _ => RtoC 0) (fun _ => RtoC 0).
Definition matrices (l : layout) (o : opts) (p nz : nat) (zlength : R) (m : xdata) (rhs x0 : nat -> nat -> R)
    : res (nat -> tvec) :=
  for_sys tvec0 (fun kz =>
      tridagMatrix l o p m kz (kwave zlength kz)
        (fun i => rfft nz (source_row l o p (xs l o p + i) (rhs (xs l o p + i)%nat) (x0 (xs l o p + i)%nat)) kz))
    (maxmode o + 1).

(** cyclic_laplace.cxx:239-255: the mean over x of the constant mode (periodic in x), summed over all processors. *)
Definition xaverage (l : layout) (o : opts) (x : nat -> nat -> nat -> C) : R :=
  rsum (np l) (fun p => rsum (nrows l o p) (fun i => fst (x p 0%nat i)))
  / rsum (np l) (fun p => INR (nrows l o p)).

(** cyclic_laplace.cxx:257-285: back to real space, one row. *)
Definition to_real (o : opts) (nz : nat) (xhat : nat -> C) : nat -> R :=
  irfft nz (fun kz => if (zero_DC o && (kz =? 0)%nat)%bool then RtoC 0
                      else if (kz <? maxmode o + 1)%nat then xhat kz else RtoC 0).

(** The matrices of all modes on all processors. *)
Definition all_matrices (l : layout) (o : opts) (nz : nat) (zlength : R) (M : xdata) (rhs x0 : nat -> nat -> nat -> R)
    : res (nat -> nat -> tvec) :=
  for_sys (fun _ => tvec0) (fun p => matrices l o p nz zlength (view (p * mx l) M) (rhs p) (x0 p)) (np l).

(** cyclic_laplace.cxx:109-302 [solve], on all processors together. [M] global data; [rhs p], [x0 p] the rows of each
    processor; [ord1], [ord2], [mem] as in [CyclicModel.solve_all]. Result: the rows written, at local x index [ix]
    between [xs] and [xe]. *)
Definition solve (l : layout) (o : opts) (nz : nat) (zlength : R) (M : xdata) (rhs x0 : nat -> nat -> nat -> R)
    (ord1 ord2 : nat -> list nat) (mem : nat -> memory C) : res (nat -> nat -> nat -> R) :=
  do mats <- all_matrices l o nz zlength M rhs x0;
  do x <- solveC (maxmode o + 1) (np l) (periodicX o) (nrows l o)
            (fun p kz => fill_coefs C (va (mats p kz)) (vb (mats p kz)) (vc (mats p kz)) (vk (mats p kz))) ord1 ord2 mem;
  let avg := if periodicX o then xaverage l o x else 0 in
  let x' := fun p kz i => if (periodicX o && (kz =? 0)%nat)%bool then Cminus (x p kz i) (RtoC avg) else x p kz i in
  Ok (fun p ix => to_real o nz (fun kz => x' p kz (ix - xs l o p)%nat)).

(** The coefficients for the plain Laplacian: D = 1, C constant, A = 0. With these the null
    pointers of [laplace_tridag_coefs] (invert_laplace.cxx:804-807 and 263-275) give the same coefficients. *)
Definition plain (M : xdata) : xdata :=
  XData (g11 M) (g33 M) (g13 M) (G1 M) (G3 M) (g_11 M) (g_22 M) (dx M) (Ishear M)
        (fun _ => 0) (fun _ => 1) (fun _ => 1) (fun _ => 1).

(** invert_laplace.cxx:263-275 and 804-807 [laplace_tridag_coefs]: the coefficients of the default Laplacian, for mode
    [kz]; [o] are the options of that instance. *)
Definition laplace_coefs (o : opts) (LocalNx : nat) (m : xdata) (zlength : R) (jx kz : nat) : coef3 :=
  tridagCoefs o LocalNx (plain m) jx (kwave zlength kz).

(** coordinates.cxx:1656-1714 [Delp2] with [useFFT], row [jx]; [f] the rows of this processor. *)
Definition delp2_row (o : opts) (LocalNx nz : nat) (zlength : R) (m : xdata) (f : nat -> nat -> R) (jx : nat) : nat -> R :=
  irfft nz (fun kz =>
    let c := laplace_coefs o LocalNx m zlength jx kz in
    Cplus (Cplus (Cmult (fst (fst c)) (rfft nz (f (jx - 1)%nat) kz)) (Cmult (snd (fst c)) (rfft nz (f jx) kz)))
          (Cmult (snd c) (rfft nz (f (jx + 1)%nat) kz))).

(** boundary_standard.cxx:2732-2785 [BoundaryZeroLaplace2::apply(Field3D)], one y. [steps] guard cells remain, the next
    one is [x]; [outer]: [bx > 0]. [c1], [c2] are the modes of the two cells before it. 2741: an odd number of z
    points fails an assertion. *)
Definition neighbour (outer : bool) (x : nat) : nat := if outer then (x - 1)%nat else (x + 1)%nat.
Fixpoint zl2_loop (o : opts) (LocalNx nz : nat) (zlength : R) (m : xdata) (outer : bool) (steps x : nat)
    (c1 c2 : nat -> C) (f : nat -> nat -> R) : nat -> nat -> R :=
  match steps with
  | O => f
  | S n =>
      let c0 := fun kz =>
        let c := laplace_coefs o LocalNx m zlength (neighbour outer x) kz in
        let la := if outer then snd c else fst (fst c) in
        let lc := if outer then fst (fst c) else snd c in
        Cdiv (Copp (Cplus (Cmult (snd (fst c)) (c1 kz)) (Cmult lc (c2 kz)))) la in
      let f' := fun i => if (i =? x)%nat then irfft nz c0 else f i in
      zl2_loop o LocalNx nz zlength m outer n (if outer then (x + 1)%nat else (x - 1)%nat) c0 c1 f'
  end.
Definition zerolaplace2 (o : opts) (mxp gd nz : nat) (zlength : R) (m : xdata) (outer : bool) (f : nat -> nat -> R)
    : res (nat -> nat -> R) :=
  if negb (nz mod 2 =? 0)%nat then Throw
  else let x := if outer then (gd + mxp)%nat else (gd - 1)%nat in
       let x1 := neighbour outer x in
       let x2 := neighbour outer x1 in
       Ok (zl2_loop o (mxp + 2 * gd) nz zlength m outer gd x (rfft nz (f x1)) (rfft nz (f x2)) f).
