(** LaplaceNaulin: src/invert/laplace/impls/naulin/naulin_laplace.cxx (constructor checks excepted) and .hxx.

    Simplifications.  Exact real arithmetic.  Fields are arrays over the whole plane of all processors, guard cells in x
    included ([field3]: y index, global x index, z index): [localmesh->communicate(x)] (262) keeps the guard cells of
    the processors equal to the neighbours' points, and the sums and maxima are those over all processors
    (C47, C77).  The direct solver is a parameter: [inv n b guess] is the result of the [n]-th call of
    [delp2solver->solve(b, guess)], [None] if it throws.  Metrics do not depend on z.  Mesh without IncIntShear (DDX
    would add the shear to every x derivative, coordinates.cxx DDX).  One cell location.  [maxits] is not negative. *)
From Coq Require Import List Arith Bool Reals.
From Verif Require Import Base FftModel LaplaceModel.
Import ListNotations.
Local Open Scope R_scope.

Definition field3 := nat -> nat -> nat -> R.

(** The mesh: layout in x, y indices of the domain of all processors, metric at each y (the coefficients in it are not
    used), points in z, length in z. *)
Record mesh := Mesh { lay : layout; ys : list nat; met : nat -> xdata; mz : nat; zlen : R }.

(** naulin_laplace.hxx: coefficients and options; naulin_laplace.cxx:157-160. *)
Record problem := Problem {
  Acoef : field3; C1coef : field3; C2coef : field3; Dcoef : field3;
  rtol : R; atol : R; maxits : nat; initial_underrelax : R }.

(** DDX with method C2 (index derivative 0.5*(f.p - f.m), divided by dx), and DDZ with method FFT, one value. *)
Definition ddx (m : mesh) (f : field3) : field3 := fun y i j =>
  0.5 * (f y (i + 1)%nat j - f y (i - 1)%nat j) / dx (met m y) i.
Definition ddz (m : mesh) (f : field3) : field3 := fun y i j =>
  fft_ddz_row (mz m) 0 (f y i) j / (zlen m / INR (mz m)).
(** DC (field3d.cxx:769-789), as a field. *)
Definition dc (m : mesh) (f : field3) : field3 := fun y i _ => dc_row (mz m) (f y i).

(** naulin_laplace.cxx:182-214: what is computed from the coefficients. [coef_y] is never used. *)
Section Coefs.
Variables (m : mesh) (p : problem).
Definition C1TimesD : field3 := fun y i j => C1coef p y i j * Dcoef p y i j.
Definition coef_x : field3 := fun y i j => ddx m (C2coef p) y i j / C1TimesD y i j.
Definition coef_z : field3 := fun y i j => ddz m (C2coef p) y i j / C1TimesD y i j.
Definition AOverD : field3 := fun y i j => Acoef p y i j / Dcoef p y i j.
Definition C1coefTimesD_DC : field3 := dc m C1TimesD.
Definition C2coef_DC : field3 := dc m (C2coef p).
Definition coef_x_AC : field3 := fun y i j =>
  coef_x y i j - ddx m C2coef_DC y i j / C1coefTimesD_DC y i j.
Definition AOverD_DC : field3 := dc m AOverD.
Definition AOverD_AC : field3 := fun y i j => AOverD y i j - AOverD_DC y i j.

(** naulin_laplace.cxx:216-218: what the direct solver is given; its D is 1 (cyclic_laplace.cxx constructor). *)
Definition direct_data (y : nat) : xdata :=
  let M := met m y in
  XData (g11 M) (g33 M) (g13 M) (G1 M) (G3 M) (g_11 M) (g_22 M) (dx M) (Ishear M)
        (fun i => AOverD_DC y i 0%nat) (fun i => C1coefTimesD_DC y i 0%nat) (fun i => C2coef_DC y i 0%nat) (fun _ => 1).

(** naulin_laplace.cxx:231-239 *)
Definition calc_b_guess (rhsOverD x_in : field3) : field3 := fun y i j =>
  let M := met m y in
  rhsOverD y i j
  - (g11 M i * coef_x_AC y i j * ddx m x_in y i j + g33 M i * coef_z y i j * ddz m x_in y i j
     + g13 M i * (coef_x_AC y i j * ddz m x_in y i j + coef_z y i j * ddx m x_in y i j))
  - AOverD_AC y i j * x_in y i j.
End Coefs.

(** The points of RGN_NOBNDRY on all processors. *)
Definition points (m : mesh) : list (nat * nat * nat) :=
  flat_map (fun y => flat_map (fun i => map (fun j => (y, i, j)) (seq 0 (mz m)))
                       (seq (g (lay m)) (np (lay m) * mx (lay m)))) (ys m).
Definition at_pt (f : field3) (q : nat * nat * nat) : R := let '(y, i, j) := q in f y i j.

(** [max(abs(f), true, RGN_NOBNDRY)] of a field, and [sqrt(mean(SQ(f), true, RGN_NOBNDRY))], 222-224. *)
Definition maxabs (m : mesh) (f : field3) : R := fold_right (fun q a => Rmax (Rabs (at_pt f q)) a) 0 (points m).
Definition rms (m : mesh) (f : field3) : R :=
  sqrt (fold_right (fun q a => at_pt f q * at_pt f q + a) 0 (points m) / INR (length (points m))).

(** naulin_laplace.cxx:334-354 [copy_x_boundaries], all processors. *)
Definition copy_x_boundaries (m : mesh) (x x0 : field3) : field3 := fun y i j =>
  if existsb (Nat.eqb y) (ys m) then
    if ((i <? g (lay m)) || (g (lay m) + np (lay m) * mx (lay m) <=? i))%nat%bool then x0 y i j else x y i j
  else x y i j.

(** The result: the field with the number of iterations and of underrelaxations, [NThrow]: not converged, or the direct
    solver threw; [NFuel]: does not occur. *)
Inductive nres := NOk (x : field3) (count under : nat) | NThrow | NFuel.

Section Solve.
Variables (m : mesh) (p : problem) (o : opts).
Variable inv : nat -> field3 -> field3 -> option field3.

(** naulin_laplace.cxx:241-259 [calc_b_x_pair]; [n] counts the calls of the direct solver. *)
Definition calc_b_x_pair (x0 b x_guess : field3) (n : nat) : option (field3 * field3) :=
  let x_guess := if (b_set (inner o) || b_set (outer o))%bool then copy_x_boundaries m x_guess x0 else x_guess in
  match inv n b x_guess with
  | Some x => Some (b, x)
  | None => None
  end.

Definition error3D (rhsOverD : field3) (pr : field3 * field3) : R :=
  maxabs m (fun y i j => fst pr y i j - calc_b_guess m p rhsOverD (snd pr) y i j).

(** 273, 299: [error_rel < rtol or error_abs < atol]; if RMS is zero then error_rel is infinite or not a number and the
    first comparison is false. *)
Definition accepted (RMS error_abs : R) : bool :=
  (((if Rlt_dec 0 RMS then true else false) && (if Rlt_dec (error_abs / RMS) (rtol p) then true else false)) || (if Rlt_dec error_abs (atol p) then true else false))%bool.

(** [underrelax_factor * bnew + (1. - underrelax_factor) * b_old] *)
Definition mix (u : R) (bnew bold : field3) : field3 := fun y i j => u * bnew y i j + (1 - u) * bold y i j.

(** The inner loop, 285-307: from the last good pair with a smaller factor, until the error is not larger than the last
    one. Returns the pair, its error, the factor, both counters and the number of calls. *)
Definition inner_state := (field3 * field3 * R * R * nat * nat * nat)%type.
Inductive ires := IOk (s : inner_state) | IThrow | IFuel.

Fixpoint diverging (fuel : nat) (rhsOverD x0 : field3) (old : field3 * field3) (last_error : R) (s : inner_state) : ires :=
  let '(pr, error_abs, u, count, under, n) := s in
  if Rlt_dec last_error error_abs then
    match fuel with
    | O => IFuel
    | S fuel' =>
        let u := u * 0.9 in
        let under := S under in
        match calc_b_x_pair x0 (mix u (calc_b_guess m p rhsOverD (snd old)) (fst old)) (snd old) n with
        | None => IThrow
        | Some pr =>
            let error_abs := error3D rhsOverD pr in
            let count := S count in
            if (maxits p <? count)%nat then IThrow
            else diverging fuel' rhsOverD x0 old last_error (pr, error_abs, u, count, under, S n)
        end
    end
  else IOk s.

(** The main loop, 266-319. *)
Fixpoint iterate (fuel : nat) (rhsOverD x0 : field3) (RMS : R) (pr old : field3 * field3) (last_error u : R)
  (count under n : nat) : nres :=
  let error_abs := error3D rhsOverD pr in
  if accepted RMS error_abs then NOk (snd pr) count under
  else
    let count := S count in
    if (maxits p <? count)%nat then NThrow
    else
      match fuel with
      | O => NFuel
      | S fuel' =>
          match diverging (S (maxits p)) rhsOverD x0 old last_error (pr, error_abs, u, count, under, n) with
          | IFuel => NFuel
          | IThrow => NThrow
          | IOk (pr, error_abs, u, count, under, n) =>
              if accepted RMS error_abs then NOk (snd pr) count under
              else
                match calc_b_x_pair x0 (mix u (calc_b_guess m p rhsOverD (snd pr)) (fst pr)) (snd pr) n with
                | None => NThrow
                | Some pr' => iterate fuel' rhsOverD x0 RMS pr' pr error_abs u count under (S n)
                end
          end
      end.

(** naulin_laplace.cxx:167-331 [solve]; the initial error is 1e20. *)
Definition naulin (rhs x0 : field3) : nres :=
  let rhsOverD : field3 := fun y i j => rhs y i j / Dcoef p y i j in
  let RMS := rms m rhsOverD in
  match calc_b_x_pair x0 (calc_b_guess m p rhsOverD x0) x0 0 with
  | None => NThrow
  | Some pr => iterate (S (maxits p)) rhsOverD x0 RMS pr pr (10 ^ 20) (initial_underrelax p) 0 0 1
  end.
End Solve.

(** The statistics kept by the object, 321-327, and [resetMeanIterations] (naulin_laplace.hxx). *)
Record nstats := NStats { mean_its : R; mean_under : R; ncalls : nat }.
Definition stats0 : nstats := NStats 0 0 0.
Definition add_call (s : nstats) (count under : nat) : nstats :=
  let n := S (ncalls s) in
  NStats ((mean_its s * (INR n - 1) + INR count) / INR n) ((mean_under s * (INR n - 1) + INR under) / INR n) n.
Definition resetMeanIterations (s : nstats) : nstats := NStats 0 (mean_under s) (ncalls s).
