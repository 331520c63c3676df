(** Model of the Fourier transforms in z (src/invert/fft_fftw.cxx) and of the operations of the library that are written
    with them: [filter], [lowPass], [DC], [shiftZ] (src/field/field3d.cxx), the shifts of [ShiftedMetric]
    (src/mesh/parallel/shiftedmetric.cxx) and the FFT derivatives in z (src/mesh/index_derivs.cxx).

    Simplifications.
    - [BoutReal] is the reals; rounding is not modelled.
    - The external library FFTW is modelled by what its manual says: a real-to-complex plan of length [n] computes the
      non-redundant half of the (unnormalised) discrete Fourier transform, a complex-to-real plan computes the
      unnormalised inverse, and takes no notice of the imaginary parts of the constant mode and, for even [n], of the
      last (Nyquist) mode.
    - A row of values at fixed x and y is a function of the z index; only the indices below [n] are meaningful. *)
From Coq Require Import List Arith Bool ZArith Reals.
From Coquelicot Require Import Complex.
From Verif Require Import Base.
Import ListNotations.
Local Open Scope R_scope.

(** The sum of [f 0], ..., [f (n-1)]. *)
Fixpoint rsum (n : nat) (f : nat -> R) : R :=
  match n with O => 0 | S m => rsum m f + f m end.

(** The angle of mode [k] at grid point [j]: 2 pi j k / n. *)
Definition ang (n j k : nat) : R := 2 * PI * INR j * INR k / INR n.

(** FFTW manual, section 4.8.3 (and 2.3): r2c, output element [k], 0 <= k <= n/2. *)
Definition fftw_r2c (n : nat) (x : nat -> R) (k : nat) : C :=
  (rsum n (fun j => x j * cos (ang n j k)), - rsum n (fun j => x j * sin (ang n j k))).

(** FFTW manual, section 4.8.3: c2r, output element [j], 0 <= j < n. The missing half of the input is the complex
    conjugate of the half given. *)
Definition fftw_c2r (n : nat) (X : nat -> C) (j : nat) : R :=
  fst (X 0%nat)
  + rsum ((n - 1) / 2) (fun i => 2 * (fst (X (S i)) * cos (ang n j (S i)) - snd (X (S i)) * sin (ang n j (S i))))
  + (if Nat.even n then fst (X (n / 2)%nat) * cos (ang n j (n / 2)) else 0).

(** fft_fftw.cxx:107-161: forward transform, normalised with [fac = 1.0 / n] (155-161). *)
Definition rfft (n : nat) (x : nat -> R) (k : nat) : C :=
  Cmult (fftw_r2c n x k) (RtoC (1 / INR n)).

(** fft_fftw.cxx:165-224: the inverse copies the modes, executes the plan and copies the values. *)
Definition irfft (n : nat) (X : nat -> C) (j : nat) : R := fftw_c2r n X j.

(** The static variables of the serial [rfft] and [irfft] (fft_fftw.cxx:114-117, 172-175): the length [n] of the
    current plan, the length the existing plan [p] and the two buffers were made for (they are made together, 131-147),
    and what is left in the input buffer. [None]: never made, or freed. *)
Record plan := Plan { p_n : nat; p_plan : option nat; p_in : nat -> R; p_inC : nat -> C }.
Definition plan0 : plan := Plan 0 None (fun _ => 0) (fun _ => RtoC 0).

(** fft_fftw.cxx:119-146 (and 177-205): make a new plan when the length differs; 121: the old one is freed only when
    [n > 0], otherwise there is none. *)
Definition replan (length : nat) (st : plan) : plan :=
  if Nat.eqb length (p_n st) then st
  else Plan length (Some length) (fun _ => 0) (fun _ => RtoC 0).

(** fft_fftw.cxx:148-161. The loops use the static [n]; executing a plan that was never made is undefined. *)
Definition rfft_call (length : nat) (input : nat -> R) (st0 : plan) : res ((nat -> C) * plan) :=
  let st := replan length st0 in
  let fin := fun i => if Nat.ltb i (p_n st) then input i else p_in st i in
  match p_plan st with
  | None => UB
  | Some m => Ok (fun k => Cmult (fftw_r2c m fin k) (RtoC (1 / INR (p_n st))), Plan (p_n st) (Some m) fin (p_inC st))
  end.

(** fft_fftw.cxx:207-223. *)
Definition irfft_call (length : nat) (input : nat -> C) (st0 : plan) : res ((nat -> R) * plan) :=
  let st := replan length st0 in
  let fin := fun i => if Nat.ltb i (p_n st / 2 + 1) then input i else p_inC st i in
  match p_plan st with
  | None => UB
  | Some m => Ok (fun j => fftw_c2r m fin j, Plan (p_n st) (Some m) (p_in st) fin)
  end.

(** field3d.cxx:604-646 [filter], one row: every mode except [N0] is set to zero. *)
Definition filter_row (n : nat) (N0 : Z) (x : nat -> R) : nat -> R :=
  irfft n (fun k => if Z.eqb (Z.of_nat k) N0 then rfft n x k else RtoC 0).

(** field3d.cxx:650-694 [lowPass], one row. 656-659: nothing to remove. 680: the loop starts at [zmax + 1], which is
    an index before the beginning of the array when [zmax < -1]. 685-687: the constant mode. *)
Definition lowPass_row (n : nat) (zmax : Z) (keep_zonal : bool) (x : nat -> R) : res (nat -> R) :=
  if ((Z.leb (Z.of_nat (n / 2)) zmax || Z.ltb zmax 0) && keep_zonal)%bool then Ok x
  else if Z.ltb (zmax + 1) 0 then UB
  else Ok (irfft n (fun k =>
         if (Nat.eqb k 0 && negb keep_zonal)%bool then RtoC 0
         else if Z.leb (zmax + 1) (Z.of_nat k) then RtoC 0
         else rfft n x k)).

(** field3d.cxx:769-789 [DC], one row. *)
Definition dc_row (n : nat) (x : nat -> R) : R := rsum n x / INR n.

(** [dcomplex(cos(a), sin(a))]. *)
Definition cis (a : R) : C := (cos a, sin a).

(** shiftedmetric.cxx:195-221 [shiftZ] of one row with given phases; the constant mode is not multiplied (216). *)
Definition shift_phases (n : nat) (phs : nat -> C) (x : nat -> R) : nat -> R :=
  irfft n (fun k => match k with O => rfft n x 0 | _ => Cmult (rfft n x k) (phs k) end).

(** shiftedmetric.cxx:68 and field3d.cxx:719: the wave number of mode [jz]. *)
Definition kwave (zlength : R) (jz : nat) : R := INR jz * 2 * PI / zlength.

(** field3d.cxx:700-724 [shiftZ(Field3D&, int, int, double)], one row. *)
Definition shiftZ_row (n : nat) (zlength zangle : R) (x : nat -> R) : nat -> R :=
  if Nat.eqb n 1 then x
  else shift_phases n (fun k => (cos (kwave zlength k * zangle), - sin (kwave zlength k * zangle))) x.

(** shiftedmetric.cxx:63-74: the phases of the two transforms at one (x, y). *)
Definition fromAlignedPhs (zlength zShift : R) (k : nat) : C :=
  (cos (kwave zlength k * zShift), - sin (kwave zlength k * zShift)).
Definition toAlignedPhs (zlength zShift : R) (k : nat) : C :=
  (cos (kwave zlength k * zShift), sin (kwave zlength k * zShift)).

(** Fields: values at (x, y, z); [None] where nothing has been computed. *)
Definition field := nat -> nat -> option (nat -> R).

(** shiftedmetric.cxx:146-166 [shiftZ(Field3D, phases, ...)]: a copy when there is one z point, otherwise the rows in
    the region; the other rows of the result are not set. Reading a row of the input that was never computed is
    undefined. *)
Definition shift_field (n : nat) (region : nat -> nat -> bool) (phs : nat -> nat -> nat -> C) (f : field) : field :=
  if Nat.eqb n 1 then f
  else fun x y => if region x y then option_map (shift_phases n (phs x y)) (f x y) else None.

(** shiftedmetric.cxx:115-144. *)
Definition toFieldAligned (n : nat) (zlength : R) (zShift : nat -> nat -> R) region (f : field) : field :=
  shift_field n region (fun x y => toAlignedPhs zlength (zShift x y)) f.
Definition fromFieldAligned (n : nat) (zlength : R) (zShift : nat -> nat -> R) region (f : field) : field :=
  shift_field n region (fun x y => fromAlignedPhs zlength (zShift x y)) f.

(** shiftedmetric.cxx:97-113 (phases of the slice [off]) and 224-245 [calcParallelSlices]: row (x, y + off) of the
    slice [off], from row (x, y + off) of the field; y + off as an integer because [off] may be negative. *)
Definition slice_phase (zlength : R) (zShift : nat -> nat -> R) (off : Z) (x y : nat) (k : nat) : C :=
  let slice_shift := zShift x y - zShift x (Z.to_nat (Z.of_nat y + off)) in
  (cos (kwave zlength k * slice_shift), - sin (kwave zlength k * slice_shift)).
Definition slice_row (n : nat) (zlength : R) (zShift : nat -> nat -> R) (off : Z) (f : nat -> nat -> nat -> R)
    (x y : nat) : nat -> R :=
  shift_phases n (slice_phase zlength zShift off x y) (f x (Z.to_nat (Z.of_nat y + off))).

(** index_derivs.cxx:421-480 [FFTDerivativeType::standard], one row. [filt] is the option [fft_derivs_filter];
    437-446: [kfilter] is truncated towards zero and clipped, modes above [kmax] are removed. The conversion to [int]
    of a non-negative number is the integer part; negative numbers end at 0 because of the clipping. *)
Definition kfilter (n : nat) (filt : R) : nat :=
  let v := filt * INR n / 2 in
  let k := if Rlt_dec v 1 then 0%nat else Z.to_nat (up v - 1) in
  Nat.min k (n / 2).
Definition kmax (n : nat) (filt : R) : nat := (n / 2 - kfilter n filt)%nat.
Definition fft_ddz_row (n : nat) (filt : R) (x : nat -> R) : nat -> R :=
  irfft n (fun k => if Nat.leb k (kmax n filt) then Cmult (rfft n x k) (0, INR k * (2 * PI / INR n)) else RtoC 0).

(** index_derivs.cxx:490-540 [FFT2ndDerivativeType::standard], one row. *)
Definition fft_d2dz2_row (n : nat) (x : nat -> R) : nat -> R :=
  irfft n (fun k => Cmult (rfft n x k) (RtoC (- (INR k * (2 * PI / INR n)) * (INR k * (2 * PI / INR n))))).
