(** Model of the Adams-Bashforth solver's integration: src/solver/impls/adams_bashforth/adams_bashforth.cxx.

    Simplifications. [BoutReal] is [R]; arrays of [nlocal] values are functions of the index. [std::deque] is a list with
    its front first; reads are by [nth], and the theorems only use them inside the list. *)
From Coq Require Import List Arith Reals Bool.
Import ListNotations.
Local Open Scope R_scope.

(** lines 14-26 lagrange_at_position_denominator: [for (i = 0; i < order; i++) result /= (i != position) ? (xj - grid[i]) : 1.0] *)
Fixpoint lagrange_denominator (grid : list R) (position n : nat) : R :=
  match n with
  | O => 1
  | S i => lagrange_denominator grid position i
           / (if (i =? position)%nat then 1 else nth position grid 0 - nth i grid 0)
  end.

(** lines 28-37 lagrange_at_position_numerator *)
Fixpoint lagrange_numerator (varX : R) (grid : list R) (position n : nat) : R :=
  match n with
  | O => 1
  | S i => lagrange_numerator varX grid position i * (if (i =? position)%nat then 1 else varX - nth i grid 0)
  end.

(** lines 39-52 lagrange_interpolate<N>: [facs] has [N] entries. *)
Fixpoint interpolate_loop (start stepSize : R) (points : list R) (position : nat) (facs : list R) (Nm1 n : nat) : R :=
  match n with
  | O => 0
  | S i => interpolate_loop start stepSize points position facs Nm1 i
           + nth i facs 0 * lagrange_numerator (start + INR i * stepSize) points position Nm1
  end.
Definition lagrange_interpolate (start fin : R) (points : list R) (position : nat) (facs : list R) : R :=
  let N := length facs in
  let stepSize := (fin - start) / (INR N - 1) in
  let result := interpolate_loop start stepSize points position facs (N - 1) N in
  stepSize * result * lagrange_denominator points position (N - 1).

Definition scaled (fac : R) (l : list R) : list R := map (fun x => x * fac) l.
(** lines 55-149: the Newton-Cotes factors of the rules nc2 ... nc9 *)
Definition nc2 := scaled (1 / 2) [1; 1].
Definition nc3 := scaled (1 / 3) [1; 4; 1].
Definition nc4 := scaled (3 / 8) [1; 3; 3; 1].
Definition nc5 := scaled (2 / 45) [7; 32; 12; 32; 7].
Definition nc6 := scaled (5 / 288) [19; 75; 50; 50; 75; 19].
Definition nc7 := scaled (1 / 140) [41; 216; 27; 272; 27; 216; 41].
Definition nc8 := scaled (7 / 17280) [751; 3577; 1323; 2989; 2989; 1323; 3577; 751].
Definition nc9 := scaled (4 / 14175) [989; 5888; -928; 10496; -4540; 10496; -928; 5888; 989].

(** lines 152-175 integrate_lagrange_curve: the rule for an order *)
Definition rule (order : nat) : list R :=
  match order with
  | 1%nat => nc2 | 2%nat => nc3 | 3%nat => nc4 | 4%nat => nc5 | 5%nat => nc6 | 6%nat => nc7 | 7%nat => nc8 | _ => nc9
  end.
Definition integrate_lagrange_curve (start fin : R) (points : list R) (position order : nat) : R :=
  lagrange_interpolate start fin points position (rule order).

(** lines 180-195 get_adams_bashforth_coefficients *)
Definition get_adams_bashforth_coefficients (nextPoint : R) (points : list R) (order : nat) : list R :=
  map (fun i => integrate_lagrange_curve (nth 0 points 0) nextPoint points i order) (seq 0 order).

(** lines 198-212 AB_integrate_update *)
Fixpoint update_loop (coeffs : list R) (history : list (nat -> R)) (n : nat) (update : nat -> R) : nat -> R :=
  match n with
  | O => update
  | S j =>
      let update := update_loop coeffs history j update in
      fun i => update i + nth j history (fun _ => 0) i * nth j coeffs 0
  end.
Definition AB_integrate_update (update : nat -> R) (timestep : R) (times : list R) (history : list (nat -> R)) (order : nat)
  : nat -> R :=
  update_loop (get_adams_bashforth_coefficients timestep times order) history order update.

(** lines 215-226 AB_integrate *)
Definition AB_integrate (timestep : R) (times : list R) (history : list (nat -> R)) (order : nat) : nat -> R :=
  AB_integrate_update (fun _ => 0) timestep times history order.

(** lines 563-585 take_step, non-adaptive: [result[i] = current[i] + full_update[i]] *)
Definition take_step_fixed (timeIn dt : R) (times : list R) (history : list (nat -> R)) (order : nat) (current : nat -> R)
  : nat -> R :=
  fun i => current i + AB_integrate (timeIn + dt) times history order i.

(** ** The history (run, lines 378-535), per internal step *)
Record hist := { h_times : list R; h_derivs : list (nat -> R); h_order : nat; h_simtime : R }.

(** lines 397-402: derivative at the current time into the front of the history *)
Definition push (h : hist) (deriv : nat -> R) : hist :=
  {| h_times := h_simtime h :: h_times h; h_derivs := deriv :: h_derivs h; h_order := h_order h; h_simtime := h_simtime h |}.

Definition pop_back {A} (l : list A) : list A := firstn (length l - 1) l.

(** lines 466-487 and 509-527: [used_lower] is whether the lower order method was chosen after the step was accepted
    (only possible when [current_order > 1]); then the oldest point is dropped if there are [maximum_order] of them, the order
    is raised if allowed and the clock advanced. *)
Definition finish (maximum_order : nat) (h : hist) (used_lower : bool) (dt : R) : hist :=
  let use_lower := used_lower && (1 <? h_order h)%nat in
  let order := if use_lower then (h_order h - 1)%nat else h_order h in
  let times := if (length (h_times h) =? maximum_order)%nat then pop_back (h_times h) else h_times h in
  let derivs := if (length (h_derivs h) =? maximum_order)%nat then pop_back (h_derivs h) else h_derivs h in
  let order := if (order <? maximum_order)%nat then (if use_lower then order else S order) else order in
  {| h_times := times; h_derivs := derivs; h_order := order; h_simtime := h_simtime h + dt |}.

(** The state seen by take_step in the internal step number [n] (0-based) of a run; [derivs], [lower] and [dts] are what the
    right hand side, the order choice and the step size control produce. lines 322-345 (init) for the start. *)
Fixpoint before_step (maximum_order : nat) (t0 : R) (derivs : nat -> nat -> R) (lower : nat -> bool) (dts : nat -> R) (n : nat)
  : hist :=
  match n with
  | O => push {| h_times := []; h_derivs := []; h_order := 1; h_simtime := t0 |} (derivs 0%nat)
  | S m => push (finish maximum_order (before_step maximum_order t0 derivs lower dts m) (lower m) (dts m)) (derivs n)
  end.
