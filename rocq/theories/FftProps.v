(** C56 - C59: Fourier transforms in z and the operations written with them. *)
From Coq Require Import List Arith Bool ZArith Reals Lia Lra.
From Coquelicot Require Import Complex Derive Hierarchy.
From Verif Require Import Base FftModel FftSpec FftProofs FftProofs2 FftProofs3 FftProofs4 FftProofs5.
Import ListNotations.
Local Open Scope R_scope.

(** * C56: the transforms *)

(** For every number of points, odd or even, the inverse transform gives back every row of values. *)
Theorem C56_inverse : forall n x j, (1 <= n)%nat -> (j < n)%nat -> irfft n (rfft n x) j = x j.
Proof. exact irfft_rfft. Qed.
Print Assumptions C56_inverse.

(** Conversely every spectrum whose constant mode and, with an even number of points, last mode are real. *)
Theorem C56_forward : forall n X k, (1 <= n)%nat -> (k <= n / 2)%nat ->
  snd (X 0%nat) = 0 -> (Nat.even n = true -> snd (X (n / 2)%nat) = 0) ->
  rfft n (irfft n X) k = X k.
Proof.
  intros n X k Hn Hk H0 Hny. rewrite rfft_irfft by auto. unfold keep.
  destruct (Nat.eqb_spec k 0) as [->|Hk0]; [apply C_eq; cbn [fst snd]; auto|].
  destruct (Nat.eqb_spec (2 * k) n) as [E|E]; [|reflexivity].
  assert (Ev : Nat.even n = true) by (rewrite <- E; apply Nat.even_spec; exists k; lia).
  destruct (half_even n Hn Ev). replace k with (n / 2)%nat by lia. apply C_eq; cbn [fst snd]; auto. symmetry. auto.
Qed.
Print Assumptions C56_forward.

(** Every row of values is, at the grid points, a trigonometric polynomial of degree below n/2, plus a multiple of the
    highest mode when the number of points is even; and the transform contains its coefficients. *)
Theorem C56_every_row : forall n L x, (1 <= n)%nat -> L <> 0 -> exists a b K c, row_is n L a b K c x.
Proof. intros n L x Hn HL. do 4 eexists. apply row_exists; auto. Qed.
Print Assumptions C56_every_row.

Theorem C56_coefficients : forall n L a b K c x, (1 <= n)%nat -> L <> 0 -> row_is n L a b K c x ->
  rfft n x 0 = (a 0%nat, 0) /\
  (forall k, (1 <= k <= K)%nat -> rfft n x k = (a k / 2, - b k / 2)) /\
  (forall k, (K < k)%nat -> (2 * k < n)%nat -> rfft n x k = (0, 0)) /\
  (Nat.even n = true -> rfft n x (n / 2) = (c, 0)).
Proof.
  intros n L a b K c x Hn HL Hr. pose proof Hr as (HK & Hc & _).
  assert (Hdiv : (2 * (n / 2) <= n < 2 * (n / 2) + 2)%nat).
  { pose proof (Nat.div_mod n 2 ltac:(lia)). pose proof (Nat.mod_upper_bound n 2 ltac:(lia)). lia. }
  split; [|split; [|split]].
  - rewrite (rfft_row n L a b K c) by (auto; lia). unfold nspec, tspec. rewrite (proj2 (Nat.eqb_neq (2 * 0) n)) by lia. reflexivity.
  - intros k Hk. rewrite (rfft_row n L a b K c) by (auto; lia). unfold nspec, tspec.
    rewrite (proj2 (Nat.eqb_neq (2 * k) n)), (proj2 (Nat.eqb_neq k 0)), (proj2 (Nat.leb_le k K)) by lia. reflexivity.
  - intros k H1 H2. rewrite (rfft_row n L a b K c) by (auto; lia). unfold nspec, tspec.
    rewrite (proj2 (Nat.eqb_neq (2 * k) n)), (proj2 (Nat.eqb_neq k 0)), (proj2 (Nat.leb_gt k K)) by lia. reflexivity.
  - intros Ev. destruct (half_even n Hn Ev). rewrite (rfft_row n L a b K c) by (auto; lia). unfold nspec.
    rewrite (proj2 (Nat.eqb_eq (2 * (n / 2)) n)) by lia. reflexivity.
Qed.
Print Assumptions C56_coefficients.

(** Energy: the mean square of a row is the sum over all modes of the squared amplitudes. *)
Theorem C56_energy : forall n x, (1 <= n)%nat ->
  rsum n (fun j => x j * x j) / INR n
  = Cmod (rfft n x 0) ^ 2 + 2 * rsum ((n - 1) / 2) (fun i => Cmod (rfft n x (S i)) ^ 2)
    + (if Nat.even n then Cmod (rfft n x (n / 2)) ^ 2 else 0).
Proof. exact parseval. Qed.
Print Assumptions C56_energy.

(** The cached plans: after every sequence of calls, with any lengths, every call returns the transform of its own
    argument with its own length. *)
Inductive call := Fwd (n : nat) (x : nat -> R) | Bwd (n : nat) (X : nat -> C).
Definition call_len c := match c with Fwd n _ => n | Bwd n _ => n end.
Inductive answer := AFwd (X : nat -> C) | ABwd (x : nat -> R).
Fixpoint run_calls (cs : list call) (f b : plan) : res (list answer) :=
  match cs with
  | [] => Ok []
  | Fwd n x :: cs' => do r <- rfft_call n x f; do rs <- run_calls cs' (snd r) b; Ok (AFwd (fst r) :: rs)
  | Bwd n X :: cs' => do r <- irfft_call n X b; do rs <- run_calls cs' f (snd r); Ok (ABwd (fst r) :: rs)
  end.
Definition right_answer (c : call) (a : answer) : Prop :=
  match c, a with
  | Fwd n x, AFwd X => forall k, (k <= n / 2)%nat -> X k = rfft n x k
  | Bwd n X, ABwd x => forall j, (j < n)%nat -> x j = irfft n X j
  | _, _ => False
  end.
Theorem C56_history : forall cs, Forall (fun c => (1 <= call_len c)%nat) cs ->
  exists answers, run_calls cs plan0 plan0 = Ok answers /\ Forall2 right_answer cs answers.
Proof.
  assert (G : forall cs f b, plan_ok f -> plan_ok b -> Forall (fun c => (1 <= call_len c)%nat) cs ->
    exists answers, run_calls cs f b = Ok answers /\ Forall2 right_answer cs answers).
  { induction cs as [|[n x|n X] cs IH]; intros f b Hf Hb HF.
    - exists []. split; [reflexivity|constructor].
    - inversion HF as [|? ? H1 H2 E]; subst. cbn [call_len] in H1. destruct (rfft_call_ok n x f H1 Hf) as (r & st & E1 & Hst & Hr).
      destruct (IH st b Hst Hb H2) as (rs & E2 & H3). exists (AFwd r :: rs). cbn [run_calls]. rewrite E1. cbn [bind fst snd].
      rewrite E2. cbn [bind]. split; [reflexivity|]. constructor; [|exact H3]. cbn. intros k _. apply Hr.
    - inversion HF as [|? ? H1 H2 E]; subst. cbn [call_len] in H1. destruct (irfft_call_ok n X b H1 Hb) as (r & st & E1 & Hst & Hr).
      destruct (IH f st Hf Hst H2) as (rs & E2 & H3). exists (ABwd r :: rs). cbn [run_calls]. rewrite E1. cbn [bind fst snd].
      rewrite E2. cbn [bind]. split; [reflexivity|]. constructor; [|exact H3]. cbn. intros j _. apply Hr. }
  intros cs. apply G; left; split; reflexivity.
Qed.
Print Assumptions C56_history.

(** A row of four points with a constant, a first harmonic and the highest mode. *)
Definition row4 (j : nat) : R := 1 + 2 * cos (2 * PI * INR j / 4) + 3 * sin (2 * PI * INR j / 4) + 5 * sgn j.
Example C56_case : row_is 4 4 (fun k => match k with O => 1 | _ => 2 end) (fun _ => 3) 1 5 row4.
Proof.
  split; [lia|split; [discriminate|]]. intros j Hj. unfold row4, trig, gridz. cbn [INR].
  replace (2 * PI * 1 * (INR j * 4 / (1 + 1 + 1 + 1)) / 4) with (2 * PI * INR j / 4) by field. ring.
Qed.

(** * C57: filters *)

(** [filter(f, N0)] is exactly the harmonic [N0] of the field, for every row and every [N0]. *)
Theorem C57_filter : forall n L a b K c x N0 j, (1 <= n)%nat -> L <> 0 -> row_is n L a b K c x ->
  filter_row n (Z.of_nat N0) x j =
    if Nat.eqb N0 0 then a 0%nat
    else if Nat.leb N0 K then harmonic a b L N0 (gridz n L j)
    else if Nat.eqb (2 * N0) n then c * sgn j
    else 0.
Proof. exact filter_of_row. Qed.
Print Assumptions C57_filter.

Theorem C57_filter_out_of_range : forall n N0 x j, (1 <= n)%nat -> (N0 < 0 \/ Z.of_nat n < 2 * N0)%Z -> filter_row n N0 x j = 0.
Proof. exact filter_other. Qed.
Print Assumptions C57_filter_out_of_range.

(** [lowPass(f, zmax, keep_zonal)] keeps exactly the harmonics up to [zmax], and the constant one when asked. *)
Theorem C57_lowPass : forall n L a b K c x zmax keep_zonal, (1 <= n)%nat -> L <> 0 -> row_is n L a b K c x ->
  exists y, lowPass_row n (Z.of_nat zmax) keep_zonal x = Ok y /\
  forall j, (j < n)%nat ->
    y j = trig (fun k => if Nat.eqb k 0 then (if keep_zonal then a 0%nat else 0) else a k) b L (Nat.min K zmax) (gridz n L j)
          + (if Nat.leb n (2 * zmax) then c * sgn j else 0).
Proof. exact lowPass_of_row. Qed.
Print Assumptions C57_lowPass.

(** [DC] is the constant mode. *)
Theorem C57_dc : forall n L a b K c x, (1 <= n)%nat -> L <> 0 -> row_is n L a b K c x -> dc_row n x = a 0%nat.
Proof. exact dc_of_row. Qed.
Print Assumptions C57_dc.

(** Applying a low pass filter again changes nothing. *)
Theorem C57_lowPass_idempotent : forall n x zmax keep_zonal y, (1 <= n)%nat ->
  lowPass_row n (Z.of_nat zmax) keep_zonal x = Ok y ->
  exists y', lowPass_row n (Z.of_nat zmax) keep_zonal y = Ok y' /\ forall j, (j < n)%nat -> y' j = y j.
Proof.
  intros n x zmax kz y Hn H. assert (H1 : 1 <> 0) by lra.
  destruct (C57_lowPass n 1 _ _ _ _ x zmax kz Hn H1 (row_exists n 1 x Hn H1)) as (y0 & E0 & Hy0).
  rewrite H in E0. inversion E0; subst y0.
  assert (Hr : row_is n 1 (fun k => if Nat.eqb k 0 then (if kz then trA n x 0%nat else 0) else trA n x k) (trB n x) (Nat.min (half n) zmax)
                 (if Nat.leb n (2 * zmax) then nyq n x else 0) y).
  { split; [|split].
    - pose proof (proj2 (half_lt n (half n) Hn)). lia.
    - intros Ev. destruct (Nat.leb n (2 * zmax)); [|reflexivity]. unfold nyq. rewrite Ev. reflexivity.
    - intros j Hj. rewrite Hy0 by auto. f_equal. destruct (Nat.leb n (2 * zmax)); ring. }
  destruct (C57_lowPass n 1 _ _ _ _ y zmax kz Hn H1 Hr) as (y1 & E1 & Hy1). exists y1. split; [exact E1|].
  intros j Hj. rewrite Hy1, Hy0 by auto. rewrite <- Nat.min_assoc, Nat.min_id. f_equal.
  - apply trig_ext; [|reflexivity]. intros k Hk. cbn [Nat.eqb]. destruct (Nat.eqb k 0); [destruct kz|]; reflexivity.
  - destruct (Nat.leb n (2 * zmax)); reflexivity.
Qed.
Print Assumptions C57_lowPass_idempotent.

(** Negative [zmax]: with the constant mode kept it means that nothing is removed, but without it everything is removed
    for -1, and below -1 the code writes before the beginning of its array. *)
Theorem C57_negative_zmax_refuted :
  (forall n zmax x, (zmax < 0)%Z -> lowPass_row n zmax true x = Ok x) /\
  (forall n x, (1 <= n)%nat -> exists y, lowPass_row n (-1) false x = Ok y /\ forall j, y j = 0) /\
  (forall n zmax x, (zmax < -1)%Z -> lowPass_row n zmax false x = UB).
Proof.
  split; [|split].
  - intros n zmax x H. unfold lowPass_row. rewrite (proj2 (Z.ltb_lt zmax 0)) by lia. rewrite orb_true_r. reflexivity.
  - intros n x Hn. unfold lowPass_row. rewrite andb_false_r. cbn [Z.add Z.ltb Z.compare Z.pos_sub]. eexists. split; [reflexivity|].
    intros j. rewrite (irfft_ext0 n _ (fun _ => RtoC 0)); [|auto|].
    + unfold irfft, fftw_c2r. rewrite rsum_0 by (intros; cbn [fst snd RtoC]; ring). cbn [fst RtoC]. destruct (Nat.even n); ring.
    + intros k Hk. destruct (Nat.eqb k 0); cbn [negb andb]; [reflexivity|].
      rewrite (proj2 (Z.leb_le 0 (Z.of_nat k))) by lia. reflexivity.
  - intros n zmax x H. unfold lowPass_row. rewrite andb_false_r. rewrite (proj2 (Z.ltb_lt (zmax + 1) 0)) by lia. reflexivity.
Qed.
Print Assumptions C57_negative_zmax_refuted.

Example C57_case : filter_row 4 1 row4 1 = 3 /\ filter_row 4 2 row4 1 = -5 /\ dc_row 4 row4 = 1 /\
  exists y, lowPass_row 4 1 false row4 = Ok y /\ y 1%nat = 3.
Proof.
  pose proof C56_case as H.
  assert (Hz : 2 * PI * INR 1 * gridz 4 4 1 / 4 = PI / 2) by (unfold gridz; cbn [INR]; field).
  repeat split.
  - change 1%Z with (Z.of_nat 1). rewrite (C57_filter 4 4 _ _ _ _ _ 1 1 ltac:(lia) ltac:(lra) H). cbn [Nat.eqb Nat.leb].
    unfold harmonic. rewrite Hz, cos_PI2, sin_PI2. ring.
  - change 2%Z with (Z.of_nat 2). rewrite (C57_filter 4 4 _ _ _ _ _ 2 1 ltac:(lia) ltac:(lra) H). cbn [Nat.eqb Nat.leb Nat.mul Nat.add].
    unfold sgn. cbn [Nat.even]. ring.
  - apply (C57_dc 4 4 _ _ _ _ _ ltac:(lia) ltac:(lra) H).
  - destruct (C57_lowPass 4 4 _ _ _ _ _ 1 false ltac:(lia) ltac:(lra) H) as (y & E & Hy). exists y. split; [exact E|].
    rewrite Hy by lia. cbn [Nat.min trig Nat.eqb Nat.leb Nat.mul Nat.add]. rewrite Hz, cos_PI2, sin_PI2. ring.
Qed.

(** * C58: shifts in z *)

(** [shiftZ] by [s] evaluates the trigonometric polynomial through the values at z - s; the highest mode of an even number
    of points is multiplied with a cosine. *)
Theorem C58_shift : forall n L a b K c x s j, (1 <= n)%nat -> L <> 0 -> row_is n L a b K c x -> (j < n)%nat ->
  shiftZ_row n L s x j = trig a b L K (gridz n L j - s) + c * cos (PI * INR n * s / L) * sgn j.
Proof. exact shift_of_row. Qed.
Print Assumptions C58_shift.

(** A shift by a whole number of cells, in either direction, is exactly a rotation of the row. *)
Theorem C58_whole_cells : forall n L m x j, (1 <= n)%nat -> L <> 0 -> (j < n)%nat ->
  shiftZ_row n L (IZR m * L / INR n) x j = x (Z.to_nat ((Z.of_nat j - m) mod Z.of_nat n)).
Proof. exact shift_cells. Qed.
Print Assumptions C58_whole_cells.

(** Shifts add up; in particular they can be undone. *)
Theorem C58_shifts_add : forall n L s t x j, (1 <= n)%nat -> (j < n)%nat -> no_nyquist n x ->
  shiftZ_row n L t (shiftZ_row n L s x) j = shiftZ_row n L (s + t) x j.
Proof.
  intros n L s t x j Hn Hj Hx. unfold shiftZ_row. destruct (Nat.eqb_spec n 1); [reflexivity|]. exact (shift_twice n L s t x j Hn Hx).
Qed.
Print Assumptions C58_shifts_add.

(** Transforming to field aligned coordinates and back restores every row of the region that has no highest mode (in
    particular every row when the number of points is odd), and the other way round. *)
Theorem C58_to_from_aligned : forall n L zShift region f x y row, (1 <= n)%nat ->
  region x y = true -> f x y = Some row -> no_nyquist n row ->
  exists row', fromFieldAligned n L zShift region (toFieldAligned n L zShift region f) x y = Some row' /\
  forall j, (j < n)%nat -> row' j = row j.
Proof.
  intros n L zShift region f x y row Hn Hreg Hf Hx. unfold fromFieldAligned, toFieldAligned, shift_field.
  destruct (Nat.eqb_spec n 1); [exists row; auto|]. rewrite Hreg, Hf. cbn [option_map]. eexists. split; [reflexivity|].
  intros j Hj. rewrite from_shift. rewrite (shift_phases_ext n _ _ (shift_phases n (shiftM L (- zShift x y)) row)) by (intros; apply to_shift).
  rewrite shift_twice by auto. replace (- zShift x y + zShift x y) with 0 by ring. apply shift_zero; auto.
Qed.
Print Assumptions C58_to_from_aligned.
Theorem C58_from_to_aligned : forall n L zShift region f x y row, (1 <= n)%nat ->
  region x y = true -> f x y = Some row -> no_nyquist n row ->
  exists row', toFieldAligned n L zShift region (fromFieldAligned n L zShift region f) x y = Some row' /\
  forall j, (j < n)%nat -> row' j = row j.
Proof.
  intros n L zShift region f x y row Hn Hreg Hf Hx. unfold fromFieldAligned, toFieldAligned, shift_field.
  destruct (Nat.eqb_spec n 1); [exists row; auto|]. rewrite Hreg, Hf. cbn [option_map]. eexists. split; [reflexivity|].
  intros j Hj. rewrite to_shift. rewrite (shift_phases_ext n _ _ (shift_phases n (shiftM L (zShift x y)) row)) by (intros; apply from_shift).
  rewrite shift_twice by auto. replace (zShift x y + - zShift x y) with 0 by ring. apply shift_zero; auto.
Qed.
Print Assumptions C58_from_to_aligned.

(** The direction: the aligned field at z is the field at z + zShift. *)
Theorem C58_aligned_value : forall n L zShift region f x y a b K row, (2 <= n)%nat -> L <> 0 ->
  region x y = true -> f x y = Some row -> row_is n L a b K 0 row ->
  exists row', toFieldAligned n L zShift region f x y = Some row' /\
  forall j, (j < n)%nat -> row' j = trig a b L K (gridz n L j + zShift x y).
Proof.
  intros n L zShift region f x y a b K row Hn HL Hreg Hf Hr. unfold toFieldAligned, shift_field.
  rewrite (proj2 (Nat.eqb_neq n 1)) by lia. rewrite Hreg, Hf. cbn [option_map]. eexists. split; [reflexivity|].
  intros j Hj. rewrite to_shift. pose proof (shift_of_row n L a b K 0 row (- zShift x y) j ltac:(lia) HL Hr Hj) as E.
  unfold shiftZ_row in E. rewrite (proj2 (Nat.eqb_neq n 1)) in E by lia. unfold shiftM. rewrite E.
  replace (gridz n L j - - zShift x y) with (gridz n L j + zShift x y) by ring. ring.
Qed.
Print Assumptions C58_aligned_value.

(** Parallel slices: the values at the neighbouring y are those obtained by going to field aligned coordinates there and
    coming back here. *)
Theorem C58_parallel_slices : forall n L zShift off f x y j, (1 <= n)%nat ->
  no_nyquist n (f x (Z.to_nat (Z.of_nat y + off))) ->
  slice_row n L zShift off f x y j
  = shift_phases n (fromAlignedPhs L (zShift x y))
      (shift_phases n (toAlignedPhs L (zShift x (Z.to_nat (Z.of_nat y + off)))) (f x (Z.to_nat (Z.of_nat y + off)))) j.
Proof.
  intros n L zShift off f x y j Hn Hx. unfold slice_row, slice_phase. cbv zeta. set (y' := Z.to_nat (Z.of_nat y + off)) in *.
  rewrite from_shift. rewrite (shift_phases_ext n (shiftM L (zShift x y)) (shift_phases n (toAlignedPhs L (zShift x y')) (f x y')) (shift_phases n (shiftM L (- zShift x y')) (f x y'))) by (intros; apply to_shift).
  rewrite shift_twice by auto. apply phases_ext. intros k. unfold shiftM.
  replace (zShift x y - zShift x y') with (- zShift x y' + zShift x y) by ring. reflexivity.
Qed.
Print Assumptions C58_parallel_slices.

(** With an even number of points the highest mode does not survive: shifted by half a cell, it is gone. *)
Theorem C58_highest_mode_refuted : exists n L zShift region f x y row row' j,
  (1 <= n)%nat /\ region x y = true /\ f x y = Some row /\ (j < n)%nat /\
  fromFieldAligned n L zShift region (toFieldAligned n L zShift region f) x y = Some row' /\ row' j <> row j.
Proof.
  exists 4%nat, 4, (fun _ _ => / 2), (fun _ _ => true), (fun _ _ => Some sgn), 0%nat, 0%nat, sgn.
  eexists. exists 0%nat.
  split; [lia|]. split; [reflexivity|]. split; [reflexivity|]. split; [lia|].
  unfold fromFieldAligned, toFieldAligned, shift_field. cbn [Nat.eqb option_map]. split; [reflexivity|].
  assert (Hr : row_is 4 4 (fun _ => 0) (fun _ => 0) 0 1 sgn).
  { split; [lia|split; [discriminate|]]. intros j Hj. cbn [trig]. ring. }
  assert (E : forall j, (j < 4)%nat -> shift_phases 4 (toAlignedPhs 4 (/ 2)) sgn j = 0).
  { intros j Hj. rewrite to_shift. pose proof (shift_of_row 4 4 _ _ _ _ sgn (- / 2) j ltac:(lia) ltac:(lra) Hr Hj) as E.
    unfold shiftZ_row in E. cbn [Nat.eqb] in E. unfold shiftM. rewrite E. cbn [trig INR].
    replace (PI * (1 + 1 + 1 + 1) * - / 2 / 4) with (- (PI / 2)) by field. rewrite cos_neg, cos_PI2. ring. }
  rewrite (shift_phases_ext 4 _ _ (fun _ => 0)) by auto.
  assert (Hr0 : row_is 4 4 (fun _ => 0) (fun _ => 0) 0 0 (fun _ => 0)).
  { split; [lia|split; [reflexivity|]]. intros j Hj. cbn [trig]. ring. }
  pose proof (shift_of_row 4 4 _ _ _ _ _ (/ 2) 0 ltac:(lia) ltac:(lra) Hr0 ltac:(lia)) as E0.
  unfold shiftZ_row in E0. cbn [Nat.eqb] in E0. rewrite from_shift. unfold shiftM. rewrite E0. cbn [trig]. unfold sgn. cbn [Nat.even]. lra.
Qed.
Print Assumptions C58_highest_mode_refuted.

(** Odd numbers of points have no highest mode; and a row of four points without it. *)
Example C58_case : (forall x, no_nyquist 5 x) /\ no_nyquist 4 (fun j => INR (j / 2)) /\
  shiftZ_row 4 4 1 (fun j => INR (j / 2)) 0 = 1.
Proof.
  split; [intros x H; discriminate|]. split.
  - intros _. cbn [alternating Nat.even]. change (0 / 2)%nat with 0%nat. change (1 / 2)%nat with 0%nat.
    change (2 / 2)%nat with 1%nat. change (3 / 2)%nat with 1%nat. cbn [INR]. lra.
  - replace 1 with (IZR 1 * 4 / INR 4) at 1 by (cbn [INR]; field).
    rewrite C58_whole_cells by (lia || lra). change (Z.to_nat ((Z.of_nat 0 - 1) mod Z.of_nat 4)) with 3%nat. change (3 / 2)%nat with 1%nat. reflexivity.
Qed.

(** * C59: derivatives in z with the FFT method *)

(** The first derivative (per cell) is exact for the trigonometric polynomial through the values, with the modes above
    [kmax] removed; the highest mode of an even number of points contributes nothing. *)
Theorem C59_ddz : forall n L a b K c x filt j d, (1 <= n)%nat -> L <> 0 -> row_is n L a b K c x ->
  is_derive (trig a b L (Nat.min K (kmax n filt))) (gridz n L j) d ->
  fft_ddz_row n filt x j = L / INR n * d.
Proof. exact ddz_of_row. Qed.
Print Assumptions C59_ddz.

(** Without filtering, all modes are kept; a fraction [filt] removes the highest floor(filt * n / 2) of the n/2 modes. *)
Theorem C59_no_filter : forall n L a b K c x j d, (1 <= n)%nat -> L <> 0 -> row_is n L a b K c x ->
  is_derive (trig a b L K) (gridz n L j) d -> fft_ddz_row n 0 x j = L / INR n * d.
Proof.
  intros n L a b K c x j d Hn HL Hr Hd. apply (C59_ddz n L a b K c); auto.
  replace (Nat.min K (kmax n 0)) with K; [exact Hd|]. unfold kmax, kfilter. cbv zeta.
  destruct (Rlt_dec (0 * INR n / 2) 1) as [H|H]; [|exfalso; apply H; unfold Rdiv; lra].
  destruct Hr as (HK & _). rewrite Nat.min_0_l, Nat.sub_0_r. symmetry. apply Nat.min_l. apply Nat.div_le_lower_bound; lia.
Qed.
Print Assumptions C59_no_filter.

Theorem C59_filter_fraction : forall n filt, 0 <= filt <= 1 ->
  INR (n / 2 - kmax n filt) <= filt * INR n / 2 < INR (n / 2 - kmax n filt) + 1 /\ (kmax n filt <= n / 2)%nat.
Proof.
  intros n filt Hf. pose proof (kfilter_spec n filt Hf) as H.
  assert (Hle : (kfilter n filt <= n / 2)%nat) by (unfold kfilter; apply Nat.le_min_r).
  unfold kmax. replace (n / 2 - (n / 2 - kfilter n filt))%nat with (kfilter n filt) by lia. split; [exact H|lia].
Qed.
Print Assumptions C59_filter_fraction.

(** The second derivative. *)
Theorem C59_d2dz2 : forall n L a b K c x j f' d, (1 <= n)%nat -> L <> 0 -> row_is n L a b K c x ->
  (forall z, is_derive (trig a b L K) z (f' z)) -> is_derive f' (gridz n L j) d ->
  fft_d2dz2_row n x j = (L / INR n) ^ 2 * d - c * PI ^ 2 * sgn j.
Proof. exact d2dz2_of_row. Qed.
Print Assumptions C59_d2dz2.

(** The second derivative is not the first derivative applied twice when the highest mode is present. *)
Theorem C59_twice_refuted : exists n x j, (1 <= n)%nat /\ (j < n)%nat /\
  fft_ddz_row n 0 (fft_ddz_row n 0 x) j <> fft_d2dz2_row n x j.
Proof.
  exists 4%nat, sgn, 0%nat. split; [lia|]. split; [lia|].
  assert (Hr : row_is 4 1 (fun _ => 0) (fun _ => 0) 0 1 sgn).
  { split; [lia|split; [discriminate|]]. intros j Hj. cbn [trig]. ring. }
  assert (D0 : forall z, is_derive (trig (fun _ => 0) (fun _ => 0) 1 0) z 0).
  { intros z. apply (is_derive_ext (fun _ => 0)); [reflexivity|]. apply (is_derive_const 0). }
  assert (E1 : forall j, fft_ddz_row 4 0 sgn j = 0).
  { intros j. rewrite (C59_no_filter 4 1 _ _ _ _ _ j 0 ltac:(lia) ltac:(lra) Hr (D0 _)). ring. }
  assert (Hr1 : row_is 4 1 (fun _ => 0) (fun _ => 0) 0 0 (fft_ddz_row 4 0 sgn)).
  { split; [lia|split; [reflexivity|]]. intros j Hj. rewrite E1. cbn [trig]. ring. }
  rewrite (C59_no_filter 4 1 _ _ _ _ _ 0 0 ltac:(lia) ltac:(lra) Hr1 (D0 _)).
  rewrite (C59_d2dz2 4 1 _ _ _ _ _ 0 (fun _ => 0) 0 ltac:(lia) ltac:(lra) Hr D0 (is_derive_const 0 _)).
  unfold sgn. cbn [Nat.even]. pose proof PI_RGT_0. nra.
Qed.
Print Assumptions C59_twice_refuted.

Example C59_case : fft_ddz_row 4 0 row4 0 = 3 * (PI / 2) /\ fft_ddz_row 4 1 row4 0 = 0.
Proof.
  pose proof C56_case as H. split.
  - rewrite (C59_no_filter 4 4 _ _ _ _ row4 0 (3 * (PI / 2)) ltac:(lia) ltac:(lra) H); [cbn [INR]; field|].
    pose proof (is_derive_trig (fun k => match k with O => 1 | _ => 2 end) (fun _ => 3) 4 1 (gridz 4 4 0) ltac:(lra)) as D.
    replace (3 * (PI / 2)) with (trig (fun k => if Nat.eqb k 0 then 0 else 3 * (2 * PI * INR k / 4)) (fun k => - (match k with O => 1 | _ => 2 end) * (2 * PI * INR k / 4)) 4 1 (gridz 4 4 0)).
    { exact D. }
    cbn [trig Nat.eqb]. unfold gridz. cbn [INR]. replace (2 * PI * 1 * (0 * 4 / (1 + 1 + 1 + 1)) / 4) with 0 by field. rewrite cos_0, sin_0. field.
  - rewrite (C59_ddz 4 4 _ _ _ _ row4 1 0 0 ltac:(lia) ltac:(lra) H); [ring|].
    replace (kmax 4 1) with 0%nat.
    + cbn [Nat.min]. apply (is_derive_ext (fun _ => 1)); [reflexivity|]. apply (is_derive_const 1).
    + destruct (C59_filter_fraction 4 1 ltac:(lra)) as [[H1 H2] H3]. cbn [INR] in H1, H2.
      assert (Hk : (4 / 2 - kmax 4 1 = 2)%nat).
      { assert (E : 2 < INR (4 / 2 - kmax 4 1) + 1) by lra. destruct (4 / 2 - kmax 4 1)%nat as [|[|[|m]]] eqn:Em; cbn [INR] in *; try lra; try lia.
        change (4 / 2)%nat with 2%nat in Em. lia. }
      change (4 / 2)%nat with 2%nat in Hk, H3. lia.
Qed.
