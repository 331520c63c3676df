(** C60 - C63: inversion of the perpendicular Laplacian, Delp2, and the boundary condition zerolaplace2. *)
From Coq Require Import List Arith Bool ZArith Reals Lia Lra.
From Coquelicot Require Import Complex.
From Verif Require Import Base CyclicModel CyclicSpec CyclicProofs2 CyclicProps FftModel FftSpec FftProofs FftProofs2 FftProofs3 FftProofs4 FftProofs5 FftProps
  LaplaceModel LaplaceSpec LaplaceProofs LaplaceProofs2 LaplaceProofs3 LaplaceProofs4 LaplaceProofs5 LaplaceProofs6 LaplaceProofs7 LaplaceProofs8 LaplaceProofs9 LaplaceProofs10.
Import ListNotations.
Local Open Scope R_scope.

(** * C60: the solution satisfies the equation and the boundary conditions *)

(** At every interior point the operator applied to the result gives the right hand side, restricted to the modes
    solved for (0 .. maxmode, without the constant one when ZERO_DC is set). *)
Theorem C60_interior : forall l o nz zl M F X0 U, solved l o nz zl M F X0 U ->
  forall i j y, is_interior l o i -> (j < nz)%nat -> dx M i <> 0 -> cC1 M i <> 0 ->
    ((2 * maxmode o < nz)%nat \/ (g13 M i = 0 /\ when (all_terms o) (G3 M i) = 0)) ->
    lowPass_row nz (Z.of_nat (maxmode o)) (negb (zero_DC o)) (F i) = Ok y ->
    Lop o M nz zl U i j = y j.
Proof. exact interior_equation. Qed.
Print Assumptions C60_interior.

(** Without any condition on the modes, the only possible defect is in the highest mode of an even number of points. *)
Theorem C60_interior_any_mode : forall l o nz zl M F X0 U, solved l o nz zl M F X0 U ->
  forall i y, is_interior l o i -> dx M i <> 0 -> cC1 M i <> 0 ->
    lowPass_row nz (Z.of_nat (maxmode o)) (negb (zero_DC o)) (F i) = Ok y ->
    exists r, (Nat.even nz = false -> r = 0) /\ forall j, (j < nz)%nat -> Lop o M nz zl U i j = y j + r * sgn j.
Proof. exact interior_general. Qed.
Print Assumptions C60_interior_any_mode.

(** No flag selects another condition than the default one, at the inner boundary. *)
Definition dc_inner_default (o : opts) : Prop :=
  b_dc_grad (inner o) = false /\ b_dc_gradpar (inner o) = false /\ b_dc_gradparinv (inner o) = false /\
  b_dc_lap (inner o) = false /\ b_cylinder (inner o) = false.
Definition ac_inner_default (o : opts) : Prop :=
  b_ac_grad (inner o) = false /\ b_ac_lap (inner o) = false /\ b_cylinder (inner o) = false.

(** Inner boundary, average over z. Dirichlet: half way between the cells the average has the imposed value. *)
Theorem C60_inner_dc_dirichlet : forall l o nz zl M F X0 U, solved l o nz zl M F X0 U -> zero_DC o = false -> dc_inner_default o ->
  forall i, (i < inbndry o (g l))%nat ->
  (dc_row nz (U i) + dc_row nz (U (i + 1)%nat)) / 2 = dc_row nz (imposed (inner o) F X0 i).
Proof.
  intros l o nz zl M F X0 U HS Hz (F1 & F2 & F3 & F4 & F5) i Hi. pose proof HS as (_ & _ & Hn & _).
  pose proof (inner_real l o nz zl M F X0 U HS i is_dc 0.5 0.5 0 Hi) as H. rewrite !sel_dc, (sel_dc_msk l o nz zl M F X0 U HS) in H by auto.
  rewrite <- H; [lra|]. intros k _ Hk. apply is_dc_inv in Hk as ->. unfold inner_bc. rewrite F1, F2, F3, F4, F5. reflexivity.
Qed.
Print Assumptions C60_inner_dc_dirichlet.

(** Gradient: with a value imposed (SET or RHS) the derivative along the unit vector, else zero. *)
Theorem C60_inner_dc_gradient : forall l o nz zl M F X0 U, solved l o nz zl M F X0 U -> zero_DC o = false -> b_dc_grad (inner o) = true ->
  forall i, (i < inbndry o (g l))%nat -> dx M i <> 0 -> 0 < g_11 M i ->
  (dc_row nz (U (i + 1)%nat) - dc_row nz (U i)) / (sqrt (g_11 M i) * dx M i) = dc_row nz (imposed (inner o) F X0 i).
Proof.
  intros l o nz zl M F X0 U HS Hz F1 i Hi Hdx Hg. pose proof HS as (_ & _ & Hn & _). pose proof (sqrt_lt_R0 _ Hg) as Hs.
  destruct (b_set (inner o) || b_rhs (inner o))%bool eqn:E.
  - pose proof (inner_real l o nz zl M F X0 U HS i is_dc (-1 / sqrt (g_11 M i) / dx M i) (1 / sqrt (g_11 M i) / dx M i) 0 Hi) as H.
    rewrite !sel_dc, (sel_dc_msk l o nz zl M F X0 U HS) in H by auto. rewrite <- H; [field; split; lra|].
    intros k _ Hk. apply is_dc_inv in Hk as ->. unfold inner_bc. rewrite F1, E. reflexivity.
  - pose proof (inner_real l o nz zl M F X0 U HS i is_dc (-1) 1 0 Hi) as H.
    rewrite !sel_dc, (sel_dc_msk l o nz zl M F X0 U HS) in H by auto.
    assert (HI : dc_row nz (imposed (inner o) F X0 i) = 0).
    { apply orb_false_iff in E as (E1 & E2). unfold imposed. rewrite E1, E2. rewrite dc_rfft, rfft_zero. reflexivity. }
    rewrite HI in *. assert (H' := H). clear H. rewrite <- (Rmult_0_l (/ (sqrt (g_11 M i) * dx M i))). unfold Rdiv. f_equal.
    rewrite <- H'; [ring|]. intros k _ Hk. apply is_dc_inv in Hk as ->. unfold inner_bc. rewrite F1, E. reflexivity.
Qed.
Print Assumptions C60_inner_dc_gradient.

(** Decaying solution of  d/dx(g11 du/dx) + A u = 0: each cell is the next one damped over one grid step. *)
Theorem C60_inner_dc_decay : forall l o nz zl M F X0 U, solved l o nz zl M F X0 U -> zero_DC o = false ->
  b_dc_grad (inner o) = false -> b_dc_gradpar (inner o) = false -> b_dc_gradparinv (inner o) = false -> b_dc_lap (inner o) = true ->
  forall i, (i < inbndry o (g l))%nat ->
  dc_row nz (U i) = exp (- sqrt (- cA M (inbndry o (g l))) * dx M i / sqrt (g11 M i)) * dc_row nz (U (i + 1)%nat) + dc_row nz (imposed (inner o) F X0 i).
Proof.
  intros l o nz zl M F X0 U HS Hz F1 F2 F3 F4 i Hi. pose proof HS as (_ & _ & Hn & _).
  pose proof (inner_real l o nz zl M F X0 U HS i is_dc 1 (- exp (- sqrt (- cA M (inbndry o (g l))) * dx M i / sqrt (g11 M i))) 0 Hi) as H.
  rewrite !sel_dc, (sel_dc_msk l o nz zl M F X0 U HS) in H by auto.
  rewrite <- H; [ring|]. intros k _ Hk. apply is_dc_inv in Hk as ->. unfold inner_bc. rewrite F1, F2, F3, F4. reflexivity.
Qed.
Print Assumptions C60_inner_dc_decay.

(** Flags GRADPAR and GRADPARINV: the average divided (multiplied) by sqrt(g_22) does not change across the boundary. *)
Theorem C60_inner_dc_gradpar : forall l o nz zl M F X0 U, solved l o nz zl M F X0 U -> zero_DC o = false ->
  b_dc_grad (inner o) = false -> b_set (inner o) = false -> b_rhs (inner o) = false ->
  forall i, (i < inbndry o (g l))%nat ->
  (b_dc_gradpar (inner o) = true ->
     dc_row nz (U i) / sqrt (g_22 M i) = dc_row nz (U (i + 1)%nat) / sqrt (g_22 M (i + 1)%nat)) /\
  (b_dc_gradpar (inner o) = false -> b_dc_gradparinv (inner o) = true ->
     dc_row nz (U i) * sqrt (g_22 M i) = dc_row nz (U (i + 1)%nat) * sqrt (g_22 M (i + 1)%nat)).
Proof.
  intros l o nz zl M F X0 U HS Hz F1 E1 E2 i Hi. pose proof HS as (_ & _ & Hn & _).
  assert (HI : dc_row nz (imposed (inner o) F X0 i) = 0).
  { unfold imposed. rewrite E1, E2. rewrite dc_rfft, rfft_zero. reflexivity. }
  split; intros F2; [|intros F3].
  - pose proof (inner_real l o nz zl M F X0 U HS i is_dc (1 / sqrt (g_22 M i)) (-1 / sqrt (g_22 M (i + 1)%nat)) 0 Hi) as H.
    rewrite !sel_dc, (sel_dc_msk l o nz zl M F X0 U HS), HI in H by auto. unfold Rdiv in *. apply Rminus_diag_uniq. rewrite <- H; [ring|].
    intros k _ Hk. apply is_dc_inv in Hk as ->. unfold inner_bc. rewrite F1, F2. reflexivity.
  - pose proof (inner_real l o nz zl M F X0 U HS i is_dc (sqrt (g_22 M i)) (- sqrt (g_22 M (i + 1)%nat)) 0 Hi) as H.
    rewrite !sel_dc, (sel_dc_msk l o nz zl M F X0 U HS), HI in H by auto. apply Rminus_diag_uniq. rewrite <- H; [ring|].
    intros k _ Hk. apply is_dc_inv in Hk as ->. unfold inner_bc. rewrite F1, F2, F3. reflexivity.
Qed.
Print Assumptions C60_inner_dc_gradpar.

(** Inner boundary, the part varying in z. *)
Theorem C60_inner_ac_dirichlet : forall l o nz zl M F X0 U, solved l o nz zl M F X0 U -> ac_inner_default o ->
  forall i j y, (i < inbndry o (g l))%nat -> (j < nz)%nat ->
  lowPass_row nz (Z.of_nat (maxmode o)) false (imposed (inner o) F X0 i) = Ok y ->
  (deviation nz (U i) j + deviation nz (U (i + 1)%nat) j) / 2 = y j.
Proof.
  intros l o nz zl M F X0 U HS (F1 & F2 & F3) i j y Hi Hj Hy. pose proof HS as (_ & _ & Hn & _).
  pose proof (inner_real l o nz zl M F X0 U HS i is_ac 0.5 0.5 j Hi) as H. rewrite !sel_ac, (sel_ac_msk l o nz zl M F X0 U HS _ j y) in H by auto.
  rewrite <- H; [lra|]. intros k _ Hk. apply is_ac_inv in Hk. unfold inner_bc. rewrite (proj2 (Nat.eqb_neq k 0)) by auto. rewrite F1, F2, F3. reflexivity.
Qed.
Print Assumptions C60_inner_ac_dirichlet.

Lemma lowpass_imposed0 : forall nz km (z y : nat -> R) j, (1 <= nz)%nat -> (j < nz)%nat -> (forall j, z j = 0) ->
  lowPass_row nz (Z.of_nat km) false z = Ok y -> y j = 0.
Proof.
  intros nz km z y j Hn Hj Hz H.
  rewrite (lowpass_msk nz (Opts false false false false true false noflags noflags km) z j y Hn Hj H).
  transitivity (irfft nz (fun _ => RtoC 0) j); [|apply irfft_zero]. apply irfft_ext0; auto. intros k Hk.
  rewrite (rfft_ext nz z (fun _ => 0)) by (intros; apply Hz). rewrite rfft_zero. apply C_eq; cbn [Cmult RtoC fst snd]; ring.
Qed.

Theorem C60_inner_ac_gradient : forall l o nz zl M F X0 U, solved l o nz zl M F X0 U -> b_ac_grad (inner o) = true ->
  forall i j y, (i < inbndry o (g l))%nat -> (j < nz)%nat -> dx M i <> 0 -> 0 < g_11 M i ->
  lowPass_row nz (Z.of_nat (maxmode o)) false (imposed (inner o) F X0 i) = Ok y ->
  (deviation nz (U (i + 1)%nat) j - deviation nz (U i) j) / (sqrt (g_11 M i) * dx M i) = y j.
Proof.
  intros l o nz zl M F X0 U HS F1 i j y Hi Hj Hdx Hg Hy. pose proof HS as (_ & _ & Hn & _). pose proof (sqrt_lt_R0 _ Hg) as Hs.
  destruct (b_set (inner o) || b_rhs (inner o))%bool eqn:E.
  - pose proof (inner_real l o nz zl M F X0 U HS i is_ac (-1 / sqrt (g_11 M i) / dx M i) (1 / sqrt (g_11 M i) / dx M i) j Hi) as H.
    rewrite !sel_ac, (sel_ac_msk l o nz zl M F X0 U HS _ j y) in H by auto. rewrite <- H; [field; split; lra|].
    intros k _ Hk. apply is_ac_inv in Hk. unfold inner_bc. rewrite (proj2 (Nat.eqb_neq k 0)) by auto. rewrite F1, E. reflexivity.
  - pose proof (inner_real l o nz zl M F X0 U HS i is_ac (-1) 1 j Hi) as H.
    rewrite !sel_ac, (sel_ac_msk l o nz zl M F X0 U HS _ j y) in H by auto.
    assert (HI : y j = 0).
    { apply (lowpass_imposed0 nz (maxmode o) (imposed (inner o) F X0 i)); auto. intros j'. apply orb_false_iff in E as (E1 & E2). unfold imposed. rewrite E1, E2. reflexivity. }
    rewrite HI in *. rewrite <- (Rmult_0_l (/ (sqrt (g_11 M i) * dx M i))). unfold Rdiv. f_equal.
    rewrite <- H; [ring|]. intros k _ Hk. apply is_ac_inv in Hk. unfold inner_bc. rewrite (proj2 (Nat.eqb_neq k 0)) by auto. rewrite F1, E. reflexivity.
Qed.
Print Assumptions C60_inner_ac_gradient.

(** Decaying solution of Laplace's equation for each harmonic [k]: damped by exp(- sqrt(g33/g11) k dx). *)
Theorem C60_inner_ac_decay : forall l o nz zl M F X0 U, solved l o nz zl M F X0 U ->
  b_ac_grad (inner o) = false -> b_ac_lap (inner o) = true ->
  forall i j k, (i < inbndry o (g l))%nat -> (1 <= k <= maxmode o)%nat ->
  filter_row nz (Z.of_nat k) (U i) j
  = exp (- (sqrt (g33 M i / g11 M i) * (INR k * 2 * PI / zl) * dx M i)) * filter_row nz (Z.of_nat k) (U (i + 1)%nat) j
    + filter_row nz (Z.of_nat k) (imposed (inner o) F X0 i) j.
Proof.
  intros l o nz zl M F X0 U HS F1 F2 i j k Hi Hk. pose proof HS as (_ & _ & Hn & _).
  pose proof (inner_real l o nz zl M F X0 U HS i (is_mode k) 1 (- exp (-1 * sqrt (g33 M i / g11 M i) * kwave zl k * dx M i)) j Hi) as H.
  rewrite !sel_mode, (sel_mode_msk l o nz zl M F X0 U HS) in H by auto.
  replace (- (sqrt (g33 M i / g11 M i) * (INR k * 2 * PI / zl) * dx M i)) with (-1 * sqrt (g33 M i / g11 M i) * kwave zl k * dx M i)
    by (unfold kwave; unfold Rdiv; ring).
  rewrite <- H; [ring|]. intros k' _ Hk'. apply is_mode_inv in Hk' as ->. unfold inner_bc. rewrite (proj2 (Nat.eqb_neq k 0)) by lia.
  rewrite F1, F2. reflexivity.
Qed.
Print Assumptions C60_inner_ac_decay.

(** Inner boundary of a cylinder: the cell inside the axis is the cell outside it, half a turn away. *)
Theorem C60_cylinder : forall l o nz zl M F X0 U, solved l o nz zl M F X0 U ->
  b_dc_grad (inner o) = false -> b_dc_gradpar (inner o) = false -> b_dc_gradparinv (inner o) = false -> b_dc_lap (inner o) = false ->
  b_ac_grad (inner o) = false -> b_ac_lap (inner o) = false -> b_cylinder (inner o) = true -> b_set (inner o) = false -> b_rhs (inner o) = false ->
  Nat.even nz = true ->
  forall i j, (i < inbndry o (g l))%nat -> (j < nz)%nat -> U i j = U (i + 1)%nat ((j + nz / 2) mod nz)%nat.
Proof. exact cylinder_axis. Qed.
Print Assumptions C60_cylinder.

(** Outer boundary. The conditions for the average need the inner flags GRADPAR, GRADPARINV and LAP of the average to be
    off ([no_stray]), see the refutations below. *)
Definition inner_dc_plain (o : opts) : Prop :=
  b_dc_gradpar (inner o) = false /\ b_dc_gradparinv (inner o) = false /\ b_dc_lap (inner o) = false.

Theorem C60_outer_dc_dirichlet_partial : forall l o nz zl M F X0 U, solved l o nz zl M F X0 U -> zero_DC o = false ->
  b_dc_grad (outer o) = false -> inner_dc_plain o ->
  forall ix, (ix < outbndry o (g l))%nat -> let i := (NX l - 1 - ix)%nat in
  (dc_row nz (U (i - 1)%nat) + dc_row nz (U i)) / 2 = dc_row nz (imposed (outer o) F X0 i).
Proof.
  intros l o nz zl M F X0 U HS Hz F1 HP ix Hix i. pose proof HS as (_ & _ & Hn & _).
  pose proof (outer_real l o nz zl M F X0 U HS ix is_dc 0.5 0.5 0 Hix) as H.
  cbv zeta in H. fold i in H. rewrite !sel_dc, (sel_dc_msk l o nz zl M F X0 U HS) in H by auto.
  rewrite <- H; [lra| |].
  - intros k _ _. right. exact HP.
  - intros k _ Hk. apply is_dc_inv in Hk as ->. unfold outer_bc. rewrite F1. reflexivity.
Qed.
Print Assumptions C60_outer_dc_dirichlet_partial.

Theorem C60_outer_ac_dirichlet : forall l o nz zl M F X0 U, solved l o nz zl M F X0 U ->
  b_ac_grad (outer o) = false -> b_ac_lap (outer o) = false ->
  forall ix j y, (ix < outbndry o (g l))%nat -> (j < nz)%nat -> let i := (NX l - 1 - ix)%nat in
  lowPass_row nz (Z.of_nat (maxmode o)) false (imposed (outer o) F X0 i) = Ok y ->
  (deviation nz (U (i - 1)%nat) j + deviation nz (U i) j) / 2 = y j.
Proof.
  intros l o nz zl M F X0 U HS F1 F2 ix j y Hix Hj i Hy. pose proof HS as (_ & _ & Hn & _).
  pose proof (outer_real l o nz zl M F X0 U HS ix is_ac 0.5 0.5 j Hix) as H. cbv zeta in H. fold i in H.
  rewrite !sel_ac, (sel_ac_msk l o nz zl M F X0 U HS _ j y) in H by auto.
  rewrite <- H; [lra| |].
  - intros k Hk Hk0. apply is_ac_inv in Hk. contradiction.
  - intros k _ Hk. apply is_ac_inv in Hk. unfold outer_bc. rewrite (proj2 (Nat.eqb_neq k 0)) by auto. rewrite F1, F2. reflexivity.
Qed.
Print Assumptions C60_outer_ac_dirichlet.

(** Zero gradient at the outer boundary. *)
Theorem C60_outer_zero_gradient : forall l o nz zl M F X0 U, solved l o nz zl M F X0 U ->
  b_set (outer o) = false -> b_rhs (outer o) = false ->
  forall ix, (ix < outbndry o (g l))%nat -> let i := (NX l - 1 - ix)%nat in
  (b_dc_grad (outer o) = true -> zero_DC o = false -> dc_row nz (U i) = dc_row nz (U (i - 1)%nat)) /\
  (b_ac_grad (outer o) = true -> forall j, (j < nz)%nat -> deviation nz (U i) j = deviation nz (U (i - 1)%nat) j).
Proof.
  intros l o nz zl M F X0 U HS E1 E2 ix Hix i. pose proof HS as (_ & _ & Hn & _). split.
  - intros F1 Hz. pose proof (outer_real l o nz zl M F X0 U HS ix is_dc 1 (-1) 0 Hix) as H. cbv zeta in H. fold i in H.
    rewrite !sel_dc, (sel_dc_msk l o nz zl M F X0 U HS) in H by auto.
    assert (HI : dc_row nz (imposed (outer o) F X0 i) = 0).
    { unfold imposed. rewrite E1, E2. rewrite dc_rfft, rfft_zero. reflexivity. }
    rewrite HI in H. symmetry. apply Rminus_diag_uniq. rewrite <- H; [ring| |].
    + intros k _ _. left. exact F1.
    + intros k _ Hk. apply is_dc_inv in Hk as ->. unfold outer_bc. rewrite F1, E1, E2. reflexivity.
  - intros F1 j Hj. pose proof (outer_real l o nz zl M F X0 U HS ix is_ac 1 (-1) j Hix) as H. cbv zeta in H. fold i in H.
    rewrite !sel_ac in H by auto.
    assert (HI : sel nz (fun k => is_ac k * msk o k) (imposed (outer o) F X0 i) j = 0).
    { unfold sel. transitivity (irfft nz (fun _ => RtoC 0) j); [|apply irfft_zero]. apply irfft_ext0; auto. intros k Hk.
      unfold imposed. rewrite E1, E2, rfft_zero. apply C_eq; cbn [Cmult RtoC fst snd]; ring. }
    rewrite HI in H. symmetry. apply Rminus_diag_uniq. rewrite <- H; [ring| |].
    + intros k Hk Hk0. apply is_ac_inv in Hk. contradiction.
    + intros k _ Hk. apply is_ac_inv in Hk. unfold outer_bc. rewrite (proj2 (Nat.eqb_neq k 0)) by auto. rewrite F1, E1, E2. reflexivity.
Qed.
Print Assumptions C60_outer_zero_gradient.

(** Gradient imposed at the outer boundary: right on one processor. What is missing: with several processors the metric
    of another cell is used (C60_outer_gradient_refuted). *)
Theorem C60_outer_gradient_partial : forall l o nz zl M F X0 U, solved l o nz zl M F X0 U -> np l = 1%nat ->
  (b_set (outer o) || b_rhs (outer o))%bool = true ->
  forall ix, (ix < outbndry o (g l))%nat -> let i := (NX l - 1 - ix)%nat in
  dx M i <> 0 -> 0 < g_11 M i ->
  (b_dc_grad (outer o) = true -> zero_DC o = false ->
     (dc_row nz (U i) - dc_row nz (U (i - 1)%nat)) / (sqrt (g_11 M i) * dx M i) = dc_row nz (imposed (outer o) F X0 i)) /\
  (b_ac_grad (outer o) = true -> forall j y, (j < nz)%nat ->
     lowPass_row nz (Z.of_nat (maxmode o)) false (imposed (outer o) F X0 i) = Ok y ->
     (deviation nz (U i) j - deviation nz (U (i - 1)%nat) j) / (sqrt (g_11 M i) * dx M i) = y j).
Proof.
  intros l o nz zl M F X0 U HS Hnp E ix Hix i Hdx Hg. pose proof HS as (_ & Hper & Hn & _). pose proof (sqrt_lt_R0 _ Hg) as Hs.
  assert (Hxs : xs l o (np l - 1) = 0%nat) by (unfold xs; rewrite Hnp, Hper; reflexivity).
  split.
  - intros F1 Hz.
    pose proof (outer_real l o nz zl M F X0 U HS ix is_dc (-1 / sqrt (g_11 M i) / dx M i) (1 / sqrt (g_11 M i) / dx M i) 0 Hix) as H.
    cbv zeta in H. fold i in H. rewrite Hxs, Nat.sub_0_r in H.
    rewrite !sel_dc, (sel_dc_msk l o nz zl M F X0 U HS) in H by auto. rewrite <- H; [field; split; lra| |].
    + intros k _ _. left. exact F1.
    + intros k _ Hk. apply is_dc_inv in Hk as ->. unfold outer_bc. rewrite F1, E. reflexivity.
  - intros F1 j y Hj Hy.
    pose proof (outer_real l o nz zl M F X0 U HS ix is_ac (-1 / sqrt (g_11 M i) / dx M i) (1 / sqrt (g_11 M i) / dx M i) j Hix) as H.
    cbv zeta in H. fold i in H. rewrite Hxs, Nat.sub_0_r in H.
    rewrite !sel_ac, (sel_ac_msk l o nz zl M F X0 U HS _ j y) in H by auto. rewrite <- H; [field; split; lra| |].
    + intros k Hk Hk0. apply is_ac_inv in Hk. contradiction.
    + intros k _ Hk. apply is_ac_inv in Hk. unfold outer_bc. rewrite (proj2 (Nat.eqb_neq k 0)) by auto. rewrite F1, E. reflexivity.
Qed.
Print Assumptions C60_outer_gradient_partial.

Theorem C60_outer_ac_decay : forall l o nz zl M F X0 U, solved l o nz zl M F X0 U ->
  b_ac_grad (outer o) = false -> b_ac_lap (outer o) = true ->
  forall ix j k, (ix < outbndry o (g l))%nat -> (1 <= k <= maxmode o)%nat -> let i := (NX l - 1 - ix)%nat in
  filter_row nz (Z.of_nat k) (U i) j
  = exp (- (sqrt (g33 M i / g11 M i) * (INR k * 2 * PI / zl) * dx M i)) * filter_row nz (Z.of_nat k) (U (i - 1)%nat) j
    + filter_row nz (Z.of_nat k) (imposed (outer o) F X0 i) j.
Proof.
  intros l o nz zl M F X0 U HS F1 F2 ix j k Hix Hk i. pose proof HS as (_ & _ & Hn & _).
  pose proof (outer_real l o nz zl M F X0 U HS ix (is_mode k) (- exp (-1 * sqrt (g33 M i / g11 M i) * kwave zl k * dx M i)) 1 j Hix) as H.
  cbv zeta in H. fold i in H.
  rewrite !sel_mode, (sel_mode_msk l o nz zl M F X0 U HS) in H by auto.
  replace (- (sqrt (g33 M i / g11 M i) * (INR k * 2 * PI / zl) * dx M i)) with (-1 * sqrt (g33 M i / g11 M i) * kwave zl k * dx M i)
    by (unfold kwave; unfold Rdiv; ring).
  rewrite <- H; [ring| |].
  - intros k' Hk' E0. apply is_mode_inv in Hk'. lia.
  - intros k' _ Hk'. apply is_mode_inv in Hk' as ->. unfold outer_bc. rewrite (proj2 (Nat.eqb_neq k 0)) by lia. rewrite F1, F2. reflexivity.
Qed.
Print Assumptions C60_outer_ac_decay.

(** ** What does not hold *)

(** With the inner flag GRADPAR for the average, and no gradient condition for the average at the outer boundary, one
    processor reads the metric beyond the end of the array, whatever the outer flags, data and options. *)
Theorem C60_gradpar_refuted : forall l o nz zl M rhs x0 ord1 ord2 mem,
  np l = 1%nat -> (1 <= mx l)%nat -> periodicX o = false -> b_dc_gradpar (inner o) = true -> b_dc_grad (outer o) = false ->
  solve l o nz zl M rhs x0 ord1 ord2 mem = UB.
Proof.
  intros l o nz zl M rhs x0 ord1 ord2 mem Hnp Hmx Hper Hgp Hdg.
  assert (HUB : forall A (d : A) f m, f 0%nat = UB -> for_sys d f (S m) = UB).
  { intros A d f m Hf. induction m as [|m IH]; [cbn [for_sys bind]; rewrite Hf; reflexivity|].
    change (for_sys d f (S (S m))) with (do g <- for_sys d f (S m); do v <- f (S m); Ok (upd g (S m) v)). rewrite IH. reflexivity. }
  unfold solve. enough (E : all_matrices l o nz zl M rhs x0 = UB) by (rewrite E; reflexivity).
  unfold all_matrices. rewrite Hnp. apply HUB. unfold matrices. replace (maxmode o + 1)%nat with (S (maxmode o)) by lia. apply HUB.
  unfold tridagMatrix. rewrite Hper, Hnp. cbn [negb]. change (0 =? 0)%nat with true. change (0 =? 1 - 1)%nat with true. cbv iota.
  assert (HI : forall m kw t, exists t1, inner_rows o (g l) m 0 kw t = Ok t1).
  { intros m kw t. unfold inner_rows. change (0 =? 0)%nat with true. cbv iota zeta.
    destruct (b_dc_grad (inner o) && (b_set (inner o) || b_rhs (inner o)))%bool; [eexists; reflexivity|].
    destruct (b_dc_grad (inner o)); [eexists; reflexivity|]. rewrite Hgp. eexists; reflexivity. }
  match goal with |- bind (inner_rows _ _ ?m _ ?kw ?t) _ = _ => destruct (HI m kw t) as (t1 & ->) end. cbn [bind].
  unfold outer_rows. change (0 =? 0)%nat with true. cbv iota zeta. rewrite Hdg, Hgp. cbn [andb].
  assert (Ex : xs l o 0 = 0%nat) by (unfold xs; rewrite Hper; reflexivity).
  assert (Ee : xe l o 0 = (LocalNx l - 1)%nat) by (unfold xe; rewrite Hper, Hnp; reflexivity).
  rewrite Ex, Ee, Nat.sub_0_r. rewrite (proj2 (Nat.leb_le _ _)); [reflexivity|]. unfold LocalNx. lia.
Qed.
Print Assumptions C60_gradpar_refuted.

(** The inner flag LAP for the average replaces the condition requested at the outer boundary: with no outer flag set, the
    last row is not the Dirichlet row (1/2, 1/2). *)
Theorem C60_outer_dc_flags_refuted : exists l o M t,
  outer o = noflags /\ well_laid l /\
  tridagMatrix l o (np l - 1) (view ((np l - 1) * mx l) M) 0 (kwave 1 0) (fun _ => RtoC 0) = Ok t /\
  let q := (nrows l o (np l - 1) - 1)%nat in
  va t q = RtoC (- exp (-1)) /\ vb t q = RtoC 1.
Proof.
  set (o := Opts true false false false false false (BFlags false false false true false false false false false false) noflags 1).
  exists lay2, o, (unitM (-1)). eexists. split; [reflexivity|]. split; [repeat split; cbn; lia|].
  unfold tridagMatrix. cbn [o lay2 periodicX negb np mx Nat.sub]. change (1 =? 0)%nat with false. change (1 =? 1)%nat with true. cbn [bind].
  unfold outer_rows. change (0 =? 0)%nat with true. cbv iota zeta. cbn [o inner outer noflags b_dc_grad b_dc_gradpar b_dc_gradparinv b_dc_lap b_set b_rhs andb orb].
  rewrite view_unit. cbn [unitM cA]. destruct (Rlt_dec (- -1) 0) as [HH|_]; [lra|].
  split; [reflexivity|]. cbv zeta. cbn [unitM dx g11]. change (nrows lay2 o 1 - 1)%nat with 2%nat.
  unfold high_rows, cr3. cbn [va vb fst snd]. split; cbn -[exp sqrt Rmult Rdiv Ropp RtoC IZR]; [|reflexivity].
  f_equal. f_equal. f_equal. replace (- -1) with 1 by ring. rewrite sqrt_1. field.
Qed.
Print Assumptions C60_outer_dc_flags_refuted.

(** With several processors an imposed outer gradient is scaled with the metric of another cell: here the last spacing is
    2 and the others are 1, so that the row should be -1/2, 1/2. *)
Theorem C60_outer_gradient_refuted : exists l o M t,
  well_laid l /\ b_dc_grad (outer o) = true /\ b_rhs (outer o) = true /\
  dx M (NX l - 1)%nat = 2 /\ g_11 M (NX l - 1)%nat = 1 /\
  tridagMatrix l o (np l - 1) (view ((np l - 1) * mx l) M) 0 (kwave 1 0) (fun _ => RtoC 0) = Ok t /\
  let q := (nrows l o (np l - 1) - 1)%nat in
  va t q = RtoC (-1) /\ vb t q = RtoC 1.
Proof.
  set (o := Opts true false false false false false noflags (BFlags true false false false false false false false true false) 1).
  exists lay2, o, (XData (fun _ => 1) (fun _ => 1) (fun _ => 0) (fun _ => 0) (fun _ => 0) (fun _ => 1) (fun _ => 1)
                     (fun i => if (i =? 5)%nat then 2 else 1) (fun _ => 0) (fun _ => 0) (fun _ => 1) (fun _ => 1) (fun _ => 1)).
  eexists. split; [repeat split; cbn; lia|]. split; [reflexivity|]. split; [reflexivity|]. split; [reflexivity|]. split; [reflexivity|].
  unfold tridagMatrix. cbn [o lay2 periodicX negb np mx Nat.sub]. change (1 =? 0)%nat with false. change (1 =? 1)%nat with true. cbn [bind].
  unfold outer_rows. change (0 =? 0)%nat with true. cbv iota zeta. cbn [o inner outer noflags b_dc_grad b_dc_gradpar b_dc_gradparinv b_dc_lap b_set b_rhs andb orb].
  split; [reflexivity|]. cbv zeta. change (nrows lay2 o 1 - 1)%nat with 2%nat.
  unfold high_rows, cr3. cbn -[exp sqrt Rmult Rdiv Ropp RtoC IZR]. rewrite sqrt_1. split; f_equal; field.
Qed.
Print Assumptions C60_outer_gradient_refuted.

(** Runs meet the hypotheses, for any right hand side: two processors with decaying conditions; one processor with the
    default (Dirichlet) conditions; gradient taken from the right hand side inside and value from [x0] outside. *)
Example C60_case : forall F X0,
  (exists U, solved lay2 exo 4 1 (unitM (-1)) F X0 U /\ (forall i, (1 <= i <= 4)%nat -> is_interior lay2 exo i) /\
     b_ac_lap (inner exo) = true /\ b_dc_lap (inner exo) = true /\ b_ac_lap (outer exo) = true) /\
  (exists U, solved lay1 exdir 4 1 (unitM 0) F X0 U /\ is_interior lay1 exdir 1 /\ (2 * maxmode exdir < 4)%nat /\
     dc_inner_default exdir /\ ac_inner_default exdir /\ inner_dc_plain exdir) /\
  (exists U, solved lay1 exgrad 4 1 (unitM 0) F X0 U /\ b_dc_grad (inner exgrad) = true /\ b_ac_grad (inner exgrad) = true /\
     imposed (inner exgrad) F X0 0 = F 0%nat /\ imposed (outer exgrad) F X0 2 = X0 2%nat).
Proof.
  intros F X0. split; [|split].
  - destruct (ex_solved F X0) as (U & HU). exists U. split; [exact HU|]. split; [intros i Hi; split; cbn; lia|]. repeat split; reflexivity.
  - destruct (dir_solved F X0) as (U & HU). exists U. split; [exact HU|]. repeat split; try reflexivity; cbn; lia.
  - destruct (grad_solved F X0) as (U & HU). exists U. split; [exact HU|]. repeat split; reflexivity.
Qed.

(** * C61: Delp2 *)

(** Delp2 is  G1 d/dx + G3 d/dz + g11 d2/dx2 + g33 d2/dz2 + 2 g13 d2/dxdz  with central differences in x and Fourier
    derivatives in z, at every point which has neighbours on its processor. *)
Theorem C61_formula : forall o LNx nz zl p M U jx j, (1 <= nz)%nat -> zl <> 0 -> (1 <= jx)%nat -> (jx + 1 < LNx)%nat ->
  dx M (p + jx)%nat <> 0 -> (j < nz)%nat ->
  all_terms o = true -> IncIntShear o = false -> let i := (p + jx)%nat in
  delp2_row o LNx nz zl (view p M) (fun ix => U (p + ix)%nat) jx j
  = G1 M i * Dx M U i j + G3 M i * Dz nz zl U i j
    + g11 M i * (D2x M U i j - when (nonuniform o) ((dx M (i + 1)%nat - dx M (i - 1)%nat) / (2 * dx M i * dx M i) * Dx M U i j))
    + g33 M i * D2z nz zl U i j + 2 * g13 M i * Dx M (Dz nz zl U) i j.
Proof.
  intros o LNx nz zl p M U jx j Hn Hz H1 H2 Hdx Hj Ha Hs i. rewrite delp2_Lop by auto. fold i. unfold Lop. rewrite Ha, Hs.
  cbn [plain g11 g33 g13 G1 G3 dx cA cC1 cC2 cD negb when]. unfold Dx, D2x. cbn [plain dx].
  generalize (when (nonuniform o) ((dx M (i + 1)%nat - dx M (i - 1)%nat) / (2 * dx M i * dx M i) * ((U (i + 1)%nat j - U (i - 1)%nat j) / (2 * dx M i)))).
  intros w. field. exact Hdx.
Qed.
Print Assumptions C61_formula.

(** Delp2 undoes the inversion with D = C = 1, A = 0: on every processor and at every point which is not a guard cell,
    Delp2 of the solution is the right hand side, restricted to the modes solved for. *)
Theorem C61_inverse : forall l o nz zl M F X0 U, solved l o nz zl M F X0 U -> M = plain M ->
  forall p jx j y, (p < np l)%nat -> (g l <= jx < g l + mx l)%nat -> (j < nz)%nat -> let i := (p * mx l + jx)%nat in
    dx M i <> 0 -> ((2 * maxmode o < nz)%nat \/ (g13 M i = 0 /\ when (all_terms o) (G3 M i) = 0)) ->
    lowPass_row nz (Z.of_nat (maxmode o)) (negb (zero_DC o)) (F i) = Ok y ->
    delp2_row o (LocalNx l) nz zl (view (p * mx l) M) (fun ix => U (p * mx l + ix)%nat) jx j = y j.
Proof.
  intros l o nz zl M F X0 U HS HM p jx j y Hp Hjx Hj i Hdx Hny Hy. pose proof HS as ((L1 & L2 & L3) & Hper & Hn & Hz & _).
  rewrite delp2_Lop; auto; [|lia|unfold LocalNx; lia]. fold i. rewrite <- HM.
  apply (C60_interior l o nz zl M F X0 U HS i j y); auto.
  - destruct (bndry_ge1 o (g l) L3) as (B1 & B2). unfold is_interior, NX, i.
    assert ((p + 1) * mx l <= np l * mx l)%nat by (apply Nat.mul_le_mono_r; lia). nia.
  - rewrite HM. cbn [plain cC1]. lra.
Qed.
Print Assumptions C61_inverse.

Example C61_case : forall F X0, exists U, solved lay1 exdir 4 1 (unitM 0) F X0 U /\
  unitM 0 = plain (unitM 0) /\ (2 * maxmode exdir < 4)%nat /\ all_terms exdir = true /\ IncIntShear exdir = false.
Proof. intros F X0. destruct (dir_solved F X0) as (U & HU). exists U. split; [exact HU|]. repeat split; cbn; lia. Qed.

(** * C62: the boundary condition zerolaplace2 *)

(** Cells set, the cell towards the interior next to one. *)
Definition guard (mxp gd : nat) (outer : bool) (y : nat) : Prop :=
  if outer then (gd + mxp <= y < mxp + 2 * gd)%nat else (y < gd)%nat.

(** For every field, cells outside the guard region are unchanged and Delp2 of the result vanishes at the neighbour of
    every guard cell, except possibly for the highest mode in z where g13 or G3 is not zero. *)
Theorem C62_zero_laplacian : forall o mxp gd nz zl m outer f h, (1 <= gd)%nat -> (2 <= mxp)%nat -> (1 <= nz)%nat -> zl <> 0 ->
  (forall y, (y < mxp + 2 * gd)%nat -> dx m y <> 0) ->
  (forall y k, guard mxp gd outer y -> (k <= nz / 2)%nat ->
     let c := laplace_coefs o (mxp + 2 * gd) m zl (neighbour outer y) k in (if outer then snd c else fst (fst c)) <> RtoC 0) ->
  zerolaplace2 o mxp gd nz zl m outer f = Ok h ->
  (forall i j, ~ guard mxp gd outer i -> (i < mxp + 2 * gd)%nat -> h i j = f i j) /\
  forall y, guard mxp gd outer y ->
    exists r, ((g13 m (neighbour outer y) = 0 /\ when (all_terms o) (G3 m (neighbour outer y)) = 0) -> r = 0) /\
    forall j, (j < nz)%nat -> delp2_row o (mxp + 2 * gd) nz zl m h (neighbour outer y) j = r * sgn j.
Proof.
  intros o mxp gd nz zl m outer f h Hg Hm Hn Hz Hdx Hc H. unfold zerolaplace2 in H.
  destruct (negb (nz mod 2 =? 0)%nat); [discriminate|]. cbv zeta in H. apply Ok_inj in H. subst h.
  set (x := if outer then (gd + mxp)%nat else (gd - 1)%nat) in *.
  assert (Hpt : point (mxp + 2 * gd) outer gd x) by (unfold point, x; destruct outer; lia).
  split.
  - intros i j Hi Hlt. rewrite zl2_before; auto. unfold before, guard, x in *. destruct outer; lia.
  - intros y Hy.
    assert (Hy' : (if outer then x <= y < x + gd else x < y + gd /\ y <= x)%nat) by (unfold guard, x in *; destruct outer; lia).
    destruct (zl2_spec o (mxp + 2 * gd) nz zl m outer Hn Hz gd x (rfft nz (f (neighbour outer x))) (rfft nz (f (neighbour outer (neighbour outer x)))) f) with (y := y)
      as (r & Hr & HL); auto.
    + intros j Hj. symmetry. apply C56_inverse; auto.
    + intros j Hj. symmetry. apply C56_inverse; auto.
    + intros y' k Hk Hy''. unfold at_coef. apply Hc; auto. unfold guard, x in *; destruct outer; lia.
    + exists r. split; [exact Hr|]. intros j Hj. rewrite <- HL by auto.
      assert (Hnb : (1 <= neighbour outer y)%nat /\ (neighbour outer y + 1 < mxp + 2 * gd)%nat).
      { unfold neighbour, guard in *. destruct outer; lia. }
      rewrite <- (view0 m) at 1.
      apply (delp2_Lop o (mxp + 2 * gd) nz zl 0 m (zl2_loop o (mxp + 2 * gd) nz zl m outer gd x (rfft nz (f (neighbour outer x))) (rfft nz (f (neighbour outer (neighbour outer x)))) f) (neighbour outer y) j);
        auto; try lia. apply Hdx. cbn [Nat.add]. lia.
Qed.
Print Assumptions C62_zero_laplacian.

(** It is refused exactly for an odd number of points in z. *)
Theorem C62_refused : forall o mxp gd nz zl m outer f,
  (Nat.even nz = true -> exists h, zerolaplace2 o mxp gd nz zl m outer f = Ok h) /\
  (Nat.even nz = false -> zerolaplace2 o mxp gd nz zl m outer f = Throw).
Proof.
  intros o mxp gd nz zl m outer f. unfold zerolaplace2.
  assert (E : (nz mod 2 =? 0)%nat = Nat.even nz).
  { destruct (Nat.even nz) eqn:E.
    - apply Nat.even_spec in E as (q & ->). rewrite Nat.mul_comm, Nat.mod_mul by lia. reflexivity.
    - apply Nat.eqb_neq. intros H. apply Nat.mod_divides in H as (q & ->); [|lia]. rewrite Nat.even_mul in E. discriminate. }
  rewrite E. split; intros ->; cbn [negb]; [eexists|]; reflexivity.
Qed.
Print Assumptions C62_refused.

Example C62_case : exists h, zerolaplace2 exo 3 2 4 1 (unitM 0) true (fun i j => INR (i + j)) = Ok h /\
  (forall y k, guard 3 2 true y -> (k <= 4 / 2)%nat -> snd (laplace_coefs exo (3 + 2 * 2) (unitM 0) 1 (neighbour true y) k) <> RtoC 0) /\
  guard 3 2 true 5 /\ guard 3 2 true 6.
Proof.
  destruct (proj1 (C62_refused exo 3 2 4 1 (unitM 0) true (fun i j => INR (i + j))) eq_refl) as (h & Hh). exists h. split; [exact Hh|].
  split; [|unfold guard; lia]. intros y k _ _. unfold laplace_coefs. change (plain (unitM 0)) with (unitM 0). rewrite unit_coefs. cbn [snd].
  intros E. apply (f_equal fst) in E. cbn [fst RtoC] in E. lra.
Qed.

(** * C63: domains periodic in x *)

(** The average of the solution over the plane is zero. *)
Theorem C63_zero_mean : forall l o nz zl M F U, solved_periodic l o nz zl M F U ->
  rsum (ncells l) (fun i => dc_row nz (U (g l + i)%nat)) = 0.
Proof.
  intros l o nz zl M F U HS. pose proof HS as ((L1 & L2 & L3) & _). destruct (periodic_facts l o nz zl M F U HS) as (y & H1 & H2 & _).
  assert (HN : (1 <= ncells l)%nat) by (unfold ncells; nia).
  destruct (zero_DC o) eqn:E.
  - apply rsum_0. intros i Hi. apply H2; auto.
  - rewrite (rsum_ext (ncells l) _ (fun i => y i + (- (rsum (ncells l) y / INR (ncells l))))).
    + rewrite rsum_plus. assert (HC : forall N c, rsum N (fun _ => c) = INR N * c).
      { induction N; intros c; [cbn; ring|]. cbn [rsum]. rewrite IHN, S_INR. ring. }
      rewrite HC. field. apply not_0_INR. lia.
    + intros i Hi. rewrite H1 by auto. ring.
Qed.
Print Assumptions C63_zero_mean.

(** With A = 0, at every point except the first the equation is satisfied, and at the first up to a number independent
    of z. *)
Theorem C63_equation : forall l o nz zl M F U, solved_periodic l o nz zl M F U -> (forall i, cA M i = 0) ->
  forall i z, (i < ncells l)%nat -> let x := (g l + i)%nat in dx M x <> 0 -> cC1 M x <> 0 ->
    ((2 * maxmode o < nz)%nat \/ (g13 M x = 0 /\ when (all_terms o) (G3 M x) = 0)) ->
    lowPass_row nz (Z.of_nat (maxmode o)) (negb (zero_DC o)) (F x) = Ok z ->
    exists s, (i <> 0%nat \/ zero_DC o = true -> s = 0) /\ forall j, (j < nz)%nat -> Lop o M nz zl U x j = z j + s.
Proof.
  intros l o nz zl M F U HS HA i z Hi x Hdx HC Hny Hz. destruct (periodic_facts l o nz zl M F U HS) as (y & H1 & H2 & H3 & H4).
  specialize (H4 i z Hi Hdx HC Hny Hz). eexists. split; [|exact H4]. intros [Hi0|Hd]; [|rewrite Hd; reflexivity].
  destruct (zero_DC o); [reflexivity|]. rewrite <- (H3 i Hi Hi0). unfold dcrow. rewrite HA. ring.
Qed.
Print Assumptions C63_equation.

(** If in addition the coefficients are uniform along x and the right hand side has zero mean, at the first point too. *)
Theorem C63_uniform : forall l o nz zl M F U, solved_periodic l o nz zl M F U -> (forall i, cA M i = 0) ->
  (forall i, g11 M i = g11 M 0%nat /\ G1 M i = G1 M 0%nat /\ dx M i = dx M 0%nat /\ cC1 M i = cC1 M 0%nat /\ cC2 M i = cC2 M 0%nat /\ cD M i = cD M 0%nat) ->
  rsum (ncells l) (fun i => dc_row nz (F (g l + i)%nat)) = 0 ->
  forall i z j, (i < ncells l)%nat -> (j < nz)%nat -> let x := (g l + i)%nat in dx M x <> 0 -> cC1 M x <> 0 ->
    ((2 * maxmode o < nz)%nat \/ (g13 M x = 0 /\ when (all_terms o) (G3 M x) = 0)) ->
    lowPass_row nz (Z.of_nat (maxmode o)) (negb (zero_DC o)) (F x) = Ok z ->
    Lop o M nz zl U x j = z j.
Proof.
  intros l o nz zl M F U HS HA HU HF i z j Hi Hj x Hdx HC Hny Hz. destruct (periodic_facts l o nz zl M F U HS) as (y & H1 & H2 & H3 & H4).
  specialize (H4 i z Hi Hdx HC Hny Hz j Hj). fold x in H4. rewrite H4. destruct (zero_DC o); [ring|].
  pose proof HS as ((L1 & L2 & L3) & _). assert (HN : (1 <= ncells l)%nat) by (unfold ncells; nia). set (N := ncells l) in *.
  assert (Hd : forall k a b c, dcrow o M (g l + k) a b c = dcrow o M (g l) a b c).
  { assert (Hr : forall i, r1 M i = r1 M 0%nat /\ r4 o M i = (when (all_terms o) (G1 M 0%nat) * cD M 0%nat
        - when (nonuniform o) (0.5 * ((dx M 0%nat - dx M 0%nat) / (dx M 0%nat * dx M 0%nat)) * (g11 M 0%nat * cD M 0%nat))
        + g11 M 0%nat * ((cC2 M 0%nat - cC2 M 0%nat) / (2 * dx M 0%nat * cC1 M 0%nat))) / (2 * dx M 0%nat)).
    { intros q. unfold r1, r4, cgrad. destruct (HU q) as (-> & -> & -> & -> & _ & ->).
      destruct (HU (q + 1)%nat) as (_ & _ & -> & _ & -> & _). destruct (HU (q - 1)%nat) as (_ & _ & -> & _ & -> & _). split; reflexivity. }
    intros k a b c. unfold dcrow. destruct (Hr (g l + k)%nat) as (-> & ->). destruct (Hr (g l)) as (-> & ->). rewrite !HA. reflexivity. }
  assert (Hall : forall k, (k < N)%nat -> dcrow o M (g l) (y (prev_of N k)) (y k) (y (next_of N k)) = dc_row nz (F (g l + k)%nat)).
  { destruct N as [|n] eqn:EN; [lia|].
    assert (Hs : forall m (h : nat -> R), rsum (S m) h = h 0%nat + rsum m (fun i => h (S i))).
    { induction m; intros h; [cbn [rsum]; ring|]. cbn [rsum]. cbn [rsum] in IHm. rewrite IHm. ring. }
    set (e := fun k => dcrow o M (g l) (y (prev_of (S n) k)) (y k) (y (next_of (S n) k)) - dc_row nz (F (g l + k)%nat)).
    assert (He : forall k, (k < S n)%nat -> k <> 0%nat -> e k = 0).
    { intros k Hk Hk0. unfold e. rewrite <- (H3 k Hk Hk0), Hd. ring. }
    assert (Hsum : rsum (S n) e = 0).
    { unfold e, dcrow. rewrite HA. set (a := r1 M (g l) - r4 o M (g l)). set (b := -2 * r1 M (g l) + 0). set (c := r1 M (g l) + r4 o M (g l)).
      rewrite (rsum_ext (S n) _ (fun k => (a * y (prev_of (S n) k) + (b * y k + c * y (next_of (S n) k))) + (-1) * dc_row nz (F (g l + k)%nat))) by (intros; ring).
      rewrite !rsum_plus, !rsum_scal. destruct (rsum_shift (S n) y ltac:(lia)) as (-> & ->). rewrite HF. unfold a, b, c. ring. }
    rewrite Hs in Hsum. rewrite (rsum_0 n) in Hsum by (intros; apply He; lia).
    intros k Hk. apply Rminus_diag_uniq. fold (e k). destruct (Nat.eq_dec k 0) as [->|Hk0]; [lra|]. apply He; auto. }
  unfold x. rewrite Hd, <- (Hall i Hi). unfold dcrow. rewrite HA. ring.
Qed.
Print Assumptions C63_uniform.

(** With A <> 0 the claim is false: the solver still fixes the average of the first point and subtracts the mean, so that
    for A = -1 and right hand side 1 (solution -1) the equation fails. *)
Theorem C63_helmholtz_refuted : exists l o nz zl M F U,
  solved_periodic l o nz zl M F U /\ (forall i, cA M i = -1) /\ (2 * maxmode o < nz)%nat /\
  ~ (forall i z j, (i < ncells l)%nat -> (j < nz)%nat ->
       lowPass_row nz (Z.of_nat (maxmode o)) (negb (zero_DC o)) (F (g l + i)%nat) = Ok z -> Lop o M nz zl U (g l + i) j = z j).
Proof.
  destruct (per_solved (fun _ _ => 1)) as (U & HU). exists lay2, exper, 4%nat, 1, (unitM (-1)), (fun _ _ => 1), U.
  split; [exact HU|]. split; [reflexivity|]. split; [cbn; lia|]. intros H.
  destruct (periodic_facts _ _ _ _ _ _ _ HU) as (y & _ & _ & _ & H4). change (ncells lay2) with 4%nat in *. change (g lay2) with 1%nat in *.
  set (avg := rsum 4 y / INR 4) in H4.
  assert (Hz : exists z, lowPass_row 4 (Z.of_nat (maxmode exper)) (negb (zero_DC exper)) (fun _ => 1) = Ok z).
  { cbn [exper maxmode zero_DC negb]. unfold lowPass_row. cbv zeta. eexists. reflexivity. }
  destruct Hz as (z & Hz).
  assert (HE : forall i, (i < 4)%nat -> dcrow exper (unitM (-1)) (1 + i) (y (prev_of 4 i) - avg) (y i - avg) (y (next_of 4 i) - avg) = 1).
  { intros i Hi. pose proof (H i z 0%nat Hi ltac:(lia) Hz) as E. rewrite (H4 i z Hi) in E; auto; try (cbn [unitM dx cC1]; lra); try (left; cbn; lia); try lia.
    cbn [exper zero_DC] in E.
    assert (Hdc : dc_row 4 (fun _ => 1) = 1) by (unfold dc_row; cbn [rsum INR]; lra). rewrite Hdc in E.
    match type of E with _ + (?d - 1) = _ => assert (d = 1) by lra end. assumption. }
  pose proof (HE 0%nat ltac:(lia)) as E0. pose proof (HE 1%nat ltac:(lia)) as E1. pose proof (HE 2%nat ltac:(lia)) as E2. pose proof (HE 3%nat ltac:(lia)) as E3.
  unfold dcrow, prev_of, next_of in *. cbn [Nat.eqb Nat.sub Nat.add] in *.
  assert (Ha : 4 * avg = y 0%nat + y 1%nat + y 2%nat + y 3%nat) by (unfold avg; cbn [rsum INR]; lra).
  unfold r1, r4, cgrad in *. cbn [when unitM g11 cD dx cA cC1 cC2 G1 exper all_terms nonuniform] in *.
  generalize dependent (y 0%nat). generalize dependent (y 1%nat). generalize dependent (y 2%nat). generalize dependent (y 3%nat). intros. lra.
Qed.
Print Assumptions C63_helmholtz_refuted.

Example C63_case : forall F, exists U, solved_periodic lay3 exper 4 1 (unitM 0) F U /\ (forall i, cA (unitM 0) i = 0) /\
  (2 * maxmode exper < 4)%nat /\ ncells lay3 = 3%nat.
Proof. intros F. destruct (per3_solved F) as (U & HU). exists U. split; [exact HU|]. repeat split; cbn; lia. Qed.
