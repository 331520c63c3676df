From Coq Require Import Reals ZArith List Lia Lra Psatz.
From Verif Require Import DerivModel DerivSpec.
Local Open Scope R_scope.
Import ListNotations.

Ltac lens a H := unfold degree_le in H; cbn [length] in H;
  repeat (destruct a as [|? a]; [|try (exfalso; cbn [length] in H; lia)]).
Ltac evalp := cbn [Nat.iter nat_rect pderiv pderiv_from peval pow mm m c p pp]; rewrite ?plus_IZR, ?minus_IZR;
  cbn [Z.opp].
Ltac exact_tac := intros a x0 h i H; unfold standard, sample, loc_in, loc_out, populate; lens a H; evalp;
  generalize (IZR i); intros z; try field; try (cbn; lra).

Lemma ex_C2 : exact_deriv DDX_C2 SNone 1 2.
Proof. unfold DDX_C2. exact_tac. Qed.
Lemma ex_C4 : exact_deriv DDX_C4 SNone 1 4.
Proof. unfold DDX_C4. exact_tac. Qed.
Lemma ex_S2 : exact_deriv DDX_S2 SNone 1 3.
Proof.
  unfold DDX_S2. intros a x0 h i H. unfold standard, sample, loc_in, loc_out, populate. cbn [c].
  generalize (SIGN (peval a (x0 + h * (IZR i + 0)))). intros s. lens a H; evalp; generalize (IZR i); intros z; field.
Qed.
Lemma ex_D2C2 : exact_deriv D2DX2_C2 SNone 2 3.
Proof. unfold D2DX2_C2. exact_tac. Qed.
Lemma ex_D2C4 : exact_deriv D2DX2_C4 SNone 2 5.
Proof. unfold D2DX2_C4. exact_tac. Qed.
Lemma ex_D4C2 : exact_deriv D4DX4_C2 SNone 4 5.
Proof. unfold D4DX4_C2. exact_tac. Qed.
Lemma ex_C2_stag s : s <> SNone -> exact_deriv DDX_C2_stag s 1 2.
Proof. intros N. destruct s; [congruence| |]; unfold DDX_C2_stag; exact_tac. Qed.
Lemma ex_C4_stag s : s <> SNone -> exact_deriv DDX_C4_stag s 1 4.
Proof. intros N. destruct s; [congruence| |]; unfold DDX_C4_stag; exact_tac. Qed.
Lemma ex_D2C2_stag s : s <> SNone -> exact_deriv D2DX2_C2_stag s 2 3.
Proof. intros N. destruct s; [congruence| |]; unfold D2DX2_C2_stag; exact_tac. Qed.

Lemma weno_small_pos : 0 < WENO_SMALL.
Proof. unfold WENO_SMALL. lra. Qed.
Lemma SQ_nonneg x : 0 <= SQ x.
Proof. unfold SQ. nra. Qed.
Lemma SQ_pos x : 0 < x -> 0 < SQ x.
Proof. unfold SQ. nra. Qed.

Lemma ex_CWENO2 : exact_deriv DDX_CWENO2 SNone 1 1.
Proof.
  intros a x0 h i H. unfold standard, sample, loc_in, loc_out, populate.
  set (f := St _ _ _ _ _).
  assert (HD : exists d, p f - c f = d /\ c f - m f = d /\ d = h ^ 1 * peval (Nat.iter 1 pderiv a) (x0 + h * (IZR i + 0))).
  { eexists. split; [reflexivity|]. unfold f. lens a H; evalp; split; ring. }
  destruct HD as (d & D1 & D2 & <-). unfold DDX_CWENO2. rewrite D1, D2.
  replace (p f - m f) with (2 * d) by lra. pose proof weno_small_pos.
  set (isc := 13 / 3 * SQ (p f - 2 * c f + m f) + 1 / 4 * SQ (2 * d)).
  assert (0 <= isc) by (unfold isc; pose proof (SQ_nonneg (p f - 2 * c f + m f)); pose proof (SQ_nonneg (2 * d)); lra).
  assert (A : 0 < 1 / 4 / SQ (WENO_SMALL + SQ d)).
  { apply Rdiv_lt_0_compat; [lra|]. apply SQ_pos. pose proof (SQ_nonneg d). lra. }
  assert (B : 0 < 1 / 2 / SQ (WENO_SMALL + isc)) by (apply Rdiv_lt_0_compat; [lra|]; apply SQ_pos; lra).
  revert A B. generalize (1 / 4 / SQ (WENO_SMALL + SQ d)) (1 / 2 / SQ (WENO_SMALL + isc)). intros al ac A B. field. lra.
Qed.

Ltac upw_tac := intros v a x0 h i H; unfold upwind, sample, populate; generalize (v i); intros w; lens a H;
  repeat match goal with |- context [Rge_dec ?x ?y] => destruct (Rge_dec x y) end; evalp; generalize (IZR i); intros z; field.
Lemma ex_VC2 : exact_upwind VDDX_C2 2.
Proof. unfold VDDX_C2. upw_tac. Qed.
Lemma ex_VC4 : exact_upwind VDDX_C4 4.
Proof. unfold VDDX_C4. upw_tac. Qed.
Lemma ex_VU1 : exact_upwind VDDX_U1 1.
Proof. unfold VDDX_U1. upw_tac. Qed.
Lemma ex_VU2 : exact_upwind VDDX_U2 2.
Proof. unfold VDDX_U2. upw_tac. Qed.
Lemma ex_VU3 : exact_upwind VDDX_U3 3.
Proof. unfold VDDX_U3. upw_tac. Qed.

Lemma weno3_quad vc f d2 : c f - 2 * m f + mm f = d2 -> p f - 2 * c f + m f = d2 -> pp f - 2 * p f + c f = d2 ->
  VDDX_WENO3 vc f = vc * (1 / 2 * (p f - m f)).
Proof.
  intros E1 E2 E3. unfold VDDX_WENO3.
  destruct (Rgt_dec vc 0).
  - replace (- mm f + 3 * m f - 3 * c f + p f) with 0 by lra. ring.
  - replace (- m f + 3 * c f - 3 * p f + pp f) with 0 by lra. ring.
Qed.
Lemma ex_WENO3 : exact_upwind VDDX_WENO3 2.
Proof.
  intros v a x0 h i H. unfold upwind, sample, populate. generalize (v i). intros w. set (f := St _ _ _ _ _).
  rewrite (weno3_quad w f (p f - 2 * c f + m f)); [|unfold f; lens a H; evalp; ring|reflexivity|unfold f; lens a H; evalp; ring].
  f_equal. unfold f. lens a H; evalp; generalize (IZR i); intros z; field.
Qed.
Lemma ex_CWENO3 : exact_deriv DDX_CWENO3 SNone 1 2.
Proof.
  intros a x0 h i H. unfold standard, sample, loc_in, loc_out, populate. set (f := St _ _ _ _ _).
  unfold DDX_CWENO3. generalize (larger (larger (larger (larger (Rabs (c f)) (Rabs (m f))) (Rabs (p f))) (Rabs (mm f))) (Rabs (pp f))). intros ma.
  rewrite (weno3_quad _ (St (mm f + ma) (m f + ma) (c f + ma) (p f + ma) (pp f + ma)) (p f - 2 * c f + m f)); cbn [mm m c p pp].
  rewrite (weno3_quad _ (St (ma - mm f) (ma - m f) (ma - c f) (ma - p f) (ma - pp f)) (- (p f - 2 * c f + m f))); cbn [mm m c p pp].
  all: try ring.
  all: unfold f; lens a H; evalp; generalize (IZR i); intros z; try field.
Qed.

(** * Two-field schemes *)
Ltac flux_tac := intros b a x0 h i Hb Ha; unfold flux, sample, populate; lens b Hb; lens a Ha; cbn [mm m c p pp];
  repeat match goal with |- context [Rge_dec ?x ?y] => destruct (Rge_dec x y) end; first [solve [unfold loc_in, loc_out; evalp; generalize (IZR i); intros z; field]|exfalso; cbn [peval mm m c p pp] in *; lra].
Lemma ex_FU1 : exact_flux FDDX_U1 SNone 0 1.
Proof. unfold FDDX_U1. flux_tac. Qed.
Lemma ex_FU2 : exact_flux FDDX_U2 SNone 1 1.
Proof. unfold FDDX_U2. flux_tac. Qed.
Lemma ex_FC2 : exact_flux FDDX_C2 SNone 1 1.
Proof. unfold FDDX_C2. flux_tac. Qed.
Lemma ex_FC4 : exact_flux FDDX_C4 SNone 2 2.
Proof. unfold FDDX_C4. flux_tac. Qed.
Lemma ex_FU1_stag s : s <> SNone -> exact_flux FDDX_U1_stag s 0 1.
Proof. intros N. destruct s; [congruence| |]; unfold FDDX_U1_stag; flux_tac. Qed.
Lemma ex_FU2_stag s : s <> SNone -> exact_flux FDDX_U2_stag s 1 1.
Proof. intros N. destruct s; [congruence| |]; unfold FDDX_U2_stag; flux_tac. Qed.
Lemma ex_VU1_stag s : s <> SNone -> exact_advect VDDX_U1_stag s 0 1.
Proof. intros N. destruct s; [congruence| |]; unfold VDDX_U1_stag; flux_tac. Qed.
Lemma ex_VU2_stag s : s <> SNone -> exact_advect VDDX_U2_stag s 1 1.
Proof. intros N. destruct s; [congruence| |]; unfold VDDX_U2_stag; flux_tac. Qed.
Lemma ex_VC2_stag s : s <> SNone -> exact_advect VDDX_C2_stag s 1 2.
Proof. intros N. destruct s; [congruence| |]; unfold VDDX_C2_stag; flux_tac. Qed.
Lemma ex_VC4_stag s : s <> SNone -> exact_advect VDDX_C4_stag s 3 4.
Proof. intros N. destruct s; [congruence| |]; unfold VDDX_C4_stag; flux_tac. Qed.
