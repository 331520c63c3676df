(** Properties C28, C29, C30: finite-difference schemes and slope limiters. *)
From Coq Require Import Reals ZArith List Lia Lra Psatz.
From Verif Require Import DerivModel DerivSpec DerivProofs DerivProofs2.
Local Open Scope R_scope.
Import ListNotations.

(** * C28: design order *)
(** Every first, second and fourth derivative scheme is exact on polynomials up to its design degree, on any uniform grid. *)
Theorem C28_derivatives_exact :
  exact_deriv DDX_C2 SNone 1 2 /\ exact_deriv DDX_C4 SNone 1 4 /\ exact_deriv DDX_S2 SNone 1 3 /\
  exact_deriv DDX_CWENO2 SNone 1 1 /\ exact_deriv DDX_CWENO3 SNone 1 2 /\
  exact_deriv D2DX2_C2 SNone 2 3 /\ exact_deriv D2DX2_C4 SNone 2 5 /\ exact_deriv D4DX4_C2 SNone 4 5 /\
  forall s, s <> SNone ->
    exact_deriv DDX_C2_stag s 1 2 /\ exact_deriv DDX_C4_stag s 1 4 /\ exact_deriv D2DX2_C2_stag s 2 3.
Proof.
  repeat split; first [exact ex_C2|exact ex_C4|exact ex_S2|exact ex_CWENO2|exact ex_CWENO3|exact ex_D2C2|exact ex_D2C4|exact ex_D4C2|
    now apply ex_C2_stag|now apply ex_C4_stag|now apply ex_D2C2_stag].
Qed.
Print Assumptions C28_derivatives_exact.
Theorem C28_advection_exact :
  exact_upwind VDDX_C2 2 /\ exact_upwind VDDX_C4 4 /\ exact_upwind VDDX_U1 1 /\ exact_upwind VDDX_U2 2 /\ exact_upwind VDDX_U3 3 /\
  exact_upwind VDDX_WENO3 2 /\
  forall s, s <> SNone ->
    exact_advect VDDX_U1_stag s 0 1 /\ exact_advect VDDX_U2_stag s 1 1 /\ exact_advect VDDX_C2_stag s 1 2 /\ exact_advect VDDX_C4_stag s 3 4.
Proof.
  repeat split; first [exact ex_VC2|exact ex_VC4|exact ex_VU1|exact ex_VU2|exact ex_VU3|exact ex_WENO3|
    now apply ex_VU1_stag|now apply ex_VU2_stag|now apply ex_VC2_stag|now apply ex_VC4_stag].
Qed.
Print Assumptions C28_advection_exact.
Theorem C28_flux_exact :
  exact_flux FDDX_U1 SNone 0 1 /\ exact_flux FDDX_U2 SNone 1 1 /\ exact_flux FDDX_C2 SNone 1 1 /\ exact_flux FDDX_C4 SNone 2 2 /\
  forall s, s <> SNone -> exact_flux FDDX_U1_stag s 0 1 /\ exact_flux FDDX_U2_stag s 1 1.
Proof.
  repeat split; first [exact ex_FU1|exact ex_FU2|exact ex_FC2|exact ex_FC4|now apply ex_FU1_stag|now apply ex_FU2_stag].
Qed.
Print Assumptions C28_flux_exact.
(** The degrees above are sharp for the linear schemes: one degree more and the scheme is wrong already at h = 1, x0 = 0, i = 0. *)
Theorem C28_degree_sharp :
  ~ exact_deriv DDX_C2 SNone 1 3 /\ ~ exact_deriv DDX_C4 SNone 1 5 /\ ~ exact_deriv DDX_S2 SNone 1 4 /\
  ~ exact_deriv D2DX2_C2 SNone 2 4 /\ ~ exact_deriv D2DX2_C4 SNone 2 6 /\ ~ exact_deriv D4DX4_C2 SNone 4 6 /\
  ~ exact_upwind VDDX_U1 2 /\ ~ exact_upwind VDDX_U2 3 /\ ~ exact_upwind VDDX_U3 4 /\ ~ exact_upwind VDDX_C2 3 /\ ~ exact_upwind VDDX_C4 5.
Proof.
  Ltac sharp l := let H := fresh in intros H; specialize (H l 0 1 0%Z); unfold degree_le in H; cbn [length] in H;
    specialize (H ltac:(lia)); unfold standard, populate, sample, loc_in, loc_out in H; cbn in H;
    repeat match type of H with context [Rlt_dec ?a ?b] => destruct (Rlt_dec a b) end; lra.
  Ltac sharpv l := let H := fresh in intros H; specialize (H (fun _ => 1) l 0 1 0%Z); unfold degree_le in H; cbn [length] in H;
    specialize (H ltac:(lia)); unfold upwind, populate, sample, VDDX_U1, VDDX_U2, VDDX_U3, VDDX_C2, VDDX_C4 in H;
    repeat match type of H with context [Rge_dec ?a ?b] => destruct (Rge_dec a b) end; cbn in H; lra.
  repeat split.
  - unfold DDX_C2; sharp [0;0;0;1].
  - unfold DDX_C4; sharp [0;0;0;0;0;1].
  - unfold DDX_S2, SIGN; sharp [0;0;0;0;1].
  - unfold D2DX2_C2; sharp [0;0;0;0;1].
  - unfold D2DX2_C4; sharp [0;0;0;0;0;0;1].
  - unfold D4DX4_C2; sharp [0;0;0;0;0;0;1].
  - sharpv [0;0;1].
  - sharpv [0;0;0;1].
  - sharpv [0;0;0;0;1].
  - sharpv [0;0;0;1].
  - sharpv [0;0;0;0;0;1].
Qed.
Print Assumptions C28_degree_sharp.

(** Linear in the differentiated field (all but the WENO schemes and S2, whose switch looks at the field). *)
Theorem C28_linear :
  linear DDX_C2 /\ linear DDX_C4 /\ linear D2DX2_C2 /\ linear D2DX2_C4 /\ linear D4DX4_C2 /\
  linear DDX_C2_stag /\ linear DDX_C4_stag /\ linear D2DX2_C2_stag /\
  (forall v : R, linear (VDDX_C2 v) /\ linear (VDDX_C4 v) /\ linear (VDDX_U1 v) /\ linear (VDDX_U2 v) /\ linear (VDDX_U3 v)) /\
  (forall v : stencil, linear (FDDX_U1 v) /\ linear (FDDX_U2 v) /\ linear (FDDX_C2 v) /\ linear (FDDX_C4 v) /\
     linear (VDDX_U1_stag v) /\ linear (VDDX_U2_stag v) /\ linear (VDDX_C2_stag v) /\ linear (VDDX_C4_stag v) /\
     linear (FDDX_U1_stag v) /\ linear (FDDX_U2_stag v)).
Proof.
  repeat split; auto using lin_C2, lin_C4, lin_D2C2, lin_D2C4, lin_D4, lin_C2s, lin_C4s, lin_D2s, lin_VC2, lin_VC4, lin_VU1, lin_VU2, lin_VU3,
    lin_FU1, lin_FU2, lin_FC2, lin_FC4, lin_VU1s, lin_VU2s, lin_VC2s, lin_VC4s, lin_FU1s, lin_FU2s.
Qed.
Print Assumptions C28_linear.
(** v df/dx of a constant field is zero whatever the velocity does. *)
Theorem C28_advect_constant : forall k : R,
  (forall v : R, VDDX_C2 v (const_st k) = 0 /\ VDDX_C4 v (const_st k) = 0 /\ VDDX_U1 v (const_st k) = 0 /\
     VDDX_U2 v (const_st k) = 0 /\ VDDX_U3 v (const_st k) = 0 /\ VDDX_WENO3 v (const_st k) = 0) /\
  (forall v : stencil, VDDX_U1_stag v (const_st k) = 0 /\ VDDX_U2_stag v (const_st k) = 0 /\
     VDDX_C2_stag v (const_st k) = 0 /\ VDDX_C4_stag v (const_st k) = 0).
Proof.
  intros k. split; intros v.
  - repeat split; try apply adv_const_WENO3; unfold const_st, VDDX_C2, VDDX_C4, VDDX_U1, VDDX_U2, VDDX_U3; cbn [mm m c p pp];
      try destruct (Rge_dec v 0); field.
  - auto using adv_const_U1, adv_const_U2, adv_const_C2, adv_const_C4.
Qed.
Print Assumptions C28_advect_constant.
(** The upwind schemes treat the two flow directions alike: reversing the line and the velocity leaves the result unchanged. *)
Theorem C28_mirror :
  (forall v f, VDDX_U1 (- v) (mirror f) = VDDX_U1 v f /\ VDDX_U2 (- v) (mirror f) = VDDX_U2 v f /\
     VDDX_U3 (- v) (mirror f) = VDDX_U3 v f /\ VDDX_WENO3 (- v) (mirror f) = VDDX_WENO3 v f) /\
  (forall v f, FDDX_U1 (neg (mirror v)) (mirror f) = FDDX_U1 v f /\ FDDX_U2 (neg (mirror v)) (mirror f) = FDDX_U2 v f /\
     FDDX_U1_stag (neg (mirror v)) (mirror f) = FDDX_U1_stag v f /\ FDDX_U2_stag (neg (mirror v)) (mirror f) = FDDX_U2_stag v f /\
     VDDX_U1_stag (neg (mirror v)) (mirror f) = VDDX_U1_stag v f /\ VDDX_U2_stag (neg (mirror v)) (mirror f) = VDDX_U2_stag v f).
Proof.
  split; intros v f; auto 10 using mirror_VU1, mirror_VU2, mirror_VU3, mirror_WENO3, mirror_FU1, mirror_FU2, mirror_FU1s, mirror_FU2s, mirror_VU1s, mirror_VU2s.
Qed.
Print Assumptions C28_mirror.
(** Schemes registered as needing one guard cell do not look at the second neighbours (left NaN by populateStencil). *)
Theorem C28_one_guard :
  needs_one_guard DDX_C2 /\ needs_one_guard DDX_CWENO2 /\ needs_one_guard D2DX2_C2 /\ needs_one_guard DDX_C2_stag /\
  (forall v, needs_one_guard (VDDX_C2 v) /\ needs_one_guard (VDDX_U1 v)) /\
  needs_one_guard2 FDDX_U1 /\ needs_one_guard2 VDDX_U1_stag /\ needs_one_guard2 VDDX_C2_stag /\ needs_one_guard2 FDDX_U1_stag.
Proof. repeat split. Qed.
Print Assumptions C28_one_guard.
(** A case: 1 + 2x + 3x^2 on a grid of width 1/2. *)
Example C28_case : degree_le 2 [1; 2; 3] /\ standard DDX_C2 SNone (sample [1; 2; 3] 0 (1 / 2) 0) 4 = 1 / 2 * (2 + 6 * (1 / 2 * 4)) /\
  standard DDX_C2 SNone (sample [1; 2; 3] 0 (1 / 2) 0) 4 = 7.
Proof. repeat split; [unfold degree_le; cbn; lia| |]; unfold standard, DDX_C2, populate, sample; cbn; lra. Qed.

(** * C29: flux schemes conserve *)
Theorem C29_conservation_form :
  conservation_form (flux FDDX_U1 SNone) /\ conservation_form (flux FDDX_U2 SNone) /\ conservation_form (flux FDDX_C2 SNone) /\
  conservation_form (flux FDDX_C4 SNone) /\
  forall s, s <> SNone -> conservation_form (flux FDDX_U1_stag s) /\ conservation_form (flux FDDX_U2_stag s).
Proof. repeat split; auto using cons_FU1, cons_FU2, cons_FC2, cons_FC4, cons_FU1_stag, cons_FU2_stag. Qed.
Print Assumptions C29_conservation_form.
(** On a periodic line the sum over all cells of the flux-form derivative is zero, for every velocity and field. *)
Theorem C29_periodic_sum_zero : forall v f first n, periodic (Z.of_nat n) v -> periodic (Z.of_nat n) f ->
  sum_line (flux FDDX_U1 SNone v f) first n = 0 /\ sum_line (flux FDDX_U2 SNone v f) first n = 0 /\
  sum_line (flux FDDX_C2 SNone v f) first n = 0 /\ sum_line (flux FDDX_C4 SNone v f) first n = 0 /\
  forall s, s <> SNone -> sum_line (flux FDDX_U1_stag s v f) first n = 0 /\ sum_line (flux FDDX_U2_stag s v f) first n = 0.
Proof.
  intros. repeat split; intros; apply conservation_sum; auto using cons_FU1, cons_FU2, cons_FC2, cons_FC4, cons_FU1_stag, cons_FU2_stag.
Qed.
Print Assumptions C29_periodic_sum_zero.
Example C29_case : let v := fun i => if Z.even i then 1 else -2 in let f := fun i => if Z.even i then 3 else 5 in
  periodic 2 v /\ periodic 2 f /\ flux FDDX_U1 SNone v f 0 <> 0 /\ sum_line (flux FDDX_U1 SNone v f) 0 2 = 0.
Proof.
  intros v f.
  assert (E : forall i, Z.even (i + 2) = Z.even i) by (intros; rewrite Z.even_add; cbn; now destruct (Z.even i)).
  assert (P1 : periodic 2 v) by (intros i; unfold v; now rewrite E). assert (P2 : periodic 2 f) by (intros i; unfold f; now rewrite E).
  repeat split; auto.
  - unfold flux, FDDX_U1, populate, v, f; cbn.
    repeat match goal with |- context [Rge_dec ?a ?b] => destruct (Rge_dec a b) end; try (exfalso; lra). intros H; lra.
  - now apply (C29_periodic_sum_zero v f 0 2).
Qed.

(** * C30: slope limiters *)
(** MinMod and MC: the edge values lie between the neighbouring cell values, their average is the cell value, and at an extremum
    (or where one side is flat) both edges equal the cell value. *)
Theorem C30_limited_edges : forall n : stencil,
  (between (c n) (eR (MinMod n)) (p n) /\ between (m n) (eL (MinMod n)) (c n) /\ (eL (MinMod n) + eR (MinMod n)) / 2 = c n) /\
  (between (c n) (eR (MC n)) (p n) /\ between (m n) (eL (MC n)) (c n) /\ (eL (MC n) + eR (MC n)) / 2 = c n) /\
  ((p n - c n) * (c n - m n) <= 0 -> eL (MinMod n) = c n /\ eR (MinMod n) = c n /\ eL (MC n) = c n /\ eR (MC n) = c n).
Proof.
  intros n. split; [apply MinMod_bounds|]. split; [apply MC_bounds|]. intros H.
  pose proof (extremum_flat_limited _ _ n (minmod2_limited (p n - c n) (c n - m n)) H) as E1.
  pose proof (extremum_flat_limited _ _ n (MC_limited n) H) as E2.
  unfold MinMod, MC; cbn [eL eR]. rewrite E1, E2. repeat split; ring.
Qed.
Print Assumptions C30_limited_edges.
(** Every reconstruction reproduces constants; Fromm, MinMod and MC reproduce straight lines. *)
Theorem C30_consistent : forall k s : R, let line := St (k - 2 * s) (k - s) k (k + s) (k + 2 * s) in
  (Upwind (const_st k) = Edges k k /\ Fromm (const_st k) = Edges k k /\ MinMod (const_st k) = Edges k k /\ MC (const_st k) = Edges k k) /\
  (Fromm line = Edges (k - s / 2) (k + s / 2) /\ MinMod line = Edges (k - s / 2) (k + s / 2) /\ MC line = Edges (k - s / 2) (k + s / 2)).
Proof.
  intros k s line.
  assert (A : forall n, (p n - c n) * (c n - m n) <= 0 -> MinMod n = Edges (c n) (c n) /\ MC n = Edges (c n) (c n)).
  { intros n H. destruct (proj2 (proj2 (C30_limited_edges n)) H) as (A1 & A2 & A3 & A4).
    destruct (MinMod n) as [a1 a2], (MC n) as [b1 b2]; cbn [eL eR] in A1, A2, A3, A4; subst; auto. }
  split.
  - destruct (A (const_st k)) as [A1 A2]; [unfold const_st; cbn; lra|]. rewrite A1, A2. unfold Upwind, Fromm, const_st; cbn. repeat split; f_equal; lra.
  - assert (M2 : minmod2 s s = s).
    { unfold minmod2. destruct (Rle_dec (s * s) 0); [nra|]. destruct (Rlt_dec (Rabs s) (Rabs s)); reflexivity. }
    assert (M3 : minmod3 (2 * s) (1 / 2 * (2 * s)) (2 * s) = s).
    { unfold minmod3. destruct (Rle_dec (2 * s * (1 / 2 * (2 * s))) 0); [nra|]. destruct (Rle_dec (2 * s * (2 * s)) 0); [nra|].
      replace (1 / 2 * (2 * s)) with s by field.
      assert (SB : Rabs (2 * s) = 2 * Rabs s) by (rewrite Rabs_mult, (Rabs_pos_eq 2) by lra; reflexivity).
      assert (SS : SIGN (2 * s) = SIGN s) by (unfold SIGN; destruct (Rlt_dec (2 * s) 0), (Rlt_dec s 0); lra).
      rewrite SB, SS. pose proof (Rabs_pos s) as HP.
      assert (B1 : BOUTMIN2 (Rabs s) (2 * Rabs s) = Rabs s) by (unfold BOUTMIN2; destruct (Rlt_dec (2 * Rabs s) (Rabs s)); lra).
      assert (B2 : BOUTMIN2 (2 * Rabs s) (Rabs s) = Rabs s) by (unfold BOUTMIN2; destruct (Rlt_dec (Rabs s) (2 * Rabs s)); lra).
      unfold BOUTMIN3. rewrite B1, B2. apply SIGN_abs. }
    unfold Fromm, MinMod, MC, line; cbn [mm m c p pp].
    replace (k + s - k) with s by ring. replace (k - (k - s)) with s by ring. replace (k + s - (k - s)) with (2 * s) by ring.
    rewrite M2, M3. repeat split; f_equal; field.
Qed.
Print Assumptions C30_consistent.
(** One upwind Euler step at Courant number up to 1/2 creates no new extrema and does not increase the total variation. *)
Theorem C30_tvd : forall lim, (lim = Upwind \/ lim = MinMod \/ lim = MC) -> forall lam u, 0 <= lam <= 1 / 2 ->
  (forall i, between (u (i - 1)%Z) (euler_step lim lam u i) (u i)) /\
  (forall first n, (0 < n)%nat -> periodic (Z.of_nat n) u ->
     total_variation (euler_step lim lam u) first n <= total_variation u first n).
Proof.
  intros lim H lam u HL.
  assert (G : good_limiter lim) by (destruct H as [->|[->| ->]]; auto using good_Upwind, good_MinMod, good_MC).
  split; intros; [now apply step_between|now apply tvd].
Qed.
Print Assumptions C30_tvd.
(** Fromm is not limited: next to a step its edge value leaves the range of the neighbouring cells. *)
Theorem C30_Fromm_unlimited : ~ forall n : stencil, between (c n) (eR (Fromm n)) (p n).
Proof. intros H. specialize (H (St 0 0 1 1 1)). unfold between, Fromm in H; cbn in H. revert H. unfold Rmin, Rmax. destruct (Rle_dec 1 1); lra. Qed.
Print Assumptions C30_Fromm_unlimited.
(** The MINMOD helper. *)
Theorem C30_MINMOD : forall a b, (a * b < 0 -> MINMOD a b = 0) /\ (0 < a -> 0 < b -> MINMOD a b = Rmin a b) /\
  (a < 0 -> b < 0 -> MINMOD a b = Rmax a b) /\ (a * b = 0 -> MINMOD a b = 0).
Proof. exact MINMOD_spec. Qed.
Print Assumptions C30_MINMOD.
Example C30_case : MinMod (St 0 0 1 3 4) = Edges (1 / 2) (3 / 2) /\ MC (St 0 0 1 3 4) = Edges (1 / 4) (7 / 4).
Proof.
  assert (A1 : minmod2 (3 - 1) (1 - 0) = 1).
  { unfold minmod2. destruct (Rle_dec _ _); [lra|]. rewrite !Rabs_pos_eq by lra. destruct (Rlt_dec _ _); lra. }
  assert (A2 : minmod3 (2 * (3 - 1)) (1 / 2 * (3 - 0)) (2 * (1 - 0)) = 3 / 2).
  { unfold minmod3, SIGN, BOUTMIN3. destruct (Rle_dec _ _); [lra|]. destruct (Rle_dec _ _); [lra|]. rewrite !Rabs_pos_eq by lra.
    destruct (Rlt_dec _ _); [lra|].
    assert (B : BOUTMIN2 (1 / 2 * (3 - 0)) (2 * (1 - 0)) = 3 / 2) by (unfold BOUTMIN2; destruct (Rlt_dec _ _); lra). rewrite B.
    unfold BOUTMIN2. destruct (Rlt_dec _ _); lra. }
  unfold MinMod, MC; cbn [m c p]. rewrite A1, A2. split; f_equal; lra.
Qed.
