From Coq Require Import Reals ZArith List Lia Lra Psatz FunctionalExtensionality.
From Verif Require Import DerivModel DerivSpec DerivProofs.
Local Open Scope R_scope.
Import ListNotations.

(** * Linearity, constants, reflection, stencil width *)
Ltac lin_tac := intros a b [? ? ? ? ?] [? ? ? ? ?]; cbn; field.
Lemma lin_C2 : linear DDX_C2. Proof. unfold DDX_C2. lin_tac. Qed.
Lemma lin_C4 : linear DDX_C4. Proof. unfold DDX_C4. lin_tac. Qed.
Lemma lin_D2C2 : linear D2DX2_C2. Proof. unfold D2DX2_C2. lin_tac. Qed.
Lemma lin_D2C4 : linear D2DX2_C4. Proof. unfold D2DX2_C4. lin_tac. Qed.
Lemma lin_D4 : linear D4DX4_C2. Proof. unfold D4DX4_C2. lin_tac. Qed.
Lemma lin_C2s : linear DDX_C2_stag. Proof. unfold DDX_C2_stag. lin_tac. Qed.
Lemma lin_C4s : linear DDX_C4_stag. Proof. unfold DDX_C4_stag. lin_tac. Qed.
Lemma lin_D2s : linear D2DX2_C2_stag. Proof. unfold D2DX2_C2_stag. lin_tac. Qed.
Ltac linv_tac := intros a b [? ? ? ? ?] [? ? ? ? ?]; cbn; try destruct (Rge_dec _ _); field.
Lemma lin_VC2 v : linear (VDDX_C2 v). Proof. unfold VDDX_C2. linv_tac. Qed.
Lemma lin_VC4 v : linear (VDDX_C4 v). Proof. unfold VDDX_C4. linv_tac. Qed.
Lemma lin_VU1 v : linear (VDDX_U1 v). Proof. unfold VDDX_U1. linv_tac. Qed.
Lemma lin_VU2 v : linear (VDDX_U2 v). Proof. unfold VDDX_U2. linv_tac. Qed.
Lemma lin_VU3 v : linear (VDDX_U3 v). Proof. unfold VDDX_U3. linv_tac. Qed.
Ltac linf_tac := intros a b [? ? ? ? ?] [? ? ? ? ?]; cbn; repeat match goal with |- context [Rge_dec ?x ?y] => destruct (Rge_dec x y) end; field.
Lemma lin_FU1 v : linear (FDDX_U1 v). Proof. unfold FDDX_U1. linf_tac. Qed.
Lemma lin_FU2 v : linear (FDDX_U2 v). Proof. unfold FDDX_U2. linf_tac. Qed.
Lemma lin_FC2 v : linear (FDDX_C2 v). Proof. unfold FDDX_C2. linf_tac. Qed.
Lemma lin_FC4 v : linear (FDDX_C4 v). Proof. unfold FDDX_C4. linf_tac. Qed.
Lemma lin_VU1s v : linear (VDDX_U1_stag v). Proof. unfold VDDX_U1_stag. linf_tac. Qed.
Lemma lin_VU2s v : linear (VDDX_U2_stag v). Proof. unfold VDDX_U2_stag. linf_tac. Qed.
Lemma lin_VC2s v : linear (VDDX_C2_stag v). Proof. unfold VDDX_C2_stag. linf_tac. Qed.
Lemma lin_VC4s v : linear (VDDX_C4_stag v). Proof. unfold VDDX_C4_stag. linf_tac. Qed.
Lemma lin_FU1s v : linear (FDDX_U1_stag v). Proof. unfold FDDX_U1_stag. linf_tac. Qed.
Lemma lin_FU2s v : linear (FDDX_U2_stag v). Proof. unfold FDDX_U2_stag. linf_tac. Qed.

(** For any velocity whatever, v df/dx of a constant is zero. *)
Lemma adv_const_U1 v k : VDDX_U1_stag v (const_st k) = 0.
Proof. unfold VDDX_U1_stag. cbn. repeat destruct (Rge_dec _ _); ring. Qed.
Lemma adv_const_U2 v k : VDDX_U2_stag v (const_st k) = 0.
Proof. unfold VDDX_U2_stag. cbn. repeat destruct (Rge_dec _ _); field. Qed.
Lemma adv_const_C2 v k : VDDX_C2_stag v (const_st k) = 0.
Proof. unfold VDDX_C2_stag. cbn. field. Qed.
Lemma adv_const_C4 v k : VDDX_C4_stag v (const_st k) = 0.
Proof. unfold VDDX_C4_stag. cbn. field. Qed.
Lemma adv_const_WENO3 v k : VDDX_WENO3 v (const_st k) = 0.
Proof. rewrite (weno3_quad v (const_st k) 0); cbn; ring. Qed.

Ltac kill v := try field; try (let E := fresh in assert (E : p v = - c v) by lra; rewrite E); try (let E := fresh in assert (E : m v = - c v) by lra; rewrite E); field.
Ltac kill0 v := try field; try (let E := fresh in assert (E : p v = 0) by lra; rewrite E); try (let E := fresh in assert (E : m v = 0) by lra; rewrite E); field.
Ltac mir := repeat match goal with |- context [Rge_dec ?x ?y] => destruct (Rge_dec x y) end; try (exfalso; lra); try field.
Lemma mirror_VU1 v f : VDDX_U1 (- v) (mirror f) = VDDX_U1 v f.
Proof. unfold VDDX_U1, mirror. cbn. destruct (Rge_dec v 0), (Rge_dec (- v) 0); try (exfalso; lra); try ring. assert (v = 0) by lra. subst. ring. Qed.
Lemma mirror_VU2 v f : VDDX_U2 (- v) (mirror f) = VDDX_U2 v f.
Proof. unfold VDDX_U2, mirror. cbn. destruct (Rge_dec v 0), (Rge_dec (- v) 0); try (exfalso; lra); try field. assert (v = 0) by lra. subst. field. Qed.
Lemma mirror_VU3 v f : VDDX_U3 (- v) (mirror f) = VDDX_U3 v f.
Proof. unfold VDDX_U3, mirror. cbn. destruct (Rge_dec v 0), (Rge_dec (- v) 0); try (exfalso; lra); try field. assert (v = 0) by lra. subst. field. Qed.
Lemma mirror_WENO3 v f : VDDX_WENO3 (- v) (mirror f) = VDDX_WENO3 v f.
Proof.
  destruct (Req_dec v 0) as [->|N]; [unfold VDDX_WENO3; rewrite Ropp_0; ring|].
  unfold VDDX_WENO3, mirror. cbn. destruct (Rgt_dec v 0), (Rgt_dec (- v) 0); try (exfalso; lra).
  all: replace (m f - 2 * c f + p f) with (p f - 2 * c f + m f) by ring.
  all: try replace (c f - 2 * p f + pp f) with (pp f - 2 * p f + c f) by ring.
  all: try replace (mm f - 2 * m f + c f) with (c f - 2 * m f + mm f) by ring.
  - match goal with |- context [1 / (1 + 2 * ?r * ?r)] => generalize (1 / (1 + 2 * r * r)) end. intros w. field.
  - match goal with |- context [1 / (1 + 2 * ?r * ?r)] => generalize (1 / (1 + 2 * r * r)) end. intros w. field.
Qed.
Lemma mirror_FU1 v f : FDDX_U1 (neg (mirror v)) (mirror f) = FDDX_U1 v f.
Proof.
  unfold FDDX_U1, mirror, neg. cbn.
  destruct (Rge_dec (1 / 2 * (- p v + - c v)) 0), (Rge_dec (1 / 2 * (- c v + - m v)) 0), (Rge_dec (1 / 2 * (m v + c v)) 0), (Rge_dec (1 / 2 * (c v + p v)) 0);
  try (exfalso; lra); kill v.
Qed.
Lemma mirror_FU2 v f : FDDX_U2 (neg (mirror v)) (mirror f) = FDDX_U2 v f.
Proof.
  unfold FDDX_U2, mirror, neg. cbn.
  destruct (Rge_dec (1 / 2 * (- p v + - c v)) 0), (Rge_dec (1 / 2 * (- c v + - m v)) 0), (Rge_dec (1 / 2 * (m v + c v)) 0), (Rge_dec (1 / 2 * (c v + p v)) 0);
  try (exfalso; lra); kill v.
Qed.
Lemma mirror_FU1s v f : FDDX_U1_stag (neg (mirror v)) (mirror f) = FDDX_U1_stag v f.
Proof. unfold FDDX_U1_stag, mirror, neg. cbn. repeat match goal with |- context [Rge_dec ?x ?y] => destruct (Rge_dec x y) end; try (exfalso; lra); kill0 v. Qed.
Lemma mirror_FU2s v f : FDDX_U2_stag (neg (mirror v)) (mirror f) = FDDX_U2_stag v f.
Proof. unfold FDDX_U2_stag, mirror, neg. cbn. repeat match goal with |- context [Rge_dec ?x ?y] => destruct (Rge_dec x y) end; try (exfalso; lra); kill0 v. Qed.
Lemma mirror_VU1s v f : VDDX_U1_stag (neg (mirror v)) (mirror f) = VDDX_U1_stag v f.
Proof. unfold VDDX_U1_stag, mirror, neg. cbn. repeat match goal with |- context [Rge_dec ?x ?y] => destruct (Rge_dec x y) end; try (exfalso; lra); kill0 v. Qed.
Lemma mirror_VU2s v f : VDDX_U2_stag (neg (mirror v)) (mirror f) = VDDX_U2_stag v f.
Proof. unfold VDDX_U2_stag, mirror, neg. cbn. repeat match goal with |- context [Rge_dec ?x ?y] => destruct (Rge_dec x y) end; try (exfalso; lra); kill0 v. Qed.

(** * Conservation *)
Lemma sum_telescope (F : Z -> R) : forall n first, sum_line (fun i => F (i + 1)%Z - F i) first n = F (first + Z.of_nat n)%Z - F first.
Proof.
  induction n as [|n IH]; intros first; cbn [sum_line].
  - replace (first + Z.of_nat 0)%Z with first by lia. ring.
  - rewrite IH. replace (first + 1 + Z.of_nat n)%Z with (first + Z.of_nat (S n))%Z by lia. ring.
Qed.
Lemma sum_ext g h : (forall i, g i = h i) -> forall n first, sum_line g first n = sum_line h first n.
Proof. intros H. induction n as [|n IH]; intros first; cbn [sum_line]; [reflexivity|]. now rewrite H, IH. Qed.

Lemma conservation_sum g : conservation_form g -> forall v f first n, periodic (Z.of_nat n) v -> periodic (Z.of_nat n) f ->
  sum_line (g v f) first n = 0.
Proof.
  intros (F & F1 & F2 & _) v f first n Pv Pf. rewrite (sum_ext _ (fun i => F v f (i + 1)%Z - F v f i)) by (intros; apply F1).
  rewrite sum_telescope. rewrite (F2 v f v f (first + Z.of_nat n)%Z first); [ring|]. intros k _.
  replace (first + Z.of_nat n + k)%Z with (first + k + Z.of_nat n)%Z by lia. rewrite Pv, Pf. auto.
Qed.
Lemma conservation_bounded g : conservation_form g -> exists F, (forall v f first n, sum_line (g v f) first n = F v f (first + Z.of_nat n)%Z - F v f first).
Proof.
  intros (F & F1 & _). exists F. intros v f first n. rewrite (sum_ext _ (fun i => F v f (i + 1)%Z - F v f i)) by (intros; apply F1). apply sum_telescope.
Qed.

Ltac loc_tac := let HH := fresh in intros ? ? ? ? i j HH;
  pose proof (HH (-2)%Z ltac:(lia)) as [A1 A2]; pose proof (HH (-1)%Z ltac:(lia)) as [B1 B2];
  pose proof (HH 0%Z ltac:(lia)) as [C1 C2]; pose proof (HH 1%Z ltac:(lia)) as [D1 D2];
  rewrite ?Z.add_0_r in *;
  change (i + -2)%Z with (i - 2)%Z in *; change (j + -2)%Z with (j - 2)%Z in *;
  change (i + -1)%Z with (i - 1)%Z in *; change (j + -1)%Z with (j - 1)%Z in *;
  rewrite ?A1, ?A2, ?B1, ?B2, ?C1, ?C2, ?D1, ?D2; reflexivity.
Ltac norm_i i := replace (i + 1 - 1)%Z with i by lia; replace (i + 1 - 2)%Z with (i - 1)%Z by lia; replace (i + 1 + 1)%Z with (i + 2)%Z by lia.

Lemma cons_FU1 : conservation_form (flux FDDX_U1 SNone).
Proof.
  exists (fun v f i => let vs := 1 / 2 * (v (i - 1)%Z + v i) in if Rge_dec vs 0 then vs * f (i - 1)%Z else vs * f i).
  split; [|split; [loc_tac|]].
  - intros v f i. unfold flux, FDDX_U1, populate. cbn. norm_i i. ring.
  - intros v0 f0 i. cbn. destruct (Rge_dec _ _); field.
Qed.
Lemma cons_FU2 : conservation_form (flux FDDX_U2 SNone).
Proof.
  exists (fun v f i => let vs := 1 / 2 * (v (i - 1)%Z + v i) in
    if Rge_dec vs 0 then vs * (3 / 2 * f (i - 1)%Z - 1 / 2 * f (i - 2)%Z) else vs * (3 / 2 * f i - 1 / 2 * f (i + 1)%Z)).
  split; [|split; [loc_tac|]].
  - intros v f i. unfold flux, FDDX_U2, populate. cbn. norm_i i. ring.
  - intros v0 f0 i. cbn. destruct (Rge_dec _ _); field.
Qed.
Lemma cons_FC2 : conservation_form (flux FDDX_C2 SNone).
Proof.
  exists (fun v f i => 1 / 2 * (v (i - 1)%Z * f (i - 1)%Z + v i * f i)).
  split; [|split; [loc_tac|]].
  - intros v f i. unfold flux, FDDX_C2, populate. cbn. norm_i i. ring.
  - intros v0 f0 i. field.
Qed.
Lemma cons_FC4 : conservation_form (flux FDDX_C4 SNone).
Proof.
  exists (fun v f i => (7 * (v (i - 1)%Z * f (i - 1)%Z + v i * f i) - (v (i - 2)%Z * f (i - 2)%Z + v (i + 1)%Z * f (i + 1)%Z)) / 12).
  split; [|split; [loc_tac|]].
  - intros v f i. unfold flux, FDDX_C4, populate. cbn. norm_i i. field.
  - intros v0 f0 i. field.
Qed.
(** Staggered: the velocity of the face is the staggered value; for C2L the face below cell i has index i-1 in the velocity
    array, for L2C it has index i. *)
Lemma cons_FU1_stag s : s <> SNone -> conservation_form (flux FDDX_U1_stag s).
Proof.
  intros N. destruct s; [congruence| |].
  - exists (fun v f i => if Rge_dec (v (i - 1)%Z) 0 then v (i - 1)%Z * f (i - 1)%Z else v (i - 1)%Z * f i).
    split; [|split; [loc_tac|]].
    + intros v f i. unfold flux, FDDX_U1_stag, populate. cbn. norm_i i. ring.
    + intros v0 f0 i. destruct (Rge_dec _ _); field.
  - exists (fun v f i => if Rge_dec (v i) 0 then v i * f (i - 1)%Z else v i * f i).
    split; [|split; [loc_tac|]].
    + intros v f i. unfold flux, FDDX_U1_stag, populate. cbn. norm_i i. ring.
    + intros v0 f0 i. destruct (Rge_dec _ _); field.
Qed.
Lemma cons_FU2_stag s : s <> SNone -> conservation_form (flux FDDX_U2_stag s).
Proof.
  intros N. destruct s; [congruence| |].
  - exists (fun v f i => if Rge_dec (v (i - 1)%Z) 0 then v (i - 1)%Z * (3 / 2 * f (i - 1)%Z - 1 / 2 * f (i - 2)%Z) else v (i - 1)%Z * (3 / 2 * f i - 1 / 2 * f (i + 1)%Z)).
    split; [|split; [loc_tac|]].
    + intros v f i. unfold flux, FDDX_U2_stag, populate. cbn. norm_i i. reflexivity.
    + intros v0 f0 i. destruct (Rge_dec _ _); field.
  - exists (fun v f i => if Rge_dec (v i) 0 then v i * (3 / 2 * f (i - 1)%Z - 1 / 2 * f (i - 2)%Z) else v i * (3 / 2 * f i - 1 / 2 * f (i + 1)%Z)).
    split; [|split; [loc_tac|]].
    + intros v f i. unfold flux, FDDX_U2_stag, populate. cbn. norm_i i. reflexivity.
    + intros v0 f0 i. destruct (Rge_dec _ _); field.
Qed.

(** * Limiters *)
(** A slope s is limited when it is 0, or has the sign of both one-sided differences and at most twice their size. *)
Definition limited (k s dr dl : R) : Prop := exists a b, 0 <= a <= k /\ 0 <= b <= k /\ s = a * dr /\ s = b * dl.
Lemma SIGN_abs x : SIGN x * Rabs x = x.
Proof. unfold SIGN, Rabs. destruct (Rlt_dec x 0), (Rcase_abs x); lra. Qed.
Lemma same_sign_ratio x y : x * y > 0 -> Rabs x <= Rabs y -> exists t, 0 <= t <= 1 /\ x = t * y.
Proof.
  intros H1 H2. assert (y <> 0) by (intros ->; lra). exists (x / y). split; [|field; assumption].
  assert (E : x / y = Rabs x / Rabs y).
  { unfold Rabs. destruct (Rcase_abs x), (Rcase_abs y); try (exfalso; nra); [|reflexivity]. field. assumption. }
  rewrite E. assert (0 < Rabs y) by now apply Rabs_pos_lt. split.
  - apply Rle_mult_inv_pos; [apply Rabs_pos|assumption].
  - apply (Rmult_le_reg_r (Rabs y)); [assumption|]. unfold Rdiv. rewrite Rmult_assoc, Rinv_l by lra. lra.
Qed.
Lemma minmod2_limited a b : limited 1 (minmod2 a b) a b.
Proof.
  unfold minmod2. destruct (Rle_dec (a * b) 0) as [H|H]; [exists 0, 0; repeat split; lra|].
  destruct (Rlt_dec (Rabs a) (Rabs b)) as [L|L].
  - destruct (same_sign_ratio a b) as (t & T1 & T2); [lra|lra|]. exists 1, t. repeat split; lra.
  - destruct (same_sign_ratio b a) as (t & T1 & T2); [lra|lra|]. exists t, 1. repeat split; lra.
Qed.
Lemma BOUTMIN3_spec a b d : (BOUTMIN3 a b d = a \/ BOUTMIN3 a b d = b \/ BOUTMIN3 a b d = d) /\ BOUTMIN3 a b d <= a /\ BOUTMIN3 a b d <= b /\ BOUTMIN3 a b d <= d.
Proof. unfold BOUTMIN3, BOUTMIN2. repeat destruct (Rlt_dec _ _); repeat split; auto; lra. Qed.
Lemma minmod3_limited dr dl : limited 2 (minmod3 (2 * dr) (1 / 2 * (dr + dl)) (2 * dl)) dr dl.
Proof.
  unfold minmod3. destruct (Rle_dec _ _) as [H1|H1]; [exists 0, 0; repeat split; lra|].
  destruct (Rle_dec _ _) as [H2|H2]; [exists 0, 0; repeat split; lra|].
  set (a := 2 * dr) in *. set (b := 1 / 2 * (dr + dl)) in *. set (d := 2 * dl) in *.
  destruct (BOUTMIN3_spec (Rabs a) (Rabs b) (Rabs d)) as (_ & M1 & _ & M3). set (s := BOUTMIN3 (Rabs a) (Rabs b) (Rabs d)) in *.
  assert (S0 : 0 <= s).
  { unfold s. destruct (BOUTMIN3_spec (Rabs a) (Rabs b) (Rabs d)) as ([->|[->| ->]] & _); apply Rabs_pos. }
  assert (A : a <> 0) by (intros X; rewrite X in H1; lra). assert (D : d <> 0) by (intros X; rewrite X in H2; lra).
  assert (Sa : SIGN a * s = s / Rabs a * a).
  { rewrite <- (SIGN_abs a) at 3. field. apply Rabs_no_R0; assumption. }
  assert (Sd : SIGN a * s = s / Rabs d * d).
  { rewrite <- (SIGN_abs d) at 2. replace (SIGN d) with (SIGN a); [field; apply Rabs_no_R0; assumption|].
    unfold SIGN. destruct (Rlt_dec a 0), (Rlt_dec d 0); try reflexivity; exfalso; nra. }
  assert (R1 : 0 <= s / Rabs a <= 1).
  { assert (0 < Rabs a) by now apply Rabs_pos_lt. split; [apply Rle_mult_inv_pos; assumption|].
    apply (Rmult_le_reg_r (Rabs a)); [assumption|]. unfold Rdiv. rewrite Rmult_assoc, Rinv_l by lra. lra. }
  assert (R2 : 0 <= s / Rabs d <= 1).
  { assert (0 < Rabs d) by now apply Rabs_pos_lt. split; [apply Rle_mult_inv_pos; assumption|].
    apply (Rmult_le_reg_r (Rabs d)); [assumption|]. unfold Rdiv. rewrite Rmult_assoc, Rinv_l by lra. lra. }
  exists (2 * (s / Rabs a)), (2 * (s / Rabs d)). repeat split; try lra.
  - rewrite Sa. unfold a. ring.
  - rewrite Sd. unfold d. ring.
Qed.

Definition slope_of (e : edges) : R := eR e - eL e.
Lemma limited_edges k s n : 0 <= k <= 2 -> limited k s (p n - c n) (c n - m n) ->
  between (c n) (c n + 1 / 2 * s) (p n) /\ between (m n) (c n - 1 / 2 * s) (c n).
Proof.
  intros Hk (a & b & A & B & E1 & E2). split.
  - unfold between. rewrite E1. unfold Rmin, Rmax. destruct (Rle_dec (c n) (p n)); split; nra.
  - unfold between. rewrite E2. unfold Rmin, Rmax. destruct (Rle_dec (m n) (c n)); split; nra.
Qed.
Lemma MinMod_bounds n : between (c n) (eR (MinMod n)) (p n) /\ between (m n) (eL (MinMod n)) (c n) /\ (eL (MinMod n) + eR (MinMod n)) / 2 = c n.
Proof.
  pose proof (limited_edges 1 _ n ltac:(lra) (minmod2_limited (p n - c n) (c n - m n))) as [H1 H2]. cbn. split; [exact H1|]. split; [exact H2|]. field.
Qed.
Lemma MC_limited n : limited 2 (minmod3 (2 * (p n - c n)) (1 / 2 * (p n - m n)) (2 * (c n - m n))) (p n - c n) (c n - m n).
Proof.
  replace (1 / 2 * (p n - m n)) with (1 / 2 * ((p n - c n) + (c n - m n))) by ring. apply minmod3_limited.
Qed.
Lemma MC_bounds n : between (c n) (eR (MC n)) (p n) /\ between (m n) (eL (MC n)) (c n) /\ (eL (MC n) + eR (MC n)) / 2 = c n.
Proof.
  pose proof (limited_edges 2 _ n ltac:(lra) (MC_limited n)) as [H1 H2]. cbn. split; [exact H1|]. split; [exact H2|]. field.
Qed.
Lemma extremum_flat_limited k s n : limited k s (p n - c n) (c n - m n) -> (p n - c n) * (c n - m n) <= 0 -> s = 0.
Proof.
  intros (a & b & A & B & E1 & E2) H. destruct (Req_dec s 0) as [|N]; [assumption|]. exfalso.
  assert (s * s > 0) by nra. assert (s * s = a * b * ((p n - c n) * (c n - m n))) by (rewrite E1 at 1; rewrite E2; ring).
  assert (0 <= a * b) by nra. nra.
Qed.

(** TVD: one explicit upwind step with limited reconstructions. *)
Definition good_limiter (lim : stencil -> edges) : Prop :=
  forall n, exists s, limited 2 s (p n - c n) (c n - m n) /\ eR (lim n) = c n + 1 / 2 * s.
Lemma good_MinMod : good_limiter MinMod.
Proof.
  intros n. exists (minmod2 (p n - c n) (c n - m n)). split; [|reflexivity].
  destruct (minmod2_limited (p n - c n) (c n - m n)) as (a & b & H1 & H2 & H3 & H4). exists a, b. repeat split; lra.
Qed.
Lemma good_MC : good_limiter MC.
Proof. intros n. eexists. split; [apply MC_limited|reflexivity]. Qed.
Lemma good_Upwind : good_limiter Upwind.
Proof. intros n. exists 0. split; [exists 0, 0; repeat split; lra|cbn; ring]. Qed.

Lemma step_coeff lim lam u i : good_limiter lim -> 0 <= lam <= 1 / 2 ->
  exists C, 0 <= C <= 1 /\ euler_step lim lam u i = u i - C * (u i - u (i - 1)%Z).
Proof.
  intros G HL. unfold euler_step, recon.
  destruct (G (populate SNone u i)) as (s1 & (a1 & b1 & A1 & B1 & E1 & F1) & ->).
  destruct (G (populate SNone u (i - 1)%Z)) as (s2 & (a2 & b2 & A2 & B2 & E2 & F2) & ->).
  cbn [populate c m p] in *. replace (i - 1 + 1)%Z with i in * by lia.
  exists (lam * (1 + b1 / 2 - a2 / 2)). split; [split; nra|].
  rewrite F1. rewrite E2. field.
Qed.
Lemma step_between lim lam u i : good_limiter lim -> 0 <= lam <= 1 / 2 -> between (u (i - 1)%Z) (euler_step lim lam u i) (u i).
Proof.
  intros G HL. destruct (step_coeff lim lam u i G HL) as (C & HC & ->).
  unfold between, Rmin, Rmax. destruct (Rle_dec (u (i - 1)%Z) (u i)); split; nra.
Qed.
Lemma sum_plus g h : forall n first, sum_line (fun i => g i + h i) first n = sum_line g first n + sum_line h first n.
Proof. induction n as [|n IH]; intros first; cbn [sum_line]; [ring|]. rewrite IH. ring. Qed.
Lemma sum_le g h : (forall i, g i <= h i) -> forall n first, sum_line g first n <= sum_line h first n.
Proof. intros H. induction n as [|n IH]; intros first; cbn [sum_line]; [lra|]. specialize (H first). specialize (IH (first + 1)%Z). lra. Qed.
Lemma sum_last g : forall n first, sum_line g first (S n) = sum_line g first n + g (first + Z.of_nat n)%Z.
Proof.
  induction n as [|n IH]; intros first.
  - cbn [sum_line]. replace (first + Z.of_nat 0)%Z with first by lia. ring.
  - cbn [sum_line] in *. rewrite IH. replace (first + 1 + Z.of_nat n)%Z with (first + Z.of_nat (S n))%Z by lia. ring.
Qed.
Lemma sum_shift g n first : periodic (Z.of_nat n) g -> sum_line (fun i => g (i - 1)%Z) first n = sum_line g first n.
Proof.
  intros P. assert (E : forall n first, sum_line (fun i => g (i - 1)%Z) first n = sum_line g (first - 1)%Z n).
  { clear. induction n as [|n IH]; intros first; cbn [sum_line]; [reflexivity|]. rewrite IH. do 2 f_equal. lia. }
  rewrite E. destruct n as [|n]; [reflexivity|]. rewrite sum_last.
  cbn [sum_line]. replace (first - 1 + 1)%Z with first by lia.
  rewrite (sum_last g n first) || idtac.
  assert (X : sum_line g first (S n) = g first + sum_line g (first + 1)%Z n) by reflexivity.
  assert (Y : sum_line g (first - 1)%Z (S n) = g (first - 1)%Z + sum_line g first n) by (cbn [sum_line]; now replace (first - 1 + 1)%Z with first by lia).
  pose proof (sum_last g n first) as L. rewrite X in L. rewrite (sum_last g n (first - 1)%Z) in Y.
  assert (Q : g (first + Z.of_nat n)%Z = g (first - 1)%Z).
  { rewrite <- (P (first - 1)%Z). f_equal. lia. }
  lra.
Qed.
Lemma tvd lim lam u first n : good_limiter lim -> 0 <= lam <= 1 / 2 -> (0 < n)%nat -> periodic (Z.of_nat n) u ->
  total_variation (euler_step lim lam u) first n <= total_variation u first n.
Proof.
  intros G HL Hn P.
  assert (CH : forall i, exists C, (0 <= C <= 1 /\ euler_step lim lam u i = u i - C * (u i - u (i - 1)%Z)) /\ (u i = u (i - 1)%Z -> C = 0)).
  { intros i. destruct (Req_dec (u i) (u (i - 1)%Z)) as [E|E].
    - exists 0. destruct (step_coeff lim lam u i G HL) as (C & HC & EC). split; [split; [lra|]|auto]. rewrite EC, E. ring.
    - destruct (step_coeff lim lam u i G HL) as (C & HC & EC). exists C. split; [auto|contradiction]. }
  (* the weights, as explicit functions *)
  set (W := fun i => (u i - euler_step lim lam u i) / (u i - u (i - 1)%Z)).
  assert (HW : forall i, 0 <= W i * 1 <= 1 /\ euler_step lim lam u i = u i - W i * (u i - u (i - 1)%Z)).
  { intros i. destruct (CH i) as (C & (HC & EC) & EZ). unfold W. destruct (Req_dec (u i) (u (i - 1)%Z)) as [E|E].
    - replace (u i - u (i - 1)%Z) with 0 by lra. rewrite EC, E. unfold Rdiv. rewrite Rinv_0. split; lra.
    - assert (X : (u i - euler_step lim lam u i) / (u i - u (i - 1)%Z) = C) by (rewrite EC; field; lra). rewrite X. split; [lra|assumption]. }
  unfold total_variation.
  set (D := fun i => Rabs (u (i + 1)%Z - u i)).
  apply Rle_trans with (sum_line (fun i => (1 - W (i + 1)%Z) * D i + W i * D (i - 1)%Z) first n).
  - apply sum_le. intros i. destruct (HW i) as [W1 ->]. destruct (HW (i + 1)%Z) as [W2 ->]. unfold D.
    replace (i + 1 - 1)%Z with i by lia. replace (i - 1 + 1)%Z with i by lia.
    replace (u (i + 1)%Z - W (i + 1)%Z * (u (i + 1)%Z - u i) - (u i - W i * (u i - u (i - 1)%Z)))
      with ((1 - W (i + 1)%Z) * (u (i + 1)%Z - u i) + W i * (u i - u (i - 1)%Z)) by ring.
    eapply Rle_trans; [apply Rabs_triang|]. rewrite !Rabs_mult, (Rabs_right (1 - W (i + 1)%Z)), (Rabs_right (W i)) by lra. lra.
  - assert (PD : periodic (Z.of_nat n) D).
    { intros i. unfold D. replace (i + Z.of_nat n + 1)%Z with (i + 1 + Z.of_nat n)%Z by lia. now rewrite !P. }
    assert (PS : periodic (Z.of_nat n) (euler_step lim lam u)).
    { intros i. unfold euler_step, recon, populate.
      replace (i + Z.of_nat n - 2)%Z with (i - 2 + Z.of_nat n)%Z by lia. replace (i + Z.of_nat n - 1)%Z with (i - 1 + Z.of_nat n)%Z by lia.
      replace (i + Z.of_nat n + 1)%Z with (i + 1 + Z.of_nat n)%Z by lia. replace (i + Z.of_nat n + 2)%Z with (i + 2 + Z.of_nat n)%Z by lia.
      replace (i - 1 + Z.of_nat n - 2)%Z with (i - 1 - 2 + Z.of_nat n)%Z by lia. replace (i - 1 + Z.of_nat n - 1)%Z with (i - 1 - 1 + Z.of_nat n)%Z by lia.
      replace (i - 1 + Z.of_nat n + 1)%Z with (i - 1 + 1 + Z.of_nat n)%Z by lia. replace (i - 1 + Z.of_nat n + 2)%Z with (i - 1 + 2 + Z.of_nat n)%Z by lia.
      now rewrite !P. }
    assert (PW : periodic (Z.of_nat n) W).
    { intros i. unfold W. rewrite PS, P. replace (i + Z.of_nat n - 1)%Z with (i - 1 + Z.of_nat n)%Z by lia. now rewrite P. }
    assert (E : sum_line (fun i => (1 - W (i + 1)%Z) * D i + W i * D (i - 1)%Z) first n =
                sum_line D first n + (sum_line (fun i => (fun j => W (j + 1)%Z * D j) (i - 1)%Z) first n - sum_line (fun j => W (j + 1)%Z * D j) first n)).
    { clear. revert first. induction n as [|n IH]; intros first; cbn [sum_line]; [ring|]. rewrite IH. replace (first - 1 + 1)%Z with first by lia. ring. }
    rewrite E, (sum_shift (fun j => W (j + 1)%Z * D j) n first); [lra|]. intros i. replace (i + Z.of_nat n + 1)%Z with (i + 1 + Z.of_nat n)%Z by lia. now rewrite PW, PD.
Qed.

Lemma MINMOD_spec a b : (a * b < 0 -> MINMOD a b = 0) /\ (0 < a -> 0 < b -> MINMOD a b = Rmin a b) /\ (a < 0 -> b < 0 -> MINMOD a b = Rmax a b) /\ (a * b = 0 -> MINMOD a b = 0).
Proof.
  unfold MINMOD, SIGN, BOUTMIN2, Rmin, Rmax, Rabs.
  destruct (Rlt_dec a 0), (Rlt_dec b 0), (Rcase_abs a), (Rcase_abs b); try (exfalso; lra);
  (split; [intros|split; [intros|split; intros]]);
  repeat destruct (Rlt_dec _ _); repeat destruct (Rle_dec _ _); try (exfalso; nra); try lra; try nra.
Qed.
