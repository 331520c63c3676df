From Coq Require Import Arith Bool ZArith Reals Lia Lra.
From Verif Require Import Base LaplaceModel MaskModel MaskSpec.
Local Open Scope R_scope.

Lemma TanH_tanh : forall a, TanH a = tanh a.
Proof.
  intros a. unfold TanH, tanh, sinh, cosh. cbv zeta. pose proof (exp_pos a) as P. rewrite exp_Ropp.
  assert (exp a * exp a + 1 <> 0) by nra. field. repeat split; nra.
Qed.
Lemma tanh_alt : forall a, tanh a = 1 - 2 / (exp (2 * a) + 1).
Proof.
  intros a. unfold tanh, sinh, cosh. pose proof (exp_pos a) as P. replace (2 * a) with (a + a) by ring. rewrite exp_plus, exp_Ropp.
  assert (exp a * exp a + 1 <> 0) by nra. field. repeat split; nra.
Qed.
Lemma tanh_odd : forall a, tanh (- a) = - tanh a.
Proof. intros a. unfold tanh, sinh, cosh. rewrite Ropp_involutive, (Rplus_comm (exp (- a))). unfold Rdiv. ring. Qed.
Lemma step_eq : forall x L W, step x L W = / (exp (2 * ((x - L) / W)) + 1).
Proof. intros. unfold step. rewrite tanh_alt. pose proof (exp_pos (2 * ((x - L) / W))). field. lra. Qed.
Lemma tanh_0 : tanh 0 = 0.
Proof. rewrite tanh_alt, Rmult_0_r, exp_0. lra. Qed.
Lemma tanh_incr : forall a b, a < b -> tanh a < tanh b.
Proof.
  intros a b H. rewrite !tanh_alt. pose proof (exp_pos (2 * a)). pose proof (exp_increasing (2 * a) (2 * b) ltac:(lra)) as E.
  assert (/ (exp (2 * b) + 1) < / (exp (2 * a) + 1)) by (apply Rinv_lt_contravar; [apply Rmult_lt_0_compat; lra|lra]). unfold Rdiv. lra.
Qed.
Lemma tanh_ge0 : forall a, 0 <= a -> 0 <= tanh a.
Proof. intros a [H| <-]; [|rewrite tanh_0; lra]. apply tanh_incr in H. rewrite tanh_0 in H. lra. Qed.
Lemma exp_ge1 : forall x, 1 + x <= exp x.
Proof. intros x. destruct (Req_dec x 0) as [->|N]; [rewrite exp_0; lra|]. left. apply exp_ineq1. exact N. Qed.
Lemma tanh_le : forall a, 0 <= a -> tanh a <= 2 * a.
Proof.
  intros a H. rewrite tanh_alt. pose proof (exp_pos (2 * a)) as P. pose proof (exp_ge1 (2 * a)) as G.
  apply Rmult_le_reg_r with (exp (2 * a) + 1); [lra|]. replace ((1 - 2 / (exp (2 * a) + 1)) * (exp (2 * a) + 1)) with (exp (2 * a) - 1) by (field; lra).
  pose proof (exp_ge1 (- (2 * a))) as N. rewrite exp_Ropp in N. assert (J : exp (2 * a) * / exp (2 * a) = 1) by (field; lra).
  pose proof (Rmult_le_compat_l (exp (2 * a)) _ _ ltac:(lra) N) as K. rewrite J in K. lra.
Qed.

Section S.
Variables (l : layout) (symX perX : bool).
Lemma GlobalX_eq : forall p jx, GlobalX l symX p jx = X l symX (p * mx l + jx).
Proof.
  intros p jx. unfold GlobalX, X, pos, pos_asym. cbv zeta. rewrite (Nat.add_comm jx). destruct symX; [|reflexivity].
  unfold Rdiv. f_equal. rewrite (plus_INR (np l * mx l) (2 * g l)), (mult_INR 2 (g l)). replace (INR 2) with 2 by (cbn; lra). lra.
Qed.
Lemma comm_spread : forall F h p ix k, (forall p ix k, cell l p ix -> F p ix k = h (p * mx l + ix)%nat k) -> cell l p ix -> perX = false \/ in_domain l p ix ->
  communicate l perX F p ix k = h (p * mx l + ix)%nat k.
Proof.
  intros F h p ix k E (Hp & Hi) D. unfold communicate, in_domain in *.
  destruct (Nat.ltb_spec ix (g l)) as [A|A].
  - destruct (Nat.ltb_spec 0 p) as [B|B].
    + rewrite E by (split; lia). f_equal. destruct p; [lia|]. cbn [Nat.sub]. rewrite Nat.sub_0_r. cbn [Nat.mul]. lia.
    + destruct D as [->|D]; [apply E; split; assumption|]. exfalso. replace p with 0%nat in D by lia. cbn in D. lia.
  - destruct (Nat.leb_spec (g l + mx l) ix) as [B|B]; [|apply E; split; assumption].
    destruct (Nat.ltb_spec (p + 1) (np l)) as [C|C].
    + rewrite E by (split; lia). f_equal. rewrite Nat.mul_add_distr_r. lia.
    + destruct D as [->|D]; [apply E; split; assumption|]. exfalso. assert (np l = p + 1)%nat by lia.
      replace (np l) with (p + 1)%nat in D. rewrite Nat.mul_add_distr_r in D. lia.
Qed.
End S.

Lemma step_range : forall x L W, 0 < step x L W < 1.
Proof.
  intros. rewrite step_eq. set (y := 2 * ((x - L) / W)). pose proof (exp_pos y). split; [apply Rinv_0_lt_compat; lra|].
  rewrite <- Rinv_1 at 2. apply Rinv_lt_contravar; lra.
Qed.
Lemma step_decr : forall x x' L W, 0 < W -> x < x' -> step x' L W < step x L W.
Proof.
  intros. unfold step. assert ((x - L) / W < (x' - L) / W) by (unfold Rdiv; apply Rmult_lt_compat_r; [apply Rinv_0_lt_compat|]; lra).
  pose proof (tanh_incr _ _ H1). lra.
Qed.
Lemma step_tail : forall x L W d, 0 < W -> L + d * W <= x -> step x L W <= exp (- (2 * d)).
Proof.
  intros x L W d HW H. rewrite step_eq. assert (d <= (x - L) / W).
  { apply Rmult_le_reg_r with W; [lra|]. replace ((x - L) / W * W) with (x - L) by (field; lra). lra. }
  set (y := (x - L) / W) in *. rewrite exp_Ropp. apply Rinv_le_contravar; [apply exp_pos|].
  assert (exp (2 * d) <= exp (2 * y)) by (destruct (Req_dec d y) as [->|N]; [lra|left; apply exp_increasing; lra]). lra.
Qed.
Lemma step_refl : forall x L W, step (2 * L - x) L W = 1 - step x L W.
Proof.
  intros. unfold step. replace ((2 * L - x - L) / W) with (- ((x - L) / W)) by (unfold Rdiv; ring). rewrite tanh_odd. lra.
Qed.
Lemma step_head : forall x L W d, 0 < W -> x <= L - d * W -> 1 - exp (- (2 * d)) <= step x L W.
Proof.
  intros x L W d HW H. pose proof (step_tail (2 * L - x) L W d HW ltac:(lra)) as T. rewrite step_refl in T. lra.
Qed.

(** Floating point. *)
Lemma rnd_fin : forall big x, Rabs x <= big -> rnd big x = Fin x.
Proof.
  intros big x H. unfold rnd. destruct (Rlt_dec big x) as [A|A]; [pose proof (Rle_abs x); lra|].
  destruct (Rlt_dec x (- big)) as [B|B]; [|reflexivity]. pose proof (Rle_abs (- x)). rewrite Rabs_Ropp in H0. lra.
Qed.
Lemma TanH_fl_ok : forall big a, exp (Rabs a) + 1 <= big -> TanH_fl big a = Fin (tanh a).
Proof.
  intros big a H. assert (E1 : exp a <= exp (Rabs a)) by (destruct (Req_dec a (Rabs a)) as [<-|N]; [lra|left; apply exp_increasing; pose proof (Rle_abs a); lra]).
  assert (E2 : exp (- a) <= exp (Rabs a)).
  { destruct (Req_dec (- a) (Rabs a)) as [<-|N]; [lra|left; apply exp_increasing; pose proof (Rle_abs (- a)); rewrite Rabs_Ropp in *; lra]. }
  assert (S1 : exp a + exp (- a) <= exp (Rabs a) + 1).
  { unfold Rabs. destruct (Rcase_abs a) as [A|A].
    - assert (exp a < 1) by (rewrite <- exp_0; apply exp_increasing; lra). lra.
    - assert (exp (- a) <= 1) by (rewrite <- exp_0; destruct (Req_dec a 0) as [->|N]; [rewrite Ropp_0; lra|left; apply exp_increasing; lra]). lra. }
  pose proof (exp_pos a) as P. pose proof (exp_pos (- a)) as Q. pose proof (exp_pos (Rabs a)) as W.
  unfold TanH_fl. rewrite rnd_fin by (rewrite Rabs_pos_eq; lra). cbn [fdiv]. destruct (Req_EM_T (exp a) 0) as [Z|_]; [lra|].
  replace (1 / exp a) with (exp (- a)) by (rewrite exp_Ropp; field; lra). rewrite rnd_fin by (rewrite Rabs_pos_eq; lra).
  cbn [fopp fadd]. rewrite !rnd_fin. 2:{ rewrite Rabs_pos_eq; lra. } 2:{ apply Rabs_le. lra. } cbn [fdiv].
  destruct (Req_EM_T (exp a + exp (- a)) 0) as [Z|_]; [lra|].
  replace ((exp a + - exp (- a)) / (exp a + exp (- a))) with (tanh a) by (unfold tanh, sinh, cosh; field; lra).
  apply rnd_fin. rewrite tanh_alt. pose proof (exp_pos (2 * a)) as V. assert (0 < 2 / (exp (2 * a) + 1) < 2).
  { split; [apply Rdiv_lt_0_compat; lra|]. apply Rmult_lt_reg_r with (exp (2 * a) + 1); [lra|]. replace (2 / (exp (2 * a) + 1) * (exp (2 * a) + 1)) with 2 by (field; lra). lra. }
  apply Rabs_le. lra.
Qed.
Lemma TanH_fl_nan : forall big a, big < exp (Rabs a) -> 1 <= big -> TanH_fl big a = NaN.
Proof.
  intros big a H B. pose proof (exp_pos a) as P. unfold TanH_fl. unfold Rabs in H. destruct (Rcase_abs a) as [A|A].
  - assert (exp a < 1) by (rewrite <- exp_0; apply exp_increasing; lra).
    rewrite rnd_fin by (rewrite Rabs_pos_eq; lra). cbn [fdiv]. destruct (Req_EM_T (exp a) 0) as [Z|_]; [lra|].
    replace (1 / exp a) with (exp (- a)) by (rewrite exp_Ropp; field; lra). unfold rnd. destruct (Rlt_dec big (exp (- a))) as [_|N]; [|lra]. reflexivity.
  - unfold rnd. destruct (Rlt_dec big (exp a)) as [_|N]; [|lra]. cbn [fdiv fopp fadd]. reflexivity.
Qed.
Lemma exp_pow2 : forall n, 2 ^ n <= exp (INR n).
Proof.
  induction n as [|n IH]; [cbn; rewrite exp_0; lra|]. rewrite S_INR, exp_plus. cbn [pow]. pose proof (exp_ge1 1). pose proof (pow_lt 2 n ltac:(lra)). nra.
Qed.
