(** The SNB model of non-local heat flux (C95). *)
From Coq Require Import List Arith Bool ZArith Reals Lia Lra Permutation.
From Coquelicot Require Import Coquelicot.
From Verif Require Import Base CyclicModel CyclicSpec FftModel FftSpec FftProofs LaplaceSpec FvModel ParInvModel ParInvSpec ParInvProps SnbModel SnbSpec SnbProofs SnbProofs2 SnbProofs3.
Import ListNotations.
Local Open Scope R_scope.

(** Temperature and density do not depend on z: every group solves its diffusion equation at every point, with sources
    the weights times the divergence of the Spitzer-Harm flux, and what is returned is the divergence of the Spitzer-Harm flux minus those of the
    fluxes of the groups. *)
Theorem C95_equations : forall s zl c o nz m Te Ne Q, snb_run s zl c o nz m Te Ne Q ->
  physical c o Te Ne -> (forall i, is_inside s i -> yJ m i <> 0 /\ ydy m i <> 0) -> axisymmetric Te -> axisymmetric Ne ->
  exists H : nat -> plane,
  (forall g i j, (g < ngroups o)%nat -> is_inside s i -> (j < nz)%nat ->
     H g i j / lam_ee c o Te Ne g i j - Div_par m (fun i => lam_ei c o Te Ne g i j / 3) (H g) i j = - weight_of o g * DivQ_SH c o m Te Ne i j) /\
  (forall i j, is_inside s i -> (j < nz)%nat ->
     Q i j = DivQ_SH c o m Te Ne i j - rsum (ngroups o) (fun g => Div_par m (fun i => lam_ei c o Te Ne g i j / 3) (H g) i j)).
Proof.
  intros s zl c o nz m Te Ne Q HR HP HM aT aN.
  destruct (group_eq s zl c o nz m Te Ne Q HR HP HM (or_intror (conj aT aN))) as (H & N & HE & HQ & _).
  assert (AE : forall g i j, dc_row nz (fun j => 1 / lam_ee c o Te Ne g i j) = 1 / lam_ee c o Te Ne g i j).
  { intros g i j. apply (dc_axi nz (fun i j => 1 / lam_ee c o Te Ne g i j)); auto. intros i' j'. unfold lam_ee. rewrite (aT i' j'), (aN i' j'). reflexivity. }
  assert (AI : forall g j, (fun i => dc_row nz (fun j => lam_ei c o Te Ne g i j) / 3) = (fun i => lam_ei c o Te Ne g i j / 3)).
  { intros g j. apply FunctionalExtensionality.functional_extensionality. intros i. f_equal. apply (dc_axi nz (lam_ei c o Te Ne g)); auto.
    intros i' j'. unfold lam_ei. rewrite (aT i' j'), (aN i' j'). reflexivity. }
  assert (E : forall g i j, (g < ngroups o)%nat -> is_inside s i -> (j < nz)%nat ->
     H g i j / lam_ee c o Te Ne g i j - Div_par m (fun i => lam_ei c o Te Ne g i j / 3) (H g) i j = - weight_of o g * DivQ_SH c o m Te Ne i j).
  { intros g i j Hg Hi Hj. rewrite <- (HE g i j Hg Hi Hj), (AE g i j), <- (AI g j). unfold Rdiv. ring. }
  exists H. split; [exact E|]. intros i j Hi Hj. rewrite (HQ i j Hi). f_equal. apply rsum_ext. intros g Hg. specialize (E g i j Hg Hi Hj). lra.
Qed.

(** Temperature and density depend on z (no shift angle): the groups' equations hold with coefficients averaged over z;
    the result is put together with coefficients that are not averaged. *)
Theorem C95_equations_averaged : forall s zl c o nz m Te Ne Q, snb_run s zl c o nz m Te Ne Q ->
  physical c o Te Ne -> (forall i, is_inside s i -> yJ m i <> 0 /\ ydy m i <> 0) -> (closed s = true -> ts s = 0) ->
  exists H : nat -> plane,
  (forall g i j, (g < ngroups o)%nat -> is_inside s i -> (j < nz)%nat ->
     (rsum nz (fun j => / lam_ee c o Te Ne g i j) / INR nz) * H g i j - Div_par m (fun i => (rsum nz (lam_ei c o Te Ne g i) / INR nz) / 3) (H g) i j
     = - weight_of o g * DivQ_SH c o m Te Ne i j) /\
  (forall i j, is_inside s i -> (j < nz)%nat ->
     Q i j = DivQ_SH c o m Te Ne i j - rsum (ngroups o) (fun g => weight_of o g * DivQ_SH c o m Te Ne i j + H g i j / lam_ee c o Te Ne g i j)).
Proof.
  intros s zl c o nz m Te Ne Q HR HP HM HT.
  destruct (group_eq s zl c o nz m Te Ne Q HR HP HM (or_introl HT)) as (H & N & HE & HQ & _).
  exists H. split; [|intros i j Hi _; apply HQ; exact Hi]. intros g i j Hg Hi Hj. rewrite <- (HE g i j Hg Hi Hj). unfold dc_row. f_equal.
  f_equal. f_equal. apply rsum_ext. intros k _. unfold Rdiv. rewrite Rmult_1_l. reflexivity.
Qed.

Definition wraps_all (s : surface) (m : ydata) (Te Ne : plane) : Prop :=
  (forall j, wraps s (fun i => Te i j)) /\ (forall j, wraps s (fun i => Ne i j)) /\ wraps s (yJ m) /\ wraps s (yg22 m) /\ wraps s (ydy m).

(** The correction only moves heat around: what is returned and the divergence of the Spitzer-Harm flux have the same integral over the surface. *)
Theorem C95_conserves : forall s zl c o nz m Te Ne Q, snb_run s zl c o nz m Te Ne Q ->
  physical c o Te Ne -> (forall i, is_inside s i -> yJ m i <> 0 /\ ydy m i <> 0) -> axisymmetric Te -> axisymmetric Ne ->
  (closed s = true -> wraps_all s m Te Ne) ->
  total s nz m Q = total s nz m (DivQ_SH c o m Te Ne).
Proof.
  intros s zl c o nz m Te Ne Q HR HP HM aT aN HW.
  destruct (group_eq s zl c o nz m Te Ne Q HR HP HM (or_intror (conj aT aN))) as (H & N & _ & HQ & HC).
  assert (AE : forall g i j, dc_row nz (fun j => 1 / lam_ee c o Te Ne g i j) = 1 / lam_ee c o Te Ne g i j).
  { intros g i j. apply (dc_axi nz (fun i j => 1 / lam_ee c o Te Ne g i j)); auto. intros i' j'. unfold lam_ee. rewrite (aT i' j'), (aN i' j'). reflexivity. }
  set (S0 := DivQ_SH c o m Te Ne) in *.
  set (V := fun (f : plane) g => total s nz m (fun i j => weight_of o g * S0 i j + f i j)).
  assert (LIN : forall n (T : nat -> plane), total s nz m (fun i j => S0 i j - rsum n (fun g => T g i j)) = total s nz m S0 - rsum n (fun g => total s nz m (T g))).
  { intros n T. induction n as [|n IH]; cbn [rsum].
    - rewrite Rminus_0_r. unfold total. apply rsum_ext. intros q _. cbv zeta. apply rsum_ext. intros j _. rewrite Rminus_0_r. reflexivity.
    - transitivity (total s nz m (fun i j => S0 i j - rsum n (fun g => T g i j)) - total s nz m (T n)); [|rewrite IH; ring].
      unfold total. cbv zeta. rewrite <- rsum_minus. apply rsum_ext. intros q _. rewrite <- rsum_minus. apply rsum_ext. intros j _. ring. }
  transitivity (total s nz m (fun i j => S0 i j - rsum (ngroups o) (fun g => weight_of o g * S0 i j + H g i j / lam_ee c o Te Ne g i j))).
  { unfold total. cbv zeta. apply rsum_ext. intros q Hq. apply rsum_ext. intros j _. rewrite HQ by (split; lia). reflexivity. }
  rewrite (LIN (ngroups o) (fun g i j => weight_of o g * S0 i j + H g i j / lam_ee c o Te Ne g i j)).
  rewrite (rsum_0 (ngroups o)); [ring|]. intros g Hg. specialize (HC g HW Hg).
  transitivity (total s nz m (fun i j => dc_row nz (fun j => 1 / lam_ee c o Te Ne g i j) * H g i j) - total s nz m (fun i j => - weight_of o g * S0 i j)); [|lra].
  unfold total. cbv zeta. rewrite <- rsum_minus. apply rsum_ext. intros q _. rewrite <- rsum_minus. apply rsum_ext. intros j _. rewrite (AE g (first s + q)%nat j). unfold Rdiv. ring.
Qed.
(** On a closed surface that integral is zero. *)
Theorem C95_conserves_closed : forall s zl c o nz m Te Ne Q, snb_run s zl c o nz m Te Ne Q ->
  physical c o Te Ne -> (forall i, is_inside s i -> yJ m i <> 0 /\ ydy m i <> 0) -> axisymmetric Te -> axisymmetric Ne ->
  closed s = true -> wraps_all s m Te Ne -> total s nz m Q = 0.
Proof.
  intros s zl c o nz m Te Ne Q HR HP HM aT aN Hc HW. rewrite (C95_conserves s zl c o nz m Te Ne Q) by auto.
  destruct (run_groups s zl c o nz m Te Ne Q HR HP HM) as (yl & H & W & _). destruct HW as (a & b & d & e & f). apply sh_total; auto.
Qed.

(** The weights: positive, adding up to the part of the distribution below [beta_max]. *)
Theorem C95_weights : forall o, 0 < beta_max o -> (1 <= ngroups o)%nat ->
  rsum (ngroups o) (weight_of o) = / 24 * RInt (fun b => b ^ 4 * exp (- b)) 0 (beta_max o) /\
  rsum (ngroups o) (weight_of o) = 1 - exp (- beta_max o) * (1 + beta_max o + beta_max o ^ 2 / 2 + beta_max o ^ 3 / 6 + beta_max o ^ 4 / 24) /\
  (forall g, 0 < weight_of o g) /\ rsum (ngroups o) (weight_of o) < 1.
Proof.
  intros o Hb Hn. assert (N : 0 < INR (ngroups o)) by (apply lt_0_INR; lia).
  assert (L : limit_of o (ngroups o) = beta_max o) by (unfold limit_of; field; lra).
  rewrite sum_weights, L. assert (E2 : groupWeight 0 (beta_max o) = 1 - exp (- beta_max o) * (1 + beta_max o + beta_max o ^ 2 / 2 + beta_max o ^ 3 / 6 + beta_max o ^ 4 / 24)).
  { unfold groupWeight, int_beta4_exp. rewrite Ropp_0, exp_0. field. }
  split; [apply weight_int|]. split; [exact E2|]. split.
  - intros g. unfold weight_of. apply Rmult_lt_0_compat; [lra|].
    assert (D : 0 < beta_max o / INR (ngroups o)) by (apply Rdiv_lt_0_compat; auto).
    assert (LT : limit_of o g < limit_of o (S g)) by (unfold limit_of; rewrite S_INR; nra).
    assert (L0 : 0 <= limit_of o g) by (unfold limit_of; apply Rmult_le_pos; [apply pos_INR|lra]).
    apply RInt_gt_0; auto.
    + intros x Hx. apply Rmult_lt_0_compat; [apply pow_lt; lra|apply exp_pos].
    + intros x Hx. apply (ex_derive_continuous (fun b => b ^ 4 * exp (- b))). auto_derive. exact I.
  - rewrite E2. assert (0 < exp (- beta_max o) * (1 + beta_max o + beta_max o ^ 2 / 2 + beta_max o ^ 3 / 6 + beta_max o ^ 4 / 24)); [|lra].
    apply Rmult_lt_0_compat; [apply exp_pos|]. assert (0 < beta_max o ^ 2 /\ 0 < beta_max o ^ 3 /\ 0 < beta_max o ^ 4) by (repeat split; apply pow_lt; auto). lra.
Qed.

(** The conductivity is that of Spitzer and Harm. *)
Theorem C95_spitzer : forall c o Te Ne i j, physical c o Te Ne -> kappa c o Te Ne i j = spitzer c (Zi o) (Te i j) (Ne i j).
Proof. intros c o Te Ne i j HP. apply kappa_eq. exact HP. Qed.

(** On a closed surface the model runs to the end with InvertParDiv as its solver, unless a mean free path is longer than
    10^10. *)
Theorem C95_runs : forall s zl c o nz m Te Ne (ord1 ord2 : nat -> list nat),
  well_formed s -> closed s = true -> (2 <= my s)%nat -> (1 <= nz)%nat -> zl <> 0 ->
  (forall p, (p < np s)%nat -> arrival_order (np s) p (ord1 p)) -> (forall p, (p < np s)%nat -> arrival_order (np s) p (ord2 p)) ->
  physical c o Te Ne -> (forall i, (first s - 1 <= i <= past s)%nat -> 0 < yJ m i /\ 0 < yg22 m i /\ 0 < ydy m i) ->
  (forall g i j, (g < ngroups o)%nat -> is_inside s i -> (j < nz)%nat -> lam_ee c o Te Ne g i j <= 10 ^ 10) ->
  exists Q, snb_run s zl c o nz m Te Ne Q.
Proof.
  intros s zl c o nz m Te Ne ord1 ord2 W Hc Hm Hn Hz O1 O2 HP HM HL.
  apply (runs s nz zl exold ord1 ord2 exmem W Hc Hm Hn Hz O1 O2 c o m (YLine 0 0 false false false) Te Ne HP HM HL).
Qed.

(** ** A case: four points on a closed surface, over two processors, four points in z; the temperature alternates between 1 and 2. *)
Definition exC : consts := Consts 1 1 1.
Definition exSnb : snb := Snb 1 2 2 2.
Definition exTe : plane := fun i _ => if Nat.even i then 1 else 2.
Definition exNe : plane := fun _ _ => 10 ^ 20.
Definition exMet : ydata := YData (fun _ => 0) (fun _ => 0) (fun _ => 0) (fun _ => 0) (fun _ => 0) (fun _ => 1) (fun _ => 1) (fun _ => 0) (fun _ => 1).
Lemma ex_T : forall i j, 1 <= exTe i j <= 2.
Proof. intros. unfold exTe. destruct (Nat.even i); lra. Qed.
Lemma ex_lnl : forall i j, 6.6 <= ln_lambda (exTe i j) (exNe i j).
Proof.
  intros i j. unfold ln_lambda, exNe. assert (0 < 10 ^ 20) by (apply pow_lt; lra). replace (10 ^ 20 / 10 ^ 20) with 1 by (field; lra). rewrite ln_1.
  pose proof (ex_T i j). assert (0 <= ln (exTe i j)); [|lra]. rewrite <- ln_1. destruct (Req_dec 1 (exTe i j)) as [<-|]; [lra|]. left. apply ln_increasing; lra.
Qed.
Lemma ex_physical : physical exC exSnb exTe exNe.
Proof.
  unfold physical. cbn [exC exSnb qe Me e0 Zi rscale beta_max ngroups]. repeat (split; [lra || lia|]). intros i j. pose proof (ex_T i j). pose proof (ex_lnl i j).
  split; [lra|]. split; [|lra]. unfold exNe. apply pow_lt. lra.
Qed.
Lemma ex_short : forall g i j, (g < 2)%nat -> lam_ee exC exSnb exTe exNe g i j <= 10 ^ 10.
Proof.
  intros g i j Hg. unfold lam_ee, limit_of, mfp. cbn [exC exSnb qe Me e0 Zi rscale beta_max ngroups]. unfold exNe. pose proof (ex_T i j) as HT. pose proof (ex_lnl i j) as HL. unfold exNe in HL.
  set (L := ln_lambda _ _) in *. set (T := exTe i j) in *. clearbody L T.
  assert (P : 0 < 4 * PI <= 16) by (pose proof PI_4; pose proof PI_RGT_0; lra).
  assert (L2 : INR (S g) * (2 / INR 2) <= 2). { replace (INR 2) with 2 by (cbn [INR]; ring). assert (INR (S g) <= 2) by (replace 2 with (INR 2) by (cbn [INR]; ring); apply le_INR; lia). lra. }
  assert (L1 : 0 <= INR (S g) * (2 / INR 2)). { apply Rmult_le_pos; [apply pos_INR|]. replace (INR 2) with 2 by (cbn [INR]; ring). lra. }
  set (b := INR (S g) * (2 / INR 2)) in *. clearbody b.
  assert (T10 : 1 <= 10 ^ 20) by (apply pow_R1_Rle; lra). assert (U10 : 1 <= 10 ^ 10) by (apply pow_R1_Rle; lra). assert (V : 1000 <= 10 ^ 10) by (replace (10 ^ 10) with (1000 * 10 ^ 7) by ring; assert (1 <= 10 ^ 7) by (apply pow_R1_Rle; lra); lra).
  set (n := 10 ^ 20) in *. set (q := 10 ^ 10) in *. clearbody n q.
  assert (D : / 16 <= (1 ^ 2 / (1 * 1)) ^ 2 / (4 * PI) * n * L).
  { replace ((1 ^ 2 / (1 * 1)) ^ 2 / (4 * PI)) with (/ (4 * PI)) by (field; apply PI_neq0).
    assert (/ 16 <= / (4 * PI)) by (apply Rinv_le_contravar; lra). assert (1 <= n * L) by nra. rewrite Rmult_assoc. assert (0 < / 16) by lra. set (x := / (4 * PI)) in *. clearbody x. nra. }
  set (d := _ * n * L) in *. clearbody d.
  assert (/ d <= 16) by (rewrite <- (Rinv_inv 16); apply Rinv_le_contravar; lra). assert (0 < / d) by (apply Rinv_0_lt_compat; lra).
  assert (X : 0 <= (2 * 1 * T / 1) ^ 2 <= 16) by (replace (2 * 1 * T / 1) with (2 * T) by field; nra).
  assert (B : 0 <= b ^ 2 <= 4) by nra. unfold Rdiv at 1 2. set (x := (2 * 1 * T / 1) ^ 2) in *. set (bb := b ^ 2) in *. set (r := / d) in *. clearbody x bb r.
  assert (0 <= x * r <= 256) by nra. set (y := x * r) in *. clearbody y. nra.
Qed.
Example C95_case : exists Q, snb_run exS 1 exC exSnb 4 exMet exTe exNe Q /\ physical exC exSnb exTe exNe /\ axisymmetric exTe /\ axisymmetric exNe /\
  wraps_all exS exMet exTe exNe /\ total exS 4 exMet Q = 0 /\ DivQ_SH exC exSnb exMet exTe exNe 1 0 <> 0.
Proof.
  assert (PH := ex_physical).
  destruct (C95_runs exS 1 exC exSnb 4 exMet exTe exNe exOrd exOrd exS_ok eq_refl (le_n 2) ltac:(lia) ltac:(lra) exOrd_ok exOrd_ok PH) as (Q & HQ).
  { intros i _. cbn [exMet yJ yg22 ydy]. lra. }
  { intros g i j Hg _ _. apply ex_short. exact Hg. }
  assert (WA : wraps_all exS exMet exTe exNe) by (repeat split).
  exists Q. split; [exact HQ|]. split; [exact PH|]. split; [intros i j; reflexivity|]. split; [intros i j; reflexivity|]. split; [exact WA|]. split.
  - apply (C95_conserves_closed exS 1 exC exSnb 4 exMet exTe exNe Q HQ PH); auto; try (intros i j; reflexivity). intros i _. cbn [exMet yJ ydy]. lra.
  - unfold DivQ_SH, Div_par, face_flux, half. cbn [exMet yJ yg22 ydy exSnb Zi Nat.sub Nat.add].
    set (k0 := spitzer exC 1 (exTe 0%nat 0%nat) _). set (k1 := spitzer exC 1 (exTe 1%nat 0%nat) _). set (k2 := spitzer exC 1 (exTe 2%nat 0%nat) _).
    assert (SP : forall i, 0 < spitzer exC 1 (exTe i 0%nat) (exNe i 0%nat)).
    { intros i. unfold spitzer. cbn [exC qe Me e0]. pose proof (ex_T i 0) as HT. pose proof (ex_lnl i 0) as HL. pose proof PI_RGT_0.
      apply Rdiv_lt_0_compat; [|apply Rmult_lt_0_compat; [|lra]].
      - apply Rmult_lt_0_compat; [|apply pow_lt, sqrt_lt_R0; lra]. pose proof (sqrt_lt_R0 PI H). lra.
      - apply Rdiv_lt_0_compat; [apply pow_lt; lra|lra]. }
    pose proof (SP 0%nat) as S0. pose proof (SP 1%nat) as S1. pose proof (SP 2%nat) as S2. fold k0 in S0. fold k1 in S1. fold k2 in S2. clearbody k0 k1 k2.
    unfold exTe. cbn [Nat.even]. lra.
Qed.

Print Assumptions C95_equations.
Print Assumptions C95_equations_averaged.
Print Assumptions C95_conserves.
Print Assumptions C95_conserves_closed.
Print Assumptions C95_weights.
Print Assumptions C95_spitzer.
Print Assumptions C95_runs.
