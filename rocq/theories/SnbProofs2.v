(** The SNB model: the equations of the groups, conservation. *)
From Coq Require Import List Arith Bool ZArith Reals Lia Lra.
From Coquelicot Require Import Coquelicot.
From Verif Require Import Base FftModel FftSpec FftProofs FvModel ParInvModel ParInvSpec ParInvProps SnbModel SnbSpec SnbProofs.
Import ListNotations.
Local Open Scope R_scope.

Lemma const_alternating : forall x h, (forall j, x j = x 0%nat) -> alternating (2 * h) x = 0.
Proof.
  intros x h Hx. induction h as [|h IH]; [reflexivity|]. replace (2 * S h)%nat with (S (S (2 * h))) by lia. cbn [alternating]. rewrite IH.
  assert (E : Nat.even (2 * h) = true) by (apply Nat.even_spec; exists h; reflexivity).
  rewrite Nat.even_succ, <- Nat.negb_even, E. cbn [negb]. rewrite (Hx (2 * h)%nat), (Hx (S (2 * h))). lra.
Qed.
Lemma const_no_nyquist : forall n x, (forall j, x j = x 0%nat) -> no_nyquist n x.
Proof. intros n x Hx Ev. apply Nat.even_spec in Ev as (h & ->). apply const_alternating. exact Hx. Qed.
Lemma dc_axi : forall n (f : plane) i j, (1 <= n)%nat -> axisymmetric f -> dc_row n (f i) = f i j.
Proof.
  intros n f i j Hn Hf. unfold dc_row. rewrite (rsum_ext n (f i) (fun _ => f i j)) by (intros k _; rewrite (Hf i k), (Hf i j); reflexivity).
  rewrite rsum_const. assert (INR n <> 0) by (apply not_0_INR; lia). field. auto.
Qed.

Section Run.
Variables (s : surface) (zl : R) (c : consts) (o : snb) (nz : nat) (m : ydata) (Te Ne Q : plane).
Hypothesis HR : snb_run s zl c o nz m Te Ne Q.
Hypothesis HP : physical c o Te Ne.
Hypothesis HM : forall i, is_inside s i -> yJ m i <> 0 /\ ydy m i <> 0.

Lemma run_groups : exists yl (H : nat -> plane), well_formed s /\ (1 <= nz)%nat /\
  (forall g, (g < ngroups o)%nat -> div_solved s nz zl None (problem c o nz m Te Ne g) (rhs c o m yl Te Ne g) (H g)) /\
  forall i j, is_inside s i -> Q i j = DivQ_SH c o m Te Ne i j - rsum (ngroups o) (fun g => weight_of o g * DivQ_SH c o m Te Ne i j + H g i j / lam_ee c o Te Ne g i j).
Proof.
  destruct HR as (yl & inv & Hinv & E). unfold divHeatFlux in E.
  replace 0 with (limit_of o 0) in E by (unfold limit_of; cbn [INR]; ring).
  destruct (groups_spec c o nz m yl Te Ne inv HP _ _ _ _ E) as (H & H1 & H2). cbn [Nat.add] in H1.
  assert (HS : forall g, (g < ngroups o)%nat -> div_solved s nz zl None (problem c o nz m Te Ne g) (rhs c o m yl Te Ne g) (H g)) by (intros g Hg; apply Hinv, H1, Hg).
  exists yl, H. assert (Hn : (1 <= ngroups o)%nat) by (destruct HP as (_ & _ & _ & _ & _ & _ & h & _); exact h).
  destruct (HS 0%nat Hn) as (W & N & _). split; [exact W|]. split; [exact N|]. split; [exact HS|].
  intros i j Hi. rewrite H2. cbn [Nat.add].
  assert (I1 : (1 <= i)%nat).
  { destruct W as (w1 & w2 & w3 & w4). destruct Hi as (i1 & i2). unfold first in i1. destruct (negb (closed s) && ylow s)%bool; lia. }
  destruct (HM i Hi) as (HJ & Hd). rewrite (sh_eq c o Te Ne HP m yl i j I1 HJ Hd). reflexivity.
Qed.

Lemma rhs_row_eq : forall yl g i j, well_formed s -> is_inside s i -> rhs c o m yl Te Ne g i j = - weight_of o g * DivQ_SH c o m Te Ne i j.
Proof.
  intros yl g i j W Hi. unfold rhs. destruct (HM i Hi) as (HJ & Hd). rewrite (sh_eq c o Te Ne HP); auto.
  destruct W as (w1 & w2 & w3 & w4). destruct Hi as (i1 & i2). unfold first in i1. destruct (negb (closed s) && ylow s)%bool; lia.
Qed.

Lemma group_eq : ((closed s = true -> ts s = 0) \/ axisymmetric Te /\ axisymmetric Ne) ->
  exists H : nat -> plane, (1 <= nz)%nat /\
  (forall g i j, (g < ngroups o)%nat -> is_inside s i -> (j < nz)%nat ->
     dc_row nz (fun j => 1 / lam_ee c o Te Ne g i j) * H g i j - Div_par m (fun i => dc_row nz (fun j => lam_ei c o Te Ne g i j) / 3) (H g) i j
     = - weight_of o g * DivQ_SH c o m Te Ne i j) /\
  (forall i j, is_inside s i -> Q i j = DivQ_SH c o m Te Ne i j - rsum (ngroups o) (fun g => weight_of o g * DivQ_SH c o m Te Ne i j + H g i j / lam_ee c o Te Ne g i j)) /\
  (forall g, (closed s = true -> (forall j, wraps s (fun i => Te i j)) /\ (forall j, wraps s (fun i => Ne i j)) /\ wraps s (yJ m) /\ wraps s (yg22 m) /\ wraps s (ydy m)) ->
     (g < ngroups o)%nat -> total s nz m (fun i j => dc_row nz (fun j => 1 / lam_ee c o Te Ne g i j) * H g i j) = total s nz m (fun i j => - weight_of o g * DivQ_SH c o m Te Ne i j)).
Proof.
  intros Hcase. destruct run_groups as (yl & H & W & N & HS & HQ). exists H. split; [exact N|].
  assert (LE : forall g, (fun i j => SQr (limit_of o (S g)) * lambda_ee_Tprime c o Te Ne i j) = lam_ee c o Te Ne g).
  { intros g. apply FunctionalExtensionality.functional_extensionality. intros i. apply FunctionalExtensionality.functional_extensionality. intros j. apply lam_ee_eq. exact HP. }
  assert (LI : forall g, (fun i j => SQr (limit_of o (S g)) * lambda_ei_Tprime c o Te Ne i j) = lam_ei c o Te Ne g).
  { intros g. apply FunctionalExtensionality.functional_extensionality. intros i. apply FunctionalExtensionality.functional_extensionality. intros j. apply lam_ei_eq. exact HP. }
  assert (PA : forall g i, yA (problem c o nz m Te Ne g) i = dc_row nz (fun j => 1 / lam_ee c o Te Ne g i j)).
  { intros g i. rewrite <- LE. reflexivity. }
  assert (PB : forall g i, yB (problem c o nz m Te Ne g) i = - (dc_row nz (fun j => lam_ei c o Te Ne g i j) / 3)).
  { intros g i. rewrite <- LI. unfold problem, with_coefs, dc_row. cbn [yB]. rewrite rsum_scal. unfold Rdiv. ring. }
  split; [|split; [exact HQ|]].
  - intros g i j Hg Hi Hj.
    assert (E : Ldiv (problem c o nz m Te Ne g) (H g) i j = to_row nz zl None i (rhs c o m yl Te Ne g i) j).
    { apply (C89_equation s nz zl None); auto. destruct Hcase as [T|(T & U)].
      - right. split; [reflexivity|exact T].
      - left. intros i' Hi'. apply const_no_nyquist. intros j'. unfold rhs, Div_Q_SH. f_equal. f_equal.
        assert (EL : forall j, line (fun i => kappa c o Te Ne i j) = line (fun i => kappa c o Te Ne i 0%nat)).
        { intros j0. apply FunctionalExtensionality.functional_extensionality. intros z. unfold line. rewrite !kappa_eq by exact HP. rewrite (T _ j0), (U _ j0). reflexivity. }
        assert (ET : forall j, line (fun i => Te i j) = line (fun i => Te i 0%nat)).
        { intros j0. apply FunctionalExtensionality.functional_extensionality. intros z. unfold line. apply T. }
        rewrite EL, ET. reflexivity. }
    cbn [to_row] in E. rewrite rhs_row_eq in E by auto. rewrite <- E. unfold Ldiv. rewrite PA. unfold Rminus. f_equal.
    unfold Div_par, ParInvSpec.flux, face_flux, mean, half. rewrite !PB. unfold problem, with_coefs. cbn [yJ yg22 ydy].
    unfold Rdiv. ring.
  - intros g Hw Hg. pose proof (C89_conserves s nz zl None _ _ _ (HS g Hg)) as K.
    assert (KJ : forall i, is_inside s i -> yJ (problem c o nz m Te Ne g) i <> 0 /\ ydy (problem c o nz m Te Ne g) i <> 0) by exact HM.
    specialize (K KJ). etransitivity; [|etransitivity; [apply K|]].
    + unfold total. apply rsum_ext. intros q Hq. cbv zeta. apply rsum_ext. intros j' Hj'. rewrite PA. unfold problem, with_coefs. cbn [yJ ydy]. reflexivity.
    + intros Hc f Hf. destruct (Hw Hc) as (wT & wN & wJ & wG & wD).
      assert (WB : wraps s (yB (problem c o nz m Te Ne g))).
      { unfold wraps. rewrite !PB. split; (f_equal; f_equal; unfold dc_row; f_equal; apply rsum_ext; intros j' _; unfold lam_ei; destruct (wT j') as (T1 & T2), (wN j') as (N1 & N2)).
        - rewrite T1, N1. reflexivity.
        - rewrite T2, N2. reflexivity. }
      cbn [In] in Hf. destruct Hf as [<-|[<-|[<-|[<-|[]]]]]; [exact WB|exact wJ|exact wG|exact wD].
    + unfold total. apply rsum_ext. intros q Hq. cbv zeta. apply rsum_ext. intros j' Hj'. unfold problem, with_coefs. cbn [yJ ydy].
      f_equal. apply rhs_row_eq; auto. split; lia.
Qed.
End Run.

(** Closed surface: the Spitzer-Harm heat flux only moves heat around. *)
Lemma sh_total : forall s c o nz m Te Ne, well_formed s -> (forall i, is_inside s i -> yJ m i <> 0 /\ ydy m i <> 0) ->
  (forall j, wraps s (fun i => Te i j)) -> (forall j, wraps s (fun i => Ne i j)) -> wraps s (yJ m) -> wraps s (yg22 m) -> wraps s (ydy m) ->
  total s nz m (DivQ_SH c o m Te Ne) = 0.
Proof.
  intros s c o nz m Te Ne W HM wT wN wJ wG wD. unfold total. cbv zeta. rewrite rsum_swap. apply rsum_0. intros j Hj.
  set (q := fun i => face_flux m (fun i => spitzer c (Zi o) (Te i j) (Ne i j)) Te i j).
  assert (F1 : (1 <= first s)%nat) by (destruct W as (w1 & w2 & w3 & w4); unfold first; destruct (negb (closed s) && ylow s)%bool; lia).
  assert (E : forall k, (k < past s - first s)%nat -> yJ m (first s + k)%nat * ydy m (first s + k)%nat * DivQ_SH c o m Te Ne (first s + k) j = q (first s + k - 1)%nat - q (first s + k)%nat).
  { intros k Hk. destruct (HM (first s + k)%nat ltac:(split; lia)) as (HJ & Hd). unfold DivQ_SH, Div_par. fold (q (first s + k)%nat) (q (first s + k - 1)%nat). field. auto. }
  rewrite (rsum_ext _ _ _ E).
  assert (T : forall n, rsum n (fun k => q (first s + k - 1)%nat - q (first s + k)%nat) = q (first s - 1)%nat - q (first s + n - 1)%nat).
  { induction n as [|n IH]; cbn [rsum]; [rewrite Nat.add_0_r; ring|]. rewrite IH. replace (first s + S n - 1)%nat with (first s + n)%nat by lia. ring. }
  rewrite T. destruct W as (w1 & w2 & w3 & w4). replace (first s + (past s - first s) - 1)%nat with (past s - 1)%nat by lia.
  unfold q, face_flux, half. replace (first s - 1 + 1)%nat with (first s) by lia. replace (past s - 1 + 1)%nat with (past s) by lia.
  destruct (wT j) as (T1 & T2), (wN j) as (N1 & N2), wJ as (J1 & J2), wG as (G1 & G2), wD as (D1 & D2).
  rewrite T1, T2, N1, N2, J1, J2, G1, G2, D1, D2. ring.
Qed.
