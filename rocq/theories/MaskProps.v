(** Radial sources, sinks and masks (C97). *)
From Coq Require Import Arith Bool ZArith Reals Lia Lra.
From Verif Require Import Base LaplaceModel MaskModel MaskSpec MaskProofs.
Local Open Scope R_scope.

(** Every processor holds its piece of one function of the position in the whole grid times the field, guard cells
    included: the result does not depend on the number of processors.  (With a periodic x direction: in the domain.) *)
Theorem C97_global : forall l sym per f F, (forall p ix k, cell l p ix -> f p ix k = spread l F p ix k) ->
  forall p ix k, cell l p ix -> per = false \/ in_domain l p ix ->
  let i := (p * mx l + ix)%nat in let x := X l sym i in
  (forall W L, W <> 0 ->
    source_tanhx l sym per W L p ix k = step x L W /\
    source_expx2 l sym per W L p ix k = exp (- ((x - L) / W) ^ 2) /\
    sink_tanhx l sym per f W L p ix k = step (1 - x) L W * F i k /\
    sink_tanhxr l sym per f W L p ix k = step (1 - x) L W * F i k /\
    sink_tanhxl l sym per f W L p ix k = step x L W * F i k) /\
  mask_x l sym per f p ix k = (1 - tanh (x / 40) * tanh ((1 - x) / 40)) * F i k /\
  buff_x l sym per f p ix k = (exp (- (x / (1/20)) ^ 2) + exp (- ((1 - x) / (1/20)) ^ 2)) * F i k.
Proof.
  intros l sym per f F Hf p ix k HC HD i x.
  assert (K : forall (h : nat -> nat -> R) G, (forall p ix k, cell l p ix -> G p ix k = h (p * mx l + ix)%nat k) -> communicate l per G p ix k = h i k)
    by (intros h G E; exact (comm_spread l per G h p ix k E HC HD)).
  split; [intros W L HW; repeat split|split].
  - apply (K (fun i k => step (X l sym i) L W)). intros p' ix' k' _. cbv zeta. rewrite GlobalX_eq, TanH_tanh. unfold step. lra.
  - apply (K (fun i k => exp (- ((X l sym i - L) / W) ^ 2))). intros p' ix' k' _. cbv zeta. rewrite GlobalX_eq. f_equal. field. exact HW.
  - apply (K (fun i k => step (1 - X l sym i) L W * F i k)). intros p' ix' k' H. cbv zeta. rewrite GlobalX_eq, TanH_tanh, Hf by exact H. unfold step, spread. lra.
  - apply (K (fun i k => step (1 - X l sym i) L W * F i k)). intros p' ix' k' H. cbv zeta. rewrite GlobalX_eq, TanH_tanh, Hf by exact H. unfold step, spread. lra.
  - apply (K (fun i k => step (X l sym i) L W * F i k)). intros p' ix' k' H. cbv zeta. rewrite GlobalX_eq, TanH_tanh, Hf by exact H. unfold step, spread. lra.
  - apply (K (fun i k => (1 - tanh (X l sym i / 40) * tanh ((1 - X l sym i) / 40)) * F i k)). intros p' ix' k' H. cbv zeta. rewrite GlobalX_eq, !TanH_tanh, Hf by exact H. unfold spread. lra.
  - apply (K (fun i k => (exp (- (X l sym i / (1/20)) ^ 2) + exp (- ((1 - X l sym i) / (1/20)) ^ 2)) * F i k)). intros p' ix' k' H. cbv zeta. rewrite GlobalX_eq, Hf by exact H.
    unfold spread. rewrite !Rmult_1_l. f_equal. replace 0.05 with (1 / 20) by lra. f_equal; f_equal; field.
Qed.

(** The step used by source_tanhx, sink_tanhx, sink_tanhxl and sink_tanhxr: between 0 and 1, 1/2 at L, falling, and
    within exp(-2 d) of 1 and 0 at the distance of d widths. *)
Theorem C97_step : forall L W, 0 < W ->
  (forall x, 0 < step x L W < 1) /\ step L L W = 1 / 2 /\ (forall x x', x < x' -> step x' L W < step x L W) /\
  (forall x d, x <= L - d * W -> 1 - exp (- (2 * d)) <= step x L W) /\ (forall x d, L + d * W <= x -> step x L W <= exp (- (2 * d))).
Proof.
  intros L W HW. split; [intros x; apply step_range|]. split.
  { unfold step. replace ((L - L) / W) with 0 by (unfold Rdiv; ring). rewrite tanh_0. lra. }
  split; [intros x x'; apply step_decr; exact HW|]. split; intros x d H; [apply step_head|apply step_tail]; assumption.
Qed.

(** The positions are those of the manual with symmetricGlobalX: 0 and 1 at the ends of the domain, half way between
    cells, and the masks at the right end are the mirror images of those at the left end. *)
Theorem C97_positions : forall l, (0 < np l * mx l)%nat -> forall i, (i < np l * mx l + 2 * g l)%nat ->
  pos l (mirror l i) = 1 - pos l i /\ (forall p ix, i = (p * mx l + ix)%nat -> (in_domain l p ix <-> 0 < pos l i < 1)).
Proof.
  intros l HM i Hi. assert (P : 0 < INR (np l * mx l)) by (apply lt_0_INR; exact HM). split.
  - unfold pos, mirror. rewrite !minus_INR by lia. rewrite plus_INR, (mult_INR 2 (g l)). replace (INR 2) with 2 by (cbn; lra). change (INR 1) with 1. field. lra.
  - intros p ix E. unfold in_domain. rewrite <- E. unfold pos. split.
    + intros (A & B). apply le_INR in A. apply lt_INR in B. rewrite plus_INR in B.
      assert (B' : (i + 1 <= g l + np l * mx l)%nat) by (rewrite <- plus_INR in B; apply INR_lt in B; lia).
      apply le_INR in B'. rewrite !plus_INR in B'. change (INR 1) with 1 in B'.
      split; [apply Rdiv_lt_0_compat; lra|]. apply Rmult_lt_reg_r with (INR (np l * mx l)); [lra|].
      unfold Rdiv. rewrite Rmult_assoc, Rinv_l by lra. lra.
    + intros (A & B). assert (A' : 0 < INR i + 1 / 2 - INR (g l)).
      { apply Rmult_lt_reg_r with (/ INR (np l * mx l)); [apply Rinv_0_lt_compat; lra|]. rewrite Rmult_0_l. exact A. }
      assert (B' : INR i + 1 / 2 - INR (g l) < INR (np l * mx l)).
      { apply Rmult_lt_reg_r with (/ INR (np l * mx l)); [apply Rinv_0_lt_compat; lra|]. rewrite Rinv_r by lra. exact B. }
      split.
      * apply Nat.nlt_ge. intros C. assert (D : (i + 1 <= g l)%nat) by lia. apply le_INR in D. rewrite plus_INR in D. change (INR 1) with 1 in D. lra.
      * apply INR_lt. rewrite plus_INR. lra.
Qed.
Theorem C97_mirror : forall l per W L, (0 < np l * mx l)%nat -> W <> 0 -> forall p ix p' ix' k,
  cell l p ix -> cell l p' ix' -> per = false \/ in_domain l p ix /\ in_domain l p' ix' -> (p' * mx l + ix' = mirror l (p * mx l + ix))%nat ->
  forall f f' F, (forall p ix k, cell l p ix -> f p ix k = spread l F p ix k) ->
    (forall p ix k, cell l p ix -> f' p ix k = spread l (fun i k => F (mirror l i) k) p ix k) ->
  sink_tanhxr l true per f W L p ix k = sink_tanhxl l true per f' W L p' ix' k /\
  mask_x l true per f p ix k = mask_x l true per f' p' ix' k /\ buff_x l true per f p ix k = buff_x l true per f' p' ix' k.
Proof.
  intros l per W L HM HW p ix p' ix' k C C' D E f f' F Hf Hf'.
  assert (Hi : (p * mx l + ix < np l * mx l + 2 * g l)%nat) by (destruct C; nia).
  assert (D1 : per = false \/ in_domain l p ix) by tauto. assert (D2 : per = false \/ in_domain l p' ix') by tauto.
  destruct (C97_global l true per f F Hf p ix k C D1) as (A1 & A2 & A3).
  destruct (C97_global l true per f' (fun i k => F (mirror l i) k) Hf' p' ix' k C' D2) as (B1 & B2 & B3).
  destruct (A1 W L HW) as (_ & _ & _ & A4 & _). destruct (B1 W L HW) as (_ & _ & _ & _ & B4). cbv beta in *.
  assert (M : mirror l (p' * mx l + ix') = (p * mx l + ix)%nat) by (rewrite E; unfold mirror in *; lia).
  assert (PX : X l true (p' * mx l + ix') = 1 - X l true (p * mx l + ix)) by (rewrite E; apply C97_positions; assumption).
  rewrite A4, B4, A2, B2, A3, B3, M, PX. replace (1 - (1 - X l true (p * mx l + ix))) with (X l true (p * mx l + ix)) by ring.
  repeat split; ring.
Qed.
(** With symmetricGlobalX = false they are not, on any grid. *)
Theorem C97_mirror_refuted : forall l, (0 < np l * mx l)%nat -> (0 < g l)%nat -> forall W L, 0 < W -> forall i, (i < np l * mx l + 2 * g l)%nat ->
  step (1 - X l false i) L W <> step (X l false (mirror l i)) L W.
Proof.
  intros l HM Hg W L HW i Hi E. assert (P : 0 < INR (np l * mx l)) by (apply lt_0_INR; exact HM).
  assert (H : 1 - X l false i < X l false (mirror l i)).
  { cbn [X]. unfold pos_asym, mirror. rewrite !minus_INR by lia. rewrite plus_INR, (mult_INR 2 (g l)). replace (INR 2) with 2 by (cbn; lra). change (INR 1) with 1.
    assert (G : 1 <= INR (g l)) by (change 1 with (INR 1); apply le_INR; lia). set (M := INR (np l * mx l)) in *. apply Rmult_lt_reg_r with M; [lra|].
    replace ((1 - INR i / M) * M) with (M - INR i) by (field; lra). replace ((M + 2 * INR (g l) - 1 - INR i) / M * M) with (M + 2 * INR (g l) - 1 - INR i) by (field; lra). lra. }
  pose proof (step_decr _ _ L W HW H). lra.
Qed.

(** mask_x is not a mask: in the whole domain it changes the field by less than one part in a thousand. *)
Theorem C97_mask_x_refuted : forall l per f F, (0 < np l * mx l)%nat -> (forall p ix k, cell l p ix -> f p ix k = spread l F p ix k) ->
  forall p ix k, cell l p ix -> in_domain l p ix -> Rabs (mask_x l true per f p ix k - f p ix k) <= Rabs (f p ix k) / 1000.
Proof.
  intros l per f F HM Hf p ix k C D. destruct (C97_global l true per f F Hf p ix k C (or_intror D)) as (_ & A & _). rewrite A, Hf by exact C. unfold spread.
  assert (Hi : (p * mx l + ix < np l * mx l + 2 * g l)%nat) by (unfold in_domain in D; lia).
  destruct (C97_positions l HM _ Hi) as (_ & HX). apply (HX p ix eq_refl) in D. cbn [X]. set (x := pos l (p * mx l + ix)) in *.
  pose proof (tanh_ge0 (x / 40) ltac:(lra)). pose proof (tanh_ge0 ((1 - x) / 40) ltac:(lra)).
  pose proof (tanh_le (x / 40) ltac:(lra)). pose proof (tanh_le ((1 - x) / 40) ltac:(lra)).
  set (a := tanh (x / 40)) in *. set (b := tanh ((1 - x) / 40)) in *. set (v := F (p * mx l + ix)%nat k).
  replace ((1 - a * b) * v - v) with (- (a * b) * v) by ring. rewrite Rabs_mult, Rabs_Ropp, (Rabs_pos_eq (a * b)) by (apply Rmult_le_pos; lra).
  assert (a * b <= 1 / 1000).
  { apply Rle_trans with (2 * (x / 40) * (2 * ((1 - x) / 40))); [apply Rmult_le_compat; lra|]. nra. }
  pose proof (Rabs_pos v). nra.
Qed.

(** buff_x keeps the field near the ends (at x = 0 and 1: all of it) and removes it in the middle. *)
Theorem C97_buff_x : forall l per f F, (0 < np l * mx l)%nat -> (forall p ix k, cell l p ix -> f p ix k = spread l F p ix k) ->
  forall p ix k, cell l p ix -> in_domain l p ix ->
  (forall e, 0 <= e -> pos l (p * mx l + ix) <= e \/ 1 - e <= pos l (p * mx l + ix) -> exp (- (20 * e) ^ 2) * Rabs (f p ix k) <= Rabs (buff_x l true per f p ix k)) /\
  (1 / 4 <= pos l (p * mx l + ix) <= 3 / 4 -> Rabs (buff_x l true per f p ix k) <= 2 * exp (- 25) * Rabs (f p ix k)).
Proof.
  intros l per f F HM Hf p ix k C D. destruct (C97_global l true per f F Hf p ix k C (or_intror D)) as (_ & _ & A). rewrite A, Hf by exact C. unfold spread.
  assert (Hi : (p * mx l + ix < np l * mx l + 2 * g l)%nat) by (unfold in_domain in D; lia).
  destruct (C97_positions l HM _ Hi) as (_ & HX). apply (HX p ix eq_refl) in D. cbn [X]. set (x := pos l (p * mx l + ix)) in *.
  set (v := F (p * mx l + ix)%nat k). pose proof (exp_pos (- (x / (1/20)) ^ 2)) as P1. pose proof (exp_pos (- ((1 - x) / (1/20)) ^ 2)) as P2.
  rewrite Rabs_mult. rewrite (Rabs_pos_eq (_ + _)) by lra. pose proof (Rabs_pos v) as V.
  assert (Mn : forall a b, a <= b -> exp a <= exp b) by (intros a b [H| ->]; [left; apply exp_increasing; exact H|lra]).
  split.
  - intros e He [H|H]; apply Rmult_le_compat_r; try exact V.
    + assert (exp (- (20 * e) ^ 2) <= exp (- (x / (1/20)) ^ 2)) by (apply Mn; replace (x / (1/20)) with (20 * x) by field; nra). lra.
    + assert (exp (- (20 * e) ^ 2) <= exp (- ((1 - x) / (1/20)) ^ 2)) by (apply Mn; replace ((1 - x) / (1/20)) with (20 * (1 - x)) by field; nra). lra.
  - intros (H1 & H2). apply Rmult_le_compat_r; [exact V|].
    assert (exp (- (x / (1/20)) ^ 2) <= exp (- 25)) by (apply Mn; replace (x / (1/20)) with (20 * x) by field; nra).
    assert (exp (- ((1 - x) / (1/20)) ^ 2) <= exp (- 25)) by (apply Mn; replace ((1 - x) / (1/20)) with (20 * (1 - x)) by field; nra). lra.
Qed.

(** TanH with overflow (numbers up to [big]): right as long as exp |a| is a number, and not a number otherwise, where the
    right answer is 1 or -1. *)
Theorem C97_tanh : forall big a, (exp (Rabs a) + 1 <= big -> TanH_fl big a = Fin (tanh a)).
Proof. exact TanH_fl_ok. Qed.
Theorem C97_tanh_refuted : forall big a, 1 <= big -> big < exp (Rabs a) -> TanH_fl big a = NaN.
Proof. intros big a B H. exact (TanH_fl_nan big a H B). Qed.
(** For double precision, narrow steps do that: a width of 1/2200 in the middle of a grid. *)
Example C97_case : let l := Layout 1 1 2 in let a := (GlobalX l true 0 2 - 0) / (1 / 2200) in
  TanH_fl (2 ^ 1024) a = NaN /\ cell l 0 2 /\ in_domain l 0 2 /\ source_tanhx l true false (1 / 2200) 0 0%nat 2%nat 0%nat <= exp (- 2200).
Proof.
  intros l a. assert (E : GlobalX l true 0 2 = 1 / 2) by (unfold GlobalX, l; cbn; lra).
  assert (C : cell l 0 2) by (unfold cell, l; cbn; lia). assert (D : in_domain l 0 2) by (unfold in_domain, l; cbn; lia). split; [|split; [exact C|split; [exact D|]]].
  - unfold a. rewrite E. replace ((1 / 2 - 0) / (1 / 2200)) with 1100 by field. apply TanH_fl_nan.
    + rewrite Rabs_pos_eq by lra. apply Rlt_le_trans with (2 ^ 1100).
      * apply Rlt_pow; [lra|lia].
      * pose proof (exp_pow2 1100) as H. replace (INR 1100) with 1100 in H by (rewrite INR_IZR_INZ; f_equal). exact H.
    + apply pow_R1_Rle. lra.
  - destruct (C97_global l true false (fun _ _ _ => 0) (fun _ _ => 0) (fun _ _ _ _ => eq_refl) 0%nat 2%nat 0%nat C (or_introl eq_refl)) as (A & _).
    destruct (A (1 / 2200) 0 ltac:(lra)) as (-> & _). replace 2200 with (2 * 1100) at 2 by lra. apply step_tail; [lra|].
    change (X l true (0 * mx l + 2)) with (pos l 2). unfold pos, l. cbn. lra.
Qed.

(** Two processors, eight cells and two guard cells at each end; a field and its mirror image. *)
Example C97_case_mirror : let l := Layout 2 4 2 in let F := fun i (_ : nat) => INR i in
  cell l 0 2 /\ cell l 1 5 /\ in_domain l 0 2 /\ in_domain l 1 5 /\ (1 * mx l + 5 = mirror l (0 * mx l + 2))%nat /\
  sink_tanhxr l true true (spread l F) 1 0 0%nat 2%nat 0%nat = sink_tanhxl l true true (spread l (fun i k => F (mirror l i) k)) 1 0 1%nat 5%nat 0%nat.
Proof.
  intros l F. assert (C : cell l 0 2) by (unfold cell, l; cbn; lia). assert (C' : cell l 1 5) by (unfold cell, l; cbn; lia).
  assert (D : in_domain l 0 2) by (unfold in_domain, l; cbn; lia). assert (D' : in_domain l 1 5) by (unfold in_domain, l; cbn; lia).
  repeat (split; [assumption || reflexivity|]).
  apply (C97_mirror l true 1 0 ltac:(cbn; lia) ltac:(lra) 0%nat 2%nat 1%nat 5%nat 0%nat C C' (or_intror (conj D D')) eq_refl _ _ F); reflexivity.
Qed.

Print Assumptions C97_global.
Print Assumptions C97_step.
Print Assumptions C97_positions.
Print Assumptions C97_mirror.
Print Assumptions C97_mirror_refuted.
Print Assumptions C97_mask_x_refuted.
Print Assumptions C97_buff_x.
Print Assumptions C97_tanh.
Print Assumptions C97_tanh_refuted.
