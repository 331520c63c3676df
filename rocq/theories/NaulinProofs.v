(** Proofs about LaplaceNaulin: sums over the domain, the operator, the invariants of the iteration. *)
From Coq Require Import List Arith Bool ZArith Reals Lia Lra.
From Verif Require Import Base FftModel FftSpec FftProofs FftProofs2 FftProps LaplaceModel LaplaceSpec LaplaceProofs3 LaplaceProps NaulinModel NaulinSpec.
Import ListNotations.
Local Open Scope R_scope.

Lemma in_points : forall m y i j, In (y, i, j) (points m) <-> in_domain m y i j.
Proof.
  intros m y i j. unfold points, in_domain. rewrite in_flat_map. split.
  - intros (y' & Hy & H). apply in_flat_map in H as (i' & Hi & H). apply in_map_iff in H as (j' & E & Hj).
    injection E as -> -> ->. apply in_seq in Hi, Hj. repeat split; auto; lia.
  - intros (Hy & Hi & Hj). exists y. split; [exact Hy|]. apply in_flat_map. exists i. split; [apply in_seq; lia|].
    apply in_map_iff. exists j. split; [reflexivity|apply in_seq; lia].
Qed.

Lemma maxabs_pos : forall m f, 0 <= maxabs m f.
Proof.
  intros m f. unfold maxabs. induction (points m) as [|q l IH]; cbn [fold_right]; [lra|].
  eapply Rle_trans; [exact IH|apply Rmax_r].
Qed.
Lemma maxabs_bound : forall m f, bound m f (maxabs m f).
Proof.
  intros m f y i j H. apply in_points in H. unfold maxabs. revert H. induction (points m) as [|q l IH]; intros H; [destruct H|].
  cbn [fold_right]. destruct H as [->|H]; [apply Rmax_l|]. eapply Rle_trans; [exact (IH H)|apply Rmax_r].
Qed.
Lemma maxabs_le : forall m f e, 0 <= e -> bound m f e -> maxabs m f <= e.
Proof.
  intros m f e He H. assert (H' : forall q, In q (points m) -> Rabs (at_pt f q) <= e).
  { intros ((y, i), j) Hq. apply in_points in Hq. exact (H y i j Hq). }
  clear H. unfold maxabs. induction (points m) as [|q l IH]; cbn [fold_right]; [exact He|].
  apply Rmax_lub; [apply H'; left; reflexivity|]. apply IH. intros q' Hq. apply H'. right. exact Hq.
Qed.

(** The sum over the points is the nested sum. *)
Definition sumf (l : list R) : R := fold_right Rplus 0 l.
Lemma sum_app : forall (f : nat * nat * nat -> R) a b,
  fold_right (fun q s => f q + s) 0 (a ++ b) = fold_right (fun q s => f q + s) 0 a + fold_right (fun q s => f q + s) 0 b.
Proof. intros f a b. induction a as [|q a IH]; cbn [app fold_right]; [ring|]. rewrite IH. ring. Qed.
Lemma sum_flat : forall (f : nat * nat * nat -> R) (h : nat -> list (nat * nat * nat)) l,
  fold_right (fun q s => f q + s) 0 (flat_map h l) = fold_right Rplus 0 (map (fun y => fold_right (fun q s => f q + s) 0 (h y)) l).
Proof. intros f h l. induction l as [|y l IH]; cbn [flat_map map fold_right]; [reflexivity|]. rewrite sum_app, IH. reflexivity. Qed.
Lemma sum_map : forall (f : nat * nat * nat -> R) (h : nat -> nat * nat * nat) l,
  fold_right (fun q s => f q + s) 0 (map h l) = fold_right Rplus 0 (map (fun j => f (h j)) l).
Proof. intros f h l. induction l as [|y l IH]; cbn [map fold_right]; [reflexivity|]. rewrite IH. reflexivity. Qed.
Lemma len_flat : forall (h : nat -> list (nat * nat * nat)) k l, (forall y, length (h y) = k) -> length (flat_map h l) = (length l * k)%nat.
Proof. intros h k l H. induction l as [|y l IH]; cbn [flat_map length]; [reflexivity|]. rewrite app_length, IH, H. lia. Qed.
Lemma len_points : forall m, length (points m) = (length (ys m) * ((np (lay m) * mx (lay m)) * mz m))%nat.
Proof.
  intros m. unfold points. apply len_flat. intros y. rewrite (len_flat _ (mz m)); [rewrite seq_length; reflexivity|].
  intros i. rewrite map_length, seq_length. reflexivity.
Qed.

Lemma rms_is : forall m f, is_rms m f (rms m f).
Proof.
  intros m f. unfold is_rms. split; [apply sqrt_pos|].
  set (S := fold_right Rplus 0 (map _ (ys m))).
  assert (ES : fold_right (fun q a => at_pt f q * at_pt f q + a) 0 (points m) = S).
  { unfold points, S. rewrite (sum_flat (fun q => at_pt f q * at_pt f q)). f_equal. apply map_ext. intros y.
    rewrite (sum_flat (fun q => at_pt f q * at_pt f q)). f_equal. apply map_ext. intros i.
    rewrite (sum_map (fun q => at_pt f q * at_pt f q)). reflexivity. }
  unfold rms. rewrite ES.
  assert (EN : INR (length (ys m)) * INR (np (lay m) * mx (lay m)) * INR (mz m) = INR (length (points m))).
  { rewrite len_points, !mult_INR. ring. }
  rewrite EN. destruct (Nat.eq_dec (length (points m)) 0) as [E|E].
  - rewrite E. cbn [INR]. rewrite Rmult_0_r. rewrite <- ES. apply length_zero_iff_nil in E. rewrite E. reflexivity.
  - assert (HN : 0 < INR (length (points m))) by (apply lt_0_INR; lia).
    assert (HS : 0 <= S).
    { rewrite <- ES. clear. induction (points m) as [|q l IH]; cbn [fold_right]; [lra|]. pose proof (Rle_0_sqr (at_pt f q)) as H. unfold Rsqr in H. lra. }
    rewrite sqrt_sqrt; [field; lra|]. apply Rmult_le_pos; [exact HS|]. apply Rlt_le, Rinv_0_lt_compat, HN.
Qed.

(** * The operator of the direct solver with the right hand side of [calc_b_guess] gives the whole operator *)
Lemma defect : forall m p o U y i j rhsOverD,
  plain_mesh m o -> good_coefs m p -> In y (ys m) -> (j < mz m)%nat ->
  Lop o (direct_data m p y) (mz m) (zlen m) (U y) i j - calc_b_guess m p rhsOverD U y i j
  = operator m p o U y i j / Dcoef p y i j - rhsOverD y i j.
Proof.
  intros m p o U y i j r (HI & Hdx) HG Hy Hj. destruct (HG y i Hy) as (H1 & H2). destruct (H2 j Hj) as (HD & HC). specialize (Hdx y i Hy).
  unfold Lop, operator, calc_b_guess. rewrite HI. cbn [negb]. unfold direct_data. cbn [g11 g33 g13 G1 G3 g_11 g_22 dx Ishear cA cC1 cC2 cD].
  unfold coef_x_AC, coef_x, coef_z, AOverD_AC, AOverD_DC, C1coefTimesD_DC, C2coef_DC, C1TimesD, AOverD, dc, ddx, ddz, D2x, Dx.
  change (dc_row (mz m) (fun j0 : nat => C1coef p y i j0 * Dcoef p y i j0)) with (dc_row (mz m) (fun j0 : nat => C1coef p y i j0 * Dcoef p y i j0)) in H1.
  unfold Dz, D2z, when. cbn [dx g11].
  set (c1 := dc_row (mz m) (fun j0 : nat => C1coef p y i j0 * Dcoef p y i j0)) in *.
  change (dc_row (mz m) ((fun (y0 i0 j0 : nat) => C1coef p y0 i0 j0 * Dcoef p y0 i0 j0) y i)) with c1.
  generalize (dc_row (mz m) ((fun (y0 i0 j0 : nat) => Acoef p y0 i0 j0 / Dcoef p y0 i0 j0) y i)). intros a0.
  generalize (fft_ddz_row (mz m) 0 (U y i) j / (zlen m / INR (mz m))). intros uz.
  generalize (fft_ddz_row (mz m) 0 (U y (i + 1)%nat) j / (zlen m / INR (mz m))). intros uzp.
  generalize (fft_ddz_row (mz m) 0 (U y (i - 1)%nat) j / (zlen m / INR (mz m))). intros uzm.
  generalize (fft_ddz_row (mz m) 0 (C2coef p y i) j / (zlen m / INR (mz m))). intros cz.
  generalize (fft_d2dz2_row (mz m) (U y i) j / (zlen m / INR (mz m) * (zlen m / INR (mz m)))). intros uzz.
  clearbody c1. generalize (dc_row (mz m) (fun j0 : nat => Acoef p y i j0 / Dcoef p y i j0)). intros a1. replace 0.5 with (/ 2) by lra.
  destruct (nonuniform o), (all_terms o); field; repeat split; auto.
Qed.

Lemma lowpass_all : forall m o x, all_modes m o ->
  lowPass_row (mz m) (Z.of_nat (maxmode o)) (negb (zero_DC o)) x = Ok x.
Proof.
  intros m o x (Hz & Hk & _). unfold lowPass_row. rewrite Hz. cbn [negb]. rewrite andb_true_r.
  replace (Z.leb (Z.of_nat (mz m / 2)) (Z.of_nat (maxmode o))) with true; [reflexivity|]. symmetry. apply Z.leb_le. lia.
Qed.

(** * Invariants *)
Section Iter.
Variables (m : mesh) (p : problem) (o : opts).
Variable inv : nat -> field3 -> field3 -> option field3.
Variables (r x0 : field3).

Definition guess (xg : field3) : field3 := if (b_set (inner o) || b_set (outer o))%bool then copy_x_boundaries m xg x0 else xg.
(** The pair came out of a direct solve. *)
Definition came (pr : field3 * field3) : Prop := exists n xg, inv n (fst pr) (guess xg) = Some (snd pr).

Lemma pair_came : forall b xg n pr, calc_b_x_pair m o inv x0 b xg n = Some pr -> came pr /\ fst pr = b.
Proof.
  intros b xg n pr H. unfold calc_b_x_pair in H. fold (guess xg) in H. destruct (inv n b (guess xg)) as [x|] eqn:E; [|discriminate].
  injection H as <-. split; [|reflexivity]. exists n, xg. exact E.
Qed.

Lemma diverging_inv : forall fuel old last pr e u c un n s, came pr -> e = error3D m p r pr ->
  (c <= maxits p)%nat ->
  diverging m p o inv fuel r x0 old last (pr, e, u, c, un, n) = IOk s ->
  exists pr' e' u' c' un' n', s = (pr', e', u', c', un', n') /\ came pr' /\ e' = error3D m p r pr' /\ (c <= c')%nat /\ (c' <= maxits p)%nat /\ e' <= last.
Proof.
  induction fuel as [|fuel IH]; intros old last pr e u c un n s HC HE Hc H; cbn [diverging] in H; destruct (Rlt_dec last e) as [L|L].
  - discriminate.
  - injection H as <-. exists pr, e, u, c, un, n. repeat split; auto. lra.
  - destruct (calc_b_x_pair _ _ _ _ _ _) as [pr'|] eqn:E; [|discriminate]. apply pair_came in E as (HC' & _).
    destruct (maxits p <? S c)%nat eqn:M; [discriminate|]. apply Nat.ltb_ge in M.
    apply (IH _ _ _ _ _ _ _ _ _ HC' eq_refl M) in H as (pr'' & e'' & u'' & c'' & un'' & n'' & -> & A1 & A2 & A3 & A4 & A5).
    exists pr'', e'', u'', c'', un'', n''. repeat split; auto. lia.
  - injection H as <-. exists pr, e, u, c, un, n. repeat split; auto. lra.
Qed.

Lemma diverging_fuel : forall fuel old last pr e u c un n, (maxits p < fuel + c)%nat -> (c <= maxits p)%nat ->
  diverging m p o inv fuel r x0 old last (pr, e, u, c, un, n) <> IFuel.
Proof.
  induction fuel as [|fuel IH]; intros old last pr e u c un n H Hc; cbn [diverging]; destruct (Rlt_dec last e) as [L|L]; try discriminate; [lia|].
  destruct (calc_b_x_pair _ _ _ _ _ _) as [pr'|]; [|discriminate]. destruct (maxits p <? S c)%nat eqn:M; [discriminate|]. apply Nat.ltb_ge in M.
  apply IH; lia.
Qed.

Lemma iterate_result : forall fuel RMS pr old last u c un n x c' un', came pr -> (c <= maxits p)%nat ->
  iterate m p o inv fuel r x0 RMS pr old last u c un n = NOk x c' un' ->
  (c' <= maxits p)%nat /\ exists pr', came pr' /\ snd pr' = x /\ accepted p RMS (error3D m p r pr') = true.
Proof.
  induction fuel as [|fuel IH]; intros RMS pr old last u c un n x c' un' HC Hc H; cbn [iterate] in H;
    destruct (accepted p RMS (error3D m p r pr)) eqn:A.
  - injection H as <- <- <-. split; [exact Hc|]. exists pr. auto.
  - destruct (maxits p <? S c)%nat; discriminate.
  - injection H as <- <- <-. split; [exact Hc|]. exists pr. auto.
  - destruct (maxits p <? S c)%nat eqn:M; [discriminate|]. apply Nat.ltb_ge in M.
    destruct (diverging _ _ _ _ _ _ _ _ _ _) as [s| |] eqn:E; try discriminate.
    apply (diverging_inv _ _ _ _ _ _ _ _ _ _ HC eq_refl M) in E as (pr2 & e2 & u2 & c2 & un2 & n2 & -> & A1 & A2 & A3 & A4 & _).
    destruct (accepted p RMS e2) eqn:B.
    + injection H as <- <- <-. split; [exact A4|]. exists pr2. subst e2. auto.
    + destruct (calc_b_x_pair _ _ _ _ _ _) as [pr3|] eqn:E3; [|discriminate]. apply pair_came in E3 as (HC3 & _).
      apply (IH _ _ _ _ _ _ _ _ _ _ _ HC3 A4 H).
Qed.

Lemma iterate_fuel : forall fuel RMS pr old last u c un n, came pr -> (maxits p < fuel + c)%nat -> (c <= maxits p)%nat ->
  iterate m p o inv fuel r x0 RMS pr old last u c un n <> NFuel.
Proof.
  induction fuel as [|fuel IH]; intros RMS pr old last u c un n HC H Hc; cbn [iterate];
    destruct (accepted p RMS (error3D m p r pr)); try discriminate.
  - lia.
  - destruct (maxits p <? S c)%nat eqn:M; [discriminate|]. apply Nat.ltb_ge in M.
    destruct (diverging _ _ _ _ _ _ _ _ _ _) as [s| |] eqn:E; try discriminate.
    2:{ exfalso. revert E. apply diverging_fuel; lia. }
    apply (diverging_inv _ _ _ _ _ _ _ _ _ _ HC eq_refl M) in E as (pr2 & e2 & u2 & c2 & un2 & n2 & -> & A1 & A2 & A3 & A4 & _).
    destruct (accepted p RMS e2); [discriminate|].
    destruct (calc_b_x_pair _ _ _ _ _ _) as [pr3|] eqn:E3; [|discriminate]. apply pair_came in E3 as (HC3 & _).
    apply IH; auto; lia.
Qed.
End Iter.

Lemma naulin_result : forall m p o inv rhs x0 x c un, naulin m p o inv rhs x0 = NOk x c un ->
  (c <= maxits p)%nat /\ exists b, came m o inv x0 (b, x) /\
    accepted p (rms m (fun y i j => rhs y i j / Dcoef p y i j)) (error3D m p (fun y i j => rhs y i j / Dcoef p y i j) (b, x)) = true.
Proof.
  intros m p o inv rhs x0 x c un H. unfold naulin in H. destruct (calc_b_x_pair _ _ _ _ _ _) as [pr|] eqn:E; [|discriminate].
  apply pair_came in E as (HC & _). apply iterate_result in H as (H1 & (b, x') & H2 & H3 & H4); auto; [|lia].
  cbn [snd] in H3. subst x'. split; [exact H1|]. exists b. auto.
Qed.

Lemma naulin_not_fuel : forall m p o inv rhs x0, naulin m p o inv rhs x0 <> NFuel.
Proof.
  intros m p o inv rhs x0. unfold naulin. destruct (calc_b_x_pair _ _ _ _ _ _) as [pr|] eqn:E; [|discriminate].
  apply pair_came in E as (HC & _). apply iterate_fuel; auto; lia.
Qed.

Lemma interior_of : forall l o i, well_laid l -> (g l <= i < g l + np l * mx l)%nat -> is_interior l o i.
Proof.
  intros l o i (H1 & H2 & H3) Hi. destruct (bndry_ge1 o (g l) H3) as (B1 & B2). unfold is_interior, NX. lia.
Qed.
Lemma naulin_equation : forall m p o inv rhs x0 x c un,
  naulin m p o inv rhs x0 = NOk x c un -> direct m p o inv -> all_modes m o -> plain_mesh m o -> good_coefs m p ->
  exists e r, bound m (fun y i j => (operator m p o x y i j - rhs y i j) / Dcoef p y i j) e /\
    is_rms m (fun y i j => rhs y i j / Dcoef p y i j) r /\ (e < atol p \/ e < rtol p * r).
Proof.
  intros m p o inv rhs x0 x c un H HD HM HP HG. apply naulin_result in H as (_ & b & (n & xg & Hi) & HA).
  cbn [fst snd] in Hi. set (rD := fun y i j => rhs y i j / Dcoef p y i j) in *.
  exists (error3D m p rD (b, x)), (rms m rD). split; [|split; [apply rms_is|]].
  - intros y i j Hp. pose proof Hp as (Hy & Hii & Hj). pose proof (HD n b _ x Hi y Hy) as HS.
    assert (Hint : is_interior (lay m) o i) by (apply interior_of; [exact (proj1 HS)|exact Hii]).
    pose proof HM as (_ & _ & HN).
    assert (EL : Lop o (direct_data m p y) (mz m) (zlen m) (x y) i j = b y i j).
    { apply (interior_equation _ _ _ _ _ _ _ _ HS); auto.
      - apply HP. exact Hy.
      - apply (proj1 (HG y i Hy)).
      - destruct HN as [HN|HN]; [left; exact HN|right; exact (HN y i Hy)].
      - apply lowpass_all. exact HM. }
    pose proof (defect m p o x y i j rD HP HG Hy Hj) as ED. rewrite EL in ED.
    destruct (proj2 (HG y i Hy) j Hj) as (HDn & _).
    assert (ET : (operator m p o x y i j - rhs y i j) / Dcoef p y i j = b y i j - calc_b_guess m p rD x y i j).
    { rewrite ED. unfold rD. field. exact HDn. }
    rewrite ET. unfold error3D. cbn [fst snd]. exact (maxabs_bound m (fun y i j => b y i j - calc_b_guess m p rD x y i j) y i j Hp).
  - unfold accepted in HA. destruct (Rlt_dec (error3D m p rD (b, x)) (atol p)) as [L|L]; [left; exact L|].
    rewrite orb_false_r in HA. destruct (Rlt_dec 0 (rms m rD)) as [P|P]; [|discriminate].
    destruct (Rlt_dec (error3D m p rD (b, x) / rms m rD) (rtol p)) as [Q|Q]; [|discriminate].
    right. apply (Rmult_lt_compat_r (rms m rD)) in Q; auto. replace (error3D m p rD (b, x) / rms m rD * rms m rD) with (error3D m p rD (b, x)) in Q by (field; lra).
    exact Q.
Qed.
