(** The averages on a loaded mesh. *)
From Coq Require Import ZArith Reals List Bool Lia Lra Permutation.
From Verif Require Import Base MeshModel MeshProofs GridProofs RangeSpec RangeProofs TopoModel TopoSpec TopoProofs2 TopoProofs5 YcommModel YcommSpec YcommProofs YcommProofs2 YcommProofs3 YcommProps ReduceSpec ReduceProofs AverageModel AverageSpec AverageProofs.
Import ListNotations.
Open Scope Z_scope.

Section A.
Variables (npes nx ny mxg myg : Z) (s : yseps) (user : option (Z + Z)) (ix1 ix2 : Z) (per : bool) (M : Z -> mesh) (C : Z -> conn) (core : Z -> bool) (st : Z -> comms).
Hypothesis L : loaded npes nx ny mxg myg s user ix1 ix2 per M C core.
Hypothesis RG : regular ny (MYSUB (M 0)) (seps (M 0)).
Hypothesis ST : forall r, 0 <= r < npes -> createCommunicators npes r (M r) ix1 ix2 = Ok (st r).

Lemma hd_all : forall q, 0 <= q < npes -> decomposed npes q (M q) /\ MYSUB (M q) = MYSUB (M 0) /\ MXSUB (M q) = MXSUB (M 0).
Proof. intros q Hq. destruct (rank_facts _ _ _ _ _ _ _ _ _ _ _ _ _ L RG q Hq) as (D & _ & _ & E & _ & _ & _ & _ & F & _). auto. Qed.
Lemma mesh_nx r : 0 <= r < npes -> nx - 2 * mxg = NXPE (M 0) * MXSUB (M 0) /\ GlobalNx (M r) = nx /\ xstart (M r) = mxg /\ ystart (M r) = myg /\
  GlobalNy (M r) - numberOfYBoundaries (M r) * 2 * ystart (M r) = ny.
Proof.
  intros Hr. destruct L as (Hn & Hny & Hmxg & Hmyg & HL). destruct (HL r Hr) as [HM _].
  destruct (load_ok _ _ _ _ _ _ _ _ _ Hny Hmxg Hmyg Hr HM) as (D & E1 & E2 & E3 & E4 & _).
  destruct (load_more _ _ _ _ _ _ _ _ _ HM) as (_ & _ & G1 & G2).
  destruct (rank_facts _ _ _ _ _ _ _ _ _ _ _ _ _ L RG r Hr) as (_ & X & _ & _ & _ & _ & _ & _ & F & _).
  pose proof (d_x _ _ _ D) as DX. rewrite E1, E3, X, F in DX. split; [exact DX|]. split; [exact G1|]. rewrite (d_xs _ _ _ D), (d_ys _ _ _ D). split; [exact E3|]. split; [exact E4|].
  rewrite G2, E4. unfold numberOfYBoundaries. rewrite (Z.eqb_sym (j12 _) (j21 _)). destruct (negb (j21 (seps (M r)) =? j12 (seps (M r)))); lia.
Qed.
Lemma xcomm_list r : 0 <= r < npes -> exists l, comm_x (st r) = Some l /\ Z.of_nat (length l) = NXPE (M 0) /\ In r l /\ l <> [] /\
  (forall q, In q l -> 0 <= q < npes /\ PE_YIND (M q) = PE_YIND (M r)) /\ (forall j q, nth_error l j = Some q -> 0 <= q < npes /\ PE_XIND (M q) = Z.of_nat j).
Proof.
  intros Hr. destruct (C69_xcomm _ _ _ _ _ _ _ _ _ _ _ _ _ L RG r (st r) Hr (ST r Hr)) as (l & A & B & D).
  destruct (rank_facts _ _ _ _ _ _ _ _ _ _ _ _ _ L RG r Hr) as (DD & X & _). exists l. split; [exact A|]. split; [lia|].
  assert (I : In r l).
  { pose proof (d_px _ _ _ DD) as P. assert (H : (Z.to_nat (PE_XIND (M r)) < length l)%nat) by lia. apply nth_error_Some in H. destruct (nth_error l (Z.to_nat (PE_XIND (M r)))) as [q|] eqn:E; [|contradiction].
    destruct (D _ _ E) as (Q1 & Q2 & Q3). destruct (rank_facts _ _ _ _ _ _ _ _ _ _ _ _ _ L RG q Q1) as (DQ & XQ & _).
    assert (q = r) by (rewrite <- (d_rank _ _ _ DQ), <- (d_rank _ _ _ DD), XQ, X, Q3, Q2; lia). subst q. eapply nth_error_In; exact E. }
  split; [exact I|]. split; [intros N; rewrite N in I; exact I|]. split.
  - intros q Hq. apply In_nth_error in Hq. destruct Hq as [j Hj]. destruct (D j q Hj) as (? & _ & ?). auto.
  - intros j q Hj. destruct (D j q Hj) as (? & ? & _). auto.
Qed.

Lemma averageX_ok f r x y z (F : Z -> R) : 0 <= r < npes ->
  (forall q k, 0 <= q < npes -> PE_YIND (M q) = PE_YIND (M r) -> xstart (M q) <= k <= xend (M q) -> f q k y z = F (getGlobalXIndexNoBoundaries (M q) k)) ->
  exists v, averageX M st f r x y z = Ok v /\ is_mean (map F (ReduceSpec.upto (nx - 2 * mxg))) v.
Proof.
  intros Hr HF. destruct (xcomm_list r Hr) as (l & A & B & I & N & E & J). unfold averageX. rewrite A. cbv zeta.
  pose proof (avg_x npes M (MYSUB (M 0)) (MXSUB (M 0)) hd_all f l y z r (fun q Hq => proj1 (E q Hq)) I) as K.
  assert (EQ : flat_map (fun q => map (fun x0 => f q x0 y z) (from_to (xstart (M q)) (xend (M q)))) l = map F (ReduceSpec.upto (nx - 2 * mxg))).
  { destruct (mesh_nx r Hr) as [-> _]. rewrite <- B, <- (strip_x npes M (MYSUB (M 0)) (MXSUB (M 0)) hd_all l J (fun q Hq => proj1 (E q Hq)) N).
    clear - E HF. induction l as [|q t IH]; cbn [flat_map map]; [reflexivity|]. rewrite map_app, IH by (intros; apply E; now right). f_equal. rewrite map_map. apply map_ext_in.
    intros k Hk. apply in_from_to in Hk. destruct (E q (or_introl eq_refl)). now apply HF. }
  rewrite EQ in K. destruct (Z.of_nat (length l) =? 1); (eexists; split; [reflexivity|exact K]).
Qed.

Lemma same_side r xl : 0 <= r < npes ->
  (forall c, In c [ix1; x_upper (seps (M 0)) ix1 ix2] -> (getGlobalXIndex (M r) 0 < c <-> getGlobalXIndex (M r) xl < c)) ->
  getYcomm (M r) ix1 ix2 (st r) 0 = getYcomm (M r) ix1 ix2 (st r) xl.
Proof.
  intros Hr H. unfold getYcomm. rewrite (xin_eq _ _ _ _ _ _ _ _ _ _ _ _ _ L RG r Hr), (xout_eq _ _ _ _ _ _ _ _ _ _ _ _ _ L RG r Hr).
  set (k := cuts_of (M 0) ix1 ix2). assert (E1 : lo k = ix1) by reflexivity. assert (E2 : up k = x_upper (seps (M 0)) ix1 ix2) by reflexivity.
  pose proof (H ix1 (or_introl eq_refl)) as H1. pose proof (H _ (or_intror (or_introl eq_refl))) as H2. rewrite <- E2 in H2. rewrite <- E1 in H1.
  unfold xin, xout. clearbody k. set (g0 := getGlobalXIndex (M r) 0) in *. set (g := getGlobalXIndex (M r) xl) in *. clearbody g g0.
  destruct (dn k); repeat match goal with |- context [?a <? ?b] => destruct (Z.ltb_spec a b) end; try reflexivity; exfalso; lia.
Qed.
Lemma localnx r : 0 <= r < npes -> 0 < LocalNx (M r).
Proof.
  intros Hr. destruct (hd_all r Hr) as (D & _). pose proof (d_lnx _ _ _ D). pose proof (d_mxsub _ _ _ D). destruct L as (_ & _ & ? & _ & HL). destruct (HL r Hr) as [HM _].
  destruct L as (Hn & Hny & Hmxg & Hmyg & _). destruct (load_ok _ _ _ _ _ _ _ _ _ Hny Hmxg Hmyg Hr HM) as (_ & _ & _ & E3 & _). lia.
Qed.
Lemma averageY_ok f r xl y z : 0 <= r < npes -> 0 <= xl < LocalNx (M r) ->
  (forall c, In c [ix1; x_upper (seps (M 0)) ix1 ix2] -> (getGlobalXIndex (M r) 0 < c <-> getGlobalXIndex (M r) xl < c)) ->
  exists v l, averageY M ix1 ix2 st f r xl y z = Ok v /\ line_procs npes ny M ix1 ix2 (getGlobalXIndex (M r) xl) r l /\ is_mean (line_values M f l xl z) v.
Proof.
  intros Hr Hx H. destruct (C69_ycomm _ _ _ _ _ _ _ _ _ _ _ _ _ L RG r Hr) as (st1 & A & B). rewrite (ST r Hr) in A. injection A as <-.
  destruct (B xl Hx) as (l & E & LP). unfold averageY. rewrite (same_side r xl Hr H), E. cbv zeta.
  pose proof LP as LP'. destruct LP' as (I & _ & Q & _).
  pose proof (avg_y npes M (MYSUB (M 0)) (MXSUB (M 0)) hd_all f l xl z r (fun q Hq => proj1 (Q q Hq)) I) as K.
  destruct (Z.of_nat (length l) =? 1); (eexists; exists l; split; [reflexivity|]; split; [exact LP|exact K]).
Qed.

(** Every processor is on a line through all NYPE processors. *)
Definition all_through : Prop := forall q, 0 <= q < npes -> exists l, getYcomm (M q) ix1 ix2 (st q) 0 = Some l /\ Z.of_nat (length l) = NYPE (M 0).
Section XY.
Hypothesis AT : all_through.
Variables (f : Z -> Z -> Z -> Z -> R) (F : Z -> Z -> R).
Hypothesis HF : forall q x y, 0 <= q < npes -> xstart (M q) <= x <= xend (M q) -> ystart (M q) <= y <= yend (M q) ->
  f q x y 0 = F (getGlobalXIndexNoBoundaries (M q) x) (getGlobalYIndexNoBoundaries (M q) y).
Lemma averageY_all r i : 0 <= r < npes -> xstart (M r) <= i <= xend (M r) ->
  exists v, averageY M ix1 ix2 st f r i 0 0 = Ok v /\ (v = total (map (F (getGlobalXIndexNoBoundaries (M r) i)) (ReduceSpec.upto ny)) / IZR ny)%R.
Proof.
  intros Hr Hi. destruct (AT r Hr) as (l & E & LEN).
  destruct (C69_ycomm _ _ _ _ _ _ _ _ _ _ _ _ _ L RG r Hr) as (st1 & A & B). rewrite (ST r Hr) in A. injection A as <-.
  destruct (B 0 (conj (Z.le_refl 0) (localnx r Hr))) as (l' & E' & (I & ND & Q & _)). rewrite E in E'. injection E' as <-.
  unfold averageY. rewrite E. cbv zeta.
  pose proof (avg_y npes M (MYSUB (M 0)) (MXSUB (M 0)) hd_all f l i 0 r (fun q Hq => proj1 (Q q Hq)) I) as K.
  match type of K with is_mean _ ?t => set (v := t) in K end.
  assert (EV : v = (total (map (F (getGlobalXIndexNoBoundaries (M r) i)) (ReduceSpec.upto ny)) / IZR ny)%R).
  2:{ exists v. split; [|exact EV]. unfold v. destruct (Z.of_nat (length l) =? 1); reflexivity. }
  pose proof (sizes _ _ _ _ _ _ _ _ _ _ _ _ _ L RG) as (S1 & S2 & S3 & S4 & S5).
  destruct (rank_facts _ _ _ _ _ _ _ _ _ _ _ _ _ L RG r Hr) as (DR & XR & YR & _).
  pose proof (d_px _ _ _ DR) as PX. rewrite XR in PX.
  set (c := map (fun p => p * NXPE (M 0) + PE_XIND (M r)) (ReduceSpec.upto (NYPE (M 0)))).
  assert (RK : forall p, In p (ReduceSpec.upto (NYPE (M 0))) -> 0 <= p * NXPE (M 0) + PE_XIND (M r) < npes /\ PE_XIND (M (p * NXPE (M 0) + PE_XIND (M r))) = PE_XIND (M r) /\ PE_YIND (M (p * NXPE (M 0) + PE_XIND (M r))) = p).
  { intros p Hp. apply in_upto in Hp. apply (rank_of _ _ _ _ _ _ _ _ _ _ _ _ _ L RG); [exact PX|exact Hp]. }
  assert (LC : length c = Z.to_nat (NYPE (M 0))) by (unfold c, ReduceSpec.upto; rewrite !map_length, seq_length; reflexivity).
  assert (PM : Permutation l c).
  { apply NoDup_Permutation_bis; [exact ND|rewrite LC; lia|]. intros q Hq. destruct (Q q Hq) as [Q1 Q2]. destruct (rank_facts _ _ _ _ _ _ _ _ _ _ _ _ _ L RG q Q1) as (DQ & XQ & YQ & _).
    unfold c. apply in_map_iff. exists (PE_YIND (M q)). split; [rewrite <- Q2, <- XQ; apply (d_rank _ _ _ DQ)|]. apply in_upto. pose proof (d_py _ _ _ DQ). lia. }
  assert (LV : Permutation (line_values M f l i 0) (map (F (getGlobalXIndexNoBoundaries (M r) i)) (ReduceSpec.upto ny))).
  { unfold line_values. rewrite (Permutation_flat_map _ PM).
    assert (IC : forall q, In q c -> 0 <= q < npes /\ PE_XIND (M q) = PE_XIND (M r)). { intros q Hq. unfold c in Hq. apply in_map_iff in Hq. destruct Hq as (p & <- & Hp). destruct (RK p Hp) as (? & ? & _). auto. }
    replace (ReduceSpec.upto ny) with (flat_map (fun q => map (getGlobalYIndexNoBoundaries (M q)) (from_to (ystart (M q)) (yend (M q)))) c).
    2:{ rewrite (strip_y npes M (MYSUB (M 0)) (MXSUB (M 0)) hd_all c).
        - f_equal. rewrite LC, Z2Nat.id by lia. symmetry; exact S5.
        - intros j q Hj. unfold c, ReduceSpec.upto in Hj. rewrite map_map, nth_error_map in Hj. destruct (nth_error (seq 0 (Z.to_nat (NYPE (M 0)))) j) as [k|] eqn:G; [|discriminate].
          cbn [option_map] in Hj. injection Hj as <-. pose proof G as G'. apply nth_error_In, in_seq in G'.
          assert (HL : lt j (length (seq 0%nat (Z.to_nat (NYPE (M 0)))))) by (apply nth_error_Some; congruence). pose proof HL as HL'. rewrite seq_length in HL'.
          assert (k = j) by (rewrite (nth_error_nth' _ 0%nat HL), seq_nth in G by exact HL'; injection G as <-; lia). subst k.
          destruct (RK (Z.of_nat j)) as (? & _ & ?); [apply in_upto; lia|]. auto.
        - intros q Hq. apply IC, Hq.
        - intros N. rewrite N in LC. cbn in LC. lia. }
    clear - IC HF Hi L RG Hr ST. induction c as [|q t IH]; cbn [flat_map map]; [constructor|]. rewrite map_app. apply Permutation_app; [|apply IH; intros; apply IC; now right].
    rewrite map_map. destruct (IC q (or_introl eq_refl)) as [Hq PQ].
    destruct (hd_all q Hq) as (DQ & _ & XQ). destruct (hd_all r Hr) as (DR & _ & XR).
    assert (MG : MXG (M q) = MXG (M r)). { destruct (mesh_nx q Hq) as (_ & _ & E1 & _). destruct (mesh_nx r Hr) as (_ & _ & E2 & _). rewrite <- (d_xs _ _ _ DQ), <- (d_xs _ _ _ DR). lia. }
    assert (G : getGlobalXIndexNoBoundaries (M r) i = getGlobalXIndexNoBoundaries (M q) i) by (unfold getGlobalXIndexNoBoundaries; rewrite PQ, XQ, XR, MG; reflexivity).
    match goal with |- Permutation ?u ?w => replace u with w; [apply Permutation_refl|] end.
    apply map_ext_in. intros k Hk. apply in_from_to in Hk. cbv beta. rewrite G. symmetry. apply HF; auto.
    rewrite (d_xs _ _ _ DQ), (d_xe _ _ _ DQ), MG, XQ. rewrite (d_xs _ _ _ DR), (d_xe _ _ _ DR), XR in Hi. exact Hi. }
  destruct K as [_ K]. rewrite (total_perm _ _ LV), (Permutation_length LV), map_length in K.
  assert (LU : INR (length (ReduceSpec.upto ny)) = IZR ny). { unfold ReduceSpec.upto. rewrite map_length, seq_length, INR_IZR_INZ, Z2Nat.id; [reflexivity|lia]. }
  rewrite LU in K. rewrite <- K. assert (IZR ny <> 0)%R by (apply not_0_IZR; lia). field. assumption.
Qed.
Lemma Average_XY_ok r : 0 <= r < npes -> exists v, Average_XY M ix1 ix2 st f r = Ok v /\
  is_mean (flat_map (fun gx => map (F gx) (ReduceSpec.upto ny)) (ReduceSpec.upto (nx - 2 * mxg))) v.
Proof.
  intros Hr. destruct (xcomm_list r Hr) as (l & A & B & I & N & E & J). destruct (AT r Hr) as (ly & EY & _).
  unfold Average_XY. rewrite A, EY. replace (forallb _ l) with true.
  2:{ symmetry. apply forallb_forall. intros q Hq. destruct (AT q (proj1 (E q Hq))) as (l' & -> & _). reflexivity. }
  eexists. split; [reflexivity|]. destruct (mesh_nx r Hr) as (DX & -> & -> & _ & _).
  pose proof (sizes _ _ _ _ _ _ _ _ _ _ _ _ _ L RG) as (S1 & S2 & S3 & S4 & S5).
  assert (MX0 : 0 < MXSUB (M 0)). { destruct (hd_all r Hr) as (D & _ & EX). pose proof (d_mxsub _ _ _ D). lia. }
  rewrite sum_over_total.
  assert (EQ : total (map (fun q => sum_from_to (xstart (M q)) (xend (M q)) (fun i => ofR (averageY M ix1 ix2 st f q i 0 0))) l) =
    (total (map (fun gx => total (map (F gx) (ReduceSpec.upto ny))) (ReduceSpec.upto (nx - 2 * mxg))) / IZR ny)%R).
  { rewrite <- total_map_div. rewrite DX, <- B, <- (strip_x npes M (MYSUB (M 0)) (MXSUB (M 0)) hd_all l J (fun q Hq => proj1 (E q Hq)) N).
    clear - E AT HF L RG ST. induction l as [|q t IH]; cbn [map flat_map total]; [reflexivity|]. rewrite map_app, total_app, IH by (intros; apply E; now right). f_equal.
    rewrite sum_from_to_total. rewrite map_map. f_equal. apply map_ext_in. intros i Hi. apply in_from_to in Hi. destruct (E q (or_introl eq_refl)) as [Hq _].
    destruct (averageY_all q i Hq Hi) as (v & -> & ->). reflexivity. }
  rewrite EQ.
  assert (LU : length (ReduceSpec.upto ny) = Z.to_nat ny) by (unfold ReduceSpec.upto; rewrite map_length, seq_length; reflexivity).
  assert (LX : length (ReduceSpec.upto (nx - 2 * mxg)) = Z.to_nat (nx - 2 * mxg)) by (unfold ReduceSpec.upto; rewrite map_length, seq_length; reflexivity).
  assert (LEN : length (flat_map (fun gx => map (F gx) (ReduceSpec.upto ny)) (ReduceSpec.upto (nx - 2 * mxg))) = (Z.to_nat (nx - 2 * mxg) * Z.to_nat ny)%nat).
  { rewrite (flat_length _ _ (Z.to_nat ny)), LX; [reflexivity|]. intros q _. rewrite map_length. exact LU. }
  assert (0 < nx - 2 * mxg) by nia. assert (0 < ny) by nia. split.
  - intros N'. rewrite N' in LEN. cbn [length] in LEN. assert (0 < Z.to_nat (nx - 2 * mxg))%nat by lia. assert (0 < Z.to_nat ny)%nat by lia. nia.
  - rewrite LEN, mult_INR, !INR_IZR_INZ, !Z2Nat.id, total_flat by lia.
    assert (IZR ny <> 0)%R by (apply not_0_IZR; lia). assert (IZR (nx - 2 * mxg) <> 0)%R by (apply not_0_IZR; lia). field. auto.
Qed.
End XY.
(** Without X-points: all lines outside (ix1 <= 0), or all in the core. *)
Lemma all_through_sol : j21 (seps (M 0)) = j12 (seps (M 0)) -> ix1 <= 0 -> all_through.
Proof.
  intros S H q Hq. destruct (created_lists _ _ _ _ _ _ _ _ _ _ _ _ _ L RG q Hq) as (st1 & A & B). rewrite (ST q Hq) in A. injection A as <-. destruct B as [_ B].
  eexists. split; [apply B|]. unfold klist. set (k := cuts_of (M 0) ix1 ix2).
  assert (DN : dn k = false) by (unfold k, cuts_of, is_double; cbn [dn]; rewrite S, Z.eqb_refl; reflexivity).
  assert (LO : lo k = ix1) by reflexivity. unfold xin, xout. rewrite DN, LO.
  destruct (hd_all q Hq) as (D & _). pose proof (d_px _ _ _ D). pose proof (d_mxsub _ _ _ D).
  assert (0 <= getGlobalXIndex (M q) 0) by (unfold getGlobalXIndex; nia). replace (getGlobalXIndex (M q) 0 <? ix1) with false by (symmetry; apply Z.ltb_ge; lia).
  unfold kouter. rewrite DN. unfold col. rewrite map_length, ints_length. pose proof (sizes _ _ _ _ _ _ _ _ _ _ _ _ _ L RG) as (S1 & S2 & _). lia.
Qed.
Lemma all_through_core : j21 (seps (M 0)) = j12 (seps (M 0)) -> j11 (seps (M 0)) = -1 -> (forall q, 0 <= q < npes -> getGlobalXIndex (M q) 0 < ix1) -> all_through.
Proof.
  intros S J H q Hq. destruct (created_lists _ _ _ _ _ _ _ _ _ _ _ _ _ L RG q Hq) as (st1 & A & B). rewrite (ST q Hq) in A. injection A as <-. destruct B as [_ B].
  eexists. split; [apply B|]. unfold klist. set (k := cuts_of (M 0) ix1 ix2).
  assert (DN : dn k = false) by (unfold k, cuts_of, is_double; cbn [dn]; rewrite S, Z.eqb_refl; reflexivity).
  assert (LO : lo k = ix1) by reflexivity. unfold xin, xout. rewrite DN, LO.
  replace (getGlobalXIndex (M q) 0 <? ix1) with true by (symmetry; apply Z.ltb_lt; apply H, Hq).
  destruct (rank_facts _ _ _ _ _ _ _ _ _ _ _ _ _ L RG q Hq) as (D & F1 & F2 & F3 & F4 & F5 & F6 & R1 & _).
  destruct (cuts_of_ok npes q (M q) ix1 ix2 D R1) as (_ & EA & ED & _). cbv zeta in *. rewrite F6, F5, F3 in *. fold k in EA, ED.
  pose proof (sizes _ _ _ _ _ _ _ _ _ _ _ _ _ L RG) as (S1 & S2 & S3 & S4 & S5).
  rewrite F4 in R1. pose proof (proj1 (r_ends _ _ _ R1) J) as J2. assert (KA : cA k = 0) by nia. assert (KD : cD k = NYPE (M 0)) by nia.
  pose proof (d_py _ _ _ D) as PY. rewrite F2 in PY.
  unfold kinner, klp, kuf, kcore. rewrite DN, KA, KD. replace (PE_YIND (M q) <? 0) with false by (symmetry; apply Z.ltb_ge; lia).
  replace (NYPE (M 0) <=? PE_YIND (M q)) with false by (symmetry; apply Z.leb_gt; lia). cbn [orb andb].
  unfold col. rewrite map_length, ints_length. lia.
Qed.
End A.
