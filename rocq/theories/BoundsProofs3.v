(** The connections, read as columns whose field lines leave the domain. *)
From Coq Require Import ZArith List Bool String Lia Sorted.
From Verif Require Import Base MeshModel MeshSpec MeshProofs TopoModel TopoSpec TopoProofs TopoProofs4 TopoProps CommProofs3
  RegionModel RegionSpec BndryModel BndrySpec RangeModel RangeSpec RangeProofs BoundsModel BoundsSpec BoundsProofs BoundsProofs2.
Import ListNotations.
Open Scope Z_scope.

Section P.
Context (npes nx ny mxg myg : Z) (s : yseps) (user : option (Z + Z)) (ix1 ix2 : Z) (per : bool)
        (M : Z -> mesh) (C : Z -> conn) (core : Z -> bool).
Hypothesis L : loaded npes nx ny mxg myg s user ix1 ix2 per M C core.
Hypothesis R : regular ny (MYSUB (M 0)) (seps (M 0)).

Lemma msizes r : 0 <= r < npes -> 0 <= xstart (M r) /\ xstart (M r) <= xend (M r) /\ xend (M r) < LocalNx (M r) /\
  0 <= ystart (M r) /\ ystart (M r) <= yend (M r) /\ yend (M r) < LocalNy (M r).
Proof.
  intros Hr. destruct (fam _ _ _ _ _ _ _ _ _ _ _ _ _ L r Hr) as (D & _ & _ & _ & _ & E5 & E6 & _).
  destruct L as (_ & _ & H1 & H2 & _).
  rewrite (d_xs _ _ _ D), (d_xe _ _ _ D), (d_ys _ _ _ D), (d_ye _ _ _ D), (d_lnx _ _ _ D), (d_lny _ _ _ D).
  pose proof (d_mxsub _ _ _ D). pose proof (d_mysub _ _ _ D). lia.
Qed.

Lemma pn_pos r y' : 0 <= r < npes -> 0 <= y' < ny -> 0 <= PROC_NUM (M r) (PE_XIND (M r)) (y' / MYSUB (M r)).
Proof.
  intros Hr Hy. destruct (fam _ _ _ _ _ _ _ _ _ _ _ _ _ L r Hr) as (D & _ & _ & _ & _ & _ & _ & E7 & _).
  pose proof (d_mysub _ _ _ D) as Q1. pose proof (d_y _ _ _ D) as Q2. pose proof (d_px _ _ _ D) as Q3. rewrite E7 in Q2.
  assert (0 <= y' / MYSUB (M r)) by (apply Z.div_pos; lia).
  assert (y' / MYSUB (M r) < NYPE (M r)) by (apply Z.div_lt_upper_bound; lia).
  rewrite PN' by lia. nia.
Qed.

Lemma down_leaves r x : 0 <= r < npes -> 0 <= x < LocalNx (M r) ->
  ((if x <? D_XSPLIT (C r) then D_IN (C r) else D_OUT (C r)) < 0 <-> leaves_below (M r) ix1 ix2 x).
Proof.
  intros Hr Hx. destruct (C21_down_neighbour _ _ _ _ _ _ _ _ _ _ _ _ _ L R r x Hr Hx) as [E A]. cbv zeta in E, A.
  destruct (fam _ _ _ _ _ _ _ _ _ _ _ _ _ L r Hr) as (D & _ & _ & _ & _ & _ & _ & E7 & _).
  unfold leaves_below. rewrite E7. rewrite E.
  destruct (below _ _ _ _ _ _) as [y'|].
  - destruct (A y' eq_refl) as [B _]. pose proof (pn_pos r y' Hr B). split; [lia|discriminate].
  - split; [reflexivity|lia].
Qed.
Lemma up_leaves r x : 0 <= r < npes -> 0 <= x < LocalNx (M r) ->
  ((if x <? U_XSPLIT (C r) then U_IN (C r) else U_OUT (C r)) < 0 <-> leaves_above (M r) ix1 ix2 x).
Proof.
  intros Hr Hx. destruct (C21_up_neighbour _ _ _ _ _ _ _ _ _ _ _ _ _ L R r x Hr Hx) as [E A]. cbv zeta in E, A.
  destruct (fam _ _ _ _ _ _ _ _ _ _ _ _ _ L r Hr) as (D & _ & _ & _ & _ & _ & _ & E7 & _).
  unfold leaves_above. rewrite E7. rewrite E.
  destruct (above _ _ _ _ _ _) as [y'|].
  - destruct (A y' eq_refl) as [B _]. pose proof (pn_pos r y' Hr B). split; [lia|discriminate].
  - split; [reflexivity|lia].
Qed.

Lemma lower_columns r cc x : 0 <= r < npes ->
  fst (lower_y (M r) (C r) cc) <= x <= snd (lower_y (M r) (C r) cc) <-> target_columns (M r) cc (leaves_below (M r) ix1 ix2) x.
Proof.
  intros Hr. destruct (msizes r Hr) as (X0 & X1 & X2 & _). unfold lower_y.
  destruct (y_limits_spec (M r) (D_IN (C r)) (D_OUT (C r)) (D_XSPLIT (C r)) X0 X2) as (A & B & S). cbv zeta in *.
  destruct (y_limits _ _ _ _) as [xs xe]. cbn [fst snd] in A, B, S.
  refine (corner_limits_spec (M r) cc xs xe (leaves_below (M r) ix1 ix2) X0 X2 A B _ x).
  intros x'. rewrite S. split; intros [Q1 Q2]; (split; [exact Q1|]).
  - apply (proj1 (down_leaves r x' Hr ltac:(unfold inx in *; lia))). destruct (x' <? _); exact Q2.
  - apply (proj2 (down_leaves r x' Hr ltac:(unfold inx in *; lia))) in Q2. destruct (x' <? _); exact Q2.
Qed.
Lemma upper_columns r cc x : 0 <= r < npes ->
  fst (upper_y (M r) (C r) cc) <= x <= snd (upper_y (M r) (C r) cc) <-> target_columns (M r) cc (leaves_above (M r) ix1 ix2) x.
Proof.
  intros Hr. destruct (msizes r Hr) as (X0 & X1 & X2 & _). unfold upper_y.
  destruct (y_limits_spec (M r) (U_IN (C r)) (U_OUT (C r)) (U_XSPLIT (C r)) X0 X2) as (A & B & S). cbv zeta in *.
  destruct (y_limits _ _ _ _) as [xs xe]. cbn [fst snd] in A, B, S.
  refine (corner_limits_spec (M r) cc xs xe (leaves_above (M r) ix1 ix2) X0 X2 A B _ x).
  intros x'. rewrite S. split; intros [Q1 Q2]; (split; [exact Q1|]).
  - apply (proj1 (up_leaves r x' Hr ltac:(unfold inx in *; lia))). destruct (x' <? _); exact Q2.
  - apply (proj2 (up_leaves r x' Hr ltac:(unfold inx in *; lia))) in Q2. destruct (x' <? _); exact Q2.
Qed.
Lemma target_range r cc P x : 0 <= r < npes -> target_columns (M r) cc P x -> 0 <= x < LocalNx (M r).
Proof. intros Hr. destruct (msizes r Hr) as (X0 & X1 & X2 & _). unfold target_columns, inx. lia. Qed.

Lemma std_regions sortf nz zs ze mb cc r : 0 <= r < npes ->
  std_sort_contract sortf -> 0 < nz -> 0 <= zs -> zs <= ze + 1 -> ze < nz -> 0 < mb ->
  exists rs, mesh_regions sortf nz zs ze mb (M r) (C r) cc per = Ok rs /\
  forall n P, In (n, P) (standard_regions (M r) nz zs ze
       (target_columns (M r) cc (leaves_below (M r) ix1 ix2)) (target_columns (M r) cc (leaves_above (M r) ix1 ix2))
       (PE_XIND (M r) = 0 /\ per = false) (PE_XIND (M r) = NXPE (M r) - 1 /\ per = false)) ->
    exists g, getRegion n rs = Ok g /\ enumerates g (LocalNy (M r)) nz P.
Proof.
  intros Hr HS H1 H2 H3 H4 H5. destruct (msizes r Hr) as (X0 & X1 & X2 & Y0 & Y1 & Y2).
  apply (standard_regions_ok sortf nz zs ze mb (M r) (C r) cc per HS H1 H2 H3 H4 H5 X0 X1 X2 Y0 Y1 Y2).
  - intros x. apply lower_columns. exact Hr.
  - intros x. apply upper_columns. exact Hr.
  - intros x Q. apply (target_range r cc _ x Hr Q).
  - intros x Q. apply (target_range r cc _ x Hr Q).
Qed.

(** * The iterators *)
Lemma ints_sorted n : forall a b, Z.to_nat (b - a + 1) = n -> StronglySorted Z.lt (ints a b).
Proof.
  induction n as [|n IH]; intros a b E.
  - rewrite ints_nil by lia. constructor.
  - rewrite ints_cons by lia. constructor; [apply IH; lia|]. apply Forall_forall. intros x Hx. apply in_ints in Hx. lia.
Qed.
Lemma walks_limits r l P : 0 <= r < npes -> (forall x, fst l <= x <= snd l <-> P x) -> (forall x, P x -> 0 <= x < LocalNx (M r)) -> walks (M r) l P.
Proof.
  intros Hr H B. exists (ints (fst l) (snd l)). split; [|split; [exact (ints_sorted _ _ _ eq_refl)|intros x; rewrite in_ints; apply H]].
  intros fuel F. rewrite visit_elements; [unfold elements; cbn [flat_map is_ ie_]; rewrite app_nil_r; reflexivity|constructor|].
  unfold elements. cbn [flat_map is_ ie_]. rewrite app_nil_r, ints_length.
  destruct (Z_le_gt_dec (fst l) (snd l)) as [E|E]; [|lia].
  pose proof (B _ (proj1 (H (fst l)) ltac:(lia))). pose proof (B _ (proj1 (H (snd l)) ltac:(lia))). lia.
Qed.
Lemma walks_none r l : 0 <= r < npes -> snd l < fst l -> walks (M r) l (fun _ => False).
Proof. intros Hr E. apply walks_limits; [exact Hr|intros; split; [lia|tauto]|tauto]. Qed.
End P.
