(** getPossibleBoundaries. *)
From Coq Require Import ZArith List Bool String Lia Sorted.
From Verif Require Import Base MeshModel MeshSpec MeshProofs TopoModel TopoSpec TopoProofs TopoProofs4 TopoProps CommProofs3
  BndryModel BndrySpec BoundsModel BoundsSpec BoundsProofs BoundsProofs2 BoundsProofs3 BoundsProofs4.
Import ListNotations.
Open Scope Z_scope.

Section P.
Context (npes nx ny mxg myg : Z) (s : yseps) (user : option (Z + Z)) (ix1 ix2 : Z) (per : bool)
        (M : Z -> mesh) (C : Z -> conn) (core : Z -> bool).
Hypothesis L : loaded npes nx ny mxg myg s user ix1 ix2 per M C core.
Hypothesis R : regular ny (MYSUB (M 0)) (seps (M 0)).
Variable nz : Z.
Notation X := (NXPE (M 0)). Notation Y := (NYPE (M 0)). Notation my := (MYSUB (M 0)).

Definition labels (r : Z) (cc : bool) : list string := map fst (boundaries (M r) (C r) nz cc per).

Lemma labels_in r cc lab : 0 <= r < npes ->
  (In lab (labels r cc) <->
   (per = false /\ 0 < mxg /\ PE_XIND (M r) = 0 /\ (lab = "core"%string /\ core_row (M r) (ystart (M r)) \/ lab = "pf"%string /\ ~ core_row (M r) (ystart (M r)))) \/
   (per = false /\ 0 < mxg /\ PE_XIND (M r) = X - 1 /\ lab = "sol"%string) \/
   (0 < myg /\ lab = "upper_target"%string /\ exists x, bxs M C r cc <= x <= bxe M C r cc /\ leaves_above (M r) ix1 ix2 x) \/
   (0 < myg /\ lab = "lower_target"%string /\ exists x, bxs M C r cc <= x <= bxe M C r cc /\ leaves_below (M r) ix1 ix2 x)).
Proof.
  intros Hr. destruct (msizes _ _ _ _ _ _ _ _ _ _ _ _ _ L r Hr) as (X0 & X1 & X2 & Y0 & Y1 & Y2).
  destruct (fam _ _ _ _ _ _ _ _ _ _ _ _ _ L r Hr) as (D & E1 & _ & _ & E4 & E5 & E6 & E7 & _ & E9).
  assert (RG : forall x, bxs M C r cc <= x <= bxe M C r cc -> 0 <= x < LocalNx (M r)).
  { intros x. pose proof (bxs_cases _ _ _ _ _ _ _ _ _ _ _ _ _ L R r cc Hr). pose proof (bxe_cases _ _ _ _ _ _ _ _ _ _ _ _ _ L R r cc Hr). lia. }
  assert (SP : bxs M C r cc <= xstart (M r) /\ xend (M r) <= bxe M C r cc).
  { pose proof (bxs_cases _ _ _ _ _ _ _ _ _ _ _ _ _ L R r cc Hr). pose proof (bxe_cases _ _ _ _ _ _ _ _ _ _ _ _ _ L R r cc Hr). lia. }
  unfold labels, boundaries. rewrite (xlist_eq _ _ _ _ _ _ _ _ _ _ _ _ _ L), ylist_eq. unfold xlist, ylist. cbv zeta.
  pose proof (core_row_b _ _ _ _ _ _ _ _ _ _ _ _ _ L r Hr) as CR. cbv zeta in CR.
  match goal with |- context [if ?k then "core"%string else _] => set (K := k) in * end.
  rewrite <- E1.
  assert (UP : forall (P : bool), P = negb (MYG (M r) <=? 0) ->
    ((P && ((U_IN (C r) <? 0) && (U_XSPLIT (C r) >? bxs M C r cc)) = true \/ P && ((U_OUT (C r) <? 0) && (U_XSPLIT (C r) <=? bxe M C r cc)) = true) <->
     0 < myg /\ exists x, bxs M C r cc <= x <= bxe M C r cc /\ leaves_above (M r) ix1 ix2 x)).
  { intros P ->. rewrite !andb_true_iff, !negb_true_iff, ?Z.leb_gt, ?Z.ltb_lt, ?Z.gtb_lt, ?Z.leb_le, E6. split.
    - intros [(A & B & G)|(A & B & G)]; (split; [lia|]).
      + exists (Z.min (bxs M C r cc) (bxe M C r cc)). assert (V : bxs M C r cc <= Z.min (bxs M C r cc) (bxe M C r cc) <= bxe M C r cc) by lia.
        split; [exact V|]. apply (up_leaves _ _ _ _ _ _ _ _ _ _ _ _ _ L R r _ Hr (RG _ V)). destruct (Z.ltb_spec (Z.min (bxs M C r cc) (bxe M C r cc)) (U_XSPLIT (C r))); lia.
      + exists (Z.max (bxs M C r cc) (bxe M C r cc)). assert (V : bxs M C r cc <= Z.max (bxs M C r cc) (bxe M C r cc) <= bxe M C r cc) by lia.
        split; [exact V|]. apply (up_leaves _ _ _ _ _ _ _ _ _ _ _ _ _ L R r _ Hr (RG _ V)). destruct (Z.ltb_spec (Z.max (bxs M C r cc) (bxe M C r cc)) (U_XSPLIT (C r))); lia.
    - intros (A & x & V & Q). apply (up_leaves _ _ _ _ _ _ _ _ _ _ _ _ _ L R r _ Hr (RG _ V)) in Q.
      destruct (Z.ltb_spec x (U_XSPLIT (C r))); [left|right]; lia. }
  assert (DN : forall (P : bool), P = negb (MYG (M r) <=? 0) ->
    ((P && ((D_IN (C r) <? 0) && (D_XSPLIT (C r) >? bxs M C r cc)) = true \/ P && ((D_OUT (C r) <? 0) && (D_XSPLIT (C r) <=? bxe M C r cc)) = true) <->
     0 < myg /\ exists x, bxs M C r cc <= x <= bxe M C r cc /\ leaves_below (M r) ix1 ix2 x)).
  { intros P ->. rewrite !andb_true_iff, !negb_true_iff, ?Z.leb_gt, ?Z.ltb_lt, ?Z.gtb_lt, ?Z.leb_le, E6. split.
    - intros [(A & B & G)|(A & B & G)]; (split; [lia|]).
      + exists (Z.min (bxs M C r cc) (bxe M C r cc)). assert (V : bxs M C r cc <= Z.min (bxs M C r cc) (bxe M C r cc) <= bxe M C r cc) by lia.
        split; [exact V|]. apply (down_leaves _ _ _ _ _ _ _ _ _ _ _ _ _ L R r _ Hr (RG _ V)). destruct (Z.ltb_spec (Z.min (bxs M C r cc) (bxe M C r cc)) (D_XSPLIT (C r))); lia.
      + exists (Z.max (bxs M C r cc) (bxe M C r cc)). assert (V : bxs M C r cc <= Z.max (bxs M C r cc) (bxe M C r cc) <= bxe M C r cc) by lia.
        split; [exact V|]. apply (down_leaves _ _ _ _ _ _ _ _ _ _ _ _ _ L R r _ Hr (RG _ V)). destruct (Z.ltb_spec (Z.max (bxs M C r cc) (bxe M C r cc)) (D_XSPLIT (C r))); lia.
    - intros (A & x & V & Q). apply (down_leaves _ _ _ _ _ _ _ _ _ _ _ _ _ L R r _ Hr (RG _ V)) in Q.
      destruct (Z.ltb_spec x (D_XSPLIT (C r))); [left|right]; lia. }
  specialize (UP _ eq_refl). specialize (DN _ eq_refl).
  assert (IO : forall (b : bool) (a : string * breg), In lab (map fst (opt b a)) <-> b = true /\ lab = fst a) by (intros [|] a; cbn; intuition congruence).
  rewrite !map_app, !in_app_iff, !IO. cbn [fst].
  assert (PX : forall j, negb per && negb (MXG (M r) <=? 0) && (PE_XIND (M r) =? j) = true <-> per = false /\ 0 < mxg /\ PE_XIND (M r) = j).
  { intros j. rewrite !andb_true_iff, !negb_true_iff, Z.leb_gt, Z.eqb_eq, E5. tauto. }
  rewrite !PX.
  assert (KK : lab = (if K then "core"%string else "pf"%string) <-> lab = "core"%string /\ core_row (M r) (ystart (M r)) \/ lab = "pf"%string /\ ~ core_row (M r) (ystart (M r))).
  { destruct K; [assert (Q := proj1 CR eq_refl)|assert (Q : ~ core_row (M r) (ystart (M r))) by (intros Q; apply CR in Q; discriminate)]; tauto. }
  rewrite KK.
  clear - UP DN. tauto.
Qed.

(** The result. *)
Lemma yproc y : YPROC (M 0) y = Ok (if (y <? 0) || (y >=? ny) then -1 else y / my).
Proof.
  assert (H0 : 0 <= 0 < npes) by (destruct L; lia).
  destruct (fam _ _ _ _ _ _ _ _ _ _ _ _ _ L 0 H0) as (D & _ & _ & _ & _ & _ & _ & E7 & _).
  unfold YPROC. rewrite E7. destruct (Z.ltb_spec y 0); cbn [orb]; [reflexivity|]. destruct (y >=? ny); [reflexivity|].
  unfold cdiv. pose proof (d_mysub _ _ _ D). destruct (Z.eqb_spec my 0); [lia|]. rewrite Z.quot_div_nonneg by lia. reflexivity.
Qed.
Lemma labels_at_in xr yr lab : In lab (labels_at M C nz per xr yr) <-> 0 <= xr < X /\ 0 <= yr < Y /\ In lab (labels (X * yr + xr) true).
Proof.
  unfold labels_at. destruct ((xr <? 0) || (xr >=? X)) eqn:E1; [rewrite orb_true_iff, Z.ltb_lt, Z.geb_le in E1; split; [intros []|lia]|].
  rewrite orb_false_iff, Z.ltb_ge, Z.geb_leb, Z.leb_gt in E1.
  destruct ((yr <? 0) || (yr >=? Y)) eqn:E2; [rewrite orb_true_iff, Z.ltb_lt, Z.geb_le in E2; split; [intros []|lia]|].
  rewrite orb_false_iff, Z.ltb_ge, Z.geb_leb, Z.leb_gt in E2. unfold labels. intuition lia.
Qed.
Lemma labels_ys_in ys : exists l, labels_ys M C nz per ys = Ok l /\
  forall lab, In lab l <-> exists y, In y ys /\ 0 <= y < ny /\ In lab (labels (X * (y / my)) true).
Proof.
  assert (H0 : 0 <= 0 < npes) by (destruct L; lia).
  destruct (fam _ _ _ _ _ _ _ _ _ _ _ _ _ L 0 H0) as (D & _ & _ & _ & _ & _ & _ & E7 & _).
  pose proof (d_mysub _ _ _ D) as Hm. pose proof (d_nxpe _ _ _ D) as Hn. pose proof (d_y _ _ _ D) as DY. rewrite E7 in DY.
  induction ys as [|y ys (l & E & IH)]; [exists []; split; [reflexivity|]; intros lab; split; [intros []|intros (y & [] & _)]|].
  cbn [labels_ys]. rewrite yproc. cbn [bind]. rewrite E. cbn [bind]. eexists. split; [reflexivity|]. intros lab.
  rewrite in_app_iff, IH, labels_at_in. rewrite Z.add_0_r.
  destruct ((y <? 0) || (y >=? ny)) eqn:E2; [rewrite orb_true_iff, Z.ltb_lt, Z.geb_le in E2|rewrite orb_false_iff, Z.ltb_ge, Z.geb_leb, Z.leb_gt in E2].
  - split.
    + intros [(_ & ? & _)|(y' & A & B & G)]; [lia|]. exists y'. split; [right; exact A|]. split; assumption.
    + intros (y' & [<-|A] & B & G); [lia|]. right. exists y'. tauto.
  - assert (0 <= y / my < Y) by (split; [apply Z.div_pos; lia|apply Z.div_lt_upper_bound; lia]). split.
    + intros [(_ & _ & G)|(y' & A & B & G)]; [exists y; split; [left; reflexivity|]; split; [lia|exact G]|].
      exists y'. split; [right; exact A|]. split; assumption.
    + intros (y' & [<-|A] & B & G); [left|right; exists y'; tauto]. split; [lia|]. split; [lia|exact G].
Qed.
Lemma possible_in : exists l, getPossibleBoundaries M C nz per = Ok l /\
  forall lab, In lab l <-> In lab (labels (X - 1) true) \/
    exists y, (let s := seps (M 0) in In y [0; j11 s; j12 s; nyin s - 1; nyin s; j21 s; j22 s; ny - 1]) /\ 0 <= y < ny /\ In lab (labels (X * (y / my)) true).
Proof.
  assert (H0 : 0 <= 0 < npes) by (destruct L; lia).
  destruct (fam _ _ _ _ _ _ _ _ _ _ _ _ _ L 0 H0) as (D & _ & _ & _ & _ & _ & _ & E7 & _).
  pose proof (d_nxpe _ _ _ D) as Hn. pose proof (d_nype _ _ _ D) as Hn'.
  unfold getPossibleBoundaries. cbv zeta. rewrite E7. 
  match goal with |- context [labels_ys M C nz per ?ys] => destruct (labels_ys_in ys) as (l & E & IH) end.
  rewrite E. cbn [bind]. eexists. split; [reflexivity|]. intros lab. rewrite in_app_iff, IH, labels_at_in.
  replace (X * 0 + (X - 1)) with (X - 1) by lia. assert (0 <= X - 1 < X /\ 0 <= 0 < Y) by lia. tauto.
Qed.

Lemma rank_at p : 0 <= p < Y -> 0 <= X * p < npes /\ PE_XIND (M (X * p)) = 0 /\ PE_YIND (M (X * p)) = p.
Proof.
  intros Hp. assert (H0 : 0 <= 0 < npes) by (destruct L; lia).
  destruct (fam _ _ _ _ _ _ _ _ _ _ _ _ _ L 0 H0) as (D & _). pose proof (d_npes _ _ _ D). pose proof (d_nxpe _ _ _ D).
  assert (Q : 0 <= X * p < npes) by nia. split; [exact Q|].
  apply (rank_dec _ _ _ _ _ _ _ _ _ _ _ _ _ L _ 0 p Q); lia.
Qed.
Lemma rank_last : 0 <= X - 1 < npes /\ PE_XIND (M (X - 1)) = X - 1.
Proof.
  assert (H0 : 0 <= 0 < npes) by (destruct L; lia).
  destruct (fam _ _ _ _ _ _ _ _ _ _ _ _ _ L 0 H0) as (D & _). pose proof (d_npes _ _ _ D). pose proof (d_nxpe _ _ _ D). pose proof (d_nype _ _ _ D).
  assert (Q : 0 <= X - 1 < npes) by nia. split; [exact Q|].
  apply (rank_dec _ _ _ _ _ _ _ _ _ _ _ _ _ L _ (X - 1) 0 Q); lia.
Qed.

Lemma sound lab l : getPossibleBoundaries M C nz per = Ok l -> In lab l -> exists r, 0 <= r < npes /\ In lab (labels r true).
Proof.
  intros E Hin. destruct possible_in as (l' & E' & IH). rewrite E in E'. injection E' as <-. apply IH in Hin.
  assert (H0 : 0 <= 0 < npes) by (destruct L; lia).
  destruct (fam _ _ _ _ _ _ _ _ _ _ _ _ _ L 0 H0) as (D & _ & _ & _ & _ & _ & _ & E7 & _).
  pose proof (d_mysub _ _ _ D) as Hm. pose proof (d_y _ _ _ D) as DY. rewrite E7 in DY.
  destruct Hin as [Hin|(y & _ & B & Hin)].
  - exists (X - 1). split; [apply rank_last|exact Hin].
  - exists (X * (y / my)). split; [|exact Hin]. apply rank_at. split; [apply Z.div_pos; lia|apply Z.div_lt_upper_bound; lia].
Qed.

Lemma rowsD r : 0 <= r < npes -> getGlobalYIndexNoBoundaries (M r) (ystart (M r)) = PE_YIND (M r) * my /\
  getGlobalYIndexNoBoundaries (M r) (yend (M r)) = PE_YIND (M r) * my + my - 1.
Proof.
  intros Hr. destruct (fam _ _ _ _ _ _ _ _ _ _ _ _ _ L r Hr) as (D & _ & _ & _ & E4 & _).
  unfold getGlobalYIndexNoBoundaries. rewrite (d_ys _ _ _ D), (d_ye _ _ _ D), E4. lia.
Qed.

Lemma leaves_above_rows r x : 0 <= r < npes -> leaves_above (M r) ix1 ix2 x ->
  PE_YIND (M r) * my + my - 1 = ny - 1 \/ (j21 (seps (M 0)) <> j12 (seps (M 0)) /\ PE_YIND (M r) * my + my - 1 = nyin (seps (M 0)) - 1).
Proof.
  intros Hr H. destruct (fam _ _ _ _ _ _ _ _ _ _ _ _ _ L r Hr) as (D & _ & _ & _ & E4 & _ & _ & E7 & _ & E9).
  unfold leaves_above, above in H. rewrite (proj2 (rowsD r Hr)), E7, E9 in H.
  repeat match type of H with (if ?b then _ else _) = _ => destruct b eqn:?; [try discriminate H|] end; try discriminate H.
  - right. apply andb_true_iff in Heqb3. unfold is_double in Heqb3. rewrite negb_true_iff, Z.eqb_neq, Z.eqb_eq in Heqb3. exact Heqb3.
  - left. apply Z.eqb_eq. assumption.
Qed.
Lemma leaves_below_rows r x : 0 <= r < npes -> leaves_below (M r) ix1 ix2 x ->
  PE_YIND (M r) * my = 0 \/ (j21 (seps (M 0)) <> j12 (seps (M 0)) /\ PE_YIND (M r) * my = nyin (seps (M 0))).
Proof.
  intros Hr H. destruct (fam _ _ _ _ _ _ _ _ _ _ _ _ _ L r Hr) as (D & _ & _ & _ & E4 & _ & _ & E7 & _ & E9).
  unfold leaves_below, below in H. rewrite (proj1 (rowsD r Hr)), E9 in H.
  repeat match type of H with (if ?b then _ else _) = _ => destruct b eqn:?; [try discriminate H|] end; try discriminate H.
  - right. apply andb_true_iff in Heqb3. unfold is_double in Heqb3. rewrite negb_true_iff, Z.eqb_neq, Z.eqb_eq in Heqb3. exact Heqb3.
  - left. apply Z.eqb_eq. assumption.
Qed.
(** With legs, or a second X-point, every column of the rows next to a target leaves. *)
Lemma above_all r x : 0 <= r < npes ->
  (j21 (seps (M 0)) <> j12 (seps (M 0)) /\ PE_YIND (M r) * my + my - 1 = nyin (seps (M 0)) - 1) \/
  (0 <= j11 (seps (M 0)) /\ PE_YIND (M r) * my + my - 1 = ny - 1) -> leaves_above (M r) ix1 ix2 x.
Proof.
  intros Hr H. destruct (fam _ _ _ _ _ _ _ _ _ _ _ _ _ L r Hr) as (D & _ & _ & _ & E4 & _ & _ & E7 & _ & E9).
  unfold leaves_above, above. rewrite (proj2 (rowsD r Hr)), E7, E9. destruct R as [R1 R2 R3 R4].
  pose proof (d_order _ _ _ D) as O. unfold ordered_seps in O. rewrite E7, E9 in O.
  set (yy := PE_YIND (M r) * my + my - 1) in *. clearbody yy. unfold is_double.
  destruct (Z.eqb_spec yy (j22 (seps (M 0)))); [exfalso; lia|]. rewrite andb_false_r.
  destruct (Z.eqb_spec yy (j11 (seps (M 0)))); [exfalso; lia|]. rewrite andb_false_r.
  destruct (Z.eqb_spec (j21 (seps (M 0))) (j12 (seps (M 0)))); cbn [negb andb].
  - destruct (Z.eqb_spec yy (ny - 1)); [reflexivity|lia].
  - destruct (Z.eqb_spec yy (j21 (seps (M 0)))); [exfalso; lia|]. rewrite andb_false_r.
    destruct (Z.eqb_spec yy (j12 (seps (M 0)))); [exfalso; lia|]. rewrite andb_false_r.
    destruct (Z.eqb_spec yy (nyin (seps (M 0)) - 1)); [reflexivity|]. destruct (Z.eqb_spec yy (ny - 1)); [reflexivity|lia].
Qed.
Lemma below_all r x : 0 <= r < npes ->
  (j21 (seps (M 0)) <> j12 (seps (M 0)) /\ PE_YIND (M r) * my = nyin (seps (M 0))) \/
  (0 <= j11 (seps (M 0)) /\ PE_YIND (M r) * my = 0) -> leaves_below (M r) ix1 ix2 x.
Proof.
  intros Hr H. destruct (fam _ _ _ _ _ _ _ _ _ _ _ _ _ L r Hr) as (D & _ & _ & _ & E4 & _ & _ & E7 & _ & E9).
  unfold leaves_below, below. rewrite (proj1 (rowsD r Hr)), E9. destruct R as [R1 R2 R3 R4].
  pose proof (d_order _ _ _ D) as O. unfold ordered_seps in O. rewrite E7, E9 in O.
  set (yy := PE_YIND (M r) * my) in *. clearbody yy. unfold is_double.
  destruct (Z.eqb_spec yy (j11 (seps (M 0)) + 1)); [exfalso; lia|]. rewrite andb_false_r.
  destruct (Z.eqb_spec yy (j22 (seps (M 0)) + 1)); [exfalso; lia|]. rewrite andb_false_r.
  destruct (Z.eqb_spec (j21 (seps (M 0))) (j12 (seps (M 0)))); cbn [negb andb].
  - destruct (Z.eqb_spec yy 0); [reflexivity|lia].
  - destruct (Z.eqb_spec yy (j12 (seps (M 0)) + 1)); [exfalso; lia|]. rewrite andb_false_r.
    destruct (Z.eqb_spec yy (j21 (seps (M 0)) + 1)); [exfalso; lia|]. rewrite andb_false_r.
    destruct (Z.eqb_spec yy (nyin (seps (M 0)))); [reflexivity|]. destruct (Z.eqb_spec yy 0); [reflexivity|lia].
Qed.

Lemma mul_lt m q a : 0 < m -> (q * m <= a * m - 1 <-> q < a).
Proof. intros Hm. rewrite (Z.mul_lt_mono_pos_r m q a Hm). lia. Qed.
Lemma mul_ge m q a : 0 < m -> (a * m - 1 < q * m <-> a <= q).
Proof. intros Hm. rewrite (Z.mul_le_mono_pos_r a q m Hm). lia. Qed.
Lemma mul_mono m a b : 0 < m -> a * m <= b * m -> a <= b.
Proof. intros Hm. apply (Z.mul_le_mono_pos_r a b m Hm). Qed.
Lemma core_rep p : 0 <= p < Y -> exists y, (let s := seps (M 0) in In y [0; j11 s; j12 s; nyin s - 1; nyin s; j21 s; j22 s; ny - 1]) /\ 0 <= y < ny /\
  let cr q := j11 (seps (M 0)) < q * my <= j21 (seps (M 0)) \/ j12 (seps (M 0)) < q * my <= j22 (seps (M 0)) in
  (cr (y / my) <-> cr p).
Proof.
  intros Hp. cbv zeta. assert (H0 : 0 <= 0 < npes) by (destruct L; lia).
  destruct (fam _ _ _ _ _ _ _ _ _ _ _ _ _ L 0 H0) as (D & _ & _ & _ & _ & _ & _ & E7 & _).
  pose proof (d_mysub _ _ _ D) as Hm. pose proof (d_y _ _ _ D) as DY. rewrite E7 in DY.
  pose proof (d_order _ _ _ D) as O. unfold ordered_seps in O. rewrite E7 in O.
  pose proof (d_cuts _ _ _ D) as K.
  pose proof (K _ (or_introl eq_refl)) as [a1 K1]. pose proof (K _ (or_intror (or_introl eq_refl))) as [a4 K4].
  assert (K23 : j21 (seps (M 0)) = j12 (seps (M 0)) \/ exists a2 a3, j21 (seps (M 0)) + 1 = a2 * my /\ j12 (seps (M 0)) + 1 = a3 * my).
  { destruct (Z.eq_dec (j21 (seps (M 0))) (j12 (seps (M 0)))) as [E|E]; [left; exact E|right].
    assert (double_null (seps (M 0))) by exact E.
    destruct (K (j21 (seps (M 0)))) as [a2 K2]; [right; right; split; auto|]. destruct (K (j12 (seps (M 0)))) as [a3 K3]; [right; right; split; auto|]. eauto. }
  clear K.
  assert (DV : forall a, (a * my - 1) / my = a - 1).
  { intros a. replace (a * my - 1) with ((a - 1) * my + (my - 1)) by (clear; lia). rewrite Z.div_add_l by (clear - Hm; lia). rewrite Z.div_small by (clear - Hm; lia). clear; lia. }
  assert (S1 : ny - 1 = Y * my - 1) by (clear - DY; lia). assert (S2 : j11 (seps (M 0)) = a1 * my - 1) by (clear - K1; lia). assert (S3 : j22 (seps (M 0)) = a4 * my - 1) by (clear - K4; lia).
  set (A := j11 (seps (M 0))) in *. set (B := j21 (seps (M 0))) in *. set (Cc := j12 (seps (M 0))) in *. set (Dd := j22 (seps (M 0))) in *.
  pose proof (fun q a => mul_lt my q a Hm) as LE. pose proof (fun q a => mul_ge my q a Hm) as LT. pose proof (fun a b => mul_mono my a b Hm) as MM.
  assert (A0 : 0 <= a1) by (apply MM; clear - O K1; lia). assert (A5 : a4 <= Y) by (apply MM; clear - O K4 DY; lia).
  assert (REP : forall v y, y = v * my - 1 -> 1 <= v <= Y -> 0 <= y < ny /\ y / my = v - 1) by (intros v y -> Hv; split; [|apply DV]; pose proof (proj1 (Z.mul_le_mono_pos_r 1 v my Hm) (proj1 Hv)) as V1; pose proof (proj1 (Z.mul_le_mono_pos_r v Y my Hm) (proj2 Hv)) as V2; clear - V1 V2 Hm DY; lia).
  destruct K23 as [K23|(a2 & a3 & K2 & K3)].
  - assert (CR : forall q, A < q * my <= B \/ Cc < q * my <= Dd <-> a1 <= q < a4).
    { intros q. rewrite <- (LT q a1), <- (LE q a4), <- S2, <- S3. clear - K23 O. lia. }
    assert (A4 : a1 <= a4) by (apply MM; clear - O K1 K4 K23; lia). clear O K1 K4 K23 DY LE LT MM DV D E7. clearbody A B Cc Dd.
    destruct (Z_lt_ge_dec p a1) as [C1|C1]; [|destruct (Z_lt_ge_dec p a4) as [C2|C2]].
    + exists A. split; [cbn [In]; tauto|]. destruct (REP a1 A S2 ltac:(lia)) as [Q1 Q2]. split; [exact Q1|]. rewrite !CR, Q2. clear Q1 Q2 REP CR S1 S2 S3. lia.
    + exists Dd. split; [cbn [In]; tauto|]. destruct (REP a4 Dd S3 ltac:(lia)) as [Q1 Q2]. split; [exact Q1|]. rewrite !CR, Q2. clear Q1 Q2 REP CR S1 S2 S3. lia.
    + exists (ny - 1). split; [cbn [In]; tauto|]. destruct (REP Y (ny - 1) S1 ltac:(lia)) as [Q1 Q2]. split; [exact Q1|]. rewrite !CR, Q2. clear Q1 Q2 REP CR S1 S2 S3. lia.
  - assert (S4 : B = a2 * my - 1) by (clear - K2; lia). assert (S5 : Cc = a3 * my - 1) by (clear - K3; lia).
    assert (CR : forall q, A < q * my <= B \/ Cc < q * my <= Dd <-> a1 <= q < a2 \/ a3 <= q < a4).
    { intros q. rewrite S2, S3, S4, S5, !LT, !LE. reflexivity. }
    assert (A1 : a1 <= a2) by (apply MM; clear - O K1 K2; lia). assert (A2 : a2 <= a3) by (apply MM; clear - O K2 K3; lia). assert (A3 : a3 <= a4) by (apply MM; clear - O K3 K4; lia). clear O K1 K4 K2 K3 DY LE LT MM DV D E7. clearbody A B Cc Dd.
    destruct (Z_lt_ge_dec p a1) as [C1|C1]; [|destruct (Z_lt_ge_dec p a2) as [C2|C2]; [|destruct (Z_lt_ge_dec p a3) as [C3|C3]; [|destruct (Z_lt_ge_dec p a4) as [C4|C4]]]].
    + exists A. split; [cbn [In]; tauto|]. destruct (REP a1 A S2 ltac:(lia)) as [Q1 Q2]. split; [exact Q1|]. rewrite !CR, Q2. clear Q1 Q2 REP CR S1 S2 S3. lia.
    + exists B. split; [cbn [In]; tauto|]. destruct (REP a2 B S4 ltac:(lia)) as [Q1 Q2]. split; [exact Q1|]. rewrite !CR, Q2. clear Q1 Q2 REP CR S1 S2 S3. lia.
    + exists Cc. split; [cbn [In]; tauto|]. destruct (REP a3 Cc S5 ltac:(lia)) as [Q1 Q2]. split; [exact Q1|]. rewrite !CR, Q2. clear Q1 Q2 REP CR S1 S2 S3. lia.
    + exists Dd. split; [cbn [In]; tauto|]. destruct (REP a4 Dd S3 ltac:(lia)) as [Q1 Q2]. split; [exact Q1|]. rewrite !CR, Q2. clear Q1 Q2 REP CR S1 S2 S3. lia.
    + exists (ny - 1). split; [cbn [In]; tauto|]. destruct (REP Y (ny - 1) S1 ltac:(lia)) as [Q1 Q2]. split; [exact Q1|]. rewrite !CR, Q2. clear Q1 Q2 REP CR S1 S2 S3. lia.
Qed.

Lemma core_row_first r : 0 <= r < npes -> (core_row (M r) (ystart (M r)) <->
  j11 (seps (M 0)) < PE_YIND (M r) * my <= j21 (seps (M 0)) \/ j12 (seps (M 0)) < PE_YIND (M r) * my <= j22 (seps (M 0))).
Proof.
  intros Hr. destruct (fam _ _ _ _ _ _ _ _ _ _ _ _ _ L r Hr) as (D & _ & _ & _ & _ & _ & _ & _ & _ & E9).
  unfold core_row. cbv zeta. rewrite (proj1 (rowsD r Hr)), E9. reflexivity.
Qed.

Lemma complete lab l r cc : X = 1 \/ 0 <= j11 (seps (M 0)) \/ j21 (seps (M 0)) <> j12 (seps (M 0)) ->
  getPossibleBoundaries M C nz per = Ok l -> 0 <= r < npes -> In lab (labels r cc) -> In lab l.
Proof.
  intros HX E Hr Hin. destruct possible_in as (l' & E' & IH). rewrite E in E'. injection E' as <-. apply IH. clear IH E l.
  destruct (fam _ _ _ _ _ _ _ _ _ _ _ _ _ L r Hr) as (D & F1 & F2 & _ & F4 & _ & _ & F7 & _ & F9).
  pose proof (d_py _ _ _ D) as Hp. rewrite F2 in Hp. pose proof (d_mysub _ _ _ D) as Hm. rewrite F4 in Hm. pose proof (d_px _ _ _ D) as Hpx. rewrite F1 in Hpx.
  pose proof (d_y _ _ _ D) as DY. rewrite F7, F2, F4 in DY. pose proof (d_rank _ _ _ D) as RK. rewrite F1 in RK.
  (* the rank (0, p) *)
  assert (AT : forall y, 0 <= y < ny -> 0 <= X * (y / my) < npes /\ PE_XIND (M (X * (y / my))) = 0 /\ PE_YIND (M (X * (y / my))) = y / my).
  { intros y Hy. apply rank_at. split; [apply Z.div_pos; lia|apply Z.div_lt_upper_bound; lia]. }
  assert (WID : forall q, 0 <= q < npes -> bxs M C q true <= xstart (M q) <= bxe M C q true).
  { intros q Hq. destruct (msizes _ _ _ _ _ _ _ _ _ _ _ _ _ L q Hq) as (X0 & X1 & X2 & _).
    pose proof (bxs_cases _ _ _ _ _ _ _ _ _ _ _ _ _ L R q true Hq). pose proof (bxe_cases _ _ _ _ _ _ _ _ _ _ _ _ _ L R q true Hq). lia. }
  assert (WID2 : forall x, bxs M C r cc <= x <= bxe M C r cc -> bxs M C r true <= x <= bxe M C r true).
  { intros x. destruct (msizes _ _ _ _ _ _ _ _ _ _ _ _ _ L r Hr) as (X0 & X1 & X2 & _).
    destruct cc; [tauto|]. unfold bxs, bxe. cbn [andb]. destruct (I_DEST (C r) =? -1); destruct (O_DEST (C r) =? -1); lia. }
  assert (DV : forall y, PE_YIND (M r) * my <= y <= PE_YIND (M r) * my + my - 1 -> y / my = PE_YIND (M r)).
  { intros y Hy. replace y with (PE_YIND (M r) * my + (y - PE_YIND (M r) * my)) by lia. rewrite Z.div_add_l by lia. rewrite Z.div_small by lia. lia. }
  assert (NYI : j21 (seps (M 0)) <> j12 (seps (M 0)) -> exists a, nyin (seps (M 0)) = a * my /\ 1 <= a < Y).
  { intros DN. destruct R as [R1 R2 R3 R4]. specialize (R4 DN). pose proof (d_order _ _ _ D) as O. unfold ordered_seps in O. rewrite F7, F9 in O.
    pose proof (d_cuts _ _ _ D (nyin (seps (M r)) - 1)) as K. rewrite F9, F4 in K. destruct K as [a K]; [right; right; split; [exact DN|auto]|].
    exists a. split; [lia|]. nia. }
  rewrite (labels_in r cc lab Hr) in Hin.
  destruct Hin as [(B1 & B2 & B3 & B4)|[(B1 & B2 & B3 & B4)|[(B1 & B2 & x & B3 & B4)|(B1 & B2 & x & B3 & B4)]]].
  - right. destruct (core_rep _ Hp) as (y & I & Hy & CR). cbv zeta in CR. exists y. split; [exact I|]. split; [exact Hy|].
    destruct (AT y Hy) as (Q1 & Q2 & Q3). apply (labels_in _ _ _ Q1). left. split; [exact B1|]. split; [exact B2|]. split; [exact Q2|].
    rewrite (core_row_first _ Q1), Q3, CR. rewrite (core_row_first _ Hr) in B4. exact B4.
  - left. destruct rank_last as [Q1 Q2]. apply (labels_in _ _ _ Q1). right; left. auto.
  - right. destruct (Z.eq_dec (j21 (seps (M 0))) (j12 (seps (M 0)))) as [SN|DN].
    + destruct (leaves_above_rows r x Hr B4) as [RW|[RW1 RW]]; [|contradiction].
      exists (ny - 1). split; [cbn [In]; tauto|]. split; [nia|]. assert (Hy : 0 <= ny - 1 < ny) by nia.
      destruct (AT _ Hy) as (Q1 & Q2 & Q3). assert (EP : (ny - 1) / my = PE_YIND (M r)) by (apply DV; lia). rewrite EP in *.
      apply (labels_in _ _ _ Q1). right; right; left. split; [exact B1|]. split; [exact B2|].
      destruct HX as [HX|[HX|HX]]; [| |contradiction].
      * assert (EQ : X * PE_YIND (M r) = r) by nia. rewrite EQ. exists x. split; [apply WID2; exact B3|exact B4].
      * exists (xstart (M (X * PE_YIND (M r)))). split; [apply WID; exact Q1|]. apply (above_all _ _ Q1). rewrite Q3. right; auto.
    + destruct (NYI DN) as (a & K & Ha). exists (nyin (seps (M 0)) - 1). split; [cbn [In]; tauto|].
      assert (Hy : 0 <= nyin (seps (M 0)) - 1 < ny) by nia. split; [exact Hy|].
      destruct (AT _ Hy) as (Q1 & Q2 & Q3).
      assert (EP : (nyin (seps (M 0)) - 1) / my = a - 1).
      { replace (nyin (seps (M 0)) - 1) with ((a - 1) * my + (my - 1)) by lia. rewrite Z.div_add_l by lia. rewrite Z.div_small by lia. lia. }
      rewrite EP in *.
      apply (labels_in _ _ _ Q1). right; right; left. split; [exact B1|]. split; [exact B2|].
      exists (xstart (M (X * (a - 1)))). split; [apply WID; exact Q1|]. apply (above_all _ _ Q1). rewrite Q3. left. split; [exact DN|lia].
  - right. destruct (Z.eq_dec (j21 (seps (M 0))) (j12 (seps (M 0)))) as [SN|DN].
    + destruct (leaves_below_rows r x Hr B4) as [RW|[RW1 RW]]; [|contradiction].
      exists 0. split; [cbn [In]; tauto|]. split; [nia|]. assert (Hy : 0 <= 0 < ny) by nia.
      destruct (AT _ Hy) as (Q1 & Q2 & Q3). assert (EP : 0 / my = PE_YIND (M r)) by (apply DV; lia). rewrite EP in *.
      apply (labels_in _ _ _ Q1). right; right; right. split; [exact B1|]. split; [exact B2|].
      destruct HX as [HX|[HX|HX]]; [| |contradiction].
      * assert (EQ : X * PE_YIND (M r) = r) by nia. rewrite EQ. exists x. split; [apply WID2; exact B3|exact B4].
      * exists (xstart (M (X * PE_YIND (M r)))). split; [apply WID; exact Q1|]. apply (below_all _ _ Q1). rewrite Q3. right; auto.
    + destruct (NYI DN) as (a & K & Ha). exists (nyin (seps (M 0))). split; [cbn [In]; tauto|].
      assert (Hy : 0 <= nyin (seps (M 0)) < ny) by nia. split; [exact Hy|].
      destruct (AT _ Hy) as (Q1 & Q2 & Q3).
      assert (EP : nyin (seps (M 0)) / my = a) by (replace (nyin (seps (M 0))) with (a * my) by lia; apply Z.div_mul; lia).
      rewrite EP in *.
      apply (labels_in _ _ _ Q1). right; right; right. split; [exact B1|]. split; [exact B2|].
      exists (xstart (M (X * a))). split; [apply WID; exact Q1|]. apply (below_all _ _ Q1). rewrite Q3. left. split; [exact DN|lia].
Qed.
End P.
