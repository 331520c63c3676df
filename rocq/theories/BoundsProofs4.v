(** The boundary regions. *)
From Coq Require Import ZArith List Bool String Lia Sorted.
From Verif Require Import Base MeshModel MeshSpec MeshProofs TopoModel TopoSpec TopoProofs TopoProofs4 TopoProps CommProofs3
  BndryModel BndrySpec BoundsModel BoundsSpec BoundsProofs BoundsProofs2 BoundsProofs3.
Import ListNotations.
Open Scope Z_scope.

Section P.
Context (npes nx ny mxg myg : Z) (s : yseps) (user : option (Z + Z)) (ix1 ix2 : Z) (per : bool)
        (M : Z -> mesh) (C : Z -> conn) (core : Z -> bool).
Hypothesis L : loaded npes nx ny mxg myg s user ix1 ix2 per M C core.
Hypothesis R : regular ny (MYSUB (M 0)) (seps (M 0)).
Context (r nz : Z) (cc : bool).
Hypothesis Hr : 0 <= r < npes.
Notation m := (M r). Notation c := (C r). Notation LM := (lmesh_of m nz).

Lemma strip_xin a b x y : a <= b -> in_boundary LM (mk_region LM XIn a b) (x, y) <-> 0 <= x < xstart m /\ a <= y <= b.
Proof.
  intros H. unfold in_boundary, in_strip, mk_region, gcell. destruct (Z.ltb_spec b a); [lia|]. cbn [b_side b_lo b_hi b_width m_xstart lmesh_of].
  split.
  - intros (k & t & A & B & E). injection E as -> ->. lia.
  - intros [A B]. exists (xstart m - 1 - x), y. split; [lia|]. split; [lia|]. f_equal. lia.
Qed.
Lemma strip_xout a b x y : a <= b -> in_boundary LM (mk_region LM XOut a b) (x, y) <-> xend m < x < LocalNx m /\ a <= y <= b.
Proof.
  intros H. unfold in_boundary, in_strip, mk_region, gcell. destruct (Z.ltb_spec b a); [lia|]. cbn [b_side b_lo b_hi b_width m_xend LNx lmesh_of].
  split.
  - intros (k & t & A & B & E). injection E as -> ->. lia.
  - intros [A B]. exists (x - xend m - 1), y. split; [lia|]. split; [lia|]. f_equal. lia.
Qed.
Lemma strip_ydown a b x y : a <= b -> in_boundary LM (mk_region LM YDown a b) (x, y) <-> 0 <= y < ystart m /\ a <= x <= b.
Proof.
  intros H. unfold in_boundary, in_strip, mk_region, gcell. destruct (Z.ltb_spec b a); [lia|]. cbn [b_side b_lo b_hi b_width m_ystart LNy lmesh_of].
  split.
  - intros (k & t & A & B & E). injection E as -> ->. lia.
  - intros [A B]. exists (ystart m - 1 - y), x. split; [lia|]. split; [lia|]. f_equal. lia.
Qed.
Lemma strip_yup a b x y : a <= b -> in_boundary LM (mk_region LM YUp a b) (x, y) <-> yend m < y < LocalNy m /\ a <= x <= b.
Proof.
  intros H. unfold in_boundary, in_strip, mk_region, gcell. destruct (Z.ltb_spec b a); [lia|]. cbn [b_side b_lo b_hi b_width m_yend LNy lmesh_of].
  split.
  - intros (k & t & A & B & E). injection E as -> ->. lia.
  - intros [A B]. exists (y - yend m - 1), x. split; [lia|]. split; [lia|]. f_equal. lia.
Qed.

(** The regions with the columns of the code. *)
Definition bxs := if cc && (I_DEST c =? -1) then 0 else xstart m.
Definition bxe := if cc && (O_DEST c =? -1) then LocalNx m - 1 else xend m.

Lemma core_row_b : (let yg := getGlobalYIndexNoBoundaries m (MYG m) in let s := seps m in
   ((yg >? j11 s) && (yg <=? j21 s)) || ((yg >? j12 s) && (yg <=? j22 s))) = true <-> core_row m (ystart m).
Proof.
  destruct (fam _ _ _ _ _ _ _ _ _ _ _ _ _ L r Hr) as (D & _). unfold core_row. rewrite (d_ys _ _ _ D). cbv zeta.
  rewrite orb_true_iff, !andb_true_iff, !Z.gtb_lt, !Z.leb_le. lia.
Qed.

Definition opt {A} (b : bool) (a : A) : list A := if b then [a] else [].
Lemma in_opt {A} b (a x : A) : In x (opt b a) <-> b = true /\ x = a.
Proof. destruct b; cbn; intuition congruence. Qed.

Definition xlist : list (string * breg) :=
  let P := negb per && negb (MXG m <=? 0) in
  let K := (let yg := getGlobalYIndexNoBoundaries m (MYG m) in let s := seps m in
            ((yg >? j11 s) && (yg <=? j21 s)) || ((yg >? j12 s) && (yg <=? j22 s))) in
  opt (P && (PE_XIND m =? 0)) (if K then "core" else "pf", mk_region LM XIn (ystart m) (yend m))%string ++
  opt (P && (PE_XIND m =? NXPE m - 1)) ("sol"%string, mk_region LM XOut (ystart m) (yend m)).
Definition ylist : list (string * breg) :=
  let P := negb (MYG m <=? 0) in
  opt (P && ((U_IN c <? 0) && (U_XSPLIT c >? bxs))) ("upper_target"%string, mk_region LM YUp bxs (U_XSPLIT c - 1)) ++
  opt (P && ((U_OUT c <? 0) && (U_XSPLIT c <=? bxe))) ("upper_target"%string, mk_region LM YUp (U_XSPLIT c) bxe) ++
  opt (P && ((D_IN c <? 0) && (D_XSPLIT c >? bxs))) ("lower_target"%string, mk_region LM YDown bxs (D_XSPLIT c - 1)) ++
  opt (P && ((D_OUT c <? 0) && (D_XSPLIT c <=? bxe))) ("lower_target"%string, mk_region LM YDown (D_XSPLIT c) bxe).
Lemma xlist_eq : createXBoundaries m nz per = xlist.
Proof.
  unfold createXBoundaries, xlist, opt. destruct per; cbn [negb andb]; [reflexivity|]. destruct (MXG m <=? 0); cbn [negb andb]; [reflexivity|].
  destruct (PE_XIND m =? 0); [|reflexivity]. cbv zeta. destruct (_ || _); reflexivity.
Qed.
Lemma ylist_eq : createYBoundaries m c nz cc = ylist.
Proof.
  unfold createYBoundaries, ylist, opt. destruct (MYG m <=? 0); cbn [negb andb]; [reflexivity|]. reflexivity.
Qed.

Lemma idest_iff : I_DEST c = -1 <-> per = false /\ PE_XIND m = 0.
Proof. destruct (in_neighbour _ _ _ _ _ _ _ _ _ _ _ _ _ L R r Hr) as (A & B & _). split; [exact A|intros [? ?]; auto]. Qed.
Lemma odest_iff : O_DEST c = -1 <-> per = false /\ PE_XIND m = NXPE m - 1.
Proof.
  destruct (out_neighbour _ _ _ _ _ _ _ _ _ _ _ _ _ L R r Hr) as (A & B & _).
  destruct (fam _ _ _ _ _ _ _ _ _ _ _ _ _ L r Hr) as (_ & E & _). rewrite E. split; [exact A|intros [? ?]; auto].
Qed.
Lemma bxs_cases : (cc = true /\ per = false /\ PE_XIND m = 0 /\ bxs = 0) \/ (~ (cc = true /\ per = false /\ PE_XIND m = 0) /\ bxs = xstart m).
Proof.
  unfold bxs. pose proof idest_iff as I. destruct cc; cbn [andb]; [|right; split; [intros [? _]; discriminate|reflexivity]].
  destruct (Z.eqb_spec (I_DEST c) (-1)); [left|right]; tauto.
Qed.
Lemma bxe_cases : (cc = true /\ per = false /\ PE_XIND m = NXPE m - 1 /\ bxe = LocalNx m - 1) \/ (~ (cc = true /\ per = false /\ PE_XIND m = NXPE m - 1) /\ bxe = xend m).
Proof.
  unfold bxe. pose proof odest_iff as I. destruct cc; cbn [andb]; [|right; split; [intros [? _]; discriminate|reflexivity]].
  destruct (Z.eqb_spec (O_DEST c) (-1)); [left|right]; tauto.
Qed.

Lemma core_row_same y : iny_ m y -> (core_row m y <-> core_row m (ystart m)).
Proof.
  intros Hy. unfold iny_ in Hy. destruct (fam _ _ _ _ _ _ _ _ _ _ _ _ _ L r Hr) as (D & _ & _ & _ & E4 & _ & _ & E7 & _ & E9).
  unfold core_row, getGlobalYIndexNoBoundaries. rewrite (d_ys _ _ _ D), (d_ye _ _ _ D) in *.
  pose proof (d_cuts _ _ _ D) as K. pose proof (d_order _ _ _ D) as O. unfold ordered_seps in O. pose proof (d_mysub _ _ _ D) as HM.
  assert (T : forall j, (MYSUB m | j + 1) -> (y + PE_YIND m * MYSUB m - MYG m <= j <-> MYG m + PE_YIND m * MYSUB m - MYG m <= j)).
  { intros j [q Q]. split; intros; [lia|]. assert (PE_YIND m < q) by nia. nia. }
  pose proof (T _ (K _ (or_introl eq_refl))) as T1. pose proof (T _ (K _ (or_intror (or_introl eq_refl)))) as T2.
  assert (T34 : j21 (seps m) = j12 (seps m) \/
     ((y + PE_YIND m * MYSUB m - MYG m <= j21 (seps m) <-> MYG m + PE_YIND m * MYSUB m - MYG m <= j21 (seps m)) /\
      (y + PE_YIND m * MYSUB m - MYG m <= j12 (seps m) <-> MYG m + PE_YIND m * MYSUB m - MYG m <= j12 (seps m)))).
  { destruct (Z.eq_dec (j21 (seps m)) (j12 (seps m))) as [E|E]; [left; exact E|right].
    assert (double_null (seps m)) by exact E. split; apply T; apply K; right; right; split; auto. }
  clear K T. lia.
Qed.

Lemma labels_spec x y lab :
  (inx m x \/ iny_ m y \/ (cc = true /\ (beyond_inner m per x \/ beyond_outer m per x))) ->
  (in_labelled LM (boundaries m c nz cc per) (x, y) lab <-> boundary_label m cc per ix1 ix2 x y lab).
Proof.
  intros Dom. destruct (msizes _ _ _ _ _ _ _ _ _ _ _ _ _ L r Hr) as (X0 & X1 & X2 & Y0 & Y1 & Y2).
  destruct (fam _ _ _ _ _ _ _ _ _ _ _ _ _ L r Hr) as (D & _ & _ & _ & E4 & E5 & E6 & E7 & _ & E9).
  pose proof (d_xs _ _ _ D) as XS. pose proof (d_ys _ _ _ D) as YS.
  pose proof (d_px _ _ _ D) as PX.
  unfold in_labelled, boundaries. rewrite xlist_eq, ylist_eq. unfold xlist, ylist. cbv zeta.
  assert (Hx : 0 <= x < LocalNx m \/ ~ (0 <= x < LocalNx m)) by lia.
  assert (CB : 0 <= y < ystart m \/ yend m < y < LocalNy m -> (inx m x \/ (cc = true /\ (beyond_inner m per x \/ beyond_outer m per x))) /\ bxs <= x <= bxe /\ 0 <= x < LocalNx m).
  { intros Q. assert (Z1 : inx m x \/ (cc = true /\ (beyond_inner m per x \/ beyond_outer m per x))) by (unfold iny_ in Dom; destruct Dom as [?|[?|?]]; [tauto|lia|tauto]).
    split; [exact Z1|]. clear Dom. unfold inx, beyond_inner, beyond_outer in Z1. pose proof bxs_cases as B1. pose proof bxe_cases as B2.
    split; [|intuition lia].
    destruct Z1 as [Z1|(Z1 & [(Z2 & Z3 & Z4)|(Z2 & Z3 & Z4)])].
    - intuition lia.
    - destruct B1 as [(_ & _ & _ & ->)|[B1 _]]; [|tauto]. intuition lia.
    - destruct B2 as [(_ & _ & _ & ->)|[B2 _]]; [|tauto]. intuition lia. }
  split.
  - intros (b & Hin & HB). rewrite !in_app_iff, !in_opt in Hin.
    destruct Hin as [[[G E]|[G E]]|[[G E]|[[G E]|[[G E]|[G E]]]]]; apply pair_equal_spec in E; destruct E as [-> ->];
      rewrite !andb_true_iff, !negb_true_iff, ?Z.leb_gt, ?Z.eqb_eq, ?Z.ltb_lt, ?Z.gtb_lt, ?Z.leb_le in G.
    + apply strip_xin in HB; [|exact Y1]. pose proof core_row_b as CR. cbv zeta in CR. unfold boundary_label, beyond_inner.
      match goal with |- context [if ?k then _ else _] => set (K := k) in * end. assert (IY : iny_ m y) by (unfold iny_; lia). rewrite (core_row_same y IY).
      destruct K; [left|right; left]; (split; [reflexivity|]); (split; [intuition lia|]); (split; [exact IY|]); [apply CR; reflexivity|].
      intros Q. apply CR in Q. discriminate.
    + apply strip_xout in HB; [|exact Y1]. right; right; left. unfold beyond_outer, iny_. intuition lia.
    + apply strip_yup in HB; [|lia]. destruct (CB (or_intror (proj1 HB))) as (C1 & C2 & C3). right; right; right; right. split; [reflexivity|]. split; [lia|]. split; [|exact C1].
      apply (up_leaves _ _ _ _ _ _ _ _ _ _ _ _ _ L R r x Hr C3). destruct (Z.ltb_spec x (U_XSPLIT c)); lia.
    + apply strip_yup in HB; [|lia]. destruct (CB (or_intror (proj1 HB))) as (C1 & C2 & C3). right; right; right; right. split; [reflexivity|]. split; [lia|]. split; [|exact C1].
      apply (up_leaves _ _ _ _ _ _ _ _ _ _ _ _ _ L R r x Hr C3). destruct (Z.ltb_spec x (U_XSPLIT c)); lia.
    + apply strip_ydown in HB; [|lia]. destruct (CB (or_introl (proj1 HB))) as (C1 & C2 & C3). right; right; right; left. split; [reflexivity|]. split; [lia|]. split; [|exact C1].
      apply (down_leaves _ _ _ _ _ _ _ _ _ _ _ _ _ L R r x Hr C3). destruct (Z.ltb_spec x (D_XSPLIT c)); lia.
    + apply strip_ydown in HB; [|lia]. destruct (CB (or_introl (proj1 HB))) as (C1 & C2 & C3). right; right; right; left. split; [reflexivity|]. split; [lia|]. split; [|exact C1].
      apply (down_leaves _ _ _ _ _ _ _ _ _ _ _ _ _ L R r x Hr C3). destruct (Z.ltb_spec x (D_XSPLIT c)); lia.
  - pose proof core_row_b as CR. cbv zeta in CR.
    match goal with |- context [if ?k then "core"%string else _] => set (K := k) in * end.
    intros [(-> & (B1 & B2 & B3) & IY & Q)|[(-> & (B1 & B2 & B3) & IY & Q)|[(-> & (B1 & B2 & B3) & IY)|[(-> & B & Q & _)|(-> & B & Q & _)]]]].
    + rewrite (core_row_same y IY) in Q. apply CR in Q.
      exists (mk_region LM XIn (ystart m) (yend m)). split; [|apply strip_xin; [exact Y1|unfold iny_ in IY; lia]].
      rewrite !in_app_iff, !in_opt. left; left. rewrite Q, B1, B2, Z.eqb_refl. split; [|reflexivity].
      rewrite andb_true_iff. split; [|reflexivity]. cbn [negb andb]. apply negb_true_iff, Z.leb_gt. lia.
    + rewrite (core_row_same y IY) in Q. assert (Q' : K = false) by (destruct K; [exfalso; apply Q, CR; reflexivity|reflexivity]).
      exists (mk_region LM XIn (ystart m) (yend m)). split; [|apply strip_xin; [exact Y1|unfold iny_ in IY; lia]].
      rewrite !in_app_iff, !in_opt. left; left. rewrite Q', B1, B2, Z.eqb_refl. split; [|reflexivity].
      rewrite andb_true_iff. split; [|reflexivity]. cbn [negb andb]. apply negb_true_iff, Z.leb_gt. lia.
    + exists (mk_region LM XOut (ystart m) (yend m)). split; [|apply strip_xout; [exact Y1|unfold iny_ in IY; lia]].
      rewrite !in_app_iff, !in_opt. left; right. rewrite B1, B2, Z.eqb_refl. split; [|reflexivity].
      rewrite andb_true_iff. split; [|reflexivity]. cbn [negb andb]. apply negb_true_iff, Z.leb_gt.
      pose proof (d_lnx _ _ _ D). pose proof (d_xe _ _ _ D). lia.
    + destruct (CB (or_introl B)) as (C1 & C2 & C3). apply (down_leaves _ _ _ _ _ _ _ _ _ _ _ _ _ L R r x Hr C3) in Q.
      assert (G0 : negb (MYG m <=? 0) = true) by (apply negb_true_iff, Z.leb_gt; lia).
      destruct (Z.ltb_spec x (D_XSPLIT c)) as [G|G].
      * exists (mk_region LM YDown bxs (D_XSPLIT c - 1)). split; [|apply strip_ydown; lia].
        rewrite !in_app_iff, !in_opt. do 3 right. left. split; [|reflexivity]. rewrite G0. rewrite !andb_true_iff, Z.ltb_lt, Z.gtb_lt. lia.
      * exists (mk_region LM YDown (D_XSPLIT c) bxe). split; [|apply strip_ydown; lia].
        rewrite !in_app_iff, !in_opt. do 4 right. split; [|reflexivity]. rewrite G0. rewrite !andb_true_iff, Z.ltb_lt, Z.leb_le. lia.
    + destruct (CB (or_intror B)) as (C1 & C2 & C3). apply (up_leaves _ _ _ _ _ _ _ _ _ _ _ _ _ L R r x Hr C3) in Q.
      assert (G0 : negb (MYG m <=? 0) = true) by (apply negb_true_iff, Z.leb_gt; pose proof (d_lny _ _ _ D); pose proof (d_ye _ _ _ D); lia).
      destruct (Z.ltb_spec x (U_XSPLIT c)) as [G|G].
      * exists (mk_region LM YUp bxs (U_XSPLIT c - 1)). split; [|apply strip_yup; lia].
        rewrite !in_app_iff, !in_opt. right; left. split; [|reflexivity]. rewrite G0. rewrite !andb_true_iff, Z.ltb_lt, Z.gtb_lt. lia.
      * exists (mk_region LM YUp (U_XSPLIT c) bxe). split; [|apply strip_yup; lia].
        rewrite !in_app_iff, !in_opt. right; right; left. split; [|reflexivity]. rewrite G0. rewrite !andb_true_iff, Z.ltb_lt, Z.leb_le. lia.
Qed.

(** Regions of the list are pairwise disjoint. *)
Definition apart (a b : string * breg) : Prop := forall p, in_boundary LM (snd a) p -> in_boundary LM (snd b) p -> False.
Lemma fop_app {A} (Q : A -> A -> Prop) l1 l2 : ForallOrdPairs Q l1 -> ForallOrdPairs Q l2 -> (forall a b, In a l1 -> In b l2 -> Q a b) -> ForallOrdPairs Q (l1 ++ l2).
Proof.
  induction 1 as [|a l1 Ha Hl IH]; intros H2 H; [exact H2|]. cbn [app]. constructor.
  - apply Forall_app. split; [exact Ha|]. apply Forall_forall. intros b Hb. apply H; [left; reflexivity|exact Hb].
  - apply IH; [exact H2|]. intros a' b' Ha' Hb'. apply H; [right; exact Ha'|exact Hb'].
Qed.
Lemma fop_opt {A} (Q : A -> A -> Prop) b a : ForallOrdPairs Q (opt b a).
Proof. destruct b; constructor; constructor. Qed.

Lemma all_apart : ForallOrdPairs apart (boundaries m c nz cc per).
Proof.
  destruct (msizes _ _ _ _ _ _ _ _ _ _ _ _ _ L r Hr) as (X0 & X1 & X2 & Y0 & Y1 & Y2).
  unfold boundaries. rewrite xlist_eq, ylist_eq. unfold xlist, ylist. cbv zeta.
  repeat first [apply fop_opt | apply fop_app]; intros a b Ha Hb; rewrite ?in_app_iff, ?in_opt in *; intros [x y];
    repeat match goal with H : _ \/ _ |- _ => destruct H as [H|H] end;
    destruct Ha as [Ga ->]; destruct Hb as [Gb ->]; cbn [snd];
    rewrite !andb_true_iff, ?negb_true_iff, ?Z.leb_gt, ?Z.eqb_eq, ?Z.ltb_lt, ?Z.gtb_lt, ?Z.leb_le in *;
    rewrite ?strip_xin, ?strip_xout, ?strip_ydown, ?strip_yup by lia; clear - Y0 Y1 Y2 X0 X1 X2; lia.
Qed.
End P.
