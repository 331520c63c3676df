(** Proofs for the sparsity pattern of the global numbering: counting. *)
From Coq Require Import ZArith List Bool String Lia Sorted Permutation.
From Verif Require Import Base MeshModel MeshSpec MeshProofs TopoModel TopoSpec CommModel RegionModel RegionSpec RegionProofs BoundsModel BoundsSpec BoundsProofs IndexerModel IndexerSpec IndexerProofs IndexerProofs2 IndexerProofs5.
Import ListNotations.
Open Scope Z_scope.

Definition cnt {A} (p : A -> bool) (l : list A) : Z := Z.of_nat (List.length (filter p l)).
Lemma cnt_nil {A} (p : A -> bool) : cnt p [] = 0. Proof. reflexivity. Qed.
Lemma cnt_cons {A} (p : A -> bool) a l : cnt p (a :: l) = (if p a then 1 else 0) + cnt p l.
Proof. unfold cnt. cbn [filter]. destruct (p a); cbn [List.length]; lia. Qed.
Lemma cnt_app {A} (p : A -> bool) l l' : cnt p (l ++ l') = cnt p l + cnt p l'.
Proof. unfold cnt. rewrite filter_app, app_length. lia. Qed.
Lemma cnt_ext {A} (p q : A -> bool) l : (forall a, In a l -> p a = q a) -> cnt p l = cnt q l.
Proof. intros H. unfold cnt. rewrite (filter_ext_in p q l H). reflexivity. Qed.
Lemma cnt_false {A} (p : A -> bool) l : (forall a, In a l -> p a = false) -> cnt p l = 0.
Proof. intros H. induction l as [|a l IH]; [reflexivity|]. rewrite cnt_cons, H by (left; reflexivity). rewrite IH; [reflexivity|]. intros b Hb. apply H. right. exact Hb. Qed.
(** Counting pairs both ways. *)
Fixpoint sumz {A} (h : A -> Z) (l : list A) : Z := match l with [] => 0 | a :: l' => h a + sumz h l' end.
Lemma sumz_ext {A} (h k : A -> Z) l : (forall a, In a l -> h a = k a) -> sumz h l = sumz k l.
Proof. induction l as [|a l IH]; intros H; [reflexivity|]. cbn [sumz]. rewrite H by (left; reflexivity). rewrite IH; [reflexivity|]. intros b Hb. apply H. right. exact Hb. Qed.
Lemma double_count {A B} (p : A -> B -> bool) (G : list A) (O : list B) : sumz (fun a => cnt (p a) O) G = sumz (fun b => cnt (fun a => p a b) G) O.
Proof.
  revert G. induction O as [|o O IH]; intros G.
  - cbn [sumz]. induction G as [|a G IHG]; [reflexivity|]. cbn [sumz]. rewrite IHG. reflexivity.
  - cbn [sumz]. rewrite <- IH. clear IH. induction G as [|a G IHG]; [reflexivity|]. cbn [sumz]. rewrite IHG, !cnt_cons. lia.
Qed.
Lemma sumz_bool {A} (p : A -> bool) l : sumz (fun a => if p a then 1 else 0) l = cnt p l.
Proof. induction l as [|a l IH]; [reflexivity|]. cbn [sumz]. rewrite cnt_cons, IH. reflexivity. Qed.
Lemma cnt_flat {A B} (q : B -> bool) (h : A -> list B) l : cnt q (flat_map h l) = sumz (fun a => cnt q (h a)) l.
Proof. induction l as [|a l IH]; [reflexivity|]. cbn [flat_map sumz]. rewrite cnt_app, IH. reflexivity. Qed.

Section One.
Context (m : mesh) (nz : Z).
Notation ny := (LocalNy m).
Hypothesis Hnz : 0 < nz. Hypothesis Hny : 0 < ny.
Hypothesis GX : xstart m = MXG m /\ 0 <= MXG m /\ LocalNx m = xend m + 1 + MXG m /\ xstart m <= xend m.
Hypothesis GY : ystart m = MYG m /\ 0 <= MYG m /\ ny = yend m + 1 + MYG m /\ ystart m <= yend m.
Notation infield := (infield m nz).
Notation P := (pt ny nz).

(** Points just outside of the field do not pass for interior points. *)
Lemma test_pt a b c : - MXG m <= a -> - MYG m <= b < ny + MYG m -> 0 <= c < nz -> interior_test m 0 (nz - 1) (P a b c) = true <-> interior m nz a b c.
Proof.
  intros HA HB HC. unfold interior_test, interior, inx, iny_. rewrite !andb_true_iff, !Z.leb_le.
  assert (OK : forall a' b', 0 <= a' -> 0 <= b' < ny -> ix (P a' b' c) = a' /\ iy (P a' b' c) = b' /\ iz (P a' b' c) = c) by (intros; apply flat_coords; lia).
  destruct (Z_lt_ge_dec (flat ny nz a b c) 0) as [N|N].
  - assert (Q1 : a * ny + b < 0) by (unfold flat in N; nia).
    assert (Q2 : (flat ny nz a b c) ÷ nz <= 0).
    { replace (flat ny nz a b c) with (- - flat ny nz a b c) by lia. rewrite Z.quot_opp_l by lia. pose proof (Z.quot_pos (- flat ny nz a b c) nz ltac:(lia) Hnz). lia. }
    assert (Q3 : ix (P a b c) <= 0).
    { unfold ix, pt. cbn [ind inz iny]. set (t := flat ny nz a b c ÷ nz) in *. replace t with (- - t) by lia. rewrite Z.quot_opp_l by lia. pose proof (Z.quot_pos (- t) ny ltac:(lia) Hny). lia. }
    assert (Q4 : iy (P a b c) <= 0).
    { unfold iy, pt. cbn [ind inz iny]. set (t := flat ny nz a b c ÷ nz) in *. apply Z.rem_nonpos; lia. }
    split; intros H; exfalso.
    + assert (a < 0 \/ b < 0) by nia. destruct H0; lia.
    + nia.
  - destruct (Z_lt_ge_dec b 0) as [B|B].
    + assert (1 <= a) by (unfold flat in N; nia).
      assert (E : P a b c = P (a - 1) (b + ny) c) by (unfold pt, flat; f_equal; ring). rewrite E.
      destruct (OK (a - 1) (b + ny)) as (E1 & E2 & E3); [lia|lia|]. rewrite E1, E2, E3. lia.
    + destruct (Z_lt_ge_dec b ny) as [B'|B'].
      * assert (0 <= a) by (unfold flat in N; destruct (Z_lt_ge_dec a 0); [exfalso; assert (a * ny + b <= -1) by nia; nia|lia]). destruct (OK a b) as (E1 & E2 & E3); [lia|lia|]. rewrite E1, E2, E3. lia.
      * assert (E : P a b c = P (a + 1) (b - ny) c) by (unfold pt, flat; f_equal; ring). rewrite E.
        destruct (Z_lt_ge_dec (a + 1) 0) as [A0|A0]; [unfold flat in N; exfalso; assert (a * ny + b <= -1) by nia; nia|].
        destruct (OK (a + 1) (b - ny)) as (E1 & E2 & E3); [lia|lia|]. rewrite E1, E2, E3. lia.
Qed.

Context (offs : list ioff).
Hypothesis HO : forall o, In o offs -> - MXG m <= odx o <= MXG m /\ - MYG m <= ody o <= MYG m.
Notation st := (with_interior offs m 0 (nz - 1)).

Lemma offsets_int x y z : interior m nz x y z -> offsets_at st (P x y z) offs.
Proof.
  intros H. exists O, (interior_test m 0 (nz - 1)). split; [reflexivity|]. split; [|intros; lia]. destruct H as (A & B & D). unfold inx, iny_ in *.
  apply test_pt; unfold interior, inx, iny_; lia.
Qed.
Lemma offsets_out x y z : infield x y z -> ~ interior m nz x y z -> offsets_at st (P x y z) [mkoff 0 0 0].
Proof.
  intros (A & B & D) HN. exists 1%nat, (fun _ => true). split; [reflexivity|]. split; [reflexivity|]. intros k t p Hk HT. assert (k = O) by lia. subst k.
  cbn in HT. injection HT as <- <-. destruct (interior_test m 0 (nz - 1) (P x y z)) eqn:E; [|reflexivity]. exfalso. apply HN. apply test_pt; [lia|lia|lia|exact E].
Qed.
Lemma st_fits : fits st m nz.
Proof.
  split.
  - intros x y z part o HI HP Ho. rewrite (offsets_unique _ _ _ _ HP (offsets_int x y z HI)) in Ho. apply HO. exact Ho.
  - intros _ x y z HI. exists offs. apply offsets_int. exact HI.
Qed.

(** Cells whose stencil has the guard cell. *)
Definition back (x y z : Z) (o : ioff) : list sind :=
  if interior_test m 0 (nz - 1) (isub (P x y z) o) then [isub (P x y z) o] else [].
Lemma including_guard x y z : infield x y z -> ~ interior m nz x y z ->
  getIndicesWithStencilIncluding st (P x y z) = flat_map (back x y z) offs ++ [P x y z].
Proof.
  intros HF HN. unfold getIndicesWithStencilIncluding, with_interior. cbn [including_from]. rewrite app_nil_r. f_equal.
  - apply flat_map_ext. intros o. cbv zeta. unfold back, getStencilNumber. cbn [number_from].
    destruct (interior_test m 0 (nz - 1) (isub (P x y z) o)); reflexivity.
  - cbn [flat_map]. rewrite app_nil_r. rewrite (isub_pt m nz Hny) by exact HF. cbn [odx ody odz].
    replace (x - 0) with x by lia. replace (y - 0) with y by lia. replace (z - 0) with z by lia. rewrite Z.mod_small by apply HF.
    unfold getStencilNumber. cbn [number_from]. destruct HF as (A & B & D).
    destruct (interior_test m 0 (nz - 1) (P x y z)) eqn:E; [|reflexivity].
    exfalso. apply HN. apply test_pt; [lia|lia|lia|exact E].
Qed.

(** * The counting loops *)
Context (f : field Z) (start end_ : Z).
Notation size := (LocalNx m * ny * nz).
Definition gval (i : sind) : Z := dat f (ix i) (iy i) (iz i).
Definition locb (i : sind) : bool := (start <=? gval i) && (gval i <=? end_).
Definition isin (i : sind) : Prop := exists x y z, infield x y z /\ i = P x y z.
Lemma gval_pt x y z : infield x y z -> gval (P x y z) = dat f x y z.
Proof. intros (A & B & D). unfold gval, pt. destruct (flat_coords ny nz x y z) as (E1 & E2 & E3); [lia|lia|lia|]. rewrite E1, E2, E3. reflexivity. Qed.
Lemma in_size i : isin i -> 0 <= ind i < size.
Proof. intros (x & y & z & (A & B & D) & ->). cbn [pt ind]. unfold flat. assert (0 <= x * ny + y <= LocalNx m * ny - 1) by nia. nia. Qed.
Lemma getGlobal_ok i : isin i -> getGlobal size f i = Ok (gval i).
Proof.
  intros H. pose proof (in_size i H) as K. unfold getGlobal.
  replace ((0 <=? ind i) && (ind i <? size)) with true; [reflexivity|]. symmetry. apply andb_true_iff. rewrite Z.leb_le, Z.ltb_lt. lia.
Qed.
Lemma isLocal_ok i : isin i -> isLocal size start end_ f i = Ok (locb i).
Proof.
  intros H. unfold isLocal. pose proof (in_size i H). replace (ind i <? 0) with false by (symmetry; apply Z.ltb_ge; lia).
  rewrite getGlobal_ok by exact H. reflexivity.
Qed.
Notation nrow := (end_ - start + 1).
Lemma upd_ok a n v : 0 <= n < nrow -> upd_row nrow a n v = Ok (fun k => if k =? n then v else a k).
Proof. intros H. unfold upd_row. replace ((0 <=? n) && (n <? nrow)) with true; [reflexivity|]. symmetry. apply andb_true_iff. rewrite Z.leb_le, Z.ltb_lt. lia. Qed.

Definition hit (n : Z) (j : sind) : bool := locb j && (gval j - start =? n).
Lemma off_rows_ok js : forall d o, (forall j, In j js -> isin j) ->
  exists d' o', off_rows size start end_ f nrow js (d, o) = Ok (d', o') /\ forall n, o' n = o n + cnt (hit n) js /\ d' n = d n - cnt (hit n) js.
Proof.
  induction js as [|j js IH]; intros d o H; cbn [off_rows].
  - exists d, o. split; [reflexivity|]. intros n. rewrite cnt_nil. lia.
  - assert (Hj : isin j) by (apply H; left; reflexivity). rewrite isLocal_ok by exact Hj. cbn [bind].
    assert (H' : forall k, In k js -> isin k) by (intros k Hk; apply H; right; exact Hk). destruct (locb j) eqn:E.
    + rewrite getGlobal_ok by exact Hj. cbn [bind fst snd]. pose proof E as E'. unfold locb in E'. apply andb_true_iff in E'. rewrite !Z.leb_le in E'.
      rewrite !upd_ok by lia. cbn [bind]. match goal with |- exists d' o', off_rows _ _ _ _ _ js (?a, ?b) = _ /\ _ => destruct (IH a b H') as (d' & o' & E1 & E2) end.
      exists d', o'. split; [exact E1|]. intros n. destruct (E2 n) as [A B]. rewrite A, B, cnt_cons. cbv beta.
      replace (hit n j) with (gval j - start =? n) by (unfold hit; rewrite E; reflexivity). rewrite (Z.eqb_sym n). destruct (gval j - start =? n) eqn:E3; [|lia]. apply Z.eqb_eq in E3. rewrite E3. lia.
    + destruct (IH d o H') as (d' & o' & E1 & E2). exists d', o'. split; [exact E1|]. intros n. destruct (E2 n) as [A B]. rewrite A, B, cnt_cons. replace (hit n j) with false by (unfold hit; rewrite E; reflexivity). lia.
Qed.

Definition foreign (i : sind) : bool := (0 <=? gval i) && negb (locb i).
Lemma off_guards_ok gs : forall d o, (forall g, In g gs -> isin g /\ forall j, In j (getIndicesWithStencilIncluding st g) -> isin j) ->
  exists d' o', off_guards st size start end_ f nrow gs (d, o) = Ok (d', o') /\
    forall n, o' n = o n + sumz (fun g => if foreign g then cnt (hit n) (getIndicesWithStencilIncluding st g) else 0) gs /\
              d' n = d n - sumz (fun g => if foreign g then cnt (hit n) (getIndicesWithStencilIncluding st g) else 0) gs.
Proof.
  induction gs as [|g gs IH]; intros d o H; cbn [off_guards sumz].
  - exists d, o. split; [reflexivity|]. intros n. lia.
  - destruct (H g (or_introl eq_refl)) as [Hg Hj]. rewrite getGlobal_ok, isLocal_ok by exact Hg. cbn [bind].
    assert (H' : forall g', In g' gs -> isin g' /\ forall j, In j (getIndicesWithStencilIncluding st g') -> isin j) by (intros g' Q; apply H; right; exact Q).
    change ((0 <=? gval g) && negb (locb g)) with (foreign g). destruct (foreign g).
    + destruct (off_rows_ok _ d o Hj) as (d1 & o1 & E1 & E2). rewrite E1. cbn [bind]. destruct (IH d1 o1 H') as (d' & o' & E3 & E4). exists d', o'. split; [exact E3|].
      intros n. destruct (E4 n) as [A B]. destruct (E2 n) as [A' B']. rewrite A, B, A', B'. lia.
    + cbn [bind]. destruct (IH d o H') as (d' & o' & E3 & E4). exists d', o'. split; [exact E3|]. intros n. destruct (E4 n) as [A B]. rewrite A, B. lia.
Qed.

Lemma diag_ok is : forall d, (forall i, In i is -> isin i /\ locb i = true) -> (forall i j, In i is -> In j is -> gval i = gval j -> i = j) ->
  exists d', diag_init st size start f nrow is d = Ok d' /\ forall i s0, In i is -> getStencilSize st i = Ok s0 -> d' (gval i - start) = s0.
Proof.
  assert (TOT : forall i, exists s0, getStencilSize st i = Ok s0).
  { intros i. unfold getStencilSize, with_interior. cbn [getStencilPart]. destruct (interior_test m 0 (nz - 1) i); cbn [bind]; eexists; reflexivity. }
  assert (GEN : forall is d, (forall i, In i is -> isin i /\ locb i = true) -> exists d', diag_init st size start f nrow is d = Ok d' /\
     (forall i s0, In i is -> getStencilSize st i = Ok s0 -> (forall j, In j is -> gval i = gval j -> i = j) -> d' (gval i - start) = s0) /\
     (forall n, (forall i, In i is -> gval i - start <> n) -> d' n = d n)).
  { clear is. induction is as [|a is IH]; intros d H; cbn [diag_init].
    - exists d. split; [reflexivity|]. split; [intros i s0 []|auto].
    - destruct (H a (or_introl eq_refl)) as [Ha La]. rewrite getGlobal_ok by exact Ha. cbn [bind]. destruct (TOT a) as (sa & Es). rewrite Es. cbn [bind].
      unfold locb in La. apply andb_true_iff in La. rewrite !Z.leb_le in La. rewrite upd_ok by lia. cbn [bind].
      destruct (IH (fun k => if k =? gval a - start then sa else d k) (fun i Q => H i (or_intror Q))) as (d' & E1 & E2 & E3). exists d'. split; [exact E1|]. split.
      + intros i s0 Hi Hs HU. destruct (in_dec Z.eq_dec (gval i) (map gval is)) as [Q|Q].
        * apply in_map_iff in Q. destruct Q as (j & Ej & Hj). assert (i = j) by (apply HU; [right; exact Hj|congruence]). subst j.
          apply E2; [exact Hj|exact Hs|]. intros k Hk. apply HU. right. exact Hk.
        * destruct Hi as [<-|Hi]; [|exfalso; apply Q; apply in_map; exact Hi]. rewrite E3.
          { rewrite Z.eqb_refl. congruence. }
          intros k Hk Ek. apply Q. apply in_map_iff. exists k. split; [lia|exact Hk].
      + intros n Hn. rewrite E3 by (intros i Hi; apply Hn; right; exact Hi). specialize (Hn a (or_introl eq_refl)). destruct (n =? gval a - start) eqn:E; [|reflexivity].
        apply Z.eqb_eq in E. lia. }
  intros d H U. destruct (GEN is d H) as (d' & A & B & _). exists d'. split; [exact A|]. intros i s0 Hi Hs. apply B; auto.
Qed.

Lemma cnt_unique (p : sind -> bool) G g0 : NoDup (map ind G) -> In g0 G -> (forall g, In g G -> p g = true -> ind g = ind g0) ->
  cnt p G = if p g0 then 1 else 0.
Proof.
  induction G as [|a G IH]; intros N H U; [destruct H|]. cbn [map] in N. inversion N as [|? ? N1 N2]; subst. rewrite cnt_cons. destruct H as [->|H].
  - rewrite (cnt_false p G); [lia|]. intros b Hb. destruct (p b) eqn:E; [|reflexivity]. exfalso. apply N1. rewrite <- (U b (or_intror Hb) E). apply in_map. exact Hb.
  - rewrite (IH N2 H (fun g Q => U g (or_intror Q))). destruct (p a) eqn:E; [|lia]. exfalso. apply N1. rewrite (U a (or_introl eq_refl) E). apply in_map. exact H.
Qed.

Context (N : Z -> Z -> Z -> Prop) (all guards : list sind).
Hypothesis N_int : forall x y z, interior m nz x y z -> N x y z.
Hypothesis N_in : forall x y z, N x y z -> infield x y z.
Hypothesis N_range : forall x y z, N x y z -> start <= dat f x y z <= end_.
Hypothesis N_inj : forall x y z x' y' z', N x y z -> N x' y' z' -> dat f x y z = dat f x' y' z' -> x = x' /\ y = y' /\ z = z'.
Hypothesis A_all : forall i, In i all <-> exists x y z, N x y z /\ i = P x y z.
Hypothesis G_all : forall i, In i guards <-> exists x y z, infield x y z /\ ~ interior m nz x y z /\ i = P x y z.
Hypothesis G_nodup : NoDup (map ind guards).

Lemma interior_dec x y z : {interior m nz x y z} + {~ interior m nz x y z}.
Proof.
  unfold interior, inx, iny_. destruct (Z_le_dec (xstart m) x), (Z_le_dec x (xend m)), (Z_le_dec (ystart m) y), (Z_le_dec y (yend m)), (Z_le_dec 0 z), (Z_lt_dec z nz);
    (left; lia) || (right; lia).
Qed.
Lemma locb_N x y z : N x y z -> locb (P x y z) = true.
Proof. intros H. unfold locb. rewrite gval_pt by (apply N_in; exact H). pose proof (N_range x y z H). apply andb_true_iff. rewrite !Z.leb_le. lia. Qed.

Lemma back_in x y z o k : infield x y z -> In o offs -> In k (back x y z o) -> exists a b c, interior m nz a b c /\ k = P a b c.
Proof.
  intros HF Ho. unfold back. rewrite (isub_pt m nz Hny) by exact HF. destruct (HO o Ho) as [HX HY]. destruct HF as (F1 & F2 & F3).
  pose proof (Z.mod_pos_bound (z - odz o) nz Hnz).
  destruct (interior_test m 0 (nz - 1) (P (x - odx o) (y - ody o) ((z - odz o) mod nz))) eqn:E; [|intros []].
  intros [<-|[]]. apply test_pt in E; [|lia|lia|lia]. eauto 6.
Qed.

(** Contribution of one guard cell to one interior row. *)
Lemma guard_row gx gy gz x y z : infield gx gy gz -> ~ interior m nz gx gy gz -> foreign (P gx gy gz) = true -> interior m nz x y z ->
  cnt (hit (dat f x y z - start)) (getIndicesWithStencilIncluding st (P gx gy gz)) = cnt (fun o => ind (isub (P gx gy gz) o) =? ind (P x y z)) offs.
Proof.
  intros HF HN HG HI. rewrite including_guard by assumption. rewrite cnt_app, cnt_cons, cnt_nil.
  assert (HG' : locb (P gx gy gz) = false) by (unfold foreign in HG; apply andb_true_iff in HG; destruct HG as [_ HG]; apply negb_true_iff in HG; exact HG).
  replace (hit (dat f x y z - start) (P gx gy gz)) with false by (unfold hit; rewrite HG'; reflexivity).
  rewrite cnt_flat. rewrite ?Z.add_0_l, ?Z.add_0_r. rewrite <- sumz_bool. apply sumz_ext. intros o Ho. unfold back. rewrite (isub_pt m nz Hny) by exact HF.
  destruct (HO o Ho) as [HX HY]. destruct HF as (F1 & F2 & F3). pose proof (Z.mod_pos_bound (gz - odz o) nz Hnz) as HZ.
  set (a := gx - odx o). set (b := gy - ody o). set (c := (gz - odz o) mod nz) in *.
  pose proof (test_pt a b c ltac:(lia) ltac:(lia) HZ) as TP. destruct (interior_test m 0 (nz - 1) (P a b c)) eqn:E.
  - assert (HI2 : interior m nz a b c) by (apply TP; reflexivity). rewrite cnt_cons, cnt_nil. unfold hit. rewrite (locb_N a b c (N_int _ _ _ HI2)). cbn [andb].
    rewrite gval_pt by (apply N_in, N_int; exact HI2).
    destruct (ind (P a b c) =? ind (P x y z)) eqn:E2.
    + apply Z.eqb_eq in E2. destruct (pt_inj m nz a b c x y z) as (-> & -> & ->); [apply N_in, N_int; exact HI2|apply N_in, N_int; exact HI|exact E2|]. rewrite Z.eqb_refl. reflexivity.
    + destruct (dat f a b c - start =? dat f x y z - start) eqn:E3; [|reflexivity]. apply Z.eqb_eq in E3. apply Z.eqb_neq in E2. exfalso. apply E2.
      destruct (N_inj a b c x y z) as (-> & -> & ->); auto. lia.
  - rewrite cnt_nil. destruct (ind (P a b c) =? ind (P x y z)) eqn:E2; [|reflexivity]. apply Z.eqb_eq in E2. exfalso.
    assert (EP : P a b c = P x y z) by (unfold pt in *; cbn [ind] in E2; rewrite E2; reflexivity).
    assert (interior_test m 0 (nz - 1) (P x y z) = true); [|congruence]. destruct (N_in x y z (N_int _ _ _ HI)) as (? & ? & ?). apply test_pt; [lia|lia|lia|exact HI].
Qed.
Lemma guard_none gx gy gz x y z : infield gx gy gz -> ~ interior m nz gx gy gz -> foreign (P gx gy gz) = true -> N x y z -> ~ interior m nz x y z ->
  cnt (hit (dat f x y z - start)) (getIndicesWithStencilIncluding st (P gx gy gz)) = 0.
Proof.
  intros HF HN HG HI HI'. apply cnt_false. intros k Hk. rewrite including_guard in Hk by assumption. apply in_app_iff in Hk. destruct Hk as [Hk|[<-|[]]].
  - apply in_flat_map in Hk. destruct Hk as (o & Ho & Hk). destruct (back_in _ _ _ _ _ HF Ho Hk) as (a & b & c & HA & ->).
    unfold hit. rewrite (locb_N a b c (N_int _ _ _ HA)). cbn [andb]. rewrite gval_pt by (apply N_in, N_int; exact HA). apply Z.eqb_neq. intros E.
    destruct (N_inj a b c x y z) as (-> & -> & ->); auto. lia.
  - unfold hit. unfold foreign in HG. apply andb_true_iff in HG. destruct HG as [_ HG]. apply negb_true_iff in HG. rewrite HG. reflexivity.
Qed.

Lemma sparsity : exists d o, calculateSparsity st size start end_ f nrow all guards = Ok (d, o) /\ (forall x y z, interior m nz x y z -> let n := dat f x y z - start in
     o n = cnt (fun j => foreign (P (x + odx j) (y + ody j) ((z + odz j) mod nz))) offs /\ d n + o n = Z.of_nat (List.length offs)) /\ (forall x y z, N x y z -> ~ interior m nz x y z -> let n := dat f x y z - start in o n = 0 /\ d n = 1).
Proof.
  unfold calculateSparsity.
  destruct (diag_ok all (fun _ => 0)) as (d0 & E0 & D0).
  { intros i Hi. apply A_all in Hi. destruct Hi as (x & y & z & HN & ->). split; [exists x, y, z; auto|apply locb_N; exact HN]. }
  { intros i j Hi Hj E. apply A_all in Hi. apply A_all in Hj. destruct Hi as (x & y & z & HN & ->). destruct Hj as (x' & y' & z' & HN' & ->).
    rewrite !gval_pt in E by (apply N_in; assumption). destruct (N_inj _ _ _ _ _ _ HN HN' E) as (-> & -> & ->). reflexivity. }
  rewrite E0. cbn [bind].
  destruct (off_guards_ok guards d0 (fun _ => 0)) as (d & o & E1 & H1).
  { intros g Hg. apply G_all in Hg. destruct Hg as (x & y & z & HF & HN & ->). split; [exists x, y, z; auto|]. intros j Hj.
    rewrite including_guard in Hj by assumption. apply in_app_iff in Hj. destruct Hj as [Hj|[<-|[]]]; [|exists x, y, z; auto].
    apply in_flat_map in Hj. destruct Hj as (o & Ho & Hk). destruct (back_in _ _ _ _ _ HF Ho Hk) as (a & b & c & HA & ->).
    exists a, b, c. split; [apply N_in, N_int; exact HA|reflexivity]. }
  rewrite E1. exists d, o. split; [reflexivity|]. split.
  - intros x y z HI. set (n := dat f x y z - start). cbv zeta. destruct (H1 n) as [HO1 HD1]. pose proof (N_in _ _ _ (N_int _ _ _ HI)) as HF.
    assert (DN : d0 n = Z.of_nat (List.length offs)).
    { unfold n. rewrite <- (gval_pt x y z HF). apply D0; [apply A_all; exists x, y, z; split; [apply N_int; exact HI|reflexivity]|].
      unfold getStencilSize. rewrite (proj2 (part_spec st (P x y z) offs) (offsets_int x y z HI)). reflexivity. }
    assert (SM : sumz (fun g => if foreign g then cnt (hit n) (getIndicesWithStencilIncluding st g) else 0) guards
                 = cnt (fun j => foreign (P (x + odx j) (y + ody j) ((z + odz j) mod nz))) offs).
    { rewrite (sumz_ext _ (fun g => cnt (fun o => foreign g && (ind (isub g o) =? ind (P x y z))) offs)).
      2: { intros g Hg. apply G_all in Hg. destruct Hg as (gx & gy & gz & HG & HN & ->). destruct (foreign (P gx gy gz)) eqn:EF.
           - unfold n. rewrite guard_row by assumption. apply cnt_ext. intros; reflexivity.
           - symmetry. apply cnt_false. intros; reflexivity. }
      rewrite (double_count (fun g o => foreign g && (ind (isub g o) =? ind (P x y z)))). rewrite <- sumz_bool. apply sumz_ext. intros j Hj.
      destruct (HO j Hj) as [HX HY]. set (a := x + odx j). set (b := y + ody j). set (c := (z + odz j) mod nz).
      assert (AB : infield a b c).
      { destruct HI as (J1 & J2 & J3). unfold inx, iny_ in *. pose proof (Z.mod_pos_bound (z + odz j) nz Hnz). unfold infield, a, b, c. lia. }
      assert (EQ : forall gx gy gz, infield gx gy gz -> ind (isub (P gx gy gz) j) = ind (P x y z) <-> gx = a /\ gy = b /\ gz = c).
      { intros gx gy gz HG. unfold a, b, c. rewrite <- (shift_eq m nz Hnz Hny GX GY gx gy gz x y z j HG HI HX HY). split; [|intros <-; reflexivity].
        rewrite (isub_pt m nz Hny) by exact HG. unfold pt. cbn [ind]. intros ->. reflexivity. }
      destruct (interior_dec a b c) as [HA|HA].
      - replace (foreign (P a b c)) with false.
        2: { unfold foreign. rewrite (locb_N a b c (N_int _ _ _ HA)). rewrite andb_false_r. reflexivity. }
        apply cnt_false. intros g Hg. apply G_all in Hg. destruct Hg as (gx & gy & gz & HG & HN & ->).
        destruct (ind (isub (P gx gy gz) j) =? ind (P x y z)) eqn:E; [|apply andb_false_r]. apply Z.eqb_eq in E. apply EQ in E; [|exact HG].
        destruct E as (-> & -> & ->). contradiction.
      - rewrite (cnt_unique _ guards (P a b c) G_nodup).
        + replace (ind (isub (P a b c) j) =? ind (P x y z)) with true; [rewrite andb_true_r; reflexivity|]. symmetry. apply Z.eqb_eq. apply EQ; auto.
        + apply G_all. exists a, b, c. auto.
        + intros g Hg E. apply andb_true_iff in E. destruct E as [_ E]. apply Z.eqb_eq in E. apply G_all in Hg. destruct Hg as (gx & gy & gz & HG & HN & ->).
          apply EQ in E; [|exact HG]. destruct E as (-> & -> & ->). reflexivity. }
    rewrite SM in HO1, HD1. rewrite HO1, HD1, DN. split; lia.
  - intros x y z HN HI. set (n := dat f x y z - start). cbv zeta. destruct (H1 n) as [HO1 HD1]. pose proof (N_in _ _ _ HN) as HF.
    assert (DN : d0 n = 1).
    { unfold n. rewrite <- (gval_pt x y z HF). apply D0; [apply A_all; exists x, y, z; auto|].
      unfold getStencilSize. rewrite (proj2 (part_spec st (P x y z) _) (offsets_out x y z HF HI)). reflexivity. }
    assert (SM : sumz (fun g => if foreign g then cnt (hit n) (getIndicesWithStencilIncluding st g) else 0) guards = 0).
    { rewrite (sumz_ext _ (fun _ => 0)).
      - clear. induction guards as [|a l IH]; [reflexivity|]. cbn [sumz]. rewrite IH. reflexivity.
      - intros g Hg. apply G_all in Hg. destruct Hg as (gx & gy & gz & HG & HGN & ->). destruct (foreign (P gx gy gz)) eqn:EF; [|reflexivity].
        apply guard_none; assumption. }
    rewrite SM in HO1, HD1. rewrite HO1, HD1, DN. split; lia.
Qed.
End One.
