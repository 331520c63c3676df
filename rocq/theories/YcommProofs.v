(** What createCommunicators builds, in terms of the y positions of processors. *)
From Coq Require Import ZArith List Bool Lia Sorted.
From Verif Require Import Base MeshModel MeshSpec MeshProofs MeshProps TopoModel TopoSpec TopoProofs TopoProofs2 TopoProofs3 TopoProofs4
  RangeSpec RangeProofs YcommModel YcommSpec.
Import ListNotations.
Open Scope Z_scope.

Lemma inz_iff k l : inz k l = true <-> In k l.
Proof. unfold inz. rewrite existsb_exists. split; [intros (x & A & B); apply Z.eqb_eq in B; now subst|intros H; exists k; split; [exact H|apply Z.eqb_refl]]. Qed.

Definition col (X i : Z) (l : list Z) : list Z := map (fun q => q * X + i) l.
Lemma col_app X i a b : col X i (a ++ b) = col X i a ++ col X i b. Proof. apply map_app. Qed.
Lemma in_col X i j p l : 0 <= i < X -> 0 <= j < X -> (In (p * X + j) (col X i l) <-> i = j /\ In p l).
Proof.
  intros Hi Hj. unfold col. rewrite in_map_iff. split.
  - intros (q & E & H). assert (q = p) by nia. subst q. split; [lia|exact H].
  - intros [-> H]. exists p. auto.
Qed.
Lemma nodup_col X i l : 0 < X -> NoDup l -> NoDup (col X i l).
Proof.
  intros HX. induction 1 as [|a l Ha Hl IH]; cbn; constructor; [|exact IH].
  unfold col. rewrite in_map_iff. intros (q & E & H). assert (q = a) by nia. now subst.
Qed.
Lemma union_col X i a b : 0 <= i < X -> group_union (col X i a) (col X i b) = col X i (a ++ filter (fun k => negb (inz k a)) b).
Proof.
  intros Hi. unfold group_union. rewrite col_app. f_equal. induction b as [|q b IH]; [reflexivity|].
  cbn [col map filter]. replace (inz (q * X + i) (col X i a)) with (inz q a).
  - fold (col X i b). destruct (inz q a); cbn [negb]; [exact IH|]. cbn [col map]. f_equal. exact IH.
  - apply eq_true_iff_eq. rewrite !inz_iff, in_col by lia. tauto.
Qed.
Lemma filter_none a b : (forall q, In q b -> ~ In q a) -> filter (fun k => negb (inz k a)) b = b.
Proof.
  induction b as [|q b IH]; intros H; [reflexivity|]. cbn [filter].
  replace (inz q a) with false; [cbn [negb]; f_equal; apply IH; intros; apply H; right; assumption|].
  symmetry. apply not_true_iff_false. rewrite inz_iff. apply H. left; reflexivity.
Qed.
(** Two ranges that touch or share one end point. *)
Lemma union_touch a u v w : a <= u -> u <= w -> v = u \/ v = u + 1 ->
  ints a u ++ filter (fun k => negb (inz k (ints a u))) (ints v w) = ints a w.
Proof.
  intros H1 H2 H3. rewrite (ints_split a u w) by lia. apply (f_equal (app (ints a u))).
  destruct H3 as [->| ->].
  - rewrite (ints_cons u w) by lia. cbn [filter]. replace (inz u (ints a u)) with true by (symmetry; apply inz_iff, in_ints; lia). cbn [negb].
    apply filter_none. intros q. rewrite !in_ints. lia.
  - apply filter_none. intros q. rewrite !in_ints. lia.
Qed.

Lemma loop_once body i0 f : forall k i st,
  (forall j t, i <= j < i + Z.of_nat k -> body j t = Ok (if j =? i0 then f t else t)) ->
  loop k i body st = Ok (if (i <=? i0) && (i0 <? i + Z.of_nat k) then f st else st).
Proof.
  induction k as [|k IH]; intros i st H; cbn [loop].
  - replace ((i <=? i0) && (i0 <? i + Z.of_nat 0)) with false; [reflexivity|]. symmetry. apply andb_false_iff. rewrite Z.leb_gt, Z.ltb_ge. lia.
  - rewrite H by lia. cbn [bind]. rewrite IH by (intros; apply H; lia). f_equal.
    destruct (Z.eqb_spec i i0) as [->|N].
    + replace (i0 + 1 <=? i0) with false by (symmetry; apply Z.leb_gt; lia). cbn [andb].
      replace (i0 <=? i0) with true by (symmetry; apply Z.leb_le; lia). replace (i0 <? i0 + Z.of_nat (S k)) with true by (symmetry; apply Z.ltb_lt; lia). reflexivity.
    + replace (i <=? i0) with (i + 1 <=? i0) by (apply eq_true_iff_eq; rewrite !Z.leb_le; lia).
      replace (i0 <? i + Z.of_nat (S k)) with (i0 <? i + 1 + Z.of_nat k) by (apply eq_true_iff_eq; rewrite !Z.ltb_lt; lia). reflexivity.
Qed.
Lemma upto_once n body i0 f st : 0 <= i0 < n ->
  (forall j t, 0 <= j < n -> body j t = Ok (if j =? i0 then f t else t)) -> upto n body st = Ok (f st).
Proof.
  intros Hi H. unfold upto. rewrite (loop_once body i0 f).
  - replace ((0 <=? i0) && (i0 <? 0 + Z.of_nat (Z.to_nat n))) with true; [reflexivity|]. symmetry. rewrite andb_true_iff, Z.leb_le, Z.ltb_lt. lia.
  - intros j t Hj. apply H. lia.
Qed.

Section C.
Variables (npes me : Z) (m : mesh) (ix1 ix2 : Z).
Hypothesis D : decomposed npes me m.
Hypothesis R : regular (g_ny m) (MYSUB m) (seps m).
Notation X := (NXPE m). Notation Y := (NYPE m). Notation my := (MYSUB m). Notation p := (PE_YIND m). Notation i0 := (PE_XIND m).
Let k := cuts_of m ix1 ix2.
Notation a := (cA k). Notation b := (cB k). Notation n := (cN k). Notation c := (cC k). Notation d := (cD k).

Lemma K : cuts_ok Y k. Proof. exact (proj1 (cuts_of_ok npes me m ix1 ix2 D R)). Qed.
Lemma J11 : j11 (seps m) = a * my - 1. Proof. exact (proj1 (proj2 (cuts_of_ok npes me m ix1 ix2 D R))). Qed.
Lemma J22 : j22 (seps m) = d * my - 1. Proof. exact (proj1 (proj2 (proj2 (cuts_of_ok npes me m ix1 ix2 D R)))). Qed.
Lemma JD : is_double (seps m) = true -> j21 (seps m) = b * my - 1 /\ j12 (seps m) = c * my - 1 /\ nyin (seps m) = n * my.
Proof. exact (proj2 (proj2 (proj2 (cuts_of_ok npes me m ix1 ix2 D R)))). Qed.
Lemma dnk : dn k = is_double (seps m). Proof. reflexivity. Qed.
Lemma NyE : g_ny m = Y * my. Proof. exact (d_y _ _ _ D). Qed.
Lemma Hp : 0 <= p < Y. Proof. exact (d_py _ _ _ D). Qed.
Lemma Hi : 0 <= i0 < X. Proof. exact (d_px _ _ _ D). Qed.
Lemma Hme : me = p * X + i0. Proof. symmetry. exact (d_rank _ _ _ D). Qed.
Lemma Hmy : 0 < my. Proof. exact (d_mysub _ _ _ D). Qed.

Lemma yproc_last v y : y = v * my - 1 -> 1 <= v <= Y -> YPROC m y = Ok (v - 1).
Proof.
  intros E Hv. pose proof Hmy. pose proof NyE. unfold YPROC, cdiv.
  replace ((y <? 0) || (y >=? g_ny m)) with false by (symmetry; rewrite orb_false_iff, Z.ltb_ge, Z.geb_leb, Z.leb_gt; nia).
  destruct (Z.eqb_spec my 0); [lia|]. rewrite Z.quot_div_nonneg by nia. f_equal.
  replace y with ((v - 1) * my + (my - 1)) by lia. rewrite Z.div_add_l by lia. rewrite Z.div_small by lia. lia.
Qed.
Lemma yproc_first v y : y = v * my -> 0 <= v < Y -> YPROC m y = Ok v.
Proof.
  intros E Hv. pose proof Hmy. pose proof NyE. unfold YPROC, cdiv.
  replace ((y <? 0) || (y >=? g_ny m)) with false by (symmetry; rewrite orb_false_iff, Z.ltb_ge, Z.geb_leb, Z.leb_gt; nia).
  destruct (Z.eqb_spec my 0); [lia|]. rewrite Z.quot_div_nonneg by nia. f_equal. subst y. apply Z.div_mul. lia.
Qed.
Lemma yproc_any y : 0 <= y < g_ny m -> YPROC m y = Ok (y / my).
Proof.
  intros Hy. pose proof Hmy. unfold YPROC, cdiv.
  replace ((y <? 0) || (y >=? g_ny m)) with false by (symmetry; rewrite orb_false_iff, Z.ltb_ge, Z.geb_leb, Z.leb_gt; lia).
  destruct (Z.eqb_spec my 0); [lia|]. rewrite Z.quot_div_nonneg by lia. reflexivity.
Qed.

Lemma ygroup_ok i y0 y1 : 0 <= i < X -> 0 <= y0 -> y0 <= y1 -> y1 < Y -> ygroup npes m i y0 y1 = Ok (col X i (ints y0 y1)).
Proof.
  intros H1 H2 H3 H4. unfold ygroup. rewrite !PN' by lia. unfold group_range_incl. pose proof (d_npes _ _ _ D) as NP.
  replace ((0 <=? y0 * X + i) && (y0 * X + i <=? y1 * X + i) && (y1 * X + i <? npes) && (0 <? X)) with true
    by (symmetry; rewrite !andb_true_iff, !Z.leb_le, !Z.ltb_lt; nia).
  f_equal. replace (y1 * X + i - (y0 * X + i)) with ((y1 - y0) * X) by lia. rewrite Z.div_mul by lia.
  unfold col, ints. rewrite map_map. replace (Z.to_nat (y1 - y0 + 1)) with (Z.to_nat (y1 - y0) + 1)%nat by lia.
  apply map_ext. intros q. lia.
Qed.
Lemma create_col i l : 0 <= i < X -> comm_create me (col X i l) = if (i =? i0) && inz p l then Some (col X i0 l) else None.
Proof.
  intros H. pose proof Hi. unfold comm_create. rewrite Hme at 1.
  destruct (Z.eqb_spec i i0) as [->|N]; cbn [andb].
  - replace (inz (p * X + i0) (col X i0 l)) with (inz p l); [reflexivity|]. apply eq_true_iff_eq. rewrite !inz_iff, in_col by lia. tauto.
  - replace (inz (p * X + i0) (col X i l)) with false; [reflexivity|]. symmetry. apply not_true_iff_false. rewrite inz_iff, in_col by lia. tauto.
Qed.

(** The lists of y positions. *)
Definition l_pf := ints 0 (a - 1) ++ ints d (Y - 1).
Definition u_pf := ints n (c - 1) ++ ints b (n - 1).
Definition l_core := if is_double (seps m) then ints a (b - 1) ++ ints c (d - 1) else ints a (d - 1).
Definition in_lpf := (p <? a) || (d <=? p).
Definition in_upf := is_double (seps m) && ((b <=? p) && (p <? c)).
Definition inner_list := if in_lpf then l_pf else if in_upf then u_pf else l_core.
Definition outer_list := if is_double (seps m) then if p <? n then ints 0 (n - 1) else ints n (Y - 1) else ints 0 (Y - 1).
Definition middle_list := if ix1 <? ix2 then if in_upf then u_pf else ints 0 (b - 1) ++ ints c (Y - 1)
                          else if in_lpf then l_pf else ints n (d - 1) ++ ints a (n - 1).

Lemma sn_eq : (j21 (seps m) =? j12 (seps m)) = negb (is_double (seps m)).
Proof. unfold is_double. rewrite negb_involutive. reflexivity. Qed.

Lemma union_disj i l1 l2 : 0 <= i < X -> (forall q, In q l2 -> ~ In q l1) -> group_union (col X i l1) (col X i l2) = col X i (l1 ++ l2).
Proof. intros H1 H2. rewrite union_col by exact H1. rewrite filter_none by exact H2. reflexivity. Qed.

Lemma lower_pf_ok i st : 0 <= i < X -> lower_pf npes me m ix1 ix2 i st =
  Ok (if (i =? i0) && in_lpf then let st' := set_inner st (Some (col X i0 l_pf)) in
        set_middle st' (if ixs_lower m ix1 ix2 =? ixs_outer m ix1 ix2 then Some (col X i0 l_pf) else comm_outer st) else st).
Proof.
  intros H. destruct K as [KA KAD KD KE KN]. pose proof J11 as E1. pose proof J22 as E2. pose proof NyE as E3. pose proof Hmy as HM. pose proof Hp as HP.
  unfold lower_pf. cbv zeta. rewrite E1, E2, E3.
  destruct (Z_lt_ge_dec a 1) as [A0|A0].
  - assert (a = 0) by lia. assert (d = Y) by (apply KE; lia).
    replace (a * my - 1 >=? 0) with false by (symmetry; rewrite Z.geb_leb, Z.leb_gt; nia).
    replace (d * my - 1 + 1 <? Y * my) with false by (symmetry; rewrite Z.ltb_ge; nia). cbn [orb].
    replace in_lpf with false; [rewrite andb_false_r; reflexivity|]. symmetry. unfold in_lpf. rewrite orb_false_iff, Z.ltb_ge, Z.leb_gt. lia.
  - assert (d < Y) by lia.
    replace (a * my - 1 >=? 0) with true by (symmetry; rewrite Z.geb_leb, Z.leb_le; nia).
    replace (d * my - 1 + 1 <? Y * my) with true by (symmetry; rewrite Z.ltb_lt; nia). cbn [orb].
    rewrite (yproc_last a) by lia. cbn [bind]. rewrite ygroup_ok by lia. cbn [bind].
    rewrite (yproc_first d) by lia. cbn [bind]. rewrite ygroup_ok by lia. cbn [bind].
    rewrite union_disj by (try lia; intros q; rewrite !in_ints; lia). fold l_pf. rewrite create_col by lia.
    replace (inz p l_pf) with in_lpf.
    + destruct ((i =? i0) && in_lpf); [|reflexivity]. cbn [comm_inner comm_outer set_inner].
      destruct (_ =? _); reflexivity.
    + apply eq_true_iff_eq. unfold in_lpf, l_pf. rewrite inz_iff, in_app_iff, !in_ints, orb_true_iff, Z.ltb_lt, Z.leb_le. lia.
Qed.
Lemma upper_pf_ok i st : 0 <= i < X -> upper_pf npes me m ix1 ix2 i st =
  Ok (if (i =? i0) && in_upf then let st' := set_inner st (Some (col X i0 u_pf)) in
        set_middle st' (if ixs_upper m ix1 ix2 =? ixs_outer m ix1 ix2 then Some (col X i0 u_pf) else comm_outer st) else st).
Proof.
  intros H. destruct K as [KA KAD KD KE KN]. pose proof Hmy as HM. pose proof Hp as HP.
  unfold upper_pf. cbv zeta. rewrite sn_eq, negb_involutive. unfold in_upf. rewrite dnk in KN.
  destruct (is_double (seps m)) eqn:EDB; [|cbn [andb]; rewrite andb_false_r; reflexivity].
  destruct (JD EDB) as (E3 & E4 & E5). destruct (KN eq_refl) as (K1 & K2 & K3 & K4).
  rewrite (yproc_first n) by lia. cbn [bind]. rewrite (yproc_last c) by lia. cbn [bind]. rewrite ygroup_ok by lia. cbn [bind].
  rewrite (yproc_first b) by lia. cbn [bind]. rewrite (yproc_last n) by lia. cbn [bind]. rewrite ygroup_ok by lia. cbn [bind].
  rewrite union_disj by (try lia; intros q; rewrite !in_ints; lia). fold u_pf. rewrite create_col by lia.
  replace (inz p u_pf) with (true && ((b <=? p) && (p <? c))).
  - destruct ((i =? i0) && _); [|reflexivity]. cbn [comm_inner comm_outer set_inner]. destruct (_ =? _); reflexivity.
  - apply eq_true_iff_eq. unfold u_pf. cbn [andb]. rewrite inz_iff, in_app_iff, !in_ints, andb_true_iff, Z.ltb_lt, Z.leb_le. lia.
Qed.

Lemma core_groups i : 0 <= i < X -> exists g1 g2,
  (if j21 (seps m) >? j11 (seps m) then
              do y0 <- YPROC m (j11 (seps m) + 1); do y1 <- YPROC m (j21 (seps m));
              if (PROC_NUM m i y0 <? 0) || (PROC_NUM m i y1 <? 0) then Throw else ygroup npes m i y0 y1
            else Ok []) = Ok g1 /\
  (if j22 (seps m) >? j12 (seps m) then
              do y0 <- YPROC m (j12 (seps m) + 1); do y1 <- YPROC m (j22 (seps m));
              if (PROC_NUM m i y0 <? 0) || (PROC_NUM m i y1 <? 0) then Ok [] else ygroup npes m i y0 y1
            else Ok []) = Ok g2 /\ group_union g1 g2 = col X i l_core.
Proof.
  intros H. destruct K as [KA KAD KD KE KN]. pose proof J11 as E1. pose proof J22 as E2. pose proof NyE as E3. pose proof Hmy as HM.
  pose proof (d_order _ _ _ D) as O. unfold ordered_seps in O. rewrite dnk in KN.
  assert (PN : forall y, 0 <= y < Y -> (PROC_NUM m i y <? 0) = false) by (intros y Hy; rewrite PN' by lia; apply Z.ltb_ge; nia).
  unfold l_core. destruct (is_double (seps m)) eqn:EDB.
  - destruct (JD EDB) as (E4 & E5 & E6). destruct (KN eq_refl) as (K1 & K2 & K3 & K4).
    replace (j21 (seps m) >? j11 (seps m)) with true by (symmetry; apply Z.gtb_lt; nia).
    replace (j22 (seps m) >? j12 (seps m)) with true by (symmetry; apply Z.gtb_lt; nia).
    rewrite (yproc_first a) by lia. cbn [bind]. rewrite (yproc_last b) by lia. cbn [bind]. rewrite !PN by lia. cbn [orb]. rewrite ygroup_ok by lia.
    rewrite (yproc_first c) by lia. cbn [bind]. rewrite (yproc_last d) by lia. cbn [bind]. rewrite !PN by lia. cbn [orb]. rewrite ygroup_ok by lia.
    eexists; eexists. split; [reflexivity|]. split; [reflexivity|]. apply union_disj; [lia|]. intros q. rewrite !in_ints. lia.
  - assert (SN : j21 (seps m) = j12 (seps m)) by (unfold is_double in EDB; apply negb_false_iff in EDB; apply Z.eqb_eq; exact EDB).
    set (e := j21 (seps m)) in *. rewrite <- SN in *.
    assert (Y0 : YPROC m (j11 (seps m) + 1) = Ok a) by (apply yproc_first; lia).
    assert (Y3 : YPROC m (j22 (seps m)) = Ok (d - 1)) by (apply yproc_last; lia).
    rewrite Y0, Y3. cbn [bind].
    destruct (Z.gtb_spec e (j11 (seps m))) as [C1|C1]; destruct (Z.gtb_spec (j22 (seps m)) e) as [C2|C2].
    + rewrite (yproc_any e) by lia. rewrite (yproc_any (e + 1)) by lia. cbn [bind].
      assert (U1 : a <= e / my) by (apply Z.div_le_lower_bound; lia). assert (U2 : e / my < d) by (apply Z.div_lt_upper_bound; lia).
      assert (U3 : (e + 1) / my < d) by (apply Z.div_lt_upper_bound; lia).
      assert (U4 : (e + 1) / my = e / my \/ (e + 1) / my = e / my + 1).
      { pose proof (Z.div_mod e my ltac:(lia)). pose proof (Z.mod_pos_bound e my ltac:(lia)). pose proof (Z.div_mod (e + 1) my ltac:(lia)). pose proof (Z.mod_pos_bound (e + 1) my ltac:(lia)). nia. }
      rewrite !PN by lia. cbn [orb]. rewrite !ygroup_ok by lia.
      eexists; eexists. split; [reflexivity|]. split; [reflexivity|]. rewrite union_col by lia. f_equal. apply union_touch; lia.
    + assert (e = j22 (seps m)) by lia. rewrite (yproc_last d e) by lia. cbn [bind]. rewrite !PN by lia. cbn [orb]. rewrite ygroup_ok by lia.
      eexists; eexists. split; [reflexivity|]. split; [reflexivity|]. unfold group_union. cbn [filter]. apply app_nil_r.
    + assert (e = j11 (seps m)) by lia. rewrite (yproc_first a (e + 1)) by lia. cbn [bind]. rewrite !PN by lia. cbn [orb]. rewrite ygroup_ok by lia.
      eexists; eexists. split; [reflexivity|]. split; [reflexivity|]. unfold group_union. cbn [app]. apply filter_none. intros q _ [].
    + nia.
Qed.
Lemma core_mem : inz p l_core = negb (in_lpf || in_upf).
Proof.
  destruct K as [KA KAD KD KE KN]. pose proof Hp as HP. rewrite dnk in KN.
  apply eq_true_iff_eq. rewrite negb_true_iff, orb_false_iff, inz_iff. unfold l_core, in_lpf, in_upf.
  destruct (is_double (seps m)); cbn [andb].
  - specialize (KN eq_refl). rewrite in_app_iff, !in_ints, orb_false_iff, andb_false_iff, !Z.ltb_ge, !Z.leb_gt. lia.
  - rewrite in_ints, orb_false_iff, Z.ltb_ge, Z.leb_gt. lia.
Qed.
Lemma core_ok i st : 0 <= i < X -> core_comm npes me m ix1 ix2 i st =
  Ok (if (i =? i0) && negb (in_lpf || in_upf) then let st' := set_inner st (Some (col X i0 l_core)) in
        if ixseps_inner m ix1 ix2 =? ixs_outer m ix1 ix2 then set_middle st' (Some (col X i0 l_core)) else st' else st).
Proof.
  intros H. unfold core_comm. cbv zeta. destruct (core_groups i H) as (g1 & g2 & G1 & G2 & G3). rewrite G1. cbn [bind]. rewrite G2. cbn [bind]. rewrite G3.
  rewrite create_col by exact H. rewrite core_mem. destruct ((i =? i0) && _); [|reflexivity].
  cbn [comm_inner set_inner comm_dup]. destruct (_ =? _); reflexivity.
Qed.

(** The state after the loop over the regions: comm_inner is set, comm_middle for those in a private flux region. *)
Definition after_regions (st : comms) : comms :=
  let st1 := if in_lpf then set_middle (set_inner st (Some (col X i0 l_pf)))
       (if ixs_lower m ix1 ix2 =? ixs_outer m ix1 ix2 then Some (col X i0 l_pf) else comm_outer st) else st in
  let st2 := if in_upf then set_middle (set_inner st1 (Some (col X i0 u_pf)))
       (if ixs_upper m ix1 ix2 =? ixs_outer m ix1 ix2 then Some (col X i0 u_pf) else comm_outer st1) else st1 in
  if negb (in_lpf || in_upf) then
    if ixseps_inner m ix1 ix2 =? ixs_outer m ix1 ix2 then set_middle (set_inner st2 (Some (col X i0 l_core))) (Some (col X i0 l_core)) else set_inner st2 (Some (col X i0 l_core)) else st2.
Lemma regions_ok st : upto X (regions npes me m ix1 ix2) st = Ok (after_regions st).
Proof.
  apply (upto_once X _ i0); [exact Hi|]. intros j t Hj. unfold regions.
  rewrite lower_pf_ok by exact Hj. cbn [bind]. rewrite upper_pf_ok by exact Hj. cbn [bind]. rewrite core_ok by exact Hj. cbv zeta. unfold after_regions. cbv zeta.
  destruct (j =? i0); cbn [andb]; reflexivity.
Qed.

Lemma xcomm_ok st : upto Y (xcomm npes me m) st = Ok (set_x st (Some (map (fun i => p * X + i) (ints 0 (X - 1))))).
Proof.
  apply (upto_once Y _ p (fun st => set_x st (Some (map (fun i => p * X + i) (ints 0 (X - 1)))))); [exact Hp|]. intros j t Hj. unfold xcomm. pose proof Hi as HI. pose proof (d_npes _ _ _ D) as NP.
  rewrite !PN' by lia. unfold group_range_incl.
  replace ((0 <=? j * X + 0) && (j * X + 0 <=? j * X + (X - 1)) && (j * X + (X - 1) <? npes) && (0 <? 1)) with true
    by (symmetry; rewrite !andb_true_iff, !Z.leb_le, !Z.ltb_lt; nia).
  replace (map (fun q => j * X + 0 + Z.of_nat q * 1) (seq 0 (Z.to_nat ((j * X + (X - 1) - (j * X + 0)) / 1) + 1))) with (map (fun i => j * X + i) (ints 0 (X - 1))).
  2:{ unfold ints. rewrite map_map. rewrite Z.div_1_r. replace (Z.to_nat (X - 1 - 0 + 1)) with (Z.to_nat (j * X + (X - 1) - (j * X + 0)) + 1)%nat by lia. apply map_ext. intros q. lia. }
  cbn [bind]. unfold comm_create.
  replace (inz me (map (fun i => j * X + i) (ints 0 (X - 1)))) with (j =? p).
  - destruct (Z.eqb_spec j p) as [->|N]; reflexivity.
  - apply eq_true_iff_eq. rewrite inz_iff, in_map_iff, Z.eqb_eq, Hme. split.
    + intros ->. exists i0. split; [reflexivity|]. apply in_ints. lia.
    + intros (i & E & H). apply in_ints in H. nia.
Qed.
Lemma outer_ok st : (if j12 (seps m) =? j21 (seps m) then upto X (outer_single npes me m) st else upto X (outer_double npes me m) st) =
  Ok (set_outer st (Some (col X i0 outer_list))).
Proof.
  destruct K as [KA KAD KD KE KN]. pose proof Hp as HP. pose proof Hi as HI. pose proof Hmy as HM. rewrite dnk in KN. rewrite Z.eqb_sym, sn_eq. unfold outer_list.
  destruct (is_double (seps m)) eqn:EDB; cbn [negb].
  - destruct (JD EDB) as (E4 & E5 & E6). destruct (KN eq_refl) as (K1 & K2 & K3 & K4).
    apply (upto_once X _ i0 (fun st => set_outer st (Some (col X i0 (if p <? n then ints 0 (n - 1) else ints n (Y - 1)))))); [exact HI|].
    intros j t Hj. unfold outer_double. cbv zeta. rewrite (yproc_last n) by lia. cbn [bind]. rewrite ygroup_ok by lia. cbn [bind].
    rewrite (yproc_first n) by lia. cbn [bind]. rewrite ygroup_ok by lia. cbn [bind]. rewrite !create_col by lia.
    destruct (j =? i0); cbn [andb]; [|reflexivity].
    replace (inz p (ints 0 (n - 1))) with (p <? n) by (apply eq_true_iff_eq; rewrite inz_iff, in_ints, Z.ltb_lt; lia).
    replace (inz p (ints n (Y - 1))) with (negb (p <? n)) by (apply eq_true_iff_eq; rewrite inz_iff, in_ints, negb_true_iff, Z.ltb_ge; lia).
    destruct (p <? n); reflexivity.
  - apply (upto_once X _ i0 (fun st => set_outer st (Some (col X i0 (ints 0 (Y - 1)))))); [exact HI|].
    intros j t Hj. unfold outer_single. rewrite ygroup_ok by lia. cbn [bind]. rewrite create_col by lia.
    replace (inz p (ints 0 (Y - 1))) with true by (symmetry; rewrite inz_iff, in_ints; lia).
    destruct (j =? i0); reflexivity.
Qed.

Lemma created : exists st, createCommunicators npes me m ix1 ix2 = Ok st /\
  comm_x st = Some (map (fun i => p * X + i) (ints 0 (X - 1))) /\
  comm_inner st = Some (col X i0 inner_list) /\ comm_outer st = Some (col X i0 outer_list) /\
  (ixseps_inner m ix1 ix2 <> ixs_outer m ix1 ix2 -> comm_middle st = Some (col X i0 middle_list)).
Proof.
  unfold createCommunicators. cbv zeta. rewrite xcomm_ok. cbn [bind]. rewrite outer_ok. cbn [bind]. rewrite regions_ok. cbn [bind].
  set (st0 := set_outer _ _).
  assert (AR : comm_inner (after_regions st0) = Some (col X i0 inner_list) /\ comm_outer (after_regions st0) = Some (col X i0 outer_list) /\
               comm_x (after_regions st0) = Some (map (fun i => p * X + i) (ints 0 (X - 1)))).
  { unfold after_regions, inner_list. cbv zeta. destruct in_lpf eqn:E1; destruct in_upf eqn:E2; cbn [orb negb].
    - exfalso. destruct K as [KA KAD KD KE KN]. rewrite dnk in KN. unfold in_lpf, in_upf in *. rewrite !andb_true_iff in E2. destruct E2 as (E2 & E3 & E4). specialize (KN E2).
      rewrite orb_true_iff, Z.ltb_lt, Z.leb_le in E1. rewrite Z.leb_le in E3. rewrite Z.ltb_lt in E4. lia.
    - repeat split.
    - repeat split.
    - destruct (_ =? _); repeat split. }
  destruct AR as (A1 & A2 & A3).
  destruct (Z.eqb_spec (ixseps_inner m ix1 ix2) (ixs_outer m ix1 ix2)) as [EQ|NE].
  - rewrite A1. cbn [comm_dup bind]. eexists. split; [reflexivity|]. cbn [set_middle comm_x comm_inner comm_outer].
    split; [exact A3|]. split; [exact A1|]. split; [exact A2|]. contradiction.
  - (* unbalanced double null *)
    assert (EDB : is_double (seps m) = true).
    { unfold ixseps_inner, ixs_outer, single_null in NE. rewrite sn_eq in NE. destruct (is_double (seps m)); [reflexivity|]. cbn [negb] in NE. congruence. }
    assert (NE12 : ix1 <> ix2).
    { intros Q. apply NE. unfold ixseps_inner, ixs_outer, single_null. rewrite Q, Z.eqb_refl. reflexivity. }
    destruct (JD EDB) as (E4 & E5 & E6). destruct K as [KA KAD KD KE KN]. rewrite dnk in KN. destruct (KN EDB) as (K1 & K2 & K3 & K4).
    pose proof Hp as HP. pose proof Hi as HI. pose proof Hmy as HM. pose proof J11 as E1. pose proof J22 as E2.
    assert (UL : ixs_upper m ix1 ix2 = ix2 /\ ixs_lower m ix1 ix2 = ix1).
    { unfold ixs_upper, ixs_lower, single_null. rewrite sn_eq, EDB. auto. }
    assert (OUT : ixs_outer m ix1 ix2 = if ix1 <? ix2 then ix2 else ix1).
    { unfold ixs_outer, single_null. rewrite sn_eq, EDB. cbn [negb]. destruct (Z.eqb_spec ix1 ix2); [contradiction|reflexivity]. }
    destruct UL as [-> ->]. rewrite Z.gtb_ltb. unfold middle_list.
    assert (MU : in_upf = true -> comm_middle (after_regions st0) = if ix1 <? ix2 then Some (col X i0 u_pf) else comm_outer (after_regions st0)).
    { intros Q. unfold after_regions. cbv zeta. rewrite Q. rewrite orb_true_r. cbn [negb comm_middle set_middle comm_outer set_inner].
      unfold ixs_upper, single_null. rewrite sn_eq, EDB, OUT. cbn [negb].
      destruct (Z.ltb_spec ix1 ix2); [rewrite Z.eqb_refl; reflexivity|]. destruct (Z.eqb_spec ix2 ix1); [lia|]. reflexivity. }
    assert (ML : in_lpf = true -> in_upf = false -> comm_middle (after_regions st0) = if ix1 <? ix2 then comm_outer (after_regions st0) else Some (col X i0 l_pf)).
    { intros Q Q'. unfold after_regions. cbv zeta. rewrite Q, Q'. cbn [orb negb comm_middle set_middle comm_outer set_inner].
      unfold ixs_lower. rewrite OUT.
      destruct (Z.ltb_spec ix1 ix2); [destruct (Z.eqb_spec ix1 ix2); [lia|]; reflexivity|]. rewrite Z.eqb_refl. reflexivity. }
    assert (UPF : in_upf = ((b <=? p) && (p <? c))) by (unfold in_upf; rewrite EDB; reflexivity).
    destruct (Z.ltb_spec ix1 ix2) as [LT|GE].
    + rewrite (upto_once X _ i0 (fun st => if in_upf then st else set_middle st (Some (col X i0 (ints 0 (b - 1) ++ ints c (Y - 1)))))); [|exact HI|].
      * eexists. split; [reflexivity|]. destruct in_upf; cbn [set_middle comm_x comm_inner comm_outer comm_middle]; auto.
      * intros j t Hj. unfold middle_lower. cbv zeta. rewrite (yproc_last b) by lia. cbn [bind]. rewrite ygroup_ok by lia. cbn [bind].
        rewrite (yproc_first c) by lia. cbn [bind]. rewrite ygroup_ok by lia. cbn [bind]. rewrite union_disj by (try lia; intros q; rewrite !in_ints; lia).
        rewrite create_col by lia. replace (inz p (ints 0 (b - 1) ++ ints c (Y - 1))) with (negb in_upf).
        -- destruct (j =? i0); cbn [andb]; [|reflexivity]. destruct in_upf; reflexivity.
        -- rewrite UPF. apply eq_true_iff_eq. rewrite inz_iff, in_app_iff, !in_ints, negb_true_iff, andb_false_iff, Z.leb_gt, Z.ltb_ge. lia.
    + rewrite (upto_once X _ i0 (fun st => if in_lpf then st else set_middle st (Some (col X i0 (ints n (d - 1) ++ ints a (n - 1)))))); [|exact HI|].
      * eexists. split; [reflexivity|]. destruct in_lpf eqn:EL; cbn [set_middle comm_x comm_inner comm_outer comm_middle]; auto.
        split; [exact A3|]. split; [exact A1|]. split; [exact A2|]. intros _. apply ML; [reflexivity|].
        rewrite UPF. unfold in_lpf in EL. rewrite orb_true_iff, Z.ltb_lt, Z.leb_le in EL. apply andb_false_iff. rewrite Z.leb_gt, Z.ltb_ge. lia.
      * intros j t Hj. unfold middle_upper. cbv zeta. rewrite (yproc_first n) by lia. cbn [bind]. rewrite (yproc_last d) by lia. cbn [bind]. rewrite ygroup_ok by lia. cbn [bind].
        rewrite (yproc_first a) by lia. cbn [bind]. rewrite (yproc_last n) by lia. cbn [bind]. rewrite ygroup_ok by lia. cbn [bind]. rewrite union_disj by (try lia; intros q; rewrite !in_ints; lia).
        rewrite create_col by lia. replace (inz p (ints n (d - 1) ++ ints a (n - 1))) with (negb in_lpf).
        -- destruct (j =? i0); cbn [andb]; [|reflexivity]. destruct in_lpf; reflexivity.
        -- unfold in_lpf. apply eq_true_iff_eq. rewrite inz_iff, in_app_iff, !in_ints, negb_true_iff, orb_false_iff, Z.leb_gt, Z.ltb_ge. lia.
Qed.
End C.
