(** createCommunicators and getYcomm on a loaded mesh. *)
From Coq Require Import ZArith List Bool Lia FinFun.
From Verif Require Import Base MeshModel MeshSpec MeshProofs MeshProps TopoModel TopoSpec TopoProofs TopoProofs2 TopoProofs3 TopoProofs4 TopoProofs5
  RangeSpec RangeProofs YcommModel YcommSpec YcommProofs YcommProofs2 BoundsSpec.
Import ListNotations.
Open Scope Z_scope.

Section Y.
Variables (npes nx ny mxg myg : Z) (s : yseps) (user : option (Z + Z)) (ix1 ix2 : Z) (per : bool).
Variables (M : Z -> mesh) (C : Z -> conn) (core : Z -> bool).
Hypothesis L : loaded npes nx ny mxg myg s user ix1 ix2 per M C core.
Hypothesis R : regular ny (MYSUB (M 0)) (seps (M 0)).
Let k := cuts_of (M 0) ix1 ix2.
Let X := NXPE (M 0). Let Y := NYPE (M 0). Let my := MYSUB (M 0).

Lemma rank_facts r : 0 <= r < npes -> decomposed npes r (M r) /\ NXPE (M r) = X /\ NYPE (M r) = Y /\ MYSUB (M r) = my /\ g_ny (M r) = ny /\
  seps (M r) = seps (M 0) /\ cuts_of (M r) ix1 ix2 = k /\ regular (g_ny (M r)) (MYSUB (M r)) (seps (M r)) /\ MXSUB (M r) = MXSUB (M 0) /\ LocalNx (M r) = LocalNx (M 0).
Proof.
  intros Hr. pose proof (loaded_family _ _ _ _ _ _ _ _ _ _ _ _ _ L) as F.
  destruct (f_all _ _ _ _ _ _ _ _ _ _ _ F r Hr) as (D & E1 & E2 & E3 & E4 & E5 & E6 & E7 & E8 & E9).
  destruct (f_all _ _ _ _ _ _ _ _ _ _ _ F 0 ltac:(lia)) as (D0 & _ & _ & G3 & _ & G & _).
  split; [exact D|]. split; [exact E1|]. split; [exact E2|]. split; [exact E4|]. split; [exact E7|]. split; [exact E9|].
  split; [unfold k, cuts_of; rewrite E4, E9; reflexivity|]. split; [rewrite E7, E4, E9; exact R|]. split; [exact E3|].
  rewrite (d_lnx _ _ _ D), (d_lnx _ _ _ D0). lia.
Qed.

Lemma K0 : cuts_ok Y k.
Proof. destruct (rank_facts 0) as (D & _ & _ & _ & _ & _ & _ & R0 & _); [destruct L; lia|]. exact (proj1 (cuts_of_ok npes 0 (M 0) ix1 ix2 D R0)). Qed.
Lemma sizes : 0 < X /\ 0 < Y /\ 2 <= my /\ X * Y = npes /\ ny = Y * my.
Proof.
  destruct (rank_facts 0) as (D & _ & _ & _ & E & _ & _ & R0 & _); [destruct L; lia|].
  pose proof (d_nxpe _ _ _ D). pose proof (d_nype _ _ _ D). pose proof (d_npes _ _ _ D). pose proof (d_y _ _ _ D). pose proof (r_mysub _ _ _ R0).
  unfold X, Y, my. repeat split; try assumption. lia.
Qed.
Lemma up_sn : dn k = false -> up k = lo k.
Proof. intros H. unfold k, cuts_of, x_upper in *. cbn [up lo dn] in *. rewrite H. reflexivity. Qed.

Lemma rank_of i p : 0 <= i < X -> 0 <= p < Y -> 0 <= p * X + i < npes /\ PE_XIND (M (p * X + i)) = i /\ PE_YIND (M (p * X + i)) = p.
Proof.
  intros Hi Hp. pose proof sizes as (S1 & S2 & S3 & S4 & S5). assert (Q : 0 <= p * X + i < npes) by nia. split; [exact Q|].
  destruct (rank_facts _ Q) as (D & E & _). apply (rank_split npes (p * X + i)); [exact D|lia|rewrite E; reflexivity].
Qed.
Lemma first_row_eq r : 0 <= r < npes -> first_row M r = PE_YIND (M r) * my.
Proof.
  intros Hr. destruct (rank_facts r Hr) as (D & _ & _ & E & _). unfold first_row, getGlobalYIndexNoBoundaries. rewrite (d_ys _ _ _ D), E. lia.
Qed.
Lemma last_row_eq r : 0 <= r < npes -> last_row M r = PE_YIND (M r) * my + my - 1.
Proof.
  intros Hr. destruct (rank_facts r Hr) as (D & _ & _ & E & _). unfold last_row, getGlobalYIndexNoBoundaries. rewrite (d_ye _ _ _ D), E. lia.
Qed.
Lemma up_next x r : 0 <= r < npes -> up_from ny M ix1 ix2 x r = option_map (fun q => q * my) (nextp Y k x (PE_YIND (M r))).
Proof.
  intros Hr. unfold up_from. rewrite last_row_eq by exact Hr.
  destruct (rank_facts r Hr) as (D & E1 & E2 & E3 & E4 & E5 & E6 & R' & _). pose proof (d_py _ _ _ D) as HP.
  pose proof (above_link npes r (M r) ix1 ix2 D R' x (PE_YIND (M r)) HP) as A. rewrite E2, E3, E4, E5, E6 in A.
  unfold x_lower. rewrite A. unfold nextp. destruct (link_up k (PE_YIND (M r))) as [| |q xlt t]; try (destruct (x <? xlt)); try destruct (_ =? _); reflexivity.
Qed.
Lemma down_prev x r : 0 <= r < npes -> down_from ny M ix1 ix2 x r = option_map (fun q => q * my + my - 1) (prevp k x (PE_YIND (M r))).
Proof.
  intros Hr. unfold down_from. rewrite first_row_eq by exact Hr.
  destruct (rank_facts r Hr) as (D & E1 & E2 & E3 & E4 & E5 & E6 & R' & _). pose proof (d_py _ _ _ D) as HP.
  pose proof (below_link npes r (M r) ix1 ix2 D R' x (PE_YIND (M r)) HP) as A. rewrite E3, E4, E5, E6 in A.
  unfold x_lower. rewrite A. unfold prevp. destruct (link_down k (PE_YIND (M r))) as [| |q xlt t]; try (destruct (x <? xlt)); try destruct (_ =? _); try reflexivity;
   cbn [option_map]; f_equal; lia.
Qed.
Lemma next_follows x i p q : 0 <= i < X -> 0 <= p < Y -> 0 <= q < Y -> nextp Y k x p = Some q -> follows ny M ix1 ix2 x (p * X + i) (q * X + i).
Proof.
  intros Hi Hp Hq N. destruct (rank_of i p Hi Hp) as (A1 & A2 & A3). destruct (rank_of i q Hi Hq) as (B1 & B2 & B3). pose proof sizes as (S1 & S2 & S3 & S4 & S5).
  assert (U : up_from ny M ix1 ix2 x (p * X + i) = Some (first_row M (q * X + i))).
  { rewrite up_next by exact A1. rewrite A3, N. cbn [option_map]. rewrite first_row_eq by exact B1. rewrite B3. reflexivity. }
  split; [exact U|]. unfold down_from, up_from in *.
  destruct (rank_facts 0) as (D & _ & _ & _ & E & _ & _ & R0 & _); [destruct L; lia|].
  apply (above_below ny my (seps (M 0))); [rewrite <- E; exact (d_order _ _ _ D)|exact R| | |exact U].
  - rewrite last_row_eq by exact A1. rewrite A3. nia.
  - rewrite first_row_eq by exact B1. rewrite B3. nia.
Qed.

Lemma xin_eq r : 0 <= r < npes -> ixseps_inner (M r) ix1 ix2 = xin k.
Proof.
  intros Hr. destruct (rank_facts r Hr) as (D & E1 & E2 & E3 & E4 & E5 & _). unfold ixseps_inner, xin. rewrite E5.
  unfold k, cuts_of, x_upper. cbn [dn lo up]. unfold is_double. destruct (j21 (seps (M 0)) =? j12 (seps (M 0))); cbn [negb]; [reflexivity|].
  destruct (Z.eqb_spec ix1 ix2); destruct (Z.ltb_spec ix1 ix2); lia.
Qed.
Lemma xout_eq r : 0 <= r < npes -> ixs_outer (M r) ix1 ix2 = xout k.
Proof.
  intros Hr. destruct (rank_facts r Hr) as (D & E1 & E2 & E3 & E4 & E5 & _). unfold ixs_outer, single_null, xout. rewrite E5.
  unfold k, cuts_of, x_upper. cbn [dn lo up]. unfold is_double. destruct (j21 (seps (M 0)) =? j12 (seps (M 0))); cbn [negb]; [reflexivity|].
  destruct (Z.eqb_spec ix1 ix2); destruct (Z.ltb_spec ix1 ix2); lia.
Qed.

Lemma closed_iff x r : 0 <= x -> 0 <= r < npes -> (closed_at ny M ix1 ix2 x r <-> kclosed k x (PE_YIND (M r))).
Proof.
  intros Hx Hr. pose proof sizes as (S1 & S2 & S3 & S4 & S5).
  destruct (rank_facts r Hr) as (D & E1 & E2 & E3 & E4 & E5 & E6 & R' & _). pose proof (d_py _ _ _ D) as HP.
  destruct (cuts_of_ok npes r (M r) ix1 ix2 D R') as (_ & EA & ED & EDN). cbv zeta in *. rewrite E6, E5, E3 in *. rewrite E2 in HP.
  pose proof (d_order _ _ _ D) as O. rewrite E4, E5 in O.
  assert (CE : kclosed k x (PE_YIND (M r)) <-> x < inner (seps (M 0)) ix1 ix2 /\ in_core (seps (M 0)) (first_row M r)).
  { rewrite first_row_eq by exact Hr. unfold kclosed, xin, inner, klp, kuf, in_core.
    assert (LT : forall q, q * my - 1 < PE_YIND (M r) * my <-> q <= PE_YIND (M r)) by (intros q; split; intros; nia).
    assert (LE : forall q, PE_YIND (M r) * my <= q * my - 1 <-> PE_YIND (M r) < q) by (intros q; split; intros; nia).
    assert (DK : dn k = is_double (seps (M 0))) by reflexivity. rewrite DK.
    assert (LK : lo k = ix1) by reflexivity. assert (UK : up k = x_upper (seps (M 0)) ix1 ix2) by reflexivity. rewrite LK, UK. unfold x_upper.
    pose proof K0 as [KA KAD KD KE KN]. rewrite DK in KN.
    destruct (is_double (seps (M 0))) eqn:DB.
    - destruct (EDN eq_refl) as (F1 & F2 & _). destruct (KN eq_refl) as (G1 & G2 & G3 & G4). rewrite EA, ED, F1, F2, !LT, !LE. cbn [andb]. rewrite orb_false_iff, andb_false_iff, !Z.ltb_ge, !Z.leb_gt. lia.
    - assert (Q : j21 (seps (M 0)) = j12 (seps (M 0))) by (unfold is_double in DB; apply negb_false_iff in DB; apply Z.eqb_eq; exact DB).
      cbn [andb]. rewrite orb_false_iff, Z.ltb_ge, Z.leb_gt. destruct O as (_ & O2 & O3 & O4 & _).
      pose proof (LT (cA k)). pose proof (LE (cD k)). rewrite <- EA in *. rewrite <- ED in *. lia. }
  rewrite CE. unfold closed_at, x_lower. split.
  - intros A.
    assert (DEC : (x < inner (seps (M 0)) ix1 ix2 /\ in_core (seps (M 0)) (first_row M r)) \/ ~ (x < inner (seps (M 0)) ix1 ix2 /\ in_core (seps (M 0)) (first_row M r))) by (unfold in_core; lia).
    destruct DEC as [B|B]; [exact B|]. exfalso.
    refine (outside_open ny my (seps (M 0)) ix1 ix2 x O R (first_row M r) _ B A). rewrite first_row_eq by exact Hr. nia.
  - intros [B1 B2]. exact (core_closed ny my (seps (M 0)) ix1 ix2 x O R (first_row M r) B1 B2).
Qed.

Definition lists_of (r : Z) : comms -> Prop := fun st =>
  comm_x st = Some (map (fun i => PE_YIND (M r) * X + i) (ints 0 (X - 1))) /\
  forall xl, getYcomm (M r) ix1 ix2 st xl = Some (col X (PE_XIND (M r)) (klist Y k (getGlobalXIndex (M r) xl) (PE_YIND (M r)))).

Lemma created_lists r : 0 <= r < npes -> exists st, createCommunicators npes r (M r) ix1 ix2 = Ok st /\ lists_of r st.
Proof.
  intros Hr. destruct (rank_facts r Hr) as (D & E1 & E2 & E3 & E4 & E5 & E6 & R' & _).
  destruct (created npes r (M r) ix1 ix2 D R') as (st & A1 & A2 & A3 & A4 & A5). exists st. split; [exact A1|]. unfold lists_of. rewrite E1 in *.
  split; [exact A2|]. intros xl. unfold getYcomm. cbv zeta. rewrite (xin_eq r Hr), (xout_eq r Hr) in *. unfold klist.
  destruct (Z.ltb_spec (getGlobalXIndex (M r) xl) (xin k)); [|destruct (Z.ltb_spec (getGlobalXIndex (M r) xl) (xout k))].
  - rewrite A3. unfold inner_list, kinner, in_lpf, in_upf, l_pf, u_pf, l_core, klp, kuf, kpf, kup, kcore. rewrite E6, E2, E5. reflexivity.
  - rewrite A5 by lia. unfold middle_list, kmiddle, in_lpf, in_upf, l_pf, u_pf, klp, kuf, kpf, kup. rewrite E6, E2, E5.
    assert (DB : dn k = true) by (destruct (dn k) eqn:Q; [reflexivity|unfold xin, xout in *; rewrite Q in *; lia]).
    change (is_double (seps (M 0))) with (dn k). change (lo k) with ix1. replace (up k) with ix2; [reflexivity|].
    unfold k, cuts_of, x_upper in *. cbn [dn up] in *. rewrite DB. reflexivity.
  - rewrite A4. unfold outer_list, kouter. rewrite E6, E2, E5. reflexivity.
Qed.

Lemma col_hd i l : hd_error (col X i l) = option_map (fun q => q * X + i) (hd_error l).
Proof. destruct l; reflexivity. Qed.
Lemma col_rev i l : rev (col X i l) = col X i (rev l). Proof. unfold col. symmetry. apply map_rev. Qed.

Lemma klist_ok r x : 0 <= r < npes -> 0 <= x -> line_procs npes ny M ix1 ix2 x r (col X (PE_XIND (M r)) (klist Y k x (PE_YIND (M r)))).
Proof.
  intros Hr Hx. destruct (rank_facts r Hr) as (D & E1 & E2 & E3 & E4 & E5 & E6 & R' & _).
  pose proof (d_py _ _ _ D) as HP. pose proof (d_px _ _ _ D) as HX. rewrite E2 in HP. rewrite E1 in HX.
  destruct (klist_line Y k K0 x (PE_YIND (M r)) HP up_sn) as (P1 & P2 & P3 & P4 & _ & h & t & P5 & P6 & P7 & P8).
  set (l := klist Y k x (PE_YIND (M r))) in *. set (i := PE_XIND (M r)) in *.
  assert (RE : r = PE_YIND (M r) * X + i) by (unfold i; rewrite <- E1; symmetry; exact (d_rank _ _ _ D)).
  assert (HH : 0 <= h < Y) by (apply P3; destruct l; [discriminate|]; injection P5 as ->; left; reflexivity).
  assert (HT : 0 <= t < Y) by (apply P3, in_rev; destruct (rev l); [discriminate|]; injection P6 as ->; left; reflexivity).
  split; [rewrite RE at 1; apply in_col; [lia|lia|]; split; [reflexivity|exact P1]|].
  split; [apply nodup_col; [lia|exact P2]|].
  split.
  { intros q Hq. unfold col in Hq. apply in_map_iff in Hq. destruct Hq as (p & <- & Hp). destruct (rank_of i p HX (P3 p Hp)) as (A1 & A2 & A3). split; assumption. }
  split.
  { intros l1 a b l2 E. unfold col in E. apply map_eq_app in E. destruct E as (m1 & m2 & F1 & F2 & F3). 
    destruct m2 as [|u [|v m2]]; try discriminate F3. cbn [map] in F3. injection F3 as <- <- <-.
    apply next_follows; [exact HX| | |exact (P4 m1 u v m2 F1)]; apply P3; rewrite F1, in_app_iff; right; [left|right; left]; reflexivity. }
  exists (h * X + i), (t * X + i). rewrite col_rev, !col_hd, P5, P6. split; [reflexivity|]. split; [reflexivity|].
  rewrite (closed_iff x r Hx Hr). split.
  - intros Q. apply next_follows; [exact HX|exact HT|exact HH|exact (P7 Q)].
  - intros Q. destruct (P8 Q) as [Q1 Q2]. destruct (rank_of i h HX HH) as (A1 & A2 & A3). destruct (rank_of i t HX HT) as (B1 & B2 & B3).
    rewrite down_prev, up_next by assumption. rewrite A3, B3, Q1, Q2. split; reflexivity.
Qed.
Lemma klist_agree r q x : 0 <= r < npes -> In q (col X (PE_XIND (M r)) (klist Y k x (PE_YIND (M r)))) ->
  PE_XIND (M q) = PE_XIND (M r) /\ 0 <= q < npes /\ klist Y k x (PE_YIND (M q)) = klist Y k x (PE_YIND (M r)).
Proof.
  intros Hr Hq. destruct (rank_facts r Hr) as (D & E1 & E2 & E3 & E4 & E5 & E6 & R' & _).
  pose proof (d_py _ _ _ D) as HP. pose proof (d_px _ _ _ D) as HX. rewrite E2 in HP. rewrite E1 in HX.
  destruct (klist_line Y k K0 x (PE_YIND (M r)) HP up_sn) as (P1 & P2 & P3 & P4 & P5 & _).
  unfold col in Hq. apply in_map_iff in Hq. destruct Hq as (p & <- & Hp). destruct (rank_of (PE_XIND (M r)) p HX (P3 p Hp)) as (A1 & A2 & A3).
  rewrite A2, A3. repeat split; try lia. apply P5, Hp.
Qed.
End Y.

(** Ranks in a communicator. *)
Lemma index_zero r l : In r l -> (index_of r l = 0 <-> hd_error l = Some r).
Proof.
  assert (P : forall l, 0 <= index_of r l) by (induction l0 as [|a l0 IH]; cbn [index_of]; [lia|destruct (r =? a); lia]).
  destruct l as [|a l]; [intros []|]. intros _. cbn [index_of hd_error]. destruct (Z.eqb_spec r a) as [->|N]; [tauto|].
  specialize (P l). split; [lia|congruence].
Qed.
Lemma index_last r : forall l, NoDup l -> In r l -> (index_of r l = Z.of_nat (length l) - 1 <-> hd_error (rev l) = Some r).
Proof.
  induction l as [|a l IH]; intros ND; [intros []|]. intros H. inversion ND as [|? ? N1 N2]; subst.
  cbn [index_of length rev]. destruct l as [|b l].
  - destruct H as [->|[]]. rewrite Z.eqb_refl. cbn. tauto.
  - assert (HD : hd_error (rev (b :: l) ++ [a]) = hd_error (rev (b :: l))) by (cbn [rev]; destruct (rev l); reflexivity).
    rewrite HD. destruct (Z.eqb_spec r a) as [->|N].
    + split; [cbn [length]; lia|]. intros Q. exfalso. apply N1, in_rev. destruct (rev (b :: l)); [discriminate|]. injection Q as ->. left; reflexivity.
    + destruct H as [->|H]; [contradiction|]. rewrite <- (IH N2 H). lia.
Qed.
(** In a chain, only the first has no predecessor and only the last no successor. *)
Lemma pred_in (Fl : Z -> Z -> Prop) l : (forall l1 a b l2, l = l1 ++ a :: b :: l2 -> Fl a b) -> forall q, In q l -> hd_error l = Some q \/ exists a, In a l /\ Fl a q.
Proof.
  intros H q Hq. apply in_split in Hq. destruct Hq as (l1 & l2 & E). destruct l1 as [|a l1] using rev_ind; [left; now rewrite E|].
  right. exists a. rewrite <- app_assoc in E. cbn [app] in E. split; [rewrite E, in_app_iff; right; left; reflexivity|]. exact (H l1 a q l2 E).
Qed.
Lemma succ_in (Fl : Z -> Z -> Prop) l : (forall l1 a b l2, l = l1 ++ a :: b :: l2 -> Fl a b) -> forall q, In q l -> hd_error (rev l) = Some q \/ exists a, In a l /\ Fl q a.
Proof.
  intros H q Hq. apply in_split in Hq. destruct Hq as (l1 & l2 & E). destruct l2 as [|a l2]; [left; rewrite E, rev_app_distr; reflexivity|].
  right. exists a. split; [rewrite E, in_app_iff; right; right; left; reflexivity|]. exact (H l1 q a l2 E).
Qed.
