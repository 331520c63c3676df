(** Property theorems C69 (communicators along x and y, ends of field lines) and C70 (number of points along a line). *)
From Coq Require Import ZArith List Bool Lia.
From Verif Require Import Base MeshModel MeshSpec MeshProofs TopoModel TopoSpec TopoProofs2 TopoProofs4 TopoProofs5 TopoProps
  RangeSpec RangeProofs BoundsSpec YcommModel YcommSpec YcommProofs YcommProofs2 YcommProofs3.
Import ListNotations.
Open Scope Z_scope.

(** ** C69. createCommunicators succeeds on every rank; the communicator of local column [xl] is the list of the ranks the
    field line through it passes, in order along it. *)
Theorem C69_ycomm npes nx ny mxg myg s user ix1 ix2 per M C core :
  loaded npes nx ny mxg myg s user ix1 ix2 per M C core ->
  regular ny (MYSUB (M 0)) (seps (M 0)) ->
  forall r, 0 <= r < npes -> exists st, createCommunicators npes r (M r) ix1 ix2 = Ok st /\
  forall xl, 0 <= xl < LocalNx (M r) -> exists l, getYcomm (M r) ix1 ix2 st xl = Some l /\
    line_procs npes ny M ix1 ix2 (getGlobalXIndex (M r) xl) r l.
Proof.
  intros L R r Hr. destruct (created_lists _ _ _ _ _ _ _ _ _ _ _ _ _ L R r Hr) as (st & A & B). exists st. split; [exact A|].
  intros xl Hx. eexists. split; [exact (proj2 B xl)|]. apply (klist_ok _ _ _ _ _ _ _ _ _ _ _ _ _ L R r); [exact Hr|].
  destruct (rank_facts _ _ _ _ _ _ _ _ _ _ _ _ _ L R r Hr) as (D & _). unfold getGlobalXIndex. pose proof (d_px _ _ _ D). pose proof (d_mxsub _ _ _ D). nia.
Qed.
(** All the processors of a line hold the same communicator. *)
Theorem C69_agree npes nx ny mxg myg s user ix1 ix2 per M C core :
  loaded npes nx ny mxg myg s user ix1 ix2 per M C core ->
  regular ny (MYSUB (M 0)) (seps (M 0)) ->
  forall r q xl st st' l, 0 <= r < npes -> 0 <= xl < LocalNx (M r) ->
  createCommunicators npes r (M r) ix1 ix2 = Ok st -> getYcomm (M r) ix1 ix2 st xl = Some l -> In q l ->
  createCommunicators npes q (M q) ix1 ix2 = Ok st' -> getYcomm (M q) ix1 ix2 st' xl = Some l.
Proof.
  intros L R r q xl st st' l Hr Hx E1 E2 Hq E3.
  destruct (created_lists _ _ _ _ _ _ _ _ _ _ _ _ _ L R r Hr) as (st1 & A & B). rewrite E1 in A. injection A as <-.
  destruct B as [_ B]. rewrite B in E2. injection E2 as <-.
  destruct (klist_agree _ _ _ _ _ _ _ _ _ _ _ _ _ L R r q _ Hr Hq) as (F1 & F2 & F3).
  destruct (created_lists _ _ _ _ _ _ _ _ _ _ _ _ _ L R q F2) as (st1 & A' & B'). rewrite E3 in A'. injection A' as <-.
  rewrite (proj2 B' xl). rewrite F1.
  destruct (rank_facts _ _ _ _ _ _ _ _ _ _ _ _ _ L R r Hr) as (_ & _ & _ & _ & _ & _ & _ & _ & X1 & _).
  destruct (rank_facts _ _ _ _ _ _ _ _ _ _ _ _ _ L R q F2) as (_ & _ & _ & _ & _ & _ & _ & _ & X2 & _).
  assert (GX : getGlobalXIndex (M q) xl = getGlobalXIndex (M r) xl) by (unfold getGlobalXIndex; rewrite F1, X1, X2; reflexivity).
  rewrite GX, F3. reflexivity.
Qed.
(** getXcomm: the processors of the same row, in the order of their x position. *)
Theorem C69_xcomm npes nx ny mxg myg s user ix1 ix2 per M C core :
  loaded npes nx ny mxg myg s user ix1 ix2 per M C core ->
  regular ny (MYSUB (M 0)) (seps (M 0)) ->
  forall r st, 0 <= r < npes -> createCommunicators npes r (M r) ix1 ix2 = Ok st ->
  exists l, comm_x st = Some l /\ Z.of_nat (length l) = NXPE (M r) /\
    forall j q, nth_error l j = Some q -> 0 <= q < npes /\ PE_XIND (M q) = Z.of_nat j /\ PE_YIND (M q) = PE_YIND (M r).
Proof.
  intros L R r st Hr E1. destruct (created_lists _ _ _ _ _ _ _ _ _ _ _ _ _ L R r Hr) as (st1 & A & B). rewrite E1 in A. injection A as <-.
  eexists. split; [exact (proj1 B)|]. pose proof (sizes _ _ _ _ _ _ _ _ _ _ _ _ _ L R) as (S1 & S2 & _).
  destruct (rank_facts _ _ _ _ _ _ _ _ _ _ _ _ _ L R r Hr) as (D & F1 & F2 & _). rewrite map_length, ints_length. split; [lia|].
  intros j q H. rewrite nth_error_map in H. unfold ints in H. rewrite nth_error_map in H. destruct (nth_error (seq 0 _) j) as [k|] eqn:G; [|discriminate].
  cbn [option_map] in H. injection H as <-. pose proof G as G'. apply nth_error_In, in_seq in G'.
  assert (HL : lt j (length (seq 0%nat (Z.to_nat (NXPE (M 0) - 1 - 0 + 1))))) by (apply nth_error_Some; congruence). pose proof HL as HL'. rewrite seq_length in HL'.
  assert (k = j) by (rewrite (nth_error_nth' _ 0%nat HL), seq_nth in G by exact HL'; injection G as <-; lia). subst k.
  pose proof (d_py _ _ _ D) as HP. rewrite F2 in HP.
  replace (PE_YIND (M r) * NXPE (M 0) + (0 + Z.of_nat j)) with (PE_YIND (M r) * NXPE (M 0) + Z.of_nat j) by lia.
  apply (rank_of _ _ _ _ _ _ _ _ _ _ _ _ _ L R); lia.
Qed.
(** SurfaceIter::firstY/lastY are true exactly where the field line leaves the domain below / above the processor. *)
Theorem C69_line_ends npes nx ny mxg myg s user ix1 ix2 per M C core :
  loaded npes nx ny mxg myg s user ix1 ix2 per M C core ->
  regular ny (MYSUB (M 0)) (seps (M 0)) ->
  forall r xl st, 0 <= r < npes -> 0 <= xl < LocalNx (M r) -> createCommunicators npes r (M r) ix1 ix2 = Ok st ->
  exists f l, surf_firstY r (M r) ix1 ix2 (core r) st xl = Ok f /\ surf_lastY r (M r) ix1 ix2 (core r) st xl = Ok l /\
    (f = true <-> leaves_below (M r) ix1 ix2 xl) /\ (l = true <-> leaves_above (M r) ix1 ix2 xl).
Proof.
  intros L R r xl st Hr Hx E1. destruct (C69_ycomm _ _ _ _ _ _ _ _ _ _ _ _ _ L R r Hr) as (st1 & A & B). rewrite E1 in A. injection A as <-.
  destruct (B xl Hx) as (l & G & LP). set (x := getGlobalXIndex (M r) xl) in *.
  destruct LP as (P1 & P2 & P3 & P4 & h & t & P5 & P6 & P7 & P8).
  destruct (rank_facts _ _ _ _ _ _ _ _ _ _ _ _ _ L R r Hr) as (D & _ & _ & F1 & F2 & F3 & _).
  assert (LB : leaves_below (M r) ix1 ix2 xl <-> down_from ny M ix1 ix2 x r = None) by (unfold leaves_below, down_from, first_row; rewrite F2, F3; reflexivity).
  assert (LA : leaves_above (M r) ix1 ix2 xl <-> up_from ny M ix1 ix2 x r = None) by (unfold leaves_above, up_from, last_row; rewrite F2, F3; reflexivity).
  assert (CL : surf_closed (M r) ix1 ix2 (core r) xl = true <-> closed_at ny M ix1 ix2 x r).
  { unfold surf_closed, closed_at, first_row. rewrite <- F3. apply (C21_periodic_iff_closed _ _ _ _ _ _ _ _ _ _ _ _ _ L R r xl); [exact Hr|exact Hx|].
    pose proof (d_ys _ _ _ D). pose proof (d_ye _ _ _ D). pose proof (d_mysub _ _ _ D). lia. }
  unfold surf_firstY, surf_lastY, mesh_firstY, mesh_lastY. rewrite G. cbn [comm_rank comm_size bind].
  pose proof (pred_in _ _ P4 r P1) as PR. pose proof (succ_in _ _ P4 r P1) as SC.
  destruct (surf_closed (M r) ix1 ix2 (core r) xl) eqn:EC.
  - assert (CA : closed_at ny M ix1 ix2 x r) by (apply CL; reflexivity). specialize (P7 CA).
    exists false, false. rewrite LB, LA. split; [reflexivity|]. split; [reflexivity|]. split; (split; [discriminate|]); intros N; exfalso.
    + destruct PR as [Q|(a & _ & Q)]; [|destruct Q as [_ Q]; congruence]. assert (h = r) by congruence. subst h. destruct P7 as [_ Q']. congruence.
    + destruct SC as [Q|(a & _ & Q)]; [|destruct Q as [Q _]; congruence]. assert (t = r) by congruence. subst t. destruct P7 as [Q' _]. congruence.
  - assert (CA : ~ closed_at ny M ix1 ix2 x r) by (intros Q; apply CL in Q; discriminate). destruct (P8 CA) as [N1 N2].
    eexists; eexists. split; [reflexivity|]. split; [reflexivity|].
    rewrite LB, LA. rewrite !Z.eqb_eq. rewrite (index_zero r l P1), (index_last r l P2 P1). split; split; intros Q.
    + assert (h = r) by congruence. subst h. exact N1.
    + destruct PR as [Q'|(a & _ & Q')]; [exact Q'|]. destruct Q' as [_ Q']. congruence.
    + assert (t = r) by congruence. subst t. exact N2.
    + destruct SC as [Q'|(a & _ & Q')]; [exact Q'|]. destruct Q' as [Q' _]. congruence.
Qed.
Print Assumptions C69_ycomm.
Print Assumptions C69_agree.
Print Assumptions C69_xcomm.
Print Assumptions C69_line_ends.

(** ** C70. ySize(xl) is the number of points along the line: right outside both separatrices, between them when the lower
    one is the outer one (lines that pass the lower X-point region), and in the core below the first upper cut. *)
Definition points_along (M : Z -> mesh) (l : list Z) : Z := fold_right (fun q a => MYSUB (M q) + a) 0 l.
Ltac xl := repeat match goal with H : _ <-> _ |- _ => clear H end; lia.
Theorem C70_ysize_partial npes nx ny mxg myg s user ix1 ix2 per M C core :
  loaded npes nx ny mxg myg s user ix1 ix2 per M C core ->
  regular ny (MYSUB (M 0)) (seps (M 0)) ->
  forall r xl st l, 0 <= r < npes -> 0 <= xl < LocalNx (M r) ->
  createCommunicators npes r (M r) ix1 ix2 = Ok st -> getYcomm (M r) ix1 ix2 st xl = Some l ->
  let x := getGlobalXIndex (M r) xl in let y := first_row M r in let sp := seps (M 0) in
  ((ix1 <= x /\ (is_double sp = true -> ix2 <= x)) \/
   (is_double sp = true /\ ix2 <= x < ix1 /\ j11 sp < y <= j22 sp) \/
   (x < ix1 /\ (is_double sp = true -> x < ix2) /\ j11 sp < y <= j21 sp)) ->
  ySize (M r) ix1 ix2 xl = points_along M l.
Proof.
  intros L R r xl st l Hr Hx E1 E2 x y sp Hc.
  destruct (created_lists _ _ _ _ _ _ _ _ _ _ _ _ _ L R r Hr) as (st1 & A & B). rewrite E1 in A. injection A as <-.
  destruct B as [_ B]. pose proof E2 as E2'. rewrite B in E2. injection E2 as E2.
  pose proof (sizes _ _ _ _ _ _ _ _ _ _ _ _ _ L R) as (S1 & S2 & S3 & S4 & S5).
  destruct (rank_facts _ _ _ _ _ _ _ _ _ _ _ _ _ L R r Hr) as (D & F1 & F2 & F3 & F4 & F5 & F6 & R' & _).
  destruct (cuts_of_ok npes r (M r) ix1 ix2 D R') as (K & EA & ED & EDN). cbv zeta in *. rewrite F6, F5, F3, F2 in *.
  pose proof (d_py _ _ _ D) as HP. rewrite F2 in HP. pose proof (d_order _ _ _ D) as O. rewrite F4, F5 in O. destruct O as (_ & O2 & O3 & O4 & _).
  assert (LEN : points_along M l = MYSUB (M 0) * Z.of_nat (length l)).
  { assert (AL : forall q, In q l -> MYSUB (M q) = MYSUB (M 0)).
    { intros q Hq. rewrite <- E2 in Hq. destruct (klist_agree _ _ _ _ _ _ _ _ _ _ _ _ _ L R r q _ Hr Hq) as (_ & G & _).
      exact (proj1 (proj2 (proj2 (proj2 (rank_facts _ _ _ _ _ _ _ _ _ _ _ _ _ L R q G))))). }
    clear - AL. induction l as [|q l IH]; [cbn; lia|]. cbn [points_along fold_right length]. fold (points_along M l). rewrite IH by (intros; apply AL; right; assumption).
    rewrite (AL q) by (left; reflexivity). lia. }
  rewrite LEN, <- E2. unfold col. rewrite map_length. clear E1 E2 E2' B LEN.
  unfold ySize. cbv zeta. fold x. rewrite (xin_eq _ _ _ _ _ _ _ _ _ _ _ _ _ L R r Hr), (xout_eq _ _ _ _ _ _ _ _ _ _ _ _ _ L R r Hr).
  assert (YE : getGlobalYIndexNoBoundaries (M r) (MYG (M r)) = y) by (unfold y, first_row; rewrite (d_ys _ _ _ D); reflexivity). rewrite YE.
  assert (Y0 : y = PE_YIND (M r) * MYSUB (M 0)) by (apply (first_row_eq _ _ _ _ _ _ _ _ _ _ _ _ _ L R r Hr)).
  unfold ixs_lower, ixs_upper, single_null. rewrite F5, F4.
  destruct K as [KA KAD KD KE KN].
  set (k := cuts_of (M 0) ix1 ix2) in *. change (dn k) with (is_double (seps (M 0))) in KN. unfold sp in *. clear sp.
  unfold klist, kinner, kmiddle, kouter, klp, kuf, kpf, kup, kcore, xin, xout. change (dn k) with (is_double (seps (M 0))). change (lo k) with ix1.
  assert (UK : up k = x_upper (seps (M 0)) ix1 ix2) by reflexivity. rewrite UK. unfold x_upper. clearbody k x y. clear UK YE.
  replace (j21 (seps (M 0)) =? j12 (seps (M 0))) with (negb (is_double (seps (M 0)))) by (unfold is_double; apply negb_involutive).
  assert (LT : forall q, q * MYSUB (M 0) - 1 < y <-> q <= PE_YIND (M r)) by (intros q; rewrite Y0; clear - S3; generalize (PE_YIND (M r)) as p; intros p; rewrite (Z.mul_le_mono_pos_r q p (MYSUB (M 0))) by lia; lia).
  assert (LE : forall q, y <= q * MYSUB (M 0) - 1 <-> PE_YIND (M r) < q) by (intros q; rewrite Y0; clear - S3; generalize (PE_YIND (M r)) as p; intros p; rewrite (Z.mul_lt_mono_pos_r (MYSUB (M 0)) p q) by lia; lia).
  pose proof (LT (cA k)) as T1. pose proof (LE (cA k)) as T2. pose proof (LT (cD k)) as T3. pose proof (LE (cD k)) as T4. rewrite <- EA, <- ED in *.
  assert (NI : forall q, y < q * MYSUB (M 0) <-> PE_YIND (M r) < q) by (intros q; rewrite Y0; clear - S3; generalize (PE_YIND (M r)) as p; intros p; rewrite (Z.mul_lt_mono_pos_r (MYSUB (M 0)) p q) by lia; lia).
  destruct (is_double (seps (M 0))) eqn:DB; cbn [negb andb] in *.
  - destruct (EDN eq_refl) as (G1 & G2 & G3). destruct (KN eq_refl) as (H1 & H2 & H3 & H4).
    pose proof (LT (cB k)) as T5. pose proof (LE (cB k)) as T6. pose proof (LT (cC k)) as T7. pose proof (LE (cC k)) as T8. pose proof (NI (cN k)) as T9. rewrite <- G1, <- G2, <- G3 in *.
    assert (HcD : (ix1 <= x /\ ix2 <= x) \/ (ix2 <= x < ix1 /\ j11 (seps (M 0)) < y <= j22 (seps (M 0))) \/ (x < ix1 /\ x < ix2 /\ j11 (seps (M 0)) < y <= j21 (seps (M 0)))) by (destruct Hc as [[? ?]|[[? ?]|(? & ? & ?)]]; intuition). clear Hc.
    destruct HcD as [Hc|[Hc|Hc]].
    + destruct (Z.ltb_spec x ix1); [xl|]. destruct (Z.ltb_spec x ix2); [xl|]. cbn [andb].
      destruct (Z.ltb_spec x (Z.min ix1 ix2)); [xl|]. destruct (Z.ltb_spec x (Z.max ix1 ix2)); [xl|].
      destruct (Z.geb_spec x (Z.min ix1 ix2)); [|xl]. cbn [andb].
      destruct (Z.ltb_spec y (nyin (seps (M 0)))) as [V1|V1]; destruct (Z.ltb_spec (PE_YIND (M r)) (cN k)) as [V2|V2]; try (clear - T9 V1 V2; lia); rewrite ints_length; [|rewrite S5]; rewrite Z2Nat.id by xl; clear - EA ED S5 DB G1 G2 G3; lia.
    + assert (PA : cA k <= PE_YIND (M r)) by (apply T1; clear - Hc; lia). assert (PD : PE_YIND (M r) < cD k) by (apply T4; clear - Hc; lia).
      destruct (Z.ltb_spec x ix1); [|xl]. destruct (Z.ltb_spec x ix2); [xl|]. cbn [andb].
      destruct (Z.leb_spec y (j11 (seps (M 0)))); [xl|]. destruct (Z.gtb_spec y (j22 (seps (M 0)))); [xl|]. cbn [orb].
      destruct (Z.ltb_spec x (Z.min ix1 ix2)); [xl|]. destruct (Z.ltb_spec x (Z.max ix1 ix2)); [|xl].
      destruct (Z.geb_spec x (Z.min ix1 ix2)); [|xl]. cbn [andb]. destruct (Z.ltb_spec ix1 ix2); [xl|].
      destruct (Z.ltb_spec (PE_YIND (M r)) (cA k)); [xl|]. destruct (Z.leb_spec (cD k) (PE_YIND (M r))); [xl|]. cbn [orb].
      rewrite app_length, !ints_length. rewrite Nat2Z.inj_add, !Z2Nat.id by xl. xl.
    + assert (PA : cA k <= PE_YIND (M r)) by (apply T1; clear - Hc; lia). assert (PB : PE_YIND (M r) < cB k) by (apply T6; clear - Hc; lia).
      destruct (Z.ltb_spec x ix1); [|xl]. destruct (Z.ltb_spec x ix2); [|xl]. cbn [andb].
      destruct (Z.leb_spec y (j11 (seps (M 0)))); [xl|]. destruct (Z.gtb_spec y (j22 (seps (M 0)))); [xl|]. cbn [orb].
      destruct (Z.gtb_spec y (j21 (seps (M 0)))); [xl|]. cbn [andb].
      destruct (Z.ltb_spec x (Z.min ix1 ix2)); [|xl].
      destruct (Z.ltb_spec (PE_YIND (M r)) (cA k)); [xl|]. destruct (Z.leb_spec (cD k) (PE_YIND (M r))); [xl|]. cbn [orb].
      destruct (Z.leb_spec (cB k) (PE_YIND (M r))); [xl|]. cbn [andb].
      rewrite app_length, !ints_length. rewrite Nat2Z.inj_add, !Z2Nat.id by xl. xl.
  - assert (J : j21 (seps (M 0)) = j12 (seps (M 0))) by (unfold is_double in DB; apply negb_false_iff in DB; apply Z.eqb_eq; exact DB).
    destruct Hc as [[Hc _]|[[Hc _]|(Hc & _ & Hy)]]; [| discriminate |].
    + destruct (Z.ltb_spec x ix1); [xl|]. cbn [andb]. rewrite ints_length, Z2Nat.id by xl. xl.
    + assert (PA : cA k <= PE_YIND (M r)) by (apply T1; clear - Hy; lia). assert (PD : PE_YIND (M r) < cD k) by (apply T4; clear - Hy O4 J; lia).
      destruct (Z.ltb_spec x ix1); [|xl]. cbn [andb].
      destruct (Z.leb_spec y (j11 (seps (M 0)))); [xl|]. destruct (Z.gtb_spec y (j22 (seps (M 0)))); [xl|]. cbn [orb].
      destruct (Z.gtb_spec y (j21 (seps (M 0)))); [xl|]. cbn [andb].
      destruct (Z.ltb_spec (PE_YIND (M r)) (cA k)); [xl|]. destruct (Z.leb_spec (cD k) (PE_YIND (M r))); [xl|]. cbn [orb].
      rewrite ints_length, Z2Nat.id by xl. xl.
Qed.
Print Assumptions C70_ysize_partial.

(** The refuted cases, each with what ySize returns and the number of points. *)
Definition M_ex := mesh_of 12 12 24 2 2 s_ex (Some (inl 2)).
Definition C_ex r := fst (conn_of 12 r (M_ex r) 5 7 false).
Definition k_ex r := snd (conn_of 12 r (M_ex r) 5 7 false).
Lemma loaded_ex : loaded 12 12 24 2 2 s_ex (Some (inl 2)) 5 7 false M_ex C_ex k_ex /\ regular 24 (MYSUB (M_ex 0)) (seps (M_ex 0)).
Proof.
  split.
  - repeat (split; [lia|]). intros r Hr. assert (Q : r = 0 \/ r = 1 \/ r = 2 \/ r = 3 \/ r = 4 \/ r = 5 \/ r = 6 \/ r = 7 \/ r = 8 \/ r = 9 \/ r = 10 \/ r = 11) by lia.
    repeat destruct Q as [-> | Q]; [..|subst r]; (split; vm_compute; reflexivity).
  - change (MYSUB (M_ex 0)) with 4. change (seps (M_ex 0)) with s_ex. constructor; cbn; lia.
Qed.
(** Single null: four processors, a core of the middle two, both parts of it (j21 = j12 = 7). *)
Definition s_sn : yseps := mkyseps 3 7 7 11 8.
Definition M_sn := mesh_of 4 8 16 2 2 s_sn (Some (inl 1)).
Definition C_sn r := fst (conn_of 4 r (M_sn r) 4 4 false).
Definition k_sn r := snd (conn_of 4 r (M_sn r) 4 4 false).
Lemma loaded_sn : loaded 4 8 16 2 2 s_sn (Some (inl 1)) 4 4 false M_sn C_sn k_sn /\ regular 16 (MYSUB (M_sn 0)) (seps (M_sn 0)).
Proof.
  split.
  - repeat (split; [lia|]). intros r Hr. assert (Q : r = 0 \/ r = 1 \/ r = 2 \/ r = 3) by lia.
    repeat destruct Q as [-> | Q]; [..|subst r]; (split; vm_compute; reflexivity).
  - change (MYSUB (M_sn 0)) with 4. change (seps (M_sn 0)) with s_sn. constructor; cbn; lia.
Qed.
Definition ycomm_of npes (M : Z -> mesh) ix1 ix2 r xl : option (list Z) :=
  match createCommunicators npes r (M r) ix1 ix2 with Ok st => getYcomm (M r) ix1 ix2 st xl | _ => None end.
Definition is_example npes nx ny s ix1 ix2 M (r xl size points : Z) : Prop :=
  (exists mxg myg user C core, loaded npes nx ny mxg myg s user ix1 ix2 false M C core) /\ regular ny (MYSUB (M 0)) (seps (M 0)) /\
  0 <= r < npes /\ 0 <= xl < LocalNx (M r) /\
  exists l, ycomm_of npes M ix1 ix2 r xl = Some l /\ ySize (M r) ix1 ix2 xl = size /\ points_along M l = points.
Theorem C70_ysize_refuted :
  is_example 12 12 24 s_ex 5 7 M_ex 0 2 9 8 /\        (* private flux region: one too many *)
  is_example 12 12 24 s_ex 5 7 M_ex 1 2 17 16 /\      (* between the separatrices, upper one outside: one too many *)
  is_example 12 12 24 s_ex 5 7 M_ex 5 2 17 8 /\       (* upper private flux region beyond the lower separatrix *)
  is_example 4 8 16 s_sn 4 4 M_sn 2 2 0 8.            (* core of a single null past jyseps2_1: no points *)
Proof.
  assert (E1 : (exists mxg myg user C core, loaded 12 12 24 mxg myg s_ex user 5 7 false M_ex C core) /\ regular 24 (MYSUB (M_ex 0)) (seps (M_ex 0)))
    by (split; [exists 2, 2, (Some (inl 2)), C_ex, k_ex; exact (proj1 loaded_ex)|exact (proj2 loaded_ex)]).
  assert (E2 : (exists mxg myg user C core, loaded 4 8 16 mxg myg s_sn user 4 4 false M_sn C core) /\ regular 16 (MYSUB (M_sn 0)) (seps (M_sn 0)))
    by (split; [exists 2, 2, (Some (inl 1)), C_sn, k_sn; exact (proj1 loaded_sn)|exact (proj2 loaded_sn)]).
  unfold is_example.
  split; [|split; [|split]].
  1-3: split; [exact (proj1 E1)|]; split; [exact (proj2 E1)|].
  4: split; [exact (proj1 E2)|]; split; [exact (proj2 E2)|].
  all: split; [lia|]; split; [vm_compute; split; congruence|]; eexists; (split; [vm_compute; reflexivity|]); split; vm_compute; reflexivity.
Qed.
Print Assumptions C70_ysize_refuted.

(** Communicators of the example: closed core lines, the private flux regions, lines between and outside the separatrices. *)
Example C69_case : map (fun r => ycomm_of 12 M_ex 5 7 r 0) [2; 8; 0; 4] = [Some [2; 8]; Some [2; 8]; Some [0; 10]; Some [6; 4]]
  /\ map (fun r => ycomm_of 12 M_ex 5 7 r 2) [1; 5; 9] = [Some [1; 3; 9; 11]; Some [7; 5]; Some [1; 3; 9; 11]]
  /\ map (fun r => ycomm_of 12 M_ex 5 7 r 5) [1; 5; 9] = [Some [1; 3; 5]; Some [1; 3; 5]; Some [7; 9; 11]].
Proof. vm_compute. repeat split. Qed.
(** The three conditions of C70_ysize_partial are met: outside, in the core, and (the separatrices exchanged) between them. *)
Example C70_case : ycomm_of 12 M_ex 5 7 1 5 = Some [1; 3; 5] /\ ySize (M_ex 1) 5 7 5 = 12 /\ points_along M_ex [1; 3; 5] = 12 /\
  ycomm_of 12 M_ex 5 7 2 0 = Some [2; 8] /\ ySize (M_ex 2) 5 7 0 = 8 /\ points_along M_ex [2; 8] = 8 /\
  ycomm_of 12 M_ex 7 5 5 2 = Some [7; 9; 3; 5] /\ ySize (M_ex 5) 7 5 2 = 16 /\ points_along M_ex [7; 9; 3; 5] = 16.
Proof. vm_compute. repeat split. Qed.
