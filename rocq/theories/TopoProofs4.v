From Coq Require Import ZArith List Bool Lia.
From Verif Require Import Base MeshModel MeshSpec MeshProofs MeshProps TopoModel TopoSpec TopoProofs TopoProofs2 TopoProofs3.
Import ListNotations.
Open Scope Z_scope.

(** A family of loaded meshes: common sizes. *)
Record family (npes nx ny mxg myg : Z) (M : Z -> mesh) (X Y mx my : Z) (s' : yseps) : Prop := {
  f_X : 0 < X; f_Y : 0 < Y; f_mx : 0 < mx; f_my : 0 < my; f_np : X * Y = npes; f_ny : ny = Y * my; f_nx : nx - 2 * mxg = X * mx;
  f_all : forall r, 0 <= r < npes -> decomposed npes r (M r) /\ NXPE (M r) = X /\ NYPE (M r) = Y /\ MXSUB (M r) = mx /\
     MYSUB (M r) = my /\ MXG (M r) = mxg /\ MYG (M r) = myg /\ g_ny (M r) = ny /\ g_nx (M r) = nx /\ seps (M r) = s'
}.

Lemma loaded_family npes nx ny mxg myg s user ix1 ix2 per M C core :
  loaded npes nx ny mxg myg s user ix1 ix2 per M C core ->
  family npes nx ny mxg myg M (NXPE (M 0)) (NYPE (M 0)) (MXSUB (M 0)) (MYSUB (M 0)) (seps (M 0)).
Proof.
  intros (Hn & Hny & Hmxg & Hmyg & H).
  destruct (H 0 ltac:(lia)) as [H0 _].
  destruct (load_ok _ _ _ _ _ _ _ _ _ Hny Hmxg Hmyg (conj (Z.le_refl 0) Hn) H0) as (D0 & F1 & F2 & F3 & F4 & _).
  constructor; try apply D0.
  - rewrite <- F2. apply D0.
  - rewrite <- F1, <- F3. apply D0.
  - intros r Hr. destruct (C23_rank_independent npes 0 r nx ny mxg myg s user (M 0) Hny Hmxg Hmyg ltac:(lia) Hr H0) as (m2 & E & R).
    destruct (H r Hr) as [Hr' _]. rewrite Hr' in E. injection E as <-.
    destruct (load_ok _ _ _ _ _ _ _ _ _ Hny Hmxg Hmyg Hr Hr') as (D & ? & ? & ? & ? & _).
    split; [exact D|]. intuition congruence.
Qed.

Lemma rank_inj npes r1 r2 m1 m2 : decomposed npes r1 m1 -> decomposed npes r2 m2 -> NXPE m1 = NXPE m2 ->
  PE_XIND m1 = PE_XIND m2 -> PE_YIND m1 = PE_YIND m2 -> r1 = r2.
Proof.
  intros D1 D2 E1 E2 E3. rewrite <- (d_rank _ _ _ D1), <- (d_rank _ _ _ D2), E1, E2, E3. reflexivity.
Qed.
Lemma rank_split npes r m q p : decomposed npes r m -> 0 <= p < NXPE m -> r = q * NXPE m + p -> PE_XIND m = p /\ PE_YIND m = q.
Proof.
  intros D Hp E. pose proof (d_rank _ _ _ D). pose proof (d_px _ _ _ D). assert (PE_YIND m = q) by nia. split; nia.
Qed.

Section Match.
Variables (npes nx ny mxg myg : Z) (s : yseps) (user : option (Z + Z)) (ix1 ix2 : Z) (per : bool).
Variables (M : Z -> mesh) (C : Z -> conn) (core : Z -> bool).
Hypothesis L : loaded npes nx ny mxg myg s user ix1 ix2 per M C core.
Hypothesis R : regular ny (MYSUB (M 0)) (seps (M 0)).

Lemma facts r : 0 <= r < npes ->
  let k := cuts_of (M 0) ix1 ix2 in let m := M r in let c := C r in
  decomposed npes r m /\ NXPE m = NXPE (M 0) /\ NYPE m = NYPE (M 0) /\ MXSUB m = MXSUB (M 0) /\ LocalNx m = LocalNx (M 0) /\ MYSUB m = MYSUB (M 0) /\
  cuts_ok (NYPE m) k /\
  U3 c = triple m (link_up k (PE_YIND m)) (PROC_NUM m (PE_XIND m) (PE_YIND m + 1)) /\
  D3 c = triple m (link_down k (PE_YIND m)) (PROC_NUM m (PE_XIND m) (PE_YIND m - 1)) /\
  (TS_ui c = link_ts m (link_up k (PE_YIND m)) /\ TS_di c = link_ts m (link_down k (PE_YIND m)) /\ TS_uo c = false /\ TS_do c = false) /\
  (I_DEST c = I_DEST (default_connections m per) /\ O_DEST c = O_DEST (default_connections m per)) /\
  (core r = true <-> 0 < (if is_double (seps (M 0)) then Z.min ix1 ix2 else ix1) /\
       ((j11 (seps (M 0)) < PE_YIND m * MYSUB m /\ PE_YIND m * MYSUB m <= j21 (seps (M 0))) \/
        (j12 (seps (M 0)) < PE_YIND m * MYSUB m /\ PE_YIND m * MYSUB m <= j22 (seps (M 0))))).
Proof.
  intros Hr k m c. pose proof (loaded_family _ _ _ _ _ _ _ _ _ _ _ _ _ L) as F.
  destruct (f_all _ _ _ _ _ _ _ _ _ _ _ F r Hr) as (D & E1 & E2 & E3 & E4 & E5 & E6 & E7 & E8 & E9).
  destruct L as (Hn & Hny & Hmxg & Hmyg & H). destruct (H r Hr) as [_ T].
  assert (R' : regular (g_ny (M r)) (MYSUB (M r)) (seps (M r))) by (rewrite E7, E4, E9; exact R).
  pose proof (topo_facts npes r (M r) ix1 ix2 per (C r) (core r) D ltac:(lia) ltac:(lia) R' T) as TF. cbn zeta in TF.
  assert (EK : cuts_of (M r) ix1 ix2 = k) by (unfold k, cuts_of; rewrite E4, E9; reflexivity).
  rewrite EK, E9 in TF.
  assert (EL : LocalNx (M r) = LocalNx (M 0)).
  { rewrite (d_lnx _ _ _ D). destruct (f_all _ _ _ _ _ _ _ _ _ _ _ F 0 ltac:(lia)) as (D0 & _ & _ & _ & _ & G & _).
    rewrite (d_lnx _ _ _ D0). lia. }
  split; [exact D|]. split; [exact E1|]. split; [exact E2|]. split; [exact E3|]. split; [exact EL|]. split; [exact E4|]. exact TF.
Qed.

Lemma PN' m x y : 0 <= x < NXPE m -> 0 <= y < NYPE m -> PROC_NUM m x y = y * NXPE m + x.
Proof. intros. apply PN; assumption. Qed.

Theorem match_up P Q : 0 <= P < npes -> 0 <= Q < npes ->
  (U_IN (C P) = Q -> D_IN (C Q) = P /\ U_XSPLIT (C P) = D_XSPLIT (C Q)) /\
  (U_OUT (C P) = Q -> D_OUT (C Q) = P /\ U_XSPLIT (C P) = D_XSPLIT (C Q)).
Proof.
  intros HP HQ.
  destruct (facts P HP) as (D1 & A1 & A2 & A3 & A4 & A5 & K1 & U1 & _).
  destruct (facts Q HQ) as (D2 & B1 & B2 & B3 & B4 & B5 & K2 & _ & V2 & _).
  set (k := cuts_of (M 0) ix1 ix2) in *.
  pose proof (d_px _ _ _ D1) as Hpx. pose proof (d_py _ _ _ D1) as Hpy.
  unfold U3 in U1. unfold D3 in V2.
  assert (WEQ : forall x, PE_XIND (M P) = PE_XIND (M Q) -> width (M Q) x = width (M P) x).
  { intros x E. unfold width. rewrite A3, A4, B3, B4, E. reflexivity. }
  split; intros HE.
  - destruct (link_up k (PE_YIND (M P))) as [| |q x t] eqn:EL; cbn [triple] in U1; try (inversion U1; lia).
    destruct (link_up_down _ _ K1 _ _ _ _ Hpy EL) as (Hq & EL').
    destruct (0 <? width (M P) x) eqn:EW; [|inversion U1; lia].
    injection U1 as X1 X2 X3. rewrite HE in X2.
    destruct (rank_split npes Q (M Q) q (PE_XIND (M P)) D2 ltac:(lia) ltac:(rewrite B1, <- A1; exact X2)) as [Y1 Y2].
    rewrite Y2, EL' in V2. cbn [triple] in V2. rewrite WEQ in V2 by congruence. rewrite EW in V2.
    injection V2 as Z1 Z2 Z3. rewrite Z1, Z2, X1. split; [|reflexivity].
    rewrite Y1, B1, <- A1. apply D1.
  - assert (NX : PE_YIND (M P) + 1 < NYPE (M P)).
    { destruct (Z_lt_dec (PE_YIND (M P) + 1) (NYPE (M P))); [assumption|exfalso].
      rewrite PN_out in U1 by lia.
      destruct (link_up k (PE_YIND (M P))) as [| |q x t]; cbn [triple] in U1; try (injection U1 as X1 X2 X3; lia).
      destruct (0 <? width (M P) x); [destruct (width (M P) x =? LocalNx (M P))|]; injection U1 as X1 X2 X3; lia. }
    rewrite PN' in U1 by lia.
    pose proof (link_next _ _ K1 (PE_YIND (M P)) ltac:(lia) NX) as LN.
    assert (QE : U_OUT (C P) = (PE_YIND (M P) + 1) * NXPE (M P) + PE_XIND (M P)).
    { destruct (link_up k (PE_YIND (M P))) as [| |q x t]; cbn [triple] in U1; try (injection U1 as X1 X2 X3; lia).
      destruct (0 <? width (M P) x); [destruct (width (M P) x =? LocalNx (M P))|]; injection U1 as X1 X2 X3; lia. }
    rewrite HE in QE.
    destruct (rank_split npes Q (M Q) (PE_YIND (M P) + 1) (PE_XIND (M P)) D2 ltac:(lia) ltac:(rewrite B1, <- A1; exact QE)) as [Y1 Y2].
    rewrite Y2, Y1 in V2. rewrite PN' in V2 by lia.
    replace ((PE_YIND (M P) + 1 - 1) * NXPE (M Q) + PE_XIND (M P)) with P in V2.
    2:{ pose proof (d_rank _ _ _ D1). replace (PE_YIND (M P) + 1 - 1) with (PE_YIND (M P)) by lia. rewrite B1, <- A1. lia. }
    destruct (link_up k (PE_YIND (M P))) as [| |q x t]; cbn [triple] in U1.
    + rewrite LN in V2. cbn [triple] in V2. injection U1 as X1 X2 X3. injection V2 as Z1 Z2 Z3. split; congruence.
    + injection U1 as X1 X2 X3. lia.
    + destruct LN as (q' & t' & LN). rewrite LN in V2. cbn [triple] in V2. rewrite WEQ in V2 by congruence. rewrite B4, <- A4 in V2.
      destruct (0 <? width (M P) x); [|injection U1 as X1 X2 X3; injection V2 as Z1 Z2 Z3; split; congruence].
      destruct (width (M P) x =? LocalNx (M P)); injection U1 as X1 X2 X3; injection V2 as Z1 Z2 Z3; [lia|split; congruence].
Qed.

Theorem match_down P Q : 0 <= P < npes -> 0 <= Q < npes ->
  (D_IN (C P) = Q -> U_IN (C Q) = P) /\ (D_OUT (C P) = Q -> U_OUT (C Q) = P).
Proof.
  intros HP HQ.
  destruct (facts P HP) as (D1 & A1 & A2 & A3 & A4 & A5 & K1 & _ & U1 & _).
  destruct (facts Q HQ) as (D2 & B1 & B2 & B3 & B4 & B5 & K2 & V2 & _).
  set (k := cuts_of (M 0) ix1 ix2) in *.
  pose proof (d_px _ _ _ D1) as Hpx. pose proof (d_py _ _ _ D1) as Hpy.
  unfold D3 in U1. unfold U3 in V2.
  assert (WEQ : forall x, PE_XIND (M P) = PE_XIND (M Q) -> width (M Q) x = width (M P) x).
  { intros x E. unfold width. rewrite A3, A4, B3, B4, E. reflexivity. }
  split; intros HE.
  - destruct (link_down k (PE_YIND (M P))) as [| |q x t] eqn:EL; cbn [triple] in U1; try (inversion U1; lia).
    destruct (link_down_up _ _ K1 _ _ _ _ Hpy EL) as (Hq & EL').
    destruct (0 <? width (M P) x) eqn:EW; [|inversion U1; lia].
    injection U1 as X1 X2 X3. rewrite HE in X2.
    destruct (rank_split npes Q (M Q) q (PE_XIND (M P)) D2 ltac:(lia) ltac:(rewrite B1, <- A1; exact X2)) as [Y1 Y2].
    rewrite Y2, EL' in V2. cbn [triple] in V2. rewrite WEQ in V2 by congruence. rewrite EW in V2.
    injection V2 as Z1 Z2 Z3. rewrite Z2. rewrite Y1, B1, <- A1. apply D1.
  - assert (NX : 0 <= PE_YIND (M P) - 1).
    { destruct (Z_le_dec 0 (PE_YIND (M P) - 1)); [assumption|exfalso].
      rewrite PN_out in U1 by lia.
      destruct (link_down k (PE_YIND (M P))) as [| |q x t]; cbn [triple] in U1; try (injection U1 as X1 X2 X3; lia).
      destruct (0 <? width (M P) x); [destruct (width (M P) x =? LocalNx (M P))|]; injection U1 as X1 X2 X3; lia. }
    rewrite PN' in U1 by lia.
    pose proof (link_prev _ _ K1 (PE_YIND (M P) - 1) ltac:(lia) ltac:(lia)) as LN.
    replace (PE_YIND (M P) - 1 + 1) with (PE_YIND (M P)) in LN by lia.
    assert (QE : D_OUT (C P) = (PE_YIND (M P) - 1) * NXPE (M P) + PE_XIND (M P)).
    { destruct (link_down k (PE_YIND (M P))) as [| |q x t]; cbn [triple] in U1; try (injection U1 as X1 X2 X3; lia).
      destruct (0 <? width (M P) x); [destruct (width (M P) x =? LocalNx (M P))|]; injection U1 as X1 X2 X3; lia. }
    rewrite HE in QE.
    destruct (rank_split npes Q (M Q) (PE_YIND (M P) - 1) (PE_XIND (M P)) D2 ltac:(lia) ltac:(rewrite B1, <- A1; exact QE)) as [Y1 Y2].
    rewrite Y2, Y1 in V2. rewrite PN' in V2 by lia.
    replace ((PE_YIND (M P) - 1 + 1) * NXPE (M Q) + PE_XIND (M P)) with P in V2.
    2:{ pose proof (d_rank _ _ _ D1). replace (PE_YIND (M P) - 1 + 1) with (PE_YIND (M P)) by lia. rewrite B1, <- A1. lia. }
    destruct (link_down k (PE_YIND (M P))) as [| |q x t]; cbn [triple] in U1.
    + rewrite LN in V2. cbn [triple] in V2. injection U1 as X1 X2 X3. injection V2 as Z1 Z2 Z3. congruence.
    + injection U1 as X1 X2 X3. lia.
    + destruct LN as (q' & t' & LN). rewrite LN in V2. cbn [triple] in V2. rewrite WEQ in V2 by congruence. rewrite B4, <- A4 in V2.
      destruct (0 <? width (M P) x); [|injection U1 as X1 X2 X3; injection V2 as Z1 Z2 Z3; congruence].
      destruct (width (M P) x =? LocalNx (M P)); injection U1 as X1 X2 X3; injection V2 as Z1 Z2 Z3; [lia|congruence].
Qed.

Theorem match_x P Q : 0 <= P < npes -> 0 <= Q < npes -> (O_DEST (C P) = Q <-> I_DEST (C Q) = P).
Proof.
  intros HP HQ.
  destruct (facts P HP) as (D1 & A1 & A2 & A3 & A4 & A5 & K1 & _ & _ & _ & (_ & EO) & _).
  destruct (facts Q HQ) as (D2 & B1 & B2 & B3 & B4 & B5 & K2 & _ & _ & _ & (EI & _) & _).
  rewrite EO, EI. unfold default_connections. cbn [I_DEST O_DEST]. clear EO EI K1 K2.
  pose proof (d_px _ _ _ D1). pose proof (d_py _ _ _ D1). pose proof (d_px _ _ _ D2). pose proof (d_py _ _ _ D2).
  pose proof (d_rank _ _ _ D1) as R1. pose proof (d_rank _ _ _ D2) as R2.
  rewrite A1, A2, B1, B2 in *.
  assert (PNX : forall m x y, ~ (0 <= x < NXPE m) -> PROC_NUM m x y = -1).
  { intros m x y Hx. unfold PROC_NUM. rewrite !Z.geb_leb. destruct (NXPE m <=? x) eqn:E; destruct (x <? 0) eqn:E'; cbn [orb]; auto. bz. lia. }
  set (X := NXPE (M 0)) in *. set (Y := NYPE (M 0)) in *.
  set (p1 := PE_XIND (M P)) in *. set (q1 := PE_YIND (M P)) in *. set (p2 := PE_XIND (M Q)) in *. set (q2 := PE_YIND (M Q)) in *.
  assert (PA : forall x y, 0 <= x < X -> 0 <= y < Y -> PROC_NUM (M P) x y = y * X + x) by (intros; rewrite PN' by lia; rewrite A1; reflexivity).
  assert (PB : forall x y, 0 <= x < X -> 0 <= y < Y -> PROC_NUM (M Q) x y = y * X + x) by (intros; rewrite PN' by lia; rewrite B1; reflexivity).
  assert (PAN : forall x y, ~ (0 <= x < X) -> PROC_NUM (M P) x y = -1) by (intros; apply PNX; rewrite A1; assumption).
  assert (PBN : forall x y, ~ (0 <= x < X) -> PROC_NUM (M Q) x y = -1) by (intros; apply PNX; rewrite B1; assumption).
  clearbody X Y p1 q1 p2 q2.
  assert (NEG : 0 <= P /\ 0 <= Q) by lia.
  assert (INJ : forall a b c d, 0 <= a < X -> 0 <= c < X -> b * X + a = d * X + c -> a = c /\ b = d).
  { intros a b c d Ha Hc E. assert (b = d) by nia. subst. lia. }
  destruct per; cbn [andb].
  - destruct (p1 =? X - 1) eqn:E1; destruct (p2 =? 0) eqn:E2; bz.
    + rewrite PA, PB by lia. split; intros E; rewrite <- ?R1, <- ?R2 in *; [destruct (INJ 0 q1 p2 q2)|destruct (INJ (X-1) q2 p1 q1)]; try lia; subst; lia.
    + rewrite PA, PB by lia. split; intros E; rewrite <- ?R1, <- ?R2 in *; [destruct (INJ 0 q1 p2 q2)|destruct (INJ (p2-1) q2 p1 q1)]; try lia.
    + rewrite PA, PB by lia. split; intros E; rewrite <- ?R1, <- ?R2 in *; [destruct (INJ (p1+1) q1 p2 q2)|destruct (INJ (X-1) q2 p1 q1)]; try lia.
    + rewrite PA, PB by lia. split; intros E; rewrite <- ?R1, <- ?R2 in *; [destruct (INJ (p1+1) q1 p2 q2)|destruct (INJ (p2-1) q2 p1 q1)]; try lia; subst; try lia;
      replace (p2 - 1 + 1) with p2 by lia; reflexivity.
  - destruct (Z.eq_dec p1 (X - 1)) as [E1|E1]; destruct (Z.eq_dec p2 0) as [E2|E2].
    + rewrite PAN, PBN by lia. lia.
    + rewrite PAN, PB by lia. split; intros E; [lia|]. rewrite <- R1 in E. destruct (INJ (p2-1) q2 p1 q1); lia.
    + rewrite PA, PBN by lia. split; intros E; [|lia]. rewrite <- R2 in E. destruct (INJ (p1+1) q1 p2 q2); lia.
    + rewrite PA, PB by lia. split; intros E; rewrite <- ?R1, <- ?R2 in *; [destruct (INJ (p1+1) q1 p2 q2)|destruct (INJ (p2-1) q2 p1 q1)]; try lia; subst; lia.
Qed.

Theorem all_match : messages_match npes C.
Proof.
  intros P Q HP HQ. pose proof (match_up P Q HP HQ) as [A B]. pose proof (match_down Q P HQ HP) as [A' B'].
  split; [split; [intros E; apply (A E)|exact A']|]. split; [split; [intros E; apply (B E)|exact B']|].
  split; [intros [E|E]; [apply (A E)|apply (B E)]|]. apply match_x; assumption.
Qed.
End Match.
