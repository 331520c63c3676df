From Coq Require Import ZArith List Bool Lia.
From Verif Require Import Base MeshModel MeshSpec MeshProofs TopoModel TopoSpec.
Import ListNotations.
Open Scope Z_scope.

Ltac beq := repeat match goal with
  | |- context [?a =? ?b] => first [ replace (a =? b) with true by (symmetry; apply Z.eqb_eq; lia)
                                   | replace (a =? b) with false by (symmetry; apply Z.eqb_neq; lia) ]
  | |- context [?a <? ?b] => first [ replace (a <? b) with true by (symmetry; apply Z.ltb_lt; lia)
                                   | replace (a <? b) with false by (symmetry; apply Z.ltb_ge; lia) ]
  | |- context [?a <=? ?b] => first [ replace (a <=? b) with true by (symmetry; apply Z.leb_le; lia)
                                   | replace (a <=? b) with false by (symmetry; apply Z.leb_gt; lia) ]
  end.

Section Topo.
Variables (npes mype : Z) (m : mesh).
Hypothesis D : decomposed npes mype m.
Hypothesis HG : 0 <= MXG m.
Hypothesis HYG : 0 <= MYG m.
Hypothesis HS : 2 <= MYSUB m.

Let X := NXPE m.
Let Y := NYPE m.
Let px := PE_XIND m.
Let py := PE_YIND m.
Let M := MYSUB m.

(** Width (in local cells) of the part with x < xlt. *)
Definition width (xlt : Z) : Z := Z.min (xlt - px * MXSUB m) (LocalNx m).

Definition sc (c : conn) (up down xlt : Z) (ts : bool) : conn :=
  let w := width xlt in
  if w <=? 0 then c else
  let c1 := if py =? up then set_up c w (down * X + px) (if w =? LocalNx m then -1 else U_OUT c) ts (TS_uo c) else c in
  if py =? down then set_down c1 w (up * X + px) (if w =? LocalNx m then -1 else D_OUT c1) ts (TS_do c1) else c1.

Lemma PN x y : 0 <= x < X -> 0 <= y < Y -> PROC_NUM m x y = y * X + x.
Proof.
  intros Hx Hy. unfold PROC_NUM. fold X Y. rewrite !Z.geb_leb. beq. reflexivity.
Qed.
Lemma PN_out x y : ~ (0 <= y < Y) -> PROC_NUM m x y = -1.
Proof.
  intros Hy. unfold PROC_NUM. fold X Y. rewrite !Z.geb_leb.
  destruct (X <=? x); destruct (x <? 0); cbn [orb]; auto.
  destruct (Y <=? y) eqn:E1; destruct (y <? 0) eqn:E2; cbn [orb]; auto. bz. lia.
Qed.
Lemma PN_mine y : 0 <= y < Y -> (mype =? PROC_NUM m px y) = (py =? y).
Proof.
  intros Hy. pose proof (d_px _ _ _ D) as A. pose proof (d_py _ _ _ D) as B. pose proof (d_rank _ _ _ D) as R.
  fold px X in A. fold py Y in B. fold X py px in R.
  rewrite PN by lia. destruct (py =? y) eqn:E; bz.
  - subst y. apply Z.eqb_eq. lia.
  - apply Z.eqb_neq. intros Q. apply E. nia.
Qed.
Lemma PN_mine_out y : ~ (0 <= y < Y) -> (mype =? PROC_NUM m px y) = false.
Proof.
  intros Hy. rewrite PN_out by assumption. pose proof (d_px _ _ _ D) as A. pose proof (d_py _ _ _ D) as B. pose proof (d_rank _ _ _ D) as R.
  pose proof (d_nxpe _ _ _ D). apply Z.eqb_neq. nia.
Qed.

Lemma YPROC_at k i : 0 <= k < Y -> 0 <= i < M -> YPROC m (k * M + i) = Ok k.
Proof.
  intros Hk Hi. unfold YPROC. pose proof (d_y _ _ _ D) as E. fold Y M in E. rewrite Z.geb_leb, E.
  assert (0 <= k * M + i < Y * M) by nia.
  beq. cbn [orb]. fold M. rewrite cdiv_nz by lia. f_equal.
  rewrite Z.quot_div_nonneg by lia. rewrite Z.div_add_l by lia. rewrite Z.div_small; lia.
Qed.

Lemma sc_general c y1 y2 up down xlt ts :
  0 <= up < Y -> 0 <= down < Y ->
  (y1 = down * M /\ y2 = up * M + (M - 1)) \/ (y2 = down * M /\ y1 = up * M + (M - 1)) ->
  set_connection m mype c y1 y2 0 xlt ts = Ok (sc c up down xlt ts).
Proof.
  intros Hu Hd HY. unfold set_connection, sc.
  pose proof (d_px _ _ _ D) as Hpx. fold px X in Hpx. pose proof (d_mxsub _ _ _ D) as Hmx.
  pose proof (d_lnx _ _ _ D) as HL. pose proof (d_my _ _ _ D) as HMY. pose proof (d_y _ _ _ D) as HDY. fold Y M in HDY.
  assert (Hm : 2 <= M) by exact HS.
  assert (W : (xlt <=? 0) = true -> width xlt <= 0). { intros E. bz. unfold width. nia. }
  destruct (xlt <=? 0) eqn:E0.
  { specialize (W eq_refl). beq. reflexivity. }
  clear W. bz.
  assert (R1 : 0 <= y1 < Y * M) by nia. assert (R2 : 0 <= y2 < Y * M) by nia.
  rewrite HMY, HDY, !Z.geb_leb. beq. cbn [orb].
  assert (P : exists p1 p2, YPROC m y1 = Ok p1 /\ YPROC m y2 = Ok p2 /\
     (if (YLOCAL m y1 p1 =? MYG m) && (YLOCAL m y2 p2 =? MYSUB m + MYG m - 1) then Ok (p2, p1)
            else if (YLOCAL m y2 p2 =? MYG m) && (YLOCAL m y1 p1 =? MYSUB m + MYG m - 1) then Ok (p1, p2)
            else Throw) = Ok (up, down)).
  { destruct HY as [[-> ->]|[-> ->]].
    - exists down, up. rewrite <- (Z.add_0_r (down * M)). rewrite !YPROC_at by lia. split; [reflexivity|]. split; [reflexivity|].
      unfold YLOCAL. fold M. beq. reflexivity.
    - exists up, down. rewrite <- (Z.add_0_r (down * M)). rewrite !YPROC_at by lia. split; [reflexivity|]. split; [reflexivity|].
      unfold YLOCAL. fold M. beq. reflexivity. }
  destruct P as (p1 & p2 & -> & -> & P). cbn [bind]. rewrite P. cbn [bind fst snd].
  change (0 =? 0) with true. cbn [negb andb].
  unfold getLocalXIndex. fold px. rewrite Z.gtb_ltb.
  assert (WE : (if LocalNx m <? xlt - px * MXSUB m then LocalNx m else xlt - px * MXSUB m) = width xlt).
  { unfold width. destruct (LocalNx m <? xlt - px * MXSUB m) eqn:E; bz; lia. }
  rewrite WE.
  assert (0 <= px * MXSUB m) by nia.
  replace (LocalNx m <=? 0 - px * MXSUB m) with false by (symmetry; apply Z.leb_gt; nia). cbn [orb].
  assert (WZ : (xlt - px * MXSUB m <=? 0) = (width xlt <=? 0)).
  { unfold width. destruct (xlt - px * MXSUB m <=? 0) eqn:E; bz; [symmetry; apply Z.leb_le; lia|symmetry; apply Z.leb_gt; lia]. }
  rewrite WZ. destruct (width xlt <=? 0) eqn:EW; [reflexivity|].
  replace (if 0 - px * MXSUB m <? 0 then 0 else 0 - px * MXSUB m) with 0
    by (destruct (0 - px * MXSUB m <? 0) eqn:E; bz; lia).
  beq. fold px. rewrite !PN_mine by lia. rewrite !PN by lia. reflexivity.
Qed.

Lemma sc_skip c y1 y2 xlt ts : y1 < 0 \/ y2 >= Y * M ->
  set_connection m mype c y1 y2 0 xlt ts = Ok c.
Proof.
  intros H. unfold set_connection. pose proof (d_my _ _ _ D) as HMY. pose proof (d_y _ _ _ D) as HDY. fold Y M in HDY.
  rewrite HMY, HDY, !Z.geb_leb.
  destruct (xlt <=? 0); [reflexivity|].
  destruct H as [H|H].
  - replace (y1 <? 0) with true by (symmetry; apply Z.ltb_lt; lia). reflexivity.
  - destruct ((y1 <? 0) || (Y * M <=? y1)); [reflexivity|].
    replace (Y * M <=? y2) with true by (symmetry; apply Z.leb_le; lia). rewrite orb_true_r. reflexivity.
Qed.

(** The target: both sides are cut for every local x. *)
Definition tg (c : conn) (up : Z) : conn :=
  let c1 := if py =? up then set_up c (g_nx m - px * MXSUB m) (-1) (-1) (TS_ui c) (TS_uo c) else c in
  if py =? up + 1 then set_down c1 (g_nx m - px * MXSUB m) (-1) (-1) (TS_di c1) (TS_do c1) else c1.

Lemma full_width : LocalNx m <= g_nx m - px * MXSUB m.
Proof.
  pose proof (d_px _ _ _ D) as Hpx. fold px X in Hpx. pose proof (d_mxsub _ _ _ D) as Hmx.
  pose proof (d_lnx _ _ _ D) as HL. pose proof (d_x _ _ _ D) as HX. fold X in HX. nia.
Qed.

Lemma tg_general c up : 0 <= up -> up + 1 < Y ->
  add_target m mype c (up * M + (M - 1)) 0 (g_nx m) = Ok (tg c up).
Proof.
  intros Hu Hu2. unfold add_target, tg.
  pose proof (d_px _ _ _ D) as Hpx. fold px X in Hpx. pose proof (d_mxsub _ _ _ D) as Hmx.
  pose proof (d_lnx _ _ _ D) as HL. pose proof (d_my _ _ _ D) as HMY. pose proof (d_y _ _ _ D) as HDY. fold Y M in HDY.
  pose proof (d_x _ _ _ D) as HX. fold X in HX.
  assert (Hm : 2 <= M) by exact HS. pose proof full_width as FW.
  assert (0 < g_nx m) by nia.
  assert (R1 : 0 <= up * M + (M - 1) < Y * M) by nia.
  rewrite HMY, HDY, !Z.geb_leb. beq. cbn [orb].
  rewrite YPROC_at by lia. cbn [bind].
  replace (up * M + (M - 1) + 1) with ((up + 1) * M + 0) by lia. rewrite YPROC_at by lia. cbn [bind]. beq.
  unfold getLocalXIndex. fold px. assert (0 <= px * MXSUB m) by nia. beq. cbn [orb].
  rewrite !PN_mine by lia. reflexivity.
Qed.

(** Projections. *)
Lemma sc_U c up down xlt ts :
  let w := width xlt in let hit := (py =? up) && (0 <? w) in
  U_XSPLIT (sc c up down xlt ts) = (if hit then w else U_XSPLIT c) /\
  U_IN (sc c up down xlt ts) = (if hit then down * X + px else U_IN c) /\
  U_OUT (sc c up down xlt ts) = (if hit then (if w =? LocalNx m then -1 else U_OUT c) else U_OUT c) /\
  TS_ui (sc c up down xlt ts) = (if hit then ts else TS_ui c) /\
  TS_uo (sc c up down xlt ts) = TS_uo c.
Proof.
  unfold sc. cbn zeta. destruct (width xlt <=? 0) eqn:E.
  - replace (0 <? width xlt) with false by (bz; symmetry; apply Z.ltb_ge; lia). rewrite andb_false_r. repeat split.
  - replace (0 <? width xlt) with true by (bz; symmetry; apply Z.ltb_lt; lia). rewrite andb_true_r.
    destruct (py =? up); destruct (py =? down); repeat split.
Qed.
Lemma sc_D c up down xlt ts :
  let w := width xlt in let hit := (py =? down) && (0 <? w) in
  D_XSPLIT (sc c up down xlt ts) = (if hit then w else D_XSPLIT c) /\
  D_IN (sc c up down xlt ts) = (if hit then up * X + px else D_IN c) /\
  D_OUT (sc c up down xlt ts) = (if hit then (if w =? LocalNx m then -1 else D_OUT c) else D_OUT c) /\
  TS_di (sc c up down xlt ts) = (if hit then ts else TS_di c) /\
  TS_do (sc c up down xlt ts) = TS_do c.
Proof.
  unfold sc. cbn zeta. destruct (width xlt <=? 0) eqn:E.
  - replace (0 <? width xlt) with false by (bz; symmetry; apply Z.ltb_ge; lia). rewrite andb_false_r. repeat split.
  - replace (0 <? width xlt) with true by (bz; symmetry; apply Z.ltb_lt; lia). rewrite andb_true_r.
    destruct (py =? up); destruct (py =? down); repeat split.
Qed.
Lemma sc_X c up down xlt ts : I_DEST (sc c up down xlt ts) = I_DEST c /\ O_DEST (sc c up down xlt ts) = O_DEST c.
Proof.
  unfold sc. cbn zeta. destruct (width xlt <=? 0); [auto|]. destruct (py =? up); destruct (py =? down); auto.
Qed.
Lemma tg_U c up :
  U_XSPLIT (tg c up) = (if py =? up then g_nx m - px * MXSUB m else U_XSPLIT c) /\
  U_IN (tg c up) = (if py =? up then -1 else U_IN c) /\
  U_OUT (tg c up) = (if py =? up then -1 else U_OUT c) /\
  TS_ui (tg c up) = TS_ui c /\ TS_uo (tg c up) = TS_uo c.
Proof. unfold tg. destruct (py =? up); destruct (py =? up + 1); repeat split. Qed.
Lemma tg_D c up :
  D_XSPLIT (tg c up) = (if py =? up + 1 then g_nx m - px * MXSUB m else D_XSPLIT c) /\
  D_IN (tg c up) = (if py =? up + 1 then -1 else D_IN c) /\
  D_OUT (tg c up) = (if py =? up + 1 then -1 else D_OUT c) /\
  TS_di (tg c up) = TS_di c /\ TS_do (tg c up) = TS_do c.
Proof. unfold tg. destruct (py =? up); destruct (py =? up + 1); repeat split. Qed.
Lemma tg_X c up : I_DEST (tg c up) = I_DEST c /\ O_DEST (tg c up) = O_DEST c.
Proof. unfold tg. destruct (py =? up); destruct (py =? up + 1); auto. Qed.
End Topo.
