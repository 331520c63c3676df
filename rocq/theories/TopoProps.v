(** Property theorems C21: processor connections realise the field-line topology and pair up. *)
From Coq Require Import ZArith List Bool Lia.
From Verif Require Import Base MeshModel MeshSpec MeshProofs MeshProps TopoModel TopoSpec TopoProofs TopoProofs2 TopoProofs3 TopoProofs4 TopoProofs5.
Import ListNotations.
Open Scope Z_scope.

(** The specification's two directions are inverse of each other (a check on the specification itself). *)
Theorem C21_spec_symmetric ny mysub s lo up x y y' :
  ordered_seps ny s -> regular ny mysub s -> 0 <= y < ny -> 0 <= y' < ny ->
  (above ny s lo up x y = Some y' <-> below ny s lo up x y' = Some y).
Proof. exact (above_below ny mysub s lo up x y y'). Qed.

(** An accepted decomposition of a regular grid gets connections; only the two size checks can fail. *)
Theorem C21_topology_succeeds npes r nx ny mxg myg s user m ix1 ix2 per :
  0 < ny -> 0 <= mxg -> 0 <= myg -> 0 <= r < npes ->
  load_decomposition npes r nx ny mxg myg s user = Ok m ->
  regular ny (MYSUB m) (seps m) ->
  (exists ck, topology npes r m ix1 ix2 per = Ok ck) <-> (myg <= MYSUB m /\ (NXPE m = 1 \/ mxg <= MXSUB m)).
Proof.
  intros Hny Hx Hy Hr H R.
  destruct (load_ok _ _ _ _ _ _ _ _ _ Hny Hx Hy Hr H) as (D & E1 & E2 & E3 & E4 & _).
  rewrite <- E2 in R. pose proof (d_nxpe _ _ _ D). split.
  - intros ([c core] & T). destruct (topology_inv _ _ _ _ _ _ _ T). lia.
  - intros [A B]. destruct (topology_final npes r m ix1 ix2 per D ltac:(lia) ltac:(lia) R ltac:(lia) ltac:(lia)) as (core & T & _).
    eexists. exact T.
Qed.

(** The processor that receives row data across the top (bottom) edge, at every local x including guard cells, is the
    one holding the cell above (below) along the field line; no message is sent at targets and domain ends. *)
Theorem C21_up_neighbour npes nx ny mxg myg s user ix1 ix2 per M C core :
  loaded npes nx ny mxg myg s user ix1 ix2 per M C core ->
  regular ny (MYSUB (M 0)) (seps (M 0)) ->
  forall r xl, 0 <= r < npes -> 0 <= xl < LocalNx (M r) ->
  let y := getGlobalYIndexNoBoundaries (M r) (yend (M r)) in
  let x := getGlobalXIndex (M r) xl in
  (if xl <? U_XSPLIT (C r) then U_IN (C r) else U_OUT (C r)) =
  match above ny (seps (M r)) (x_lower ix1 ix2) (x_upper (seps (M r)) ix1 ix2) x y with
  | Some y' => PROC_NUM (M r) (PE_XIND (M r)) (y' / MYSUB (M r))
  | None => -1
  end /\
  (forall y', above ny (seps (M r)) (x_lower ix1 ix2) (x_upper (seps (M r)) ix1 ix2) x y = Some y' ->
     0 <= y' < ny /\ y' mod MYSUB (M r) = 0).
Proof.
  intros L R r xl Hr Hx y x.
  pose proof (loaded_family _ _ _ _ _ _ _ _ _ _ _ _ _ L) as F.
  destruct (f_all _ _ _ _ _ _ _ _ _ _ _ F r Hr) as (D & E1 & E2 & E3 & E4 & E5 & E6 & E7 & E8 & E9).
  destruct (facts _ _ _ _ _ _ _ _ _ _ _ _ _ L R r Hr) as (_ & _ & _ & _ & _ & _ & K & U & _). cbn zeta in *.
  assert (EK : cuts_of (M r) ix1 ix2 = cuts_of (M 0) ix1 ix2) by (unfold cuts_of; rewrite E4, E9; reflexivity).
  assert (R' : regular (g_ny (M r)) (MYSUB (M r)) (seps (M r))) by (rewrite E7, E4, E9; exact R).
  unfold U3 in U.
  rewrite (triple_dest _ _ _ _ _ _ xl (eq_sym U) Hx).
  assert (YE : y = PE_YIND (M r) * MYSUB (M r) + MYSUB (M r) - 1).
  { unfold y, getGlobalYIndexNoBoundaries. rewrite (d_ye _ _ _ D). lia. }
  rewrite YE. rewrite <- E7. unfold x_lower.
  pose proof (d_py _ _ _ D) as Hpy. pose proof (d_px _ _ _ D) as Hpx. pose proof (d_mysub _ _ _ D) as Hm. pose proof (d_y _ _ _ D) as DY.
  pose proof (above_link npes r (M r) ix1 ix2 D R' x (PE_YIND (M r)) Hpy) as AL. rewrite EK in AL.
  rewrite AL. fold (getGlobalXIndex (M r) xl). fold x.
  assert (NEXT : forall q, 0 <= q < NYPE (M r) -> PROC_NUM (M r) (PE_XIND (M r)) (q * MYSUB (M r) / MYSUB (M r)) = q * NXPE (M r) + PE_XIND (M r)
      /\ 0 <= q * MYSUB (M r) < g_ny (M r) /\ (q * MYSUB (M r)) mod MYSUB (M r) = 0).
  { intros q Hq. rewrite Z.div_mul by lia. rewrite PN' by lia. split; [reflexivity|]. split; [nia|]. apply Z.mod_mul. lia. }
  assert (DEF : match (if PE_YIND (M r) =? NYPE (M r) - 1 then None else Some ((PE_YIND (M r) + 1) * MYSUB (M r))) with
      | Some y' => PROC_NUM (M r) (PE_XIND (M r)) (y' / MYSUB (M r)) | None => -1 end = PROC_NUM (M r) (PE_XIND (M r)) (PE_YIND (M r) + 1)).
  { destruct (PE_YIND (M r) =? NYPE (M r) - 1) eqn:E; bz.
    - rewrite PN_out by lia. reflexivity.
    - rewrite Z.div_mul by lia. reflexivity. }
  assert (DEF2 : forall y', (if PE_YIND (M r) =? NYPE (M r) - 1 then None else Some ((PE_YIND (M r) + 1) * MYSUB (M r))) = Some y' ->
     0 <= y' < g_ny (M r) /\ y' mod MYSUB (M r) = 0).
  { intros y' Q. destruct (PE_YIND (M r) =? NYPE (M r) - 1) eqn:E; [discriminate|]. bz. injection Q as <-. apply NEXT. lia. }
  destruct (link_up (cuts_of (M 0) ix1 ix2) (PE_YIND (M r))) as [| |q xlt t] eqn:EL.
  - split; [symmetry; exact DEF|exact DEF2].
  - split; [reflexivity|intros; discriminate].
  - destruct (link_up_down _ _ K _ _ _ _ Hpy EL) as (Hq & _). destruct (NEXT q Hq) as (N1 & N2 & N3).
    destruct (x <? xlt).
    + split; [symmetry; exact N1|]. intros y' Q. injection Q as <-. split; assumption.
    + split; [symmetry; exact DEF|exact DEF2].
Qed.

Theorem C21_down_neighbour npes nx ny mxg myg s user ix1 ix2 per M C core :
  loaded npes nx ny mxg myg s user ix1 ix2 per M C core ->
  regular ny (MYSUB (M 0)) (seps (M 0)) ->
  forall r xl, 0 <= r < npes -> 0 <= xl < LocalNx (M r) ->
  let y := getGlobalYIndexNoBoundaries (M r) (ystart (M r)) in
  let x := getGlobalXIndex (M r) xl in
  (if xl <? D_XSPLIT (C r) then D_IN (C r) else D_OUT (C r)) =
  match below ny (seps (M r)) (x_lower ix1 ix2) (x_upper (seps (M r)) ix1 ix2) x y with
  | Some y' => PROC_NUM (M r) (PE_XIND (M r)) (y' / MYSUB (M r))
  | None => -1
  end /\
  (forall y', below ny (seps (M r)) (x_lower ix1 ix2) (x_upper (seps (M r)) ix1 ix2) x y = Some y' ->
     0 <= y' < ny /\ y' mod MYSUB (M r) = MYSUB (M r) - 1).
Proof.
  intros L R r xl Hr Hx y x.
  pose proof (loaded_family _ _ _ _ _ _ _ _ _ _ _ _ _ L) as F.
  destruct (f_all _ _ _ _ _ _ _ _ _ _ _ F r Hr) as (D & E1 & E2 & E3 & E4 & E5 & E6 & E7 & E8 & E9).
  destruct (facts _ _ _ _ _ _ _ _ _ _ _ _ _ L R r Hr) as (_ & _ & _ & _ & _ & _ & K & _ & U & _). cbn zeta in *.
  assert (EK : cuts_of (M r) ix1 ix2 = cuts_of (M 0) ix1 ix2) by (unfold cuts_of; rewrite E4, E9; reflexivity).
  assert (R' : regular (g_ny (M r)) (MYSUB (M r)) (seps (M r))) by (rewrite E7, E4, E9; exact R).
  unfold D3 in U.
  rewrite (triple_dest _ _ _ _ _ _ xl (eq_sym U) Hx).
  assert (YE : y = PE_YIND (M r) * MYSUB (M r)).
  { unfold y, getGlobalYIndexNoBoundaries. rewrite (d_ys _ _ _ D). lia. }
  rewrite YE. rewrite <- E7. unfold x_lower.
  pose proof (d_py _ _ _ D) as Hpy. pose proof (d_px _ _ _ D) as Hpx. pose proof (d_mysub _ _ _ D) as Hm. pose proof (d_y _ _ _ D) as DY.
  pose proof (below_link npes r (M r) ix1 ix2 D R' x (PE_YIND (M r)) Hpy) as AL. rewrite EK in AL.
  rewrite AL. fold (getGlobalXIndex (M r) xl). fold x.
  assert (DIV : forall q, (q * MYSUB (M r) + MYSUB (M r) - 1) / MYSUB (M r) = q /\ (q * MYSUB (M r) + MYSUB (M r) - 1) mod MYSUB (M r) = MYSUB (M r) - 1).
  { intros q. replace (q * MYSUB (M r) + MYSUB (M r) - 1) with (q * MYSUB (M r) + (MYSUB (M r) - 1)) by lia. split.
    - rewrite Z.div_add_l by lia. rewrite Z.div_small by lia. lia.
    - rewrite Z.add_comm, Z.mod_add by lia. apply Z.mod_small. lia. }
  assert (NEXT : forall q, 0 <= q < NYPE (M r) -> PROC_NUM (M r) (PE_XIND (M r)) ((q * MYSUB (M r) + MYSUB (M r) - 1) / MYSUB (M r)) = q * NXPE (M r) + PE_XIND (M r)
      /\ 0 <= q * MYSUB (M r) + MYSUB (M r) - 1 < g_ny (M r) /\ (q * MYSUB (M r) + MYSUB (M r) - 1) mod MYSUB (M r) = MYSUB (M r) - 1).
  { intros q Hq. destruct (DIV q) as [Dq Mq]. rewrite Dq. rewrite PN' by lia. split; [reflexivity|]. split; [nia|exact Mq]. }
  assert (PREV : PE_YIND (M r) * MYSUB (M r) - 1 = (PE_YIND (M r) - 1) * MYSUB (M r) + MYSUB (M r) - 1) by lia.
  assert (DEF : match (if PE_YIND (M r) =? 0 then None else Some (PE_YIND (M r) * MYSUB (M r) - 1)) with
      | Some y' => PROC_NUM (M r) (PE_XIND (M r)) (y' / MYSUB (M r)) | None => -1 end = PROC_NUM (M r) (PE_XIND (M r)) (PE_YIND (M r) - 1)).
  { destruct (PE_YIND (M r) =? 0) eqn:E; bz.
    - rewrite PN_out by lia. reflexivity.
    - rewrite PREV. destruct (DIV (PE_YIND (M r) - 1)) as [-> _]. reflexivity. }
  assert (DEF2 : forall y', (if PE_YIND (M r) =? 0 then None else Some (PE_YIND (M r) * MYSUB (M r) - 1)) = Some y' ->
     0 <= y' < g_ny (M r) /\ y' mod MYSUB (M r) = MYSUB (M r) - 1).
  { intros y' Q. destruct (PE_YIND (M r) =? 0) eqn:E; [discriminate|]. bz. injection Q as <-. rewrite PREV. apply NEXT. lia. }
  destruct (link_down (cuts_of (M 0) ix1 ix2) (PE_YIND (M r))) as [| |q xlt t] eqn:EL.
  - split; [symmetry; exact DEF|exact DEF2].
  - split; [reflexivity|intros; discriminate].
  - destruct (link_down_up _ _ K _ _ _ _ Hpy EL) as (Hq & _). destruct (NEXT q Hq) as (N1 & N2 & N3).
    destruct (x <? xlt).
    + split; [symmetry; exact N1|]. intros y' Q. injection Q as <-. split; assumption.
    + split; [symmetry; exact DEF|exact DEF2].
Qed.

(** Hence every message has its matching receive, of equal length. *)
Theorem C21_messages_match npes nx ny mxg myg s user ix1 ix2 per M C core :
  loaded npes nx ny mxg myg s user ix1 ix2 per M C core ->
  regular ny (MYSUB (M 0)) (seps (M 0)) ->
  messages_match npes C.
Proof. exact (all_match npes nx ny mxg myg s user ix1 ix2 per M C core). Qed.

(** Twist-shift: it is applied when crossing the closing connection of the core (at the lower X-point, or at the upper
    one when its separatrix is the inner one) and nowhere else, on both sides of it. *)
Theorem C21_twist_shift npes nx ny mxg myg s user ix1 ix2 per M C core :
  loaded npes nx ny mxg myg s user ix1 ix2 per M C core ->
  regular ny (MYSUB (M 0)) (seps (M 0)) ->
  forall r xl, 0 <= r < npes -> 0 <= xl < LocalNx (M r) ->
  let x := getGlobalXIndex (M r) xl in
  let at_lower := negb (is_double (seps (M r))) || (ix1 <=? ix2) in
  ((if xl <? U_XSPLIT (C r) then TS_ui (C r) else TS_uo (C r)) = true <->
     let y := getGlobalYIndexNoBoundaries (M r) (yend (M r)) in
     if at_lower then x < ix1 /\ y = j22 (seps (M r)) else x < ix2 /\ y = j21 (seps (M r))) /\
  ((if xl <? D_XSPLIT (C r) then TS_di (C r) else TS_do (C r)) = true <->
     let y := getGlobalYIndexNoBoundaries (M r) (ystart (M r)) in
     if at_lower then x < ix1 /\ y = j11 (seps (M r)) + 1 else x < ix2 /\ y = j12 (seps (M r)) + 1).
Proof.
  intros L R r xl Hr Hx x at_lower.
  pose proof (loaded_family _ _ _ _ _ _ _ _ _ _ _ _ _ L) as F.
  destruct (f_all _ _ _ _ _ _ _ _ _ _ _ F r Hr) as (D & E1 & E2 & E3 & E4 & E5 & E6 & E7 & E8 & E9).
  destruct (facts _ _ _ _ _ _ _ _ _ _ _ _ _ L R r Hr) as (_ & _ & _ & _ & _ & _ & K & U & V & (T1 & T2 & T3 & T4) & _). cbn zeta in *.
  assert (EK : cuts_of (M r) ix1 ix2 = cuts_of (M 0) ix1 ix2) by (unfold cuts_of; rewrite E4, E9; reflexivity).
  assert (R' : regular (g_ny (M r)) (MYSUB (M r)) (seps (M r))) by (rewrite E7, E4, E9; exact R).
  destruct (cuts_of_ok npes r (M r) ix1 ix2 D R') as (_ & EA & ED & EDN). cbn zeta in *. rewrite EK in *.
  assert (TS1 : ts1 (cuts_of (M 0) ix1 ix2) = at_lower).
  { unfold cuts_of, at_lower. cbn [ts1]. rewrite E9. destruct (is_double (seps (M 0))); reflexivity. }
  assert (TS2 : dn (cuts_of (M 0) ix1 ix2) = true -> ts2 (cuts_of (M 0) ix1 ix2) = negb at_lower).
  { unfold cuts_of, at_lower. cbn [ts2 dn]. rewrite E9. intros ->. cbn [negb orb].
    rewrite Z.gtb_ltb, Z.ltb_antisym. reflexivity. }
  assert (N : dn (cuts_of (M 0) ix1 ix2) = is_double (seps (M r))) by (unfold cuts_of; cbn [dn]; rewrite E9; reflexivity).
  assert (LO : lo (cuts_of (M 0) ix1 ix2) = ix1) by reflexivity.
  assert (UPE : dn (cuts_of (M 0) ix1 ix2) = true -> up (cuts_of (M 0) ix1 ix2) = ix2).
  { unfold cuts_of, x_upper. cbn [up dn]. intros ->. reflexivity. }
  assert (AT : at_lower = false -> dn (cuts_of (M 0) ix1 ix2) = true).
  { rewrite N. unfold at_lower. destruct (is_double (seps (M r))); cbn [negb orb]; [reflexivity|discriminate]. }
  set (k := cuts_of (M 0) ix1 ix2) in *. clearbody k at_lower.
  pose proof (d_py _ _ _ D) as Hpy. pose proof (d_mysub _ _ _ D) as Hm. pose proof (d_px _ _ _ D) as Hpx.
  rewrite N in *.
  assert (TW : forall l d xs i o (ti : bool), (xs, i, o) = triple (M r) l d -> ti = link_ts (M r) l ->
     ((if xl <? xs then ti else false) = true <-> exists q xlt, l = Link q xlt true /\ x < xlt)).
  { intros l d xs i o ti Q Ti. destruct l as [| |q xlt t]; cbn [triple link_ts] in *.
    - subst ti. split; [destruct (xl <? xs); discriminate|]. intros (?&?&?&?). discriminate.
    - subst ti. split; [destruct (xl <? xs); discriminate|]. intros (?&?&?&?). discriminate.
    - unfold width in *. unfold x, getGlobalXIndex.
      destruct (0 <? Z.min (xlt - PE_XIND (M r) * MXSUB (M r)) (LocalNx (M r))) eqn:E; bz; cbn [andb] in Ti; subst ti; injection Q as -> -> ->.
      + destruct (xl <? Z.min (xlt - PE_XIND (M r) * MXSUB (M r)) (LocalNx (M r))) eqn:E'; bz.
        * split; [intros ->; exists q, xlt; split; [reflexivity|lia]|]. intros (q' & x' & Q & _). now injection Q.
        * split; [discriminate|]. intros (q' & x' & Q & G). injection Q as -> -> ->. lia.
      + replace (xl <? 0) with false by (symmetry; apply Z.ltb_ge; lia).
        split; [discriminate|]. intros (q' & x' & Q & G). injection Q as -> -> ->. lia. }
  unfold U3 in U. unfold D3 in V. rewrite T3, T4. split.
  - rewrite (TW _ _ _ _ _ _ U T1).
    assert (YE : getGlobalYIndexNoBoundaries (M r) (yend (M r)) = PE_YIND (M r) * MYSUB (M r) + MYSUB (M r) - 1).
    { unfold getGlobalYIndexNoBoundaries. rewrite (d_ye _ _ _ D). lia. }
    rewrite YE, ED. destruct K as [KA KAD KD KE KN].
    assert (EQ : forall q, PE_YIND (M r) * MYSUB (M r) + MYSUB (M r) - 1 = q * MYSUB (M r) - 1 <-> PE_YIND (M r) = q - 1) by (intros q; split; intros; nia).
    unfold link_up. rewrite N, LO, TS1.
    destruct (PE_YIND (M r) =? cD k - 1) eqn:C1; bz.
    { destruct at_lower.
      - rewrite EQ. split; [intros (q & xlt & Q & G); injection Q as <- <-; auto|intros [G _]; eexists; eexists; split; [reflexivity|exact G]].
      - assert (DB := AT eq_refl). destruct (EDN DB) as (-> & _). rewrite EQ. specialize (KN (eq_trans N DB)).
        split; [intros (q & xlt & Q & G); discriminate|lia]. }
    destruct (PE_YIND (M r) =? cA k - 1) eqn:C2; bz.
    { destruct at_lower; [rewrite EQ|assert (DB := AT eq_refl); destruct (EDN DB) as (-> & _); specialize (KN (eq_trans N DB)); rewrite EQ];
      (split; [intros (q & xlt & Q & G); discriminate|lia]). }
    destruct (is_double (seps (M r))) eqn:DB; cbn [andb].
    2:{ destruct at_lower; [rewrite EQ|specialize (AT eq_refl); discriminate]; (split; [intros (q & xlt & Q & G); discriminate|lia]). }
    destruct (EDN eq_refl) as (-> & _). specialize (KN N). rewrite (UPE eq_refl), (TS2 eq_refl).
    destruct (PE_YIND (M r) =? cB k - 1) eqn:C3; bz.
    { destruct at_lower; rewrite EQ; cbn [negb].
      - split; [intros (q & xlt & Q & G); discriminate|lia].
      - split; [intros (q & xlt & Q & G); injection Q as <- <-; auto|intros [G _]; eexists; eexists; split; [reflexivity|exact G]]. }
    destruct (PE_YIND (M r) =? cC k - 1) eqn:C4; bz; [|destruct (PE_YIND (M r) =? cN k - 1) eqn:C5; bz];
      (destruct at_lower; rewrite EQ; (split; [intros (q & xlt & Q & G); discriminate|lia])).
  - rewrite (TW _ _ _ _ _ _ V T2).
    assert (YE : getGlobalYIndexNoBoundaries (M r) (ystart (M r)) = PE_YIND (M r) * MYSUB (M r)).
    { unfold getGlobalYIndexNoBoundaries. rewrite (d_ys _ _ _ D). lia. }
    rewrite YE, EA. destruct K as [KA KAD KD KE KN].
    assert (EQ : forall q, PE_YIND (M r) * MYSUB (M r) = q * MYSUB (M r) - 1 + 1 <-> PE_YIND (M r) = q) by (intros q; split; intros; nia).
    unfold link_down. rewrite N, LO, TS1.
    destruct (PE_YIND (M r) =? cA k) eqn:C1; bz.
    { destruct at_lower.
      - rewrite EQ. split; [intros (q & xlt & Q & G); injection Q as <- <-; auto|intros [G _]; eexists; eexists; split; [reflexivity|exact G]].
      - assert (DB := AT eq_refl). destruct (EDN DB) as (_ & -> & _). rewrite EQ. specialize (KN (eq_trans N DB)).
        split; [intros (q & xlt & Q & G); discriminate|lia]. }
    destruct (PE_YIND (M r) =? cD k) eqn:C2; bz.
    { destruct at_lower; [rewrite EQ|assert (DB := AT eq_refl); destruct (EDN DB) as (_ & -> & _); specialize (KN (eq_trans N DB)); rewrite EQ];
      (split; [intros (q & xlt & Q & G); discriminate|lia]). }
    destruct (is_double (seps (M r))) eqn:DB; cbn [andb].
    2:{ destruct at_lower; [rewrite EQ|specialize (AT eq_refl); discriminate]; (split; [intros (q & xlt & Q & G); discriminate|lia]). }
    destruct (EDN eq_refl) as (_ & -> & _). specialize (KN N). rewrite (UPE eq_refl), (TS2 eq_refl).
    destruct (PE_YIND (M r) =? cC k) eqn:C3; bz.
    { destruct at_lower; rewrite EQ; cbn [negb].
      - split; [intros (q & xlt & Q & G); discriminate|lia].
      - split; [intros (q & xlt & Q & G); injection Q as <- <-; auto|intros [G _]; eexists; eexists; split; [reflexivity|exact G]]. }
    destruct (PE_YIND (M r) =? cB k) eqn:C4; bz; [|destruct (PE_YIND (M r) =? cN k) eqn:C5; bz];
      (destruct at_lower; rewrite EQ; (split; [intros (q & xlt & Q & G); discriminate|lia])).
Qed.

(** periodicY(jx) is true exactly on closed field lines. *)
Theorem C21_periodic_iff_closed npes nx ny mxg myg s user ix1 ix2 per M C core :
  loaded npes nx ny mxg myg s user ix1 ix2 per M C core ->
  regular ny (MYSUB (M 0)) (seps (M 0)) ->
  forall r xl yl, 0 <= r < npes -> 0 <= xl < LocalNx (M r) -> ystart (M r) <= yl <= yend (M r) ->
  (periodicY (M r) ix1 ix2 (core r) xl = true <->
   closed_line ny (seps (M r)) (x_lower ix1 ix2) (x_upper (seps (M r)) ix1 ix2)
               (getGlobalXIndex (M r) xl) (getGlobalYIndexNoBoundaries (M r) yl)).
Proof.
  intros L R r xl yl Hr Hx Hyl.
  pose proof (loaded_family _ _ _ _ _ _ _ _ _ _ _ _ _ L) as F.
  destruct (f_all _ _ _ _ _ _ _ _ _ _ _ F r Hr) as (D & E1 & E2 & E3 & E4 & E5 & E6 & E7 & E8 & E9).
  destruct (facts _ _ _ _ _ _ _ _ _ _ _ _ _ L R r Hr) as (_ & _ & _ & _ & _ & _ & K & _ & _ & _ & _ & HC). cbn zeta in *.
  assert (R' : regular (g_ny (M r)) (MYSUB (M r)) (seps (M r))) by (rewrite E7, E4, E9; exact R).
  destruct (cuts_of_ok npes r (M r) ix1 ix2 D R') as (_ & EA & ED & EDN). cbn zeta in *.
  pose proof (d_order _ _ _ D) as O. rewrite <- E9 in HC.
  assert (XN : 0 <= getGlobalXIndex (M r) xl).
  { unfold getGlobalXIndex. pose proof (d_px _ _ _ D). pose proof (d_mxsub _ _ _ D). nia. }
  set (x := getGlobalXIndex (M r) xl) in *.
  assert (IN : ixseps_inner (M r) ix1 ix2 = inner (seps (M r)) ix1 ix2).
  { unfold ixseps_inner, inner, is_double. destruct (j21 (seps (M r)) =? j12 (seps (M r))); cbn [negb]; [reflexivity|].
    destruct (ix1 =? ix2) eqn:Q; destruct (ix1 <? ix2) eqn:Q2; bz; lia. }
  set (y := getGlobalYIndexNoBoundaries (M r) yl).
  assert (Hy : PE_YIND (M r) * MYSUB (M r) <= y < PE_YIND (M r) * MYSUB (M r) + MYSUB (M r)).
  { unfold y, getGlobalYIndexNoBoundaries. pose proof (d_ys _ _ _ D). pose proof (d_ye _ _ _ D). lia. }
  pose proof (d_mysub _ _ _ D) as Hm. pose proof (d_py _ _ _ D) as Hpy. pose proof (d_y _ _ _ D) as DY.
  assert (CORE : ((j11 (seps (M r)) < PE_YIND (M r) * MYSUB (M r) <= j21 (seps (M r)) \/
        j12 (seps (M r)) < PE_YIND (M r) * MYSUB (M r) <= j22 (seps (M r)))) <-> in_core (seps (M r)) y).
  { unfold in_core.
    assert (LT : forall q, q * MYSUB (M r) - 1 < PE_YIND (M r) * MYSUB (M r) <-> q <= PE_YIND (M r)) by (intros q; split; intros; nia).
    assert (LE : forall q, PE_YIND (M r) * MYSUB (M r) <= q * MYSUB (M r) - 1 <-> PE_YIND (M r) < q) by (intros q; split; intros; nia).
    assert (LTy : forall q, q * MYSUB (M r) - 1 < y <-> q <= PE_YIND (M r)) by (intros q; split; intros; nia).
    assert (LEy : forall q, y <= q * MYSUB (M r) - 1 <-> PE_YIND (M r) < q) by (intros q; split; intros; nia).
    destruct (is_double (seps (M r))) eqn:DB.
    - destruct (EDN eq_refl) as (F1 & F2 & _). rewrite EA, ED, F1, F2. rewrite !LT, !LE, !LTy, !LEy. tauto.
    - assert (Q : j21 (seps (M r)) = j12 (seps (M r))) by (unfold is_double in DB; bz; assumption).
      rewrite EA, ED, Q in *. destruct O as (_ & O2 & O3 & O4 & _).
      pose proof (LT (cA (cuts_of (M r) ix1 ix2))). pose proof (LE (cD (cuts_of (M r) ix1 ix2))).
      pose proof (LTy (cA (cuts_of (M r) ix1 ix2))). pose proof (LEy (cD (cuts_of (M r) ix1 ix2))). lia. }
  unfold periodicY. rewrite andb_true_iff, HC, CORE, Z.ltb_lt, IN.
  fold (inner (seps (M r)) ix1 ix2). fold x. unfold x_lower. rewrite <- E7.
  split.
  - intros [[_ A] B]. now apply (core_closed (g_ny (M r)) (MYSUB (M r))).
  - intros A.
    assert (DEC : (x < inner (seps (M r)) ix1 ix2 /\ in_core (seps (M r)) y) \/ ~ (x < inner (seps (M r)) ix1 ix2 /\ in_core (seps (M r)) y)) by (unfold in_core; lia).
    destruct DEC as [[B1 B2]|B]; [repeat split; auto; lia|].
    exfalso. refine (outside_open (g_ny (M r)) (MYSUB (M r)) (seps (M r)) ix1 ix2 x O R' y _ B A). nia.
Qed.

(** Without regularity the messages can fail to pair up.  (1) Subdomains one point long in y (allowed when MYG <= 1): the
    private flux connection is made between the wrong edges. *)
Definition mesh_of (npes nx ny mxg myg : Z) s user (r : Z) : mesh :=
  match load_decomposition npes r nx ny mxg myg s user with Ok m => m
  | _ => mkmesh 0 0 0 0 0 0 0 0 0 0 0 0 0 0 0 0 0 0 0 0 0 0 s end.
Definition conn_of (npes r : Z) m ix1 ix2 per : conn * bool :=
  match topology npes r m ix1 ix2 per with Ok c => c | _ => (mkconn 0 0 0 0 0 0 0 0 false false false false, false) end.

Theorem C21_unit_subdomain_refuted :
  exists npes nx ny mxg myg s user ix1 ix2 per M C core,
    loaded npes nx ny mxg myg s user ix1 ix2 per M C core /\ ~ messages_match npes C.
Proof.
  exists 6, 6, 6, 1, 1, (mkyseps 0 2 2 4 3), (Some (inl 1)), 3, 3, false,
    (mesh_of 6 6 6 1 1 (mkyseps 0 2 2 4 3) (Some (inl 1))),
    (fun r => fst (conn_of 6 r (mesh_of 6 6 6 1 1 (mkyseps 0 2 2 4 3) (Some (inl 1)) r) 3 3 false)),
    (fun r => snd (conn_of 6 r (mesh_of 6 6 6 1 1 (mkyseps 0 2 2 4 3) (Some (inl 1)) r) 3 3 false)).
  split.
  - repeat (split; [lia|]). intros r Hr. assert (C : r = 0 \/ r = 1 \/ r = 2 \/ r = 3 \/ r = 4 \/ r = 5) by lia.
    destruct C as [->|[->|[->|[->|[->| ->]]]]]; split; reflexivity.
  - intros H. destruct (H 0 1 ltac:(lia) ltac:(lia)) as (_ & _ & B & _). vm_compute in B. specialize (B (or_intror eq_refl)). discriminate.
Qed.

(** (2) A lower outer leg without a lower inner one (jyseps1_1 = -1, jyseps2_2 < ny-1): accepted, but the leg expects a
    full-width message from the core, which only sends its outer part. *)
Theorem C21_one_leg_refuted :
  exists npes nx ny mxg myg s user ix1 ix2 per M C core,
    loaded npes nx ny mxg myg s user ix1 ix2 per M C core /\ 2 <= MYSUB (M 0) /\ ~ messages_match npes C.
Proof.
  exists 4, 6, 8, 1, 1, (mkyseps (-1) 2 2 3 2), (Some (inl 1)), 3, 3, false,
    (mesh_of 4 6 8 1 1 (mkyseps (-1) 2 2 3 2) (Some (inl 1))),
    (fun r => fst (conn_of 4 r (mesh_of 4 6 8 1 1 (mkyseps (-1) 2 2 3 2) (Some (inl 1)) r) 3 3 false)),
    (fun r => snd (conn_of 4 r (mesh_of 4 6 8 1 1 (mkyseps (-1) 2 2 3 2) (Some (inl 1)) r) 3 3 false)).
  split; [|split].
  - repeat (split; [lia|]). intros r Hr. assert (C : r = 0 \/ r = 1 \/ r = 2 \/ r = 3) by lia.
    destruct C as [->|[->|[->| ->]]]; split; reflexivity.
  - vm_compute. discriminate.
  - intros H. destruct (H 1 2 ltac:(lia) ltac:(lia)) as (_ & _ & B & _). vm_compute in B. specialize (B (or_intror eq_refl)). discriminate.
Qed.

(** Non-vacuity: a double null grid on 12 processors meets every hypothesis. *)
Definition s_ex := mkyseps 3 7 15 19 12.
Example C21_case : exists M C core, loaded 12 12 24 2 2 s_ex (Some (inl 2)) 5 7 false M C core /\ regular 24 (MYSUB (M 0)) (seps (M 0)).
Proof.
  exists (mesh_of 12 12 24 2 2 s_ex (Some (inl 2))),
    (fun r => fst (conn_of 12 r (mesh_of 12 12 24 2 2 s_ex (Some (inl 2)) r) 5 7 false)),
    (fun r => snd (conn_of 12 r (mesh_of 12 12 24 2 2 s_ex (Some (inl 2)) r) 5 7 false)).
  split.
  - repeat (split; [lia|]). intros r Hr.
    assert (C : r = 0 \/ r = 1 \/ r = 2 \/ r = 3 \/ r = 4 \/ r = 5 \/ r = 6 \/ r = 7 \/ r = 8 \/ r = 9 \/ r = 10 \/ r = 11) by lia.
    repeat (destruct C as [->|C]; [split; vm_compute; reflexivity|]). subst r. split; vm_compute; reflexivity.
  - change (MYSUB (mesh_of 12 12 24 2 2 s_ex (Some (inl 2)) 0)) with 4. change (seps (mesh_of 12 12 24 2 2 s_ex (Some (inl 2)) 0)) with s_ex.
    constructor; cbn; lia.
Qed.

Print Assumptions C21_spec_symmetric.
Print Assumptions C21_topology_succeeds.
Print Assumptions C21_up_neighbour.
Print Assumptions C21_down_neighbour.
Print Assumptions C21_messages_match.
Print Assumptions C21_twist_shift.
Print Assumptions C21_periodic_iff_closed.
Print Assumptions C21_unit_subdomain_refuted.
Print Assumptions C21_one_leg_refuted.
