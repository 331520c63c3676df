(** From one exchange to global fields. *)
From Coq Require Import ZArith List Bool Lia FinFun Permutation.
From Verif Require Import Base MeshModel MeshSpec MeshProofs MeshProps TopoModel TopoSpec TopoProofs TopoProofs2 TopoProofs3 TopoProofs4 TopoProps CommModel CommSpec CommProofs CommProofs2.
Import ListNotations.
Open Scope Z_scope.

Section P.
Context (npes nx ny mxg myg : Z) (s : yseps) (user : option (Z + Z)) (ix1 ix2 : Z) (per : bool)
        (M : Z -> mesh) (C : Z -> conn) (core : Z -> bool).
Hypothesis L : loaded npes nx ny mxg myg s user ix1 ix2 per M C core.
Hypothesis R : regular ny (MYSUB (M 0)) (seps (M 0)).
Let F := loaded_family _ _ _ _ _ _ _ _ _ _ _ _ _ L.
Notation X := (NXPE (M 0)). Notation Y := (NYPE (M 0)). Notation mx := (MXSUB (M 0)). Notation my := (MYSUB (M 0)).

Lemma fam r : 0 <= r < npes -> decomposed npes r (M r) /\ NXPE (M r) = X /\ NYPE (M r) = Y /\ MXSUB (M r) = mx /\
     MYSUB (M r) = my /\ MXG (M r) = mxg /\ MYG (M r) = myg /\ g_ny (M r) = ny /\ g_nx (M r) = nx /\ seps (M r) = seps (M 0).
Proof. exact (f_all _ _ _ _ _ _ _ _ _ _ _ F r). Qed.

Lemma PN_range m x y : decomposed npes 0 m \/ (0 < NXPE m /\ NXPE m * NYPE m = npes) -> PROC_NUM m x y <> -1 ->
  0 <= PROC_NUM m x y < npes /\ 0 <= x < NXPE m /\ 0 <= y < NYPE m /\ PROC_NUM m x y = y * NXPE m + x.
Proof.
  intros H. assert (0 < NXPE m /\ NXPE m * NYPE m = npes) as [A B].
  { destruct H as [D|H]; [split; apply D|exact H]. }
  unfold PROC_NUM. destruct ((x >=? NXPE m) || (x <? 0)) eqn:E1; [tauto|]. destruct ((y >=? NYPE m) || (y <? 0)) eqn:E2; [tauto|].
  bz. intros _. split; nia.
Qed.

Lemma rank_dec r x y : 0 <= r < npes -> 0 <= x < X -> r = y * X + x -> PE_XIND (M r) = x /\ PE_YIND (M r) = y.
Proof.
  intros Hr Hx E. destruct (fam r Hr) as (D & E1 & _). apply (rank_split npes r (M r) y x D); rewrite E1; assumption.
Qed.

Lemma idest r : 0 <= r < npes -> I_DEST (C r) = I_DEST (default_connections (M r) per) /\ O_DEST (C r) = O_DEST (default_connections (M r) per).
Proof. intros Hr. destruct (facts _ _ _ _ _ _ _ _ _ _ _ _ _ L R r Hr) as (_ & _ & _ & _ & _ & _ & _ & _ & _ & _ & I & _). exact I. Qed.

Lemma in_neighbour r : 0 <= r < npes ->
  (I_DEST (C r) = -1 -> per = false /\ PE_XIND (M r) = 0) /\
  (per = false -> PE_XIND (M r) = 0 -> I_DEST (C r) = -1) /\
  (I_DEST (C r) <> -1 -> 0 <= I_DEST (C r) < npes /\ PE_YIND (M (I_DEST (C r))) = PE_YIND (M r) /\
     (per = true /\ PE_XIND (M r) = 0 /\ PE_XIND (M (I_DEST (C r))) = X - 1 \/
      PE_XIND (M r) <> 0 /\ PE_XIND (M (I_DEST (C r))) = PE_XIND (M r) - 1)).
Proof.
  intros Hr. destruct (fam r Hr) as (D & E1 & E2 & _). destruct (idest r Hr) as [I _].
  pose proof (d_px _ _ _ D) as Hpx. pose proof (d_py _ _ _ D) as Hpy. rewrite E1 in Hpx. rewrite E2 in Hpy.
  pose proof (d_npes _ _ _ D) as NP. rewrite E1, E2 in NP.
  assert (PNN : forall x y, 0 <= x < X -> 0 <= y < Y -> PROC_NUM (M r) x y = y * X + x).
  { intros. rewrite <- E1. apply PN'; rewrite ?E1, ?E2; assumption. }
  unfold default_connections in I. cbn [I_DEST] in I. rewrite E1 in I.
  destruct (Sumbool.sumbool_of_bool per) as [EP|EP]; rewrite EP in I; cbn [andb] in I.
  - assert (V : exists p, 0 <= p < X /\ I_DEST (C r) = PE_YIND (M r) * X + p /\
       (PE_XIND (M r) = 0 /\ p = X - 1 \/ PE_XIND (M r) <> 0 /\ p = PE_XIND (M r) - 1)).
    { destruct (PE_XIND (M r) =? 0) eqn:E0; bz.
      - exists (X - 1). rewrite I, PNN by lia. lia.
      - exists (PE_XIND (M r) - 1). rewrite I, PNN by lia. lia. }
    destruct V as (p & Hp & V & W). assert (Hq : 0 <= I_DEST (C r) < npes) by nia.
    destruct (rank_dec _ p (PE_YIND (M r)) Hq Hp V) as [Q1 Q2].
    split; [intros; lia|]. split; [congruence|]. intros _. split; [exact Hq|]. split; [exact Q2|].
    rewrite Q1. destruct W as [[W1 W2]|[W1 W2]]; [left|right]; auto.
  - destruct (Z.eq_dec (PE_XIND (M r)) 0) as [E0|E0].
    + assert (I0 : I_DEST (C r) = -1).
      { rewrite I. unfold PROC_NUM. rewrite E0. cbn. rewrite orb_true_r. reflexivity. }
      split; [auto|]. split; [auto|]. tauto.
    + rewrite PNN in I by lia. assert (Hq : 0 <= I_DEST (C r) < npes) by nia.
      destruct (rank_dec _ (PE_XIND (M r) - 1) (PE_YIND (M r)) Hq ltac:(lia) I) as [Q1 Q2].
      split; [lia|]. split; [lia|]. intros _. split; [exact Hq|]. split; [exact Q2|]. right. split; [exact E0|exact Q1].
Qed.

Lemma out_neighbour r : 0 <= r < npes ->
  (O_DEST (C r) = -1 -> per = false /\ PE_XIND (M r) = X - 1) /\
  (per = false -> PE_XIND (M r) = X - 1 -> O_DEST (C r) = -1) /\
  (O_DEST (C r) <> -1 -> 0 <= O_DEST (C r) < npes /\ PE_YIND (M (O_DEST (C r))) = PE_YIND (M r) /\
     (per = true /\ PE_XIND (M r) = X - 1 /\ PE_XIND (M (O_DEST (C r))) = 0 \/
      PE_XIND (M r) <> X - 1 /\ PE_XIND (M (O_DEST (C r))) = PE_XIND (M r) + 1)).
Proof.
  intros Hr. destruct (fam r Hr) as (D & E1 & E2 & _). destruct (idest r Hr) as [_ I].
  pose proof (d_px _ _ _ D) as Hpx. pose proof (d_py _ _ _ D) as Hpy. rewrite E1 in Hpx. rewrite E2 in Hpy.
  pose proof (d_npes _ _ _ D) as NP. rewrite E1, E2 in NP.
  assert (PNN : forall x y, 0 <= x < X -> 0 <= y < Y -> PROC_NUM (M r) x y = y * X + x).
  { intros. rewrite <- E1. apply PN'; rewrite ?E1, ?E2; assumption. }
  unfold default_connections in I. cbn [O_DEST] in I. rewrite E1 in I.
  destruct (Sumbool.sumbool_of_bool per) as [EP|EP]; rewrite EP in I; cbn [andb] in I.
  - assert (V : exists p, 0 <= p < X /\ O_DEST (C r) = PE_YIND (M r) * X + p /\
       (PE_XIND (M r) = X - 1 /\ p = 0 \/ PE_XIND (M r) <> X - 1 /\ p = PE_XIND (M r) + 1)).
    { destruct (PE_XIND (M r) =? X - 1) eqn:E0; bz.
      - exists 0. rewrite I, PNN by lia. lia.
      - exists (PE_XIND (M r) + 1). rewrite I, PNN by lia. lia. }
    destruct V as (p & Hp & V & W). assert (Hq : 0 <= O_DEST (C r) < npes) by nia.
    destruct (rank_dec _ p (PE_YIND (M r)) Hq Hp V) as [Q1 Q2].
    split; [intros; lia|]. split; [congruence|]. intros _. split; [exact Hq|]. split; [exact Q2|].
    rewrite Q1. destruct W as [[W1 W2]|[W1 W2]]; [left|right]; auto.
  - destruct (Z.eq_dec (PE_XIND (M r)) (X - 1)) as [E0|E0].
    + assert (I0 : O_DEST (C r) = -1).
      { rewrite I. unfold PROC_NUM. rewrite E0, E1. replace (X - 1 + 1 >=? X) with true; [reflexivity|].
        symmetry. rewrite Z.geb_leb. apply Z.leb_le. lia. }
      split; [auto|]. split; [auto|]. tauto.
    + rewrite PNN in I by lia. assert (Hq : 0 <= O_DEST (C r) < npes) by nia.
      destruct (rank_dec _ (PE_XIND (M r) + 1) (PE_YIND (M r)) Hq ltac:(lia) I) as [Q1 Q2].
      split; [lia|]. split; [lia|]. intros _. split; [exact Hq|]. split; [exact Q2|]. right. split; [exact E0|exact Q1].
Qed.

(** The guard-size checks of topology(). *)
Lemma sizes : myg <= my /\ (X = 1 \/ mxg <= mx).
Proof.
  pose proof L as L'; destruct L' as (Hn & Hny & Hmxg & Hmyg & H). destruct (H 0 ltac:(lia)) as [H0 T].
  destruct (fam 0 ltac:(lia)) as (D & _ & _ & _ & _ & E5 & E6 & E7 & _ & E9).
  pose proof (C21_topology_succeeds npes 0 nx ny mxg myg s user (M 0) ix1 ix2 per Hny Hmxg Hmyg ltac:(lia) H0 R) as S.
  apply S. eexists. exact T.
Qed.

(** Facts about the y splits. *)
Lemma triple_facts m l d a b o : triple m l d = (a, b, o) -> 0 <= LocalNx m ->
  0 <= a <= LocalNx m /\ (b = -1 -> a = 0 \/ o = -1 \/ (exists q x t, l = Link q x t /\ q * NXPE m + PE_XIND m = -1)) /\
  (b = -1 \/ exists q x t, l = Link q x t /\ b = q * NXPE m + PE_XIND m) /\ (o = -1 \/ o = d).
Proof.
  intros H Hl. destruct l as [| |q x t]; cbn [triple] in H.
  - inversion H; subst. split; [lia|]. split; [auto|]. split; auto.
  - inversion H; subst. split; [lia|]. split; [auto|]. split; auto.
  - destruct (0 <? width m x) eqn:E; inversion H; subst; bz.
    + unfold width in *. split; [lia|]. split; [intros; right; right; eauto|]. split; [right; eauto|].
      destruct (Z.min (x - PE_XIND m * MXSUB m) (LocalNx m) =? LocalNx m); auto.
    + split; [lia|]. split; [auto|]. split; auto.
Qed.

Lemma comm_ok_loaded : comm_ok npes M C mx my mxg myg.
Proof.
  pose proof L as L'; destruct L' as (Hn & Hny & Hmxg & Hmyg & _).
  assert (UD : forall r, 0 <= r < npes ->
     (0 <= U_XSPLIT (C r) <= mx + 2 * mxg /\ (U_IN (C r) = -1 -> U_XSPLIT (C r) = 0 \/ U_OUT (C r) = -1) /\
      (U_IN (C r) <> -1 -> 0 <= U_IN (C r) < npes) /\ (U_OUT (C r) <> -1 -> 0 <= U_OUT (C r) < npes)) /\
     (0 <= D_XSPLIT (C r) <= mx + 2 * mxg /\ (D_IN (C r) = -1 -> D_XSPLIT (C r) = 0 \/ D_OUT (C r) = -1) /\
      (D_IN (C r) <> -1 -> 0 <= D_IN (C r) < npes) /\ (D_OUT (C r) <> -1 -> 0 <= D_OUT (C r) < npes))).
  { intros r Hr. destruct (fam r Hr) as (D & E1 & E2 & E3 & E4 & E5 & E6 & E7 & E8 & E9).
    destruct (facts _ _ _ _ _ _ _ _ _ _ _ _ _ L R r Hr) as (_ & _ & _ & _ & _ & _ & KK & U & DD & _). cbn zeta in *.
    pose proof (d_lnx _ _ _ D) as LX. rewrite E3, E5 in LX. pose proof (d_mxsub _ _ _ D). pose proof (d_px _ _ _ D). pose proof (d_npes _ _ _ D). pose proof (d_nxpe _ _ _ D).
    pose proof (d_py _ _ _ D).
    assert (PR : forall x y, PROC_NUM (M r) x y <> -1 -> 0 <= PROC_NUM (M r) x y < npes).
    { intros x y Q. apply (PN_range (M r) x y); [right; split; assumption|exact Q]. }
    unfold U3 in U. unfold D3 in DD. symmetry in U, DD.
    apply triple_facts in U; [|lia]. apply triple_facts in DD; [|lia].
    destruct U as (U1 & U2 & U3 & U4). destruct DD as (D1 & D2 & D3 & D4). rewrite LX in U1, D1.
    assert (LU : forall q x t, link_up (cuts_of (M 0) ix1 ix2) (PE_YIND (M r)) = Link q x t -> 0 <= q < NYPE (M r)).
    { intros q x t Q. apply (link_up_down _ _ KK _ _ _ _ (d_py _ _ _ D) Q). }
    assert (LD : forall q x t, link_down (cuts_of (M 0) ix1 ix2) (PE_YIND (M r)) = Link q x t -> 0 <= q < NYPE (M r)).
    { intros q x t Q. apply (link_down_up _ _ KK _ _ _ _ (d_py _ _ _ D) Q). }
    assert (NB : forall q, 0 <= q < NYPE (M r) -> 0 <= q * NXPE (M r) + PE_XIND (M r) < npes) by (intros; nia).
    split.
    - split; [exact U1|]. split; [|split].
      + intros Q. destruct (U2 Q) as [?|[?|(q & x & t & EQ & EN)]]; auto. apply LU, NB in EQ. lia.
      + intros Q. destruct U3 as [?|(q & x & t & EQ & EN)]; [tauto|]. rewrite EN. apply NB. eapply LU. exact EQ.
      + intros Q. destruct U4 as [U4|U4]; [tauto|]. rewrite U4 in *. apply PR. exact Q.
    - split; [exact D1|]. split; [|split].
      + intros Q. destruct (D2 Q) as [?|[?|(q & x & t & EQ & EN)]]; auto. apply LD, NB in EQ. lia.
      + intros Q. destruct D3 as [?|(q & x & t & EQ & EN)]; [tauto|]. rewrite EN. apply NB. eapply LD. exact EQ.
      + intros Q. destruct D4 as [D4|D4]; [tauto|]. rewrite D4 in *. apply PR. exact Q. }
  constructor; try assumption.
  - pose proof (f_mx _ _ _ _ _ _ _ _ _ _ _ F). lia.
  - pose proof (f_my _ _ _ _ _ _ _ _ _ _ _ F). lia.
  - intros r Hr. destruct (fam r Hr) as (D & E1 & E2 & E3 & E4 & E5 & E6 & E7 & E8 & E9).
    pose proof (d_lnx _ _ _ D) as LX. pose proof (d_lny _ _ _ D) as LY. rewrite E3, E5 in LX. rewrite E4, E6 in LY. repeat split; assumption.
  - exact (all_match _ _ _ _ _ _ _ _ _ _ _ _ _ L R).
  - intros r Hr. destruct (UD r Hr) as [(A & _) (B & _)]. split; assumption.
  - intros r d Hr Hd Hne. destruct (UD r Hr) as [(_ & _ & A1 & A2) (_ & _ & B1 & B2)].
    destruct (in_neighbour r Hr) as (_ & _ & I). destruct (out_neighbour r Hr) as (_ & _ & O).
    destruct Hd as [<-|[<-|[<-|[<-|[<-|[<-|[]]]]]]]; auto; [apply I|apply O]; exact Hne.
  - intros r Hr. apply (UD r Hr).
  - intros r Hr. apply (UD r Hr).
Qed.

(** Field-line steps inside one processor. *)
Lemma cut_not p i c : 0 <= i < my -> (my | c + 1) -> p * my + i = c -> i = my - 1.
Proof. intros Hi [q E] H. assert (c = q * my - 1) by lia. assert ((q - p) * my = i + 1) by lia. assert (q - p = 1) by nia. nia. Qed.

Lemma special c : In c [j11 (seps (M 0)); j22 (seps (M 0)); ny - 1] \/ (is_double (seps (M 0)) = true /\ In c [j21 (seps (M 0)); j12 (seps (M 0)); nyin (seps (M 0)) - 1]) ->
  (my | c + 1).
Proof.
  pose proof L as L'; destruct L' as (Hn & _). destruct (fam 0 ltac:(lia)) as (D & E1 & E2 & E3 & E4 & E5 & E6 & E7 & E8 & E9).
  assert (R' : regular (g_ny (M 0)) (MYSUB (M 0)) (seps (M 0))) by (rewrite E7; exact R).
  destruct (cuts_of_ok npes 0 (M 0) ix1 ix2 D R') as (K & EA & ED & EDN). cbn zeta in *.
  pose proof (d_y _ _ _ D) as DY. rewrite E7 in DY.
  intros [[H|[H|[H|[]]]]|[Hd H]].
  - rewrite <- H, EA. eexists (cA (cuts_of (M 0) ix1 ix2)). lia.
  - rewrite <- H, ED. eexists (cD (cuts_of (M 0) ix1 ix2)). lia.
  - rewrite <- H, DY. eexists Y. lia.
  - destruct (EDN Hd) as (F1 & F2 & F3). destruct H as [H|[H|[H|[]]]]; rewrite <- H.
    + rewrite F1. eexists. ring_simplify. rewrite Z.mul_comm. reflexivity.
    + rewrite F2 || rewrite F3. eexists. ring_simplify. rewrite Z.mul_comm. reflexivity.
    + rewrite F3 || rewrite F2. eexists. ring_simplify. rewrite Z.mul_comm. reflexivity.
Qed.

Lemma above_inside x p i : 0 <= p -> 0 <= i < my - 1 ->
  above ny (seps (M 0)) ix1 (x_upper (seps (M 0)) ix1 ix2) x (p * my + i) = Some (p * my + i + 1).
Proof.
  intros Hp Hi.
  assert (NE : forall c, (my | c + 1) -> (p * my + i =? c) = false).
  { intros c Hc. apply Z.eqb_neq. intros Q. apply (cut_not p i c) in Q; [lia|lia|exact Hc]. }
  unfold above. rewrite (NE (j22 (seps (M 0)))), (NE (j11 (seps (M 0)))), (NE (ny - 1)) by (apply special; left; cbn [In]; tauto).
  rewrite !andb_false_r.
  destruct (is_double (seps (M 0))) eqn:ED; cbn [andb]; [|reflexivity].
  rewrite (NE (j21 (seps (M 0)))), (NE (j12 (seps (M 0)))), (NE (nyin (seps (M 0)) - 1)) by (apply special; right; cbn [In]; tauto).
  rewrite !andb_false_r. reflexivity.
Qed.
Lemma below_inside x p i : 0 <= p -> 0 < i < my ->
  below ny (seps (M 0)) ix1 (x_upper (seps (M 0)) ix1 ix2) x (p * my + i) = Some (p * my + i - 1).
Proof.
  intros Hp Hi.
  assert (NE : forall c, (my | c + 1) -> (p * my + i =? c + 1) = false).
  { intros c Hc. apply Z.eqb_neq. intros Q. assert (Q' : p * my + (i - 1) = c) by lia. apply (cut_not p (i - 1) c) in Q'; [lia|lia|exact Hc]. }
  unfold below. rewrite (NE (j22 (seps (M 0)))), (NE (j11 (seps (M 0)))) by (apply special; left; cbn [In]; tauto).
  rewrite !andb_false_r.
  replace (p * my + i =? 0) with false by (symmetry; apply Z.eqb_neq; nia).
  destruct (is_double (seps (M 0))) eqn:ED; cbn [andb]; [|reflexivity].
  rewrite (NE (j21 (seps (M 0)))), (NE (j12 (seps (M 0)))) by (apply special; right; cbn [In]; tauto).
  pose proof (NE (nyin (seps (M 0)) - 1) ltac:(apply special; right; cbn [In]; tauto)) as N.
  replace (nyin (seps (M 0)) - 1 + 1) with (nyin (seps (M 0))) in N by lia. rewrite N.
  rewrite !andb_false_r. reflexivity.
Qed.
Lemma steps_above_inside x p : 0 <= p -> forall n i, 0 <= i -> i + Z.of_nat n < my ->
  steps_above n ny (seps (M 0)) ix1 (x_upper (seps (M 0)) ix1 ix2) x (p * my + i) = Some (p * my + i + Z.of_nat n).
Proof.
  intros Hp. induction n as [|n IH]; intros i Hi Hn; cbn [steps_above]; [f_equal; lia|].
  rewrite above_inside by lia. replace (p * my + i + 1) with (p * my + (i + 1)) by lia. rewrite IH by lia. f_equal. lia.
Qed.
Lemma steps_below_inside x p : 0 <= p -> forall n i, i < my -> 0 <= i - Z.of_nat n ->
  steps_below n ny (seps (M 0)) ix1 (x_upper (seps (M 0)) ix1 ix2) x (p * my + i) = Some (p * my + i - Z.of_nat n).
Proof.
  intros Hp. induction n as [|n IH]; intros i Hi Hn; cbn [steps_below]; [f_equal; lia|].
  rewrite below_inside by lia. replace (p * my + i - 1) with (p * my + (i - 1)) by lia. rewrite IH by lia. f_equal. lia.
Qed.
End P.
