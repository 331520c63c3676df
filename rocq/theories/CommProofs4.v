(** After communicate() every cell holds the global field's value. *)
From Coq Require Import ZArith List Bool Lia FinFun Permutation.
From Verif Require Import Base MeshModel MeshSpec MeshProofs MeshProps TopoModel TopoSpec TopoProofs TopoProofs2 TopoProofs3 TopoProofs4 TopoProps CommModel CommSpec CommProofs CommProofs2 CommProofs3.
Import ListNotations.
Open Scope Z_scope.

Section P.
Context (npes nx ny mxg myg : Z) (s : yseps) (user : option (Z + Z)) (ix1 ix2 : Z) (per : bool)
        (M : Z -> mesh) (C : Z -> conn) (core : Z -> bool).
Hypothesis L : loaded npes nx ny mxg myg s user ix1 ix2 per M C core.
Hypothesis R : regular ny (MYSUB (M 0)) (seps (M 0)).
Hypothesis PX : per = true -> mxg <= MXSUB (M 0).
Notation X := (NXPE (M 0)). Notation Y := (NYPE (M 0)). Notation mx := (MXSUB (M 0)). Notation my := (MYSUB (M 0)).
Let fam := fam _ _ _ _ _ _ _ _ _ _ _ _ _ L.
Let inn := in_neighbour _ _ _ _ _ _ _ _ _ _ _ _ _ L R.
Let outn := out_neighbour _ _ _ _ _ _ _ _ _ _ _ _ _ L R.
Let K := comm_ok_loaded _ _ _ _ _ _ _ _ _ _ _ _ _ L R.
Let SZ := sizes _ _ _ _ _ _ _ _ _ _ _ _ _ L R.

Lemma up_rank r xl : 0 <= r < npes -> 0 <= xl < LocalNx (M r) ->
  let q := dup (C r) xl in
  let x := getGlobalXIndex (M r) xl in
  let up1 := above ny (seps (M 0)) ix1 (x_upper (seps (M 0)) ix1 ix2) x (PE_YIND (M r) * my + my - 1) in
  (q = -1 /\ up1 = None) \/
  (q <> -1 /\ 0 <= q < npes /\ PE_XIND (M q) = PE_XIND (M r) /\ up1 = Some (PE_YIND (M q) * my)).
Proof.
  intros Hr Hx q x up1. destruct (fam r Hr) as (D & E1 & E2 & E3 & E4 & E5 & E6 & E7 & E8 & E9).
  destruct (C21_up_neighbour _ _ _ _ _ _ _ _ _ _ _ _ _ L R r xl Hr Hx) as [A B]. cbn zeta in A, B.
  fold (dup (C r) xl) in A. fold q in A. fold x in A, B. unfold x_lower in A, B. rewrite E9 in A, B.
  unfold getGlobalYIndexNoBoundaries in A, B. rewrite (d_ye _ _ _ D), E6, E4 in A, B.
  replace (myg + my - 1 + PE_YIND (M r) * my - myg) with (PE_YIND (M r) * my + my - 1) in A, B by lia.
  fold up1 in A, B. destruct up1 as [y'|]; [right|left; split; [exact A|reflexivity]].
  destruct (B y' eq_refl) as [B1 B2]. pose proof (d_y _ _ _ D) as DY. rewrite E7, E2, E4 in DY.
  pose proof (d_px _ _ _ D) as Hpx. pose proof (d_mysub _ _ _ D) as Hmy. rewrite E4 in Hmy. pose proof (d_npes _ _ _ D) as NP.
  assert (Hq : 0 <= y' / my < NYPE (M r)).
  { rewrite E2. split; [apply Z.div_pos; lia|apply Z.div_lt_upper_bound; lia]. }
  rewrite (PN' (M r) _ _ Hpx Hq) in A. rewrite E1 in *. rewrite E2 in *.
  assert (Hqr : 0 <= q < npes) by nia.
  destruct (rank_dec _ _ _ _ _ _ _ _ _ _ _ _ _ L q (PE_XIND (M r)) (y' / my) Hqr Hpx A) as [Q1 Q2].
  split; [lia|]. split; [exact Hqr|]. split; [exact Q1|]. f_equal. rewrite Q2. pose proof (Z.div_mod y' my ltac:(lia)). lia.
Qed.
Lemma down_rank r xl : 0 <= r < npes -> 0 <= xl < LocalNx (M r) ->
  let q := ddown (C r) xl in
  let x := getGlobalXIndex (M r) xl in
  let dn1 := below ny (seps (M 0)) ix1 (x_upper (seps (M 0)) ix1 ix2) x (PE_YIND (M r) * my) in
  (q = -1 /\ dn1 = None) \/
  (q <> -1 /\ 0 <= q < npes /\ PE_XIND (M q) = PE_XIND (M r) /\ dn1 = Some (PE_YIND (M q) * my + my - 1)).
Proof.
  intros Hr Hx q x up1. destruct (fam r Hr) as (D & E1 & E2 & E3 & E4 & E5 & E6 & E7 & E8 & E9).
  destruct (C21_down_neighbour _ _ _ _ _ _ _ _ _ _ _ _ _ L R r xl Hr Hx) as [A B]. cbn zeta in A, B.
  fold (ddown (C r) xl) in A. fold q in A. fold x in A, B. unfold x_lower in A, B. rewrite E9 in A, B.
  unfold getGlobalYIndexNoBoundaries in A, B. rewrite (d_ys _ _ _ D), E6, E4 in A, B.
  replace (myg + PE_YIND (M r) * my - myg) with (PE_YIND (M r) * my) in A, B by lia.
  fold up1 in A, B. destruct up1 as [y'|]; [right|left; split; [exact A|reflexivity]].
  destruct (B y' eq_refl) as [B1 B2]. pose proof (d_y _ _ _ D) as DY. rewrite E7, E2, E4 in DY.
  pose proof (d_px _ _ _ D) as Hpx. pose proof (d_mysub _ _ _ D) as Hmy. rewrite E4 in Hmy. pose proof (d_npes _ _ _ D) as NP.
  assert (Hq : 0 <= y' / my < NYPE (M r)).
  { rewrite E2. split; [apply Z.div_pos; lia|apply Z.div_lt_upper_bound; lia]. }
  rewrite (PN' (M r) _ _ Hpx Hq) in A. rewrite E1 in *. rewrite E2 in *.
  assert (Hqr : 0 <= q < npes) by nia.
  destruct (rank_dec _ _ _ _ _ _ _ _ _ _ _ _ _ L q (PE_XIND (M r)) (y' / my) Hqr Hpx A) as [Q1 Q2].
  split; [lia|]. split; [exact Hqr|]. split; [exact Q1|]. f_equal. rewrite Q2. pose proof (Z.div_mod y' my ltac:(lia)). lia.
Qed.

Lemma same_owned r q xl : 0 <= r < npes -> 0 <= q < npes -> PE_XIND (M q) = PE_XIND (M r) ->
  owned_x (M r) (C r) xl -> owned_x (M q) (C q) xl.
Proof.
  intros Hr Hq E. destruct (fam r Hr) as (D & E1 & E2 & E3 & E4 & E5 & E6 & E7 & E8 & E9).
  destruct (fam q Hq) as (D' & G1 & G2 & G3 & G4 & G5 & G6 & G7 & G8 & G9).
  destruct (inn r Hr) as (A1 & _ & _). destruct (inn q Hq) as (_ & A2 & _).
  destruct (outn r Hr) as (B1 & _ & _). destruct (outn q Hq) as (_ & B2 & _).
  unfold owned_x. rewrite (d_lnx _ _ _ D), (d_lnx _ _ _ D'), E3, E5, G3, G5.
  intros [H|[[H1 H2]|[H1 H2]]]; [left; exact H| |].
  - right. left. destruct (A1 H1). split; [apply A2; congruence|exact H2].
  - right. right. destruct (B1 H1). split; [apply B2; congruence|exact H2].
Qed.
Lemma owned_range r xl : 0 <= r < npes -> owned_x (M r) (C r) xl -> 0 <= xl < LocalNx (M r).
Proof.
  intros Hr. destruct (fam r Hr) as (D & _). pose proof (d_lnx _ _ _ D). pose proof (d_mxsub _ _ _ D).
  destruct (fam r Hr) as (_ & _ & _ & _ & _ & E5 & _). pose proof L as L'. destruct L' as (_ & _ & Hm & _).
  unfold owned_x. lia.
Qed.
Lemma owned_wrap r xl : 0 <= r < npes -> owned_x (M r) (C r) xl ->
  wrapx per nx mxg (getGlobalXIndex (M r) xl) = getGlobalXIndex (M r) xl.
Proof.
  intros Hr H. unfold wrapx, getGlobalXIndex. destruct (Sumbool.sumbool_of_bool per) as [EP|EP]; rewrite EP; [|reflexivity].
  destruct (fam r Hr) as (D & E1 & E2 & E3 & E4 & E5 & E6 & E7 & E8 & E9).
  destruct (inn r Hr) as (A1 & _ & _). destruct (outn r Hr) as (B1 & _ & _).
  destruct H as [H|[[H _]|[H _]]]; [|apply A1 in H; destruct H; congruence|apply B1 in H; destruct H; congruence].
  pose proof (d_x _ _ _ D) as DX. pose proof (d_px _ _ _ D). rewrite E8, E5, E1, E3 in DX. rewrite E5, E3 in H. rewrite E3. rewrite E1 in *.
  rewrite Z.mod_small; [lia|]. rewrite DX. nia.
Qed.

Context {V : Type}.
Notation field := (field V).
Context (nz : Z) (Hnz : 0 <= nz) (junk : Z -> V) (W : Z -> list field) (HW : same_fields npes W)
        (Fg : nat -> Z -> Z -> Z -> option V) (HF : holds npes nz M C W Fg).

Lemma rows r : 0 <= r < npes -> ystart (M r) = myg /\ yend (M r) = myg + my - 1 /\ LocalNy (M r) = my + 2 * myg /\ LocalNx (M r) = mx + 2 * mxg.
Proof.
  intros Hr. destruct (fam r Hr) as (D & E1 & E2 & E3 & E4 & E5 & E6 & E7 & E8 & E9).
  rewrite (d_ys _ _ _ D), (d_ye _ _ _ D), (d_lny _ _ _ D), (d_lnx _ _ _ D), E3, E4, E5, E6. repeat split; reflexivity.
Qed.

(** Own columns after any exchange that covers y. *)
Lemma own_columns o r k xl yl z : does_y o = true -> 0 <= r < npes -> owned_x (M r) (C r) xl -> 0 <= yl < LocalNy (M r) ->
  zok nz (W r) k z = true ->
  let v := expected o mx my mxg myg nz (dup (C r)) (ddown (C r)) (I_DEST (C r)) (O_DEST (C r)) W r k xl yl z in
  match row_target (M r) ix1 ix2 (getGlobalXIndex (M r) xl) yl with
  | Some y' => v = Fg k (getGlobalXIndex (M r) xl) y' z
  | None => v = val (W r) k xl yl z
  end.
Proof.
  intros Ho Hr Hown Hy Hz v. destruct (rows r Hr) as (Y1 & Y2 & Y3 & Y4). destruct (fam r Hr) as (D & E1 & E2 & E3 & E4 & E5 & E6 & E7 & E8 & E9).
  pose proof (owned_range r xl Hr Hown) as Hxl. pose proof SZ as [SY _].
  assert (Hmy : 0 < my) by (rewrite <- E4; apply D). assert (Hg : 0 <= myg) by (pose proof L as L'; destruct L' as (_ & _ & _ & ? & _); assumption).
  assert (Hgx : 0 <= mxg) by (pose proof L as L'; destruct L' as (_ & _ & ? & _); assumption).
  assert (Hmx : 0 < mx) by (rewrite <- E3; apply D).
  rewrite Y3 in Hy.
  unfold v, expected. rewrite Hz, Ho. cbn [negb andb].
  rewrite Y4 in Hxl. replace (0 <=? xl) with true by (symmetry; apply Z.leb_le; lia).
  replace (xl <? mx + 2 * mxg) with true by (symmetry; apply Z.ltb_lt; lia). cbn [andb].
  assert (QV : forall q yl', 0 <= q < npes -> PE_XIND (M q) = PE_XIND (M r) -> myg <= yl' <= myg + my - 1 ->
     val (W q) k xl yl' z = Fg k (getGlobalXIndex (M r) xl) (yl' + PE_YIND (M q) * my - myg) z).
  { intros q yl' Hq HPX Hyl. destruct (rows q Hq) as (G1 & G2 & G3 & G4). destruct (fam q Hq) as (D' & _ & _ & G5 & G6 & _ & G7 & _).
    rewrite HF; [|exact Hq|exact (same_owned r q xl Hr Hq HPX Hown)|rewrite G1, G2; lia|].
    - unfold getGlobalXIndex, getGlobalYIndexNoBoundaries. rewrite G5, E3, HPX, G6, G7. reflexivity.
    - rewrite <- Hz. apply val_shape. rewrite (HW q Hq), (HW r Hr). reflexivity. }
  unfold row_target. rewrite Y1, Y2, E7, E9. unfold x_lower, getGlobalYIndexNoBoundaries. rewrite E4, E6.
  destruct (yl <? myg) eqn:EL; [|destruct (myg + my - 1 <? yl) eqn:EU]; bz.
  - (* lower guard *)
    replace (my + myg <=? yl) with false by (symmetry; apply Z.leb_gt; lia). cbn [andb].
    replace (0 <=? yl) with true by (symmetry; apply Z.leb_le; lia). cbn [andb].
    destruct (Z.to_nat (myg - yl)) as [|n] eqn:EN; [lia|]. cbn [steps_below].
    replace (myg + PE_YIND (M r) * my - myg) with (PE_YIND (M r) * my) by lia.
    destruct (down_rank r xl Hr ltac:(rewrite Y4; lia)) as [[Q1 Q2]|(Q1 & Q2 & Q3 & Q4)]; cbn zeta in *.
    + rewrite Q2, Q1. cbn [Z.eqb Pos.eqb negb].
      assert (corners o = false) as -> by (destruct o; [reflexivity|discriminate|reflexivity]).
      replace (myg <=? yl) with false by (symmetry; apply Z.leb_gt; lia). cbn [andb]. rewrite ?andb_false_r. cbn [andb]. rewrite ?andb_false_r. reflexivity.
    + rewrite Q4. replace (ddown (C r) xl =? -1) with false by (symmetry; apply Z.eqb_neq; exact Q1). cbn [negb].
      replace (PE_YIND (M (ddown (C r) xl)) * my + my - 1) with (PE_YIND (M (ddown (C r) xl)) * my + (my - 1)) by lia.
      destruct (fam _ Q2) as (D' & _). pose proof (d_py _ _ _ D').
      rewrite (steps_below_inside npes nx ny mxg myg s user ix1 ix2 per M C core L R) by lia.
      rewrite QV by (assumption || lia). f_equal. lia.
  - (* upper guard *)
    replace (my + myg <=? yl) with true by (symmetry; apply Z.leb_le; lia). replace (yl <? my + 2 * myg) with true by (symmetry; apply Z.ltb_lt; lia). cbn [andb].
    destruct (Z.to_nat (yl - (myg + my - 1))) as [|n] eqn:EN; [lia|]. cbn [steps_above].
    replace (myg + my - 1 + PE_YIND (M r) * my - myg) with (PE_YIND (M r) * my + my - 1) by lia.
    destruct (up_rank r xl Hr ltac:(rewrite Y4; lia)) as [[Q1 Q2]|(Q1 & Q2 & Q3 & Q4)]; cbn zeta in *.
    + rewrite Q2, Q1. cbn [Z.eqb Pos.eqb negb].
      replace (yl <? myg) with false by (symmetry; apply Z.ltb_ge; lia).
      assert (corners o = false) as -> by (destruct o; [reflexivity|discriminate|reflexivity]).
      replace (yl <? myg + my) with false by (symmetry; apply Z.ltb_ge; lia). rewrite ?andb_false_r. cbn [andb]. rewrite ?andb_false_r. reflexivity.
    + rewrite Q4. replace (dup (C r) xl =? -1) with false by (symmetry; apply Z.eqb_neq; exact Q1). cbn [negb].
      replace (PE_YIND (M (dup (C r) xl)) * my) with (PE_YIND (M (dup (C r) xl)) * my + 0) by lia.
      destruct (fam _ Q2) as (D' & _). pose proof (d_py _ _ _ D').
      rewrite (steps_above_inside npes nx ny mxg myg s user ix1 ix2 per M C core L R) by lia.
      rewrite QV by (assumption || lia). f_equal. lia.
  - (* interior row *)
    replace (my + myg <=? yl) with false by (symmetry; apply Z.leb_gt; lia). cbn [andb].
    replace (yl <? myg) with false by (symmetry; apply Z.ltb_ge; lia). rewrite ?andb_false_r. cbn [andb].
    assert (UNCH : val (W r) k xl yl z = Fg k (getGlobalXIndex (M r) xl) (yl + PE_YIND (M r) * my - myg) z) by (apply QV; auto; lia).
    assert (BI : (xl <? mxg) && negb (I_DEST (C r) =? -1) = false).
    { destruct (xl <? mxg) eqn:E; [|reflexivity]. bz. destruct Hown as [H|[[H _]|[_ H]]]; rewrite ?E3, ?E5 in *; [lia|rewrite H; reflexivity|lia]. }
    assert (BO : (mx + mxg <=? xl) && negb (O_DEST (C r) =? -1) = false).
    { destruct (mx + mxg <=? xl) eqn:E; [|reflexivity]. bz. destruct Hown as [H|[[_ H]|[H _]]]; rewrite ?E3, ?E5 in *; [lia|lia|rewrite H; reflexivity]. }
    replace (does_x o && (if corners o then (0 <=? yl) && (yl <? my + 2 * myg) else (myg <=? yl) && (yl <? myg + my)) && true && (xl <? mxg) && negb (I_DEST (C r) =? -1)) with false.
    2: { rewrite <- andb_assoc, BI, andb_false_r. reflexivity. }
    replace (does_x o && (if corners o then (0 <=? yl) && (yl <? my + 2 * myg) else (myg <=? yl) && (yl <? myg + my)) && (mx + mxg <=? xl) && true && negb (O_DEST (C r) =? -1)) with false.
    2: { rewrite andb_true_r, <- andb_assoc, BO, andb_false_r. reflexivity. }
    exact UNCH.
Qed.

Lemma owned_dec r xl : 0 <= r < npes -> 0 <= xl < LocalNx (M r) ->
  owned_x (M r) (C r) xl \/ (xl < mxg /\ I_DEST (C r) <> -1) \/ (mx + mxg <= xl /\ O_DEST (C r) <> -1).
Proof.
  intros Hr Hx. destruct (rows r Hr) as (_ & _ & _ & Y4). destruct (fam r Hr) as (D & E1 & E2 & E3 & E4 & E5 & _).
  unfold owned_x. rewrite Y4, E3, E5 in *. lia.
Qed.

(** A guard column stands for a column of the x neighbour. *)
Lemma mirror r xl : 0 <= r < npes -> 0 <= xl < LocalNx (M r) ->
  (xl < mxg /\ I_DEST (C r) <> -1) \/ (mx + mxg <= xl /\ O_DEST (C r) <> -1) ->
  exists q xl', 0 <= q < npes /\ MXG (M q) <= xl' < MXG (M q) + MXSUB (M q) /\ PE_YIND (M q) = PE_YIND (M r) /\
    getGlobalXIndex (M q) xl' = wrapx per nx mxg (getGlobalXIndex (M r) xl) /\
    ((xl < mxg /\ q = I_DEST (C r) /\ xl' = xl + mx) \/ (mx + mxg <= xl /\ q = O_DEST (C r) /\ xl' = xl - mx)).
Proof.
  intros Hr Hx. destruct (rows r Hr) as (_ & _ & _ & Y4). destruct (fam r Hr) as (D & E1 & E2 & E3 & E4 & E5 & E6 & E7 & E8 & E9).
  destruct (inn r Hr) as (_ & _ & IN). destruct (outn r Hr) as (_ & _ & OUT). pose proof SZ as [_ SX].
  pose proof (d_px _ _ _ D) as Hpx. rewrite E1 in Hpx. pose proof (d_x _ _ _ D) as DX. rewrite E8, E5, E1, E3 in DX.
  assert (Hmx : 0 < mx) by (rewrite <- E3; apply D). rewrite Y4 in Hx.
  unfold getGlobalXIndex, wrapx. rewrite E3.
  intros [[H1 H2]|[H1 H2]].
  - destruct (IN H2) as (Q1 & Q2 & Q3). destruct (fam _ Q1) as (_ & G1 & _ & G3 & _ & G5 & _).
    assert (GM : mxg <= mx) by (destruct Q3 as [(? & _)|(? & ?)]; [auto|lia]).
    exists (I_DEST (C r)), (xl + mx). rewrite G3, G5. split; [exact Q1|]. split; [lia|]. split; [exact Q2|]. split; [|left; auto].
    destruct Q3 as [(P1 & P2 & P3)|(P1 & P2)].
    + rewrite P1, P2, P3, DX. rewrite <- (Z.mod_add (xl + 0 * mx - mxg) 1) by nia. rewrite Z.mod_small by nia. nia.
    + rewrite P2. destruct per; [|lia]. rewrite DX, Z.mod_small by nia. lia.
  - destruct (OUT H2) as (Q1 & Q2 & Q3). destruct (fam _ Q1) as (_ & G1 & _ & G3 & _ & G5 & _).
    assert (GM : mxg <= mx) by (destruct Q3 as [(? & _)|(? & ?)]; [auto|lia]).
    exists (O_DEST (C r)), (xl - mx). rewrite G3, G5. split; [exact Q1|]. split; [lia|]. split; [exact Q2|]. split; [|right; auto].
    destruct Q3 as [(P1 & P2 & P3)|(P1 & P2)].
    + rewrite P1, P2, P3, DX. rewrite <- (Z.mod_add (xl + (X - 1) * mx - mxg) (-1)) by nia. rewrite Z.mod_small by nia. nia.
    + rewrite P2. destruct per; [|lia]. rewrite DX, Z.mod_small by nia. lia.
Qed.

Lemma row_target_y r q x yl : 0 <= r < npes -> 0 <= q < npes -> PE_YIND (M q) = PE_YIND (M r) ->
  row_target (M q) ix1 ix2 x yl = row_target (M r) ix1 ix2 x yl.
Proof.
  intros Hr Hq E. destruct (rows r Hr) as (Y1 & Y2 & _). destruct (rows q Hq) as (Z1 & Z2 & _).
  destruct (fam r Hr) as (D & E1 & E2 & E3 & E4 & E5 & E6 & E7 & E8 & E9). destruct (fam q Hq) as (D' & G1 & G2 & G3 & G4 & G5 & G6 & G7 & G8 & G9).
  unfold row_target, getGlobalYIndexNoBoundaries. rewrite Y1, Y2, Z1, Z2, E, E4, E6, E7, E9, G4, G6, G7, G9. reflexivity.
Qed.

(** The x part of an exchange at a guard column. *)
Lemma guard_column o (U : Z -> list field) r q xl xl' k yl z : 0 <= r < npes -> does_x o = true ->
  zok nz (U r) k z = true -> 0 <= xl < LocalNx (M r) ->
  (if corners o then 0 <= yl < my + 2 * myg else myg <= yl < myg + my) ->
  (does_y o = true -> myg <= yl < myg + my) -> q <> -1 ->
  ((xl < mxg /\ q = I_DEST (C r) /\ xl' = xl + mx) \/ (mx + mxg <= xl /\ q = O_DEST (C r) /\ xl' = xl - mx)) ->
  expected o mx my mxg myg nz (dup (C r)) (ddown (C r)) (I_DEST (C r)) (O_DEST (C r)) U r k xl yl z = val (U q) k xl' yl z.
Proof.
  intros Hr Ho Hz Hx Hy Hyi Hq H. destruct (rows r Hr) as (_ & _ & _ & Y4). rewrite Y4 in Hx.
  destruct (fam r Hr) as (D & E1 & E2 & E3 & _). assert (Hmx : 0 < mx) by (rewrite <- E3; apply D).
  unfold expected. rewrite Hz, Ho. cbn [negb andb].
  replace (if corners o then (0 <=? yl) && (yl <? my + 2 * myg) else (myg <=? yl) && (yl <? myg + my)) with true.
  2: { destruct (corners o); symmetry; apply andb_true_iff; rewrite Z.leb_le, Z.ltb_lt; lia. }
  cbn [andb].
  replace (does_y o && ((0 <=? xl) && (xl <? mx + 2 * mxg)) && (my + myg <=? yl) && (yl <? my + 2 * myg) && negb (dup (C r) xl =? -1)) with false.
  2: { destruct (does_y o); [|reflexivity]. replace (my + myg <=? yl) with false; [rewrite andb_false_r; reflexivity|]. symmetry. apply Z.leb_gt. lia. }
  replace (does_y o && ((0 <=? xl) && (xl <? mx + 2 * mxg)) && (0 <=? yl) && (yl <? myg) && negb (ddown (C r) xl =? -1)) with false.
  2: { destruct (does_y o); [|reflexivity]. replace (yl <? myg) with false; [rewrite andb_false_r; reflexivity|]. symmetry. apply Z.ltb_ge. lia. }
  replace (0 <=? xl) with true by (symmetry; apply Z.leb_le; lia). replace (xl <? mx + 2 * mxg) with true by (symmetry; apply Z.ltb_lt; lia). cbn [andb].
  destruct H as [(H1 & -> & ->)|(H1 & -> & ->)].
  - replace (xl <? mxg) with true by (symmetry; apply Z.ltb_lt; lia). rewrite (proj2 (Z.eqb_neq _ _) Hq). reflexivity.
  - replace (xl <? mxg) with false by (symmetry; apply Z.ltb_ge; lia). replace (mx + mxg <=? xl) with true by (symmetry; apply Z.leb_le; lia).
    rewrite (proj2 (Z.eqb_neq _ _) Hq). reflexivity.
Qed.

(** An x exchange leaves own columns alone. *)
Lemma own_unchanged_x b (U : Z -> list field) r xl k yl z : 0 <= r < npes -> owned_x (M r) (C r) xl ->
  expected (XOnly b) mx my mxg myg nz (dup (C r)) (ddown (C r)) (I_DEST (C r)) (O_DEST (C r)) U r k xl yl z = val (U r) k xl yl z.
Proof.
  intros Hr Hown. destruct (rows r Hr) as (_ & _ & _ & Y4). destruct (fam r Hr) as (D & E1 & E2 & E3 & E4 & E5 & _).
  assert (Hmx : 0 < mx) by (rewrite <- E3; apply D).
  unfold expected. destruct (zok nz (U r) k z); cbn [negb]; [|reflexivity]. cbn [does_y does_x corners andb].
  assert (BI : (xl <? mxg) && negb (I_DEST (C r) =? -1) = false).
  { destruct (xl <? mxg) eqn:E; [|reflexivity]. bz. destruct Hown as [H|[[H _]|[_ H]]]; rewrite ?E3, ?E5 in *; [lia|rewrite H; reflexivity|lia]. }
  assert (BO : (mx + mxg <=? xl) && (xl <? mx + 2 * mxg) && negb (O_DEST (C r) =? -1) = false).
  { destruct (mx + mxg <=? xl) eqn:E; [|reflexivity]. bz. destruct Hown as [H|[[_ H]|[H _]]]; rewrite ?E3, ?E5 in *; [lia|lia|rewrite H; apply andb_false_r]. }
  assert (BI' : forall a, a && (xl <? mxg) && negb (I_DEST (C r) =? -1) = false) by (intros a; rewrite <- andb_assoc, BI; apply andb_false_r).
  assert (BO' : forall a, a && (mx + mxg <=? xl) && (xl <? mx + 2 * mxg) && negb (O_DEST (C r) =? -1) = false).
  { intros a. rewrite <- andb_assoc in BO. rewrite <- !andb_assoc, BO. apply andb_false_r. }
  rewrite BI', BO'.
  reflexivity.
Qed.
End P.
