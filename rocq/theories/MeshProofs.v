From Coq Require Import ZArith Reals List Bool Lia Lra.
From Verif Require Import Base MeshModel MeshSpec.
Import ListNotations.
Open Scope Z_scope.

Ltac bz := repeat match goal with
  | H : (_ && _)%bool = true |- _ => apply andb_true_iff in H; destruct H
  | H : (_ || _)%bool = false |- _ => apply orb_false_iff in H; destruct H
  | H : negb _ = true |- _ => apply negb_true_iff in H
  | H : negb _ = false |- _ => apply negb_false_iff in H
  | H : (_ <? _) = true |- _ => apply Z.ltb_lt in H
  | H : (_ <? _) = false |- _ => apply Z.ltb_ge in H
  | H : (_ <=? _) = true |- _ => apply Z.leb_le in H
  | H : (_ <=? _) = false |- _ => apply Z.leb_gt in H
  | H : (_ =? _) = true |- _ => apply Z.eqb_eq in H
  | H : (_ =? _) = false |- _ => apply Z.eqb_neq in H
  | H : (_ >=? _) = true |- _ => rewrite Z.geb_leb in H; apply Z.leb_le in H
  | H : (_ >=? _) = false |- _ => rewrite Z.geb_leb in H; apply Z.leb_gt in H
  | H : (_ >? _) = true |- _ => rewrite Z.gtb_ltb in H; apply Z.ltb_lt in H
  | H : (_ >? _) = false |- _ => rewrite Z.gtb_ltb in H; apply Z.ltb_ge in H
  end.

Lemma cmod_ok a b r : cmod a b = Ok r -> b <> 0 /\ r = Z.rem a b.
Proof. unfold cmod. destruct (b =? 0) eqn:E; intros H; inversion H; bz; auto. Qed.
Lemma cdiv_ok a b r : cdiv a b = Ok r -> b <> 0 /\ r = Z.quot a b.
Proof. unfold cdiv. destruct (b =? 0) eqn:E; intros H; inversion H; bz; auto. Qed.
Lemma cmod_nz a b : b <> 0 -> cmod a b = Ok (Z.rem a b).
Proof. unfold cmod. intros H. apply Z.eqb_neq in H. now rewrite H. Qed.
Lemma cdiv_nz a b : b <> 0 -> cdiv a b = Ok (Z.quot a b).
Proof. unfold cdiv. intros H. apply Z.eqb_neq in H. now rewrite H. Qed.
Lemma rem0_divide a b : b <> 0 -> (Z.rem a b = 0 <-> (b | a)).
Proof.
  intros Hb. rewrite Z.rem_divide by assumption. tauto.
Qed.

(** *** setYDecompositionIndices *)
Lemma setY_cases ny s :
  let a := Z.max (-1) (j11 s) in
  let b := if j21 s <? a then a + 1 else j21 s in
  let c := Z.max b (j12 s) in
  (ny <= c /\ setYDecompositionIndices ny s = Throw) \/
  (c < ny /\ exists d n, setYDecompositionIndices ny s = Ok (mkyseps a b c d (nyin s), n) /\
             d = Z.max c (Z.min (ny - 1) (j22 s)) /\
             n = (if (a =? -1) && (d =? ny - 1) then 0 else if b =? c then 1 else 2)).
Proof.
  unfold setYDecompositionIndices.
  set (a0 := if j11 s <? -1 then -1 else j11 s).
  assert (Ha : a0 = Z.max (-1) (j11 s)) by (unfold a0; destruct (j11 s <? -1) eqn:E; bz; lia).
  rewrite <- Ha. assert (Ha1 : -1 <= a0) by lia. clearbody a0.
  cbn zeta.
  set (b := if j21 s <? a0 then a0 + 1 else j21 s).
  assert (Hb1 : a0 <= b) by (unfold b; destruct (j21 s <? a0) eqn:E; bz; lia).
  clearbody b.
  set (c0 := if j12 s <? b then b else j12 s).
  assert (Hc : c0 = Z.max b (j12 s)) by (unfold c0; destruct (j12 s <? b) eqn:E; bz; lia).
  rewrite <- Hc. clearbody c0.
  set (d0 := if j22 s >=? ny then ny - 1 else j22 s).
  assert (Hd : d0 = Z.min (ny - 1) (j22 s)) by (unfold d0; destruct (j22 s >=? ny) eqn:E; bz; lia).
  clearbody d0.
  destruct (d0 <? c0) eqn:E1.
  - bz. destruct (c0 >=? ny) eqn:E2; bz.
    + left. cbn [bind]. split; [lia|reflexivity].
    + right. split; [lia|]. cbn [bind]. eexists. eexists. split; [reflexivity|]. split; [lia|].
      assert (X : (a0 <? 0) = (a0 =? -1)) by (destruct (a0 <? 0) eqn:E3; destruct (a0 =? -1) eqn:E4; bz; lia || reflexivity).
      rewrite X. 
      assert (Y : (c0 >=? ny - 1) = (c0 =? ny - 1)) by (rewrite Z.geb_leb; destruct (ny - 1 <=? c0) eqn:E3; destruct (c0 =? ny - 1) eqn:E4; bz; lia || reflexivity).
      rewrite Y. reflexivity.
  - bz. right. split; [lia|]. cbn [bind]. eexists. eexists. split; [reflexivity|]. split; [lia|].
      assert (X : (a0 <? 0) = (a0 =? -1)) by (destruct (a0 <? 0) eqn:E3; destruct (a0 =? -1) eqn:E4; bz; lia || reflexivity).
      rewrite X. 
      assert (Y : (d0 >=? ny - 1) = (d0 =? ny - 1)) by (rewrite Z.geb_leb; destruct (ny - 1 <=? d0) eqn:E3; destruct (d0 =? ny - 1) eqn:E4; bz; lia || reflexivity).
      rewrite Y. reflexivity.
Qed.

Lemma setY_ok ny s s' n : setYDecompositionIndices ny s = Ok (s', n) ->
  ordered_seps ny s' /\ nyin s' = nyin s /\
  n = (if (j11 s' =? -1) && (j22 s' =? ny - 1) then 0 else if j21 s' =? j12 s' then 1 else 2).
Proof.
  intros H. destruct (setY_cases ny s) as [[_ T]|[Hlt (d & m & T & Hd & Hm)]]; rewrite H in T; [discriminate|].
  injection T as T1 T2. subst s' n. unfold ordered_seps. cbn [j11 j21 j12 j22 nyin].
  assert (Z.max (-1) (j11 s) <= (if j21 s <? Z.max (-1) (j11 s) then Z.max (-1) (j11 s) + 1 else j21 s))
    by (destruct (j21 s <? Z.max (-1) (j11 s)) eqn:E; bz; lia).
  split; [lia|]. split; [reflexivity|exact Hm].
Qed.

Lemma setY_fix ny s : ordered_seps ny s -> exists n, setYDecompositionIndices ny s = Ok (s, n).
Proof.
  intros (A & B & C & D & E).
  destruct (setY_cases ny s) as [[Hle T]|[Hlt (d & m & T & Hd & Hm)]].
  - assert (Q : Z.max (-1) (j11 s) = j11 s) by lia. rewrite Q in Hle.
    destruct (j21 s <? j11 s) eqn:F; bz; lia.
  - exists m. rewrite T. f_equal. f_equal.
    assert (Q : Z.max (-1) (j11 s) = j11 s) by lia. rewrite Q in *.
    destruct (j21 s <? j11 s) eqn:F; bz; [lia|].
    assert (Z.max (j21 s) (j12 s) = j12 s) by lia.
    assert (d = j22 s) by lia. destruct s as [s1 s2 s3 s4 s5]; cbn [j11 j21 j12 j22 nyin] in *. congruence.
Qed.

(** *** checkY *)
Lemma checkY_iff nype ny myg s :
  0 < nype -> (nype | ny) -> 0 < ny ->
  exists b, checkY nype ny myg s = Ok b /\ (b = true <-> acceptable_nype ny myg s nype).
Proof.
  intros Hp [q Hq] Hny.
  assert (Hq0 : 0 < q) by nia.
  assert (Eq : Z.quot ny nype = q) by (rewrite Hq; apply Z.quot_mul; lia).
  unfold checkY. rewrite cdiv_nz by lia. cbn [bind]. rewrite Eq.
  assert (Acc : acceptable_nype ny myg s nype <-> ((forall y, is_cut s y -> (q | y + 1)) /\ (nype = 1 \/ myg <= q))).
  { split.
    - intros (_ & m & E & Hm & X & Y). assert (m = q) by nia. subst m. auto.
    - intros (X & Y). split; [lia|]. exists q. repeat split; auto; lia. }
  assert (DIV : forall a, Z.rem a q =? 0 = true <-> (q | a)).
  { intros a. rewrite Z.eqb_eq. apply rem0_divide. lia. }
  destruct ((q <? myg) && negb (nype =? 1)) eqn:E0.
  { exists false. split; [reflexivity|]. rewrite Acc. bz. split; [discriminate|]. intros (_ & [Y|Y]); lia. }
  assert (GC : nype = 1 \/ myg <= q).
  { apply andb_false_iff in E0. destruct E0 as [E0|E0]; bz; lia. }
  rewrite !cmod_nz by lia. cbn [bind].
  destruct (Z.rem (j11 s + 1) q =? 0) eqn:E1.
  2:{ exists false. split; [reflexivity|]. rewrite Acc. split; [discriminate|]. intros (X & _).
      assert (D := X (j11 s) (or_introl eq_refl)). apply DIV in D. congruence. }
  apply DIV in E1. cbn [negb].
  assert (HD : forall a b, (q | a) -> (q | b - a) -> (q | b)).
  { intros a b A B. replace b with (a + (b - a)) by lia. now apply Z.divide_add_r. }
  assert (HS : forall a b, (q | a) -> (q | b) -> (q | b - a)).
  { intros a b A B. now apply Z.divide_sub_r. }
  assert (Hny' : (q | ny)) by (exists nype; lia).
  destruct (j21 s =? j12 s) eqn:EN; cbn [negb].
  - (* single null *)
    cbn [bind].
    assert (SN : ~ double_null s) by (unfold double_null; bz; lia).
    destruct (Z.rem (j22 s - j11 s) q =? 0) eqn:E2; cbn [negb bind].
    + rewrite ?cmod_nz by lia. cbn [bind]. eexists. split; [reflexivity|]. rewrite Acc. rewrite DIV.
      apply DIV in E2.
      assert (D22 : (q | j22 s + 1)). { apply (HD (j11 s + 1)); auto. replace (j22 s + 1 - (j11 s + 1)) with (j22 s - j11 s) by lia. auto. }
      split; [|].
      * intros _. split; [|exact GC]. intros y [C|[C|[C _]]]; [subst..|contradiction]; auto.
      * intros _. replace (ny - j22 s - 1) with (ny - (j22 s + 1)) by lia. auto.
    + exists false. split; [reflexivity|]. rewrite Acc. split; [discriminate|]. intros (X & _).
      assert (D := X (j22 s) (or_intror (or_introl eq_refl))).
      assert (F := HS _ _ E1 D). replace (j22 s + 1 - (j11 s + 1)) with (j22 s - j11 s) in F by lia.
      apply DIV in F. congruence.
  - assert (DN : double_null s) by (unfold double_null; bz; lia).
    assert (C21 : is_cut s (j21 s)) by (right; right; auto).
    assert (C12 : is_cut s (j12 s)) by (right; right; auto).
    assert (CN : is_cut s (nyin s - 1)) by (right; right; auto).
    assert (C22 : is_cut s (j22 s)) by (right; left; auto).
    destruct (Z.rem (j21 s - j11 s) q =? 0) eqn:E2; cbn [negb bind].
    2:{ exists false. split; [reflexivity|]. rewrite Acc. split; [discriminate|]. intros (X & _).
      assert (F := HS _ _ E1 (X _ C21)). replace (j21 s + 1 - (j11 s + 1)) with (j21 s - j11 s) in F by lia.
      apply DIV in F. congruence. }
    apply DIV in E2.
    assert (D21 : (q | j21 s + 1)). { apply (HD (j11 s + 1)); auto. replace (j21 s + 1 - (j11 s + 1)) with (j21 s - j11 s) by lia. auto. }
    rewrite ?cmod_nz by lia. cbn [bind].
    destruct (Z.rem (j22 s - j12 s) q =? 0) eqn:E3; cbn [negb bind].
    2:{ exists false. split; [reflexivity|]. rewrite Acc. split; [discriminate|]. intros (X & _).
      assert (F := HS _ _ (X _ C12) (X _ C22)). replace (j22 s + 1 - (j12 s + 1)) with (j22 s - j12 s) in F by lia.
      apply DIV in F. congruence. }
    apply DIV in E3.
    rewrite ?cmod_nz by lia. cbn [bind].
    destruct (Z.rem (nyin s - j21 s - 1) q =? 0) eqn:E4; cbn [negb bind].
    2:{ exists false. split; [reflexivity|]. rewrite Acc. split; [discriminate|]. intros (X & _).
      assert (F := HS _ _ (X _ C21) (X _ CN)). replace (nyin s - 1 + 1 - (j21 s + 1)) with (nyin s - j21 s - 1) in F by lia.
      apply DIV in F. congruence. }
    apply DIV in E4.
    assert (DNI : (q | nyin s - 1 + 1)). { apply (HD (j21 s + 1)); auto. replace (nyin s - 1 + 1 - (j21 s + 1)) with (nyin s - j21 s - 1) by lia. auto. }
    rewrite ?cmod_nz by lia. cbn [bind].
    destruct (Z.rem (j12 s - nyin s + 1) q =? 0) eqn:E5; cbn [negb bind].
    2:{ exists false. split; [reflexivity|]. rewrite Acc. split; [discriminate|]. intros (X & _).
      assert (F := HS _ _ (X _ CN) (X _ C12)). replace (j12 s + 1 - (nyin s - 1 + 1)) with (j12 s - nyin s + 1) in F by lia.
      apply DIV in F. congruence. }
    apply DIV in E5.
    assert (D12 : (q | j12 s + 1)). { apply (HD (nyin s - 1 + 1)); auto. replace (j12 s + 1 - (nyin s - 1 + 1)) with (j12 s - nyin s + 1) by lia. auto. }
    assert (D22 : (q | j22 s + 1)). { apply (HD (j12 s + 1)); auto. replace (j22 s + 1 - (j12 s + 1)) with (j22 s - j12 s) by lia. auto. }
    rewrite ?cmod_nz by lia. cbn [bind].
    eexists. split; [reflexivity|]. rewrite Acc, DIV.
    split.
    + intros _. split; [|exact GC]. intros y [C|[C|[_ [C|[C|C]]]]]; subst; auto.
    + intros _. replace (ny - j22 s - 1) with (ny - (j22 s + 1)) by lia. auto.
Qed.

Lemma checkY_true_pos nype ny myg s : 0 < ny -> 0 <= myg -> checkY nype ny myg s = Ok true ->
  0 < nype /\ 0 < Z.quot ny nype.
Proof.
  intros Hny Hmyg H. unfold checkY in H.
  destruct (cdiv ny nype) as [q| |] eqn:E; [|discriminate|discriminate].
  apply cdiv_ok in E. destruct E as [Hn ->]. cbn [bind] in H.
  destruct ((Z.quot ny nype <? myg) && negb (nype =? 1)) eqn:E0; [discriminate|].
  destruct (cmod (j11 s + 1) (Z.quot ny nype)) as [r| |] eqn:E1; [|discriminate|discriminate].
  apply cmod_ok in E1. destruct E1 as [E1 _].
  apply andb_false_iff in E0. destruct E0 as [E0|E0]; bz.
  2:{ subst nype. rewrite Z.quot_1_r in *. lia. }
  assert (0 < Z.quot ny nype) by lia.
  split; [|assumption].
  destruct (Z.lt_trichotomy nype 0) as [L|[L|L]]; [|lia|lia].
  assert (Z.quot ny nype <= 0); [|lia].
  replace nype with (- (- nype)) by lia. rewrite Z.quot_opp_r by lia.
  pose proof (Z.quot_pos ny (- nype)). lia.
Qed.

(** *** chooseProcessorSplit *)
Lemma choose_ok npes ny myg s u x y : 0 < npes -> 0 < ny -> 0 <= myg ->
  chooseProcessorSplit npes ny myg s u = Ok (x, y) ->
  0 < x /\ 0 < y /\ x * y = npes /\ checkY y ny myg s = Ok true /\
  match u with inl v => x = v | inr v => y = v end.
Proof.
  intros Hn Hny Hmyg H. unfold chooseProcessorSplit in H.
  assert (G : forall v, v <> 0 -> Z.rem npes v = 0 -> v * Z.quot npes v = npes).
  { intros v Hv R. pose proof (Z.quot_rem npes v Hv). lia. }
  destruct u as [v|v];
    (destruct (cmod npes v) as [r| |] eqn:E; [|discriminate|discriminate]; apply cmod_ok in E; destruct E as [Hv ->];
     cbn [bind] in H; destruct (Z.rem npes v =? 0) eqn:E1; cbn [negb] in H; [|discriminate]; bz;
     rewrite cdiv_nz in H by assumption; cbn [bind fst snd] in H).
  - destruct (checkY (Z.quot npes v) ny myg s) as [b| |] eqn:E2; [|discriminate|discriminate]. cbn [bind] in H.
    destruct b; cbn [negb] in H; [|discriminate]. injection H as <- <-.
    destruct (checkY_true_pos _ _ _ _ Hny Hmyg E2) as [P _].
    specialize (G v Hv E1). repeat split; auto; nia.
  - destruct (checkY v ny myg s) as [b| |] eqn:E2; [|discriminate|discriminate]. cbn [bind] in H.
    destruct b; cbn [negb] in H; [|discriminate]. injection H as <- <-.
    destruct (checkY_true_pos _ _ _ _ Hny Hmyg E2) as [P _].
    specialize (G v Hv E1). repeat split; auto; nia.
Qed.

(** *** findProcessorSplit *)
Definition good (npes mx ny myg : Z) (s : yseps) (i : Z) : Prop :=
  0 < i /\ (i | mx) /\ exists nype, npes = i * nype /\ acceptable_nype ny myg s nype.

Lemma split_step_ok npes mx ny myg s ideal i best :
  0 < npes -> 0 < ny -> 0 < i ->
  (good npes mx ny myg s i /\
   split_step npes mx ny myg s ideal i best = Ok (if (best <? 1) || closer ideal i best then i else best)) \/
  (~ good npes mx ny myg s i /\ split_step npes mx ny myg s ideal i best = Ok best).
Proof.
  intros Hn Hny Hi. unfold split_step. rewrite !cmod_nz by lia. cbn [bind].
  destruct (Z.rem npes i =? 0) eqn:E1; cbn [negb].
  2:{ right. split; [|reflexivity]. intros (_ & _ & y & E & _). bz. apply E1.
      apply rem0_divide; [lia|]. exists y. lia. }
  bz. apply rem0_divide in E1; [|lia]. destruct E1 as [y Ey].
  rewrite ?cmod_nz by lia. cbn [bind].
  destruct (Z.rem mx i =? 0) eqn:E2; cbn [negb].
  2:{ right. split; [|reflexivity]. intros (_ & D & _). bz. apply E2. apply rem0_divide; [lia|]. auto. }
  bz. apply rem0_divide in E2; [|lia].
  assert (Eq : Z.quot npes i = y) by (rewrite Ey; apply Z.quot_mul; lia).
  assert (Hy : 0 < y) by nia.
  rewrite cdiv_nz by lia. cbn [bind]. rewrite Eq. rewrite cmod_nz by lia. cbn [bind].
  destruct (Z.rem ny y =? 0) eqn:E3; cbn [negb].
  2:{ right. split; [|reflexivity]. intros (_ & _ & y' & E & A). bz. apply E3.
      apply rem0_divide; [lia|]. assert (y' = y) by nia. subst y'. destruct A as (_ & m & A & _). exists m. lia. }
  bz. apply rem0_divide in E3; [|lia].
  destruct (checkY_iff y ny myg s Hy E3 Hny) as (b & Eb & Hb). rewrite Eb. cbn [bind].
  destruct b; cbn [negb].
  - left. split; [|reflexivity]. split; [lia|]. split; [auto|]. exists y. split; [lia|]. now apply Hb.
  - right. split; [|reflexivity]. intros (_ & _ & y' & E & A). assert (y' = y) by nia. subst y'.
    apply Hb in A. discriminate.
Qed.

Definition best_of (npes mx ny myg : Z) (s : yseps) (ideal : R) (hi best : Z) : Prop :=
  (best = -1 /\ forall i, 1 <= i < hi -> ~ good npes mx ny myg s i) \/
  (good npes mx ny myg s best /\ 1 <= best < hi /\
   forall i, 1 <= i < hi -> good npes mx ny myg s i ->
     (Rabs (ideal - IZR best) < Rabs (ideal - IZR i))%R \/
     ((Rabs (ideal - IZR best) = Rabs (ideal - IZR i))%R /\ best <= i)).

Lemma split_loop_ok npes mx ny myg s ideal : 0 < npes -> 0 < ny -> forall n i best,
  1 <= i -> best_of npes mx ny myg s ideal i best ->
  exists b, split_loop n npes mx ny myg s ideal i best = Ok b /\
            best_of npes mx ny myg s ideal (i + Z.of_nat n) b.
Proof.
  intros Hn Hny. induction n as [|n IH]; intros i best Hi HB.
  - exists best. split; [reflexivity|]. now rewrite Z.add_0_r.
  - cbn [split_loop].
    assert (ST : exists b, split_step npes mx ny myg s ideal i best = Ok b /\ best_of npes mx ny myg s ideal (i + 1) b).
    { destruct (split_step_ok npes mx ny myg s ideal i best Hn Hny ltac:(lia)) as [[G E]|[G E]]; rewrite E; eexists; (split; [reflexivity|]).
      - destruct HB as [[-> HB]|(GB & RB & HB)].
        + cbn [orb Z.ltb]. replace (-1 <? 1) with true by reflexivity. cbn [orb].
          right. split; [exact G|]. split; [lia|]. intros k Hk Gk.
          destruct (Z.eq_dec k i) as [->|Ne]; [right; split; [reflexivity|lia]|].
          exfalso. apply (HB k); auto; lia.
        + replace (best <? 1) with false by (symmetry; apply Z.ltb_ge; lia). cbn [orb].
          unfold closer. destruct (Rlt_dec (Rabs (ideal - IZR i)) (Rabs (ideal - IZR best))) as [L|L].
          * right. split; [exact G|]. split; [lia|]. intros k Hk Gk.
            destruct (Z.eq_dec k i) as [->|Ne]; [right; split; [reflexivity|lia]|].
            left. destruct (HB k ltac:(lia) Gk) as [X|[X _]]; lra.
          * right. split; [exact GB|]. split; [lia|]. intros k Hk Gk.
            destruct (Z.eq_dec k i) as [->|Ne].
            -- destruct (Req_dec (Rabs (ideal - IZR best)) (Rabs (ideal - IZR i))) as [Q|Q]; [right; split; [auto|lia]|left; lra].
            -- apply HB; auto; lia.
      - destruct HB as [[-> HB]|(GB & RB & HB)].
        + left. split; [reflexivity|]. intros k Hk. destruct (Z.eq_dec k i) as [->|Ne]; [assumption|]. apply HB; lia.
        + right. split; [exact GB|]. split; [lia|]. intros k Hk Gk.
          destruct (Z.eq_dec k i) as [->|Ne]; [contradiction|]. apply HB; auto; lia. }
    destruct ST as (b & -> & Hb). cbn [bind].
    destruct (IH (i + 1) b ltac:(lia) Hb) as (b' & E' & Hb'). exists b'. split; [exact E'|].
    replace (i + Z.of_nat (S n)) with (i + 1 + Z.of_nat n) by lia. exact Hb'.
Qed.

Lemma find_cases npes nx mxg ny myg s : 0 < npes -> 0 < ny ->
  let ideal := ideal_nxpe npes nx mxg ny in
  (findProcessorSplit npes nx mxg ny myg s = Throw /\ (forall i, ~ candidate npes nx mxg ny myg s i)) \/
  (exists x y, findProcessorSplit npes nx mxg ny myg s = Ok (x, y) /\
    candidate npes nx mxg ny myg s x /\ x * y = npes /\ 0 < y /\ acceptable_nype ny myg s y /\
    forall i, candidate npes nx mxg ny myg s i ->
     (Rabs (ideal - IZR x) < Rabs (ideal - IZR i))%R \/
     ((Rabs (ideal - IZR x) = Rabs (ideal - IZR i))%R /\ x <= i)).
Proof.
  intros Hn Hny ideal. unfold findProcessorSplit. fold (ideal_nxpe npes nx mxg ny). fold ideal.
  assert (Rng : forall i, candidate npes nx mxg ny myg s i -> 1 <= i < 1 + Z.of_nat (Z.to_nat npes)).
  { intros i (H0 & _ & y & E & A & _). nia. }
  destruct (split_loop_ok npes (nx - 2 * mxg) ny myg s ideal Hn Hny (Z.to_nat npes) 1 (-1) ltac:(lia)) as (b & E & HB).
  { left. split; [reflexivity|]. lia. }
  rewrite E. cbn [bind].
  destruct HB as [[-> HB]|(GB & RB & HB)].
  - left. split; [reflexivity|]. intros i C. apply (HB i (Rng i C)). exact C.
  - right. destruct GB as (P & D & y & Ey & A).
    replace (b <? 1) with false by (symmetry; apply Z.ltb_ge; lia).
    rewrite cdiv_nz by lia. cbn [bind]. exists b, y.
    replace (Z.quot npes b) with y by (rewrite Ey, Z.mul_comm; symmetry; apply Z.quot_mul; lia).
    split; [reflexivity|]. split; [split; [lia|]; split; [exact D|exists y; auto]|].
    split; [lia|]. split; [destruct A; lia|]. split; [exact A|].
    intros i C. apply HB; [auto|exact C].
Qed.

(** *** setDerivedGridSizes and load *)
Lemma derived_ok nx ny mxg myg x y px py s m : 0 < x -> 0 < y -> 0 < ny ->
  setDerivedGridSizes nx ny mxg myg x y px py s = Ok m ->
  exists mxsub mysub, 0 < mxsub /\ 0 < mysub /\ nx - 2 * mxg = x * mxsub /\ ny = y * mysub /\
   m = mkmesh nx ny mxg myg x y px py (nx - 2 * mxg) ny mxsub mysub
             (mxsub + 2 * mxg) (mysub + 2 * myg) nx (if negb (j12 s =? j21 s) then ny + 2 * myg + 2 * myg else ny + 2 * myg)
             mxg (mxg + mxsub - 1) myg (myg + mysub - 1) (px * mxsub) (py * mysub) s.
Proof.
  intros Hx Hy Hny H. unfold setDerivedGridSizes in H.
  destruct (nx <=? 2 * mxg) eqn:E0; [discriminate|]. bz.
  rewrite !cdiv_nz, !cmod_nz in H by lia. cbn [bind] in H.
  destruct (Z.rem (nx - 2 * mxg) x =? 0) eqn:E1; cbn [negb] in H; [|discriminate].
  rewrite ?cdiv_nz, ?cmod_nz in H by lia. cbn [bind] in H.
  destruct (Z.rem ny y =? 0) eqn:E2; cbn [negb] in H; [|discriminate].
  bz. injection H as <-.
  pose proof (Z.quot_rem (nx - 2 * mxg) x ltac:(lia)). pose proof (Z.quot_rem ny y ltac:(lia)).
  exists (Z.quot (nx - 2 * mxg) x), (Z.quot ny y).
  repeat split; try nia.
Qed.

(** The facts about a decomposed mesh that everything else uses. *)
Record decomposed (npes mype : Z) (m : mesh) : Prop := {
  d_nxpe : 0 < NXPE m; d_nype : 0 < NYPE m; d_npes : NXPE m * NYPE m = npes;
  d_px : 0 <= PE_XIND m < NXPE m; d_py : 0 <= PE_YIND m < NYPE m;
  d_rank : PE_YIND m * NXPE m + PE_XIND m = mype;
  d_mxsub : 0 < MXSUB m; d_mysub : 0 < MYSUB m;
  d_x : g_nx m - 2 * MXG m = NXPE m * MXSUB m; d_y : g_ny m = NYPE m * MYSUB m;
  d_cuts : forall y, is_cut (seps m) y -> (MYSUB m | y + 1);
  d_guard : NYPE m = 1 \/ MYG m <= MYSUB m;
  d_order : ordered_seps (g_ny m) (seps m);
  d_lnx : LocalNx m = MXSUB m + 2 * MXG m; d_lny : LocalNy m = MYSUB m + 2 * MYG m;
  d_xs : xstart m = MXG m; d_xe : xend m = MXG m + MXSUB m - 1;
  d_ys : ystart m = MYG m; d_ye : yend m = MYG m + MYSUB m - 1;
  d_mx : MX m = g_nx m - 2 * MXG m; d_my : MY m = g_ny m
}.

Lemma load_ok npes mype nx ny mxg myg s u m :
  0 < ny -> 0 <= mxg -> 0 <= myg -> 0 <= mype < npes ->
  load_decomposition npes mype nx ny mxg myg s u = Ok m ->
  decomposed npes mype m /\ g_nx m = nx /\ g_ny m = ny /\ MXG m = mxg /\ MYG m = myg /\
  exists n, setYDecompositionIndices ny s = Ok (seps m, n).
Proof.
  intros Hny Hmxg Hmyg Hr H. unfold load_decomposition in H.
  destruct (setYDecompositionIndices ny s) as [[s' n]| |] eqn:ES; [|discriminate|discriminate].
  cbn [bind fst snd] in H.
  destruct (setY_ok _ _ _ _ ES) as (Ord & _ & _).
  match type of H with bind ?E _ = _ => destruct E as [[x y]| |] eqn:EX end; [|discriminate|discriminate].
  cbn [bind fst snd] in H.
  assert (G : 0 < x /\ 0 < y /\ x * y = npes /\ ((y | ny) -> acceptable_nype ny myg s' y)).
  { destruct u as [u|].
    - assert (Hn : 0 < npes) by lia.
      destruct (choose_ok _ _ _ _ _ _ _ Hn Hny Hmyg EX) as (A & B & C & D & _).
      split; [exact A|]. split; [exact B|]. split; [exact C|]. intros Dv.
      destruct (checkY_iff y ny myg s' B Dv Hny) as (b & Eb & Hb). rewrite D in Eb. injection Eb as <-.
      exact (proj1 Hb eq_refl).
    - destruct (find_cases npes nx mxg ny myg s' ltac:(lia) Hny) as [[F _]|(x' & y' & F & C & E & P & A & _)];
        rewrite EX in F; [discriminate|]. injection F as <- <-. destruct C as (C & _). auto. }
  destruct G as (Gx & Gy & Gp & Ga).
  rewrite cdiv_nz, cmod_nz in H by lia. cbn [bind] in H.
  assert (P1 : 0 <= Z.quot mype x) by (apply Z.quot_pos; lia).
  pose proof (Z.quot_rem mype x ltac:(lia)) as QR.
  assert (RB : 0 <= Z.rem mype x < x) by (apply Z.rem_bound_pos; lia).
  destruct (derived_ok _ _ _ _ _ _ _ _ _ _ Gx Gy Hny H) as (mxsub & mysub & A1 & A2 & A3 & A4 & ->).
  cbn [g_nx g_ny seps MXG MYG].
  destruct (Ga ltac:(exists mysub; lia)) as (_ & ms & E & P & C1 & C2). assert (ms = mysub) by nia. subst ms.
  assert (QB : Z.quot mype x < y) by nia.
  split; [|repeat split; auto; exists n; reflexivity].
  constructor; cbn [NXPE NYPE PE_XIND PE_YIND MXSUB MYSUB g_nx g_ny MXG MYG seps LocalNx LocalNy xstart xend ystart yend MX MY]; auto; lia.
Qed.
