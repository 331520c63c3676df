From Coq Require Import List Bool Arith Reals Lra Lia.
From Verif Require Import ImexModel ImexSpec ImexCoef ImexCoef4 ImexProofs ImexRun.
Import ListNotations.
Local Open Scope R_scope.

Lemma total_app : forall a b, total (a ++ b) = total a + total b.
Proof. induction a as [|x a IH]; intro b; cbn [app total]; [ring|rewrite IH; ring]. Qed.

Lemma ofnat_INR : forall n, ofnat Rops n = INR n.
Proof.
  induction n as [|n IH]; [reflexivity|]. rewrite S_INR, <- IH. reflexivity.
Qed.

Lemma ninternal_pos : forall c : cfg R, (0 < ninternal Rops c)%nat.
Proof.
  intro c. unfold ninternal. cbv zeta. destruct (Nat.eqb_spec (otrunc Rops (odiv Rops (outStep c) (userStep c))) 0); [lia|].
  destruct (olt _ _ _); lia.
Qed.

Section R.
Variable c : cfg R.
Variable imp : nat -> V R -> V R -> R -> R -> option (V R).
Variable conv : R -> V R -> V R.
Variable scale : V R -> V R -> nat -> R.
Variable m : nat.
Hypothesis Hm : maxOrder c = m.
Hypothesis Hm2 : (2 <= m <= 4)%nat.
Variable u0 : V R.
Variable t0 : R.
Hypothesis Hfatal : 0 < dtMinFatal c.
Hypothesis Hmax : dtMin c <= dtMax c.
Hypothesis Hmaxp : 0 < dtMax c.

Notation steps := (steps Rops c imp conv scale).
Notation outputs := (outputs Rops c imp conv scale).
Notation Inv := (Inv c imp conv m u0 t0).

Definition ostep (fi : nat) (cum : R) (s : st R) : res (st R) :=
  (s1 <- shuffle s (conv (simtime s) (u s)) ;;
   ck <- checks c s1 ;;
   s2 <- inner Rops c imp scale fi ck cum s1 0 0 ;;
   accept Rops c (simtime s) (u s) (conv (simtime s) (u s)) s2).

Lemma steps_unfold : forall k fi cum n s,
  steps (S k) fi cum n s =
  if Rltb cum (outStep c) then
    s3 <- ostep fi cum s ;;
    match ts s3 with
    | [] => Ub
    | h0 :: _ => if Nat.ltb (mxstep c) (S n) then Throw TooManySteps
                 else steps k fi (cum + h0) (S n) s3
    end
  else Ok s.
Proof.
  intros. cbn [ImexModel.steps]. cbv zeta. cbn [olt Rops oadd].
  destruct (Rltb cum (outStep c)); [|reflexivity]. unfold ostep.
  destruct (shuffle _ _) as [s1| | |]; cbn [bind]; try reflexivity.
  destruct (checks _ _) as [ck| | |]; cbn [bind]; try reflexivity.
  destruct (inner _ _ _ _ _ _ _ _ _ _) as [s2| | |]; cbn [bind]; reflexivity.
Qed.

Definition good_group (cum : R) (n : nat) (g : list (acc R)) : Prop :=
  cum + total g = outStep c /\ (length g + n <= mxstep c)%nat /\
  (forall e, In e g -> 0 < a_dt e <= dtMax c) /\
  (forall before e after, g = before ++ e :: after -> after <> [] -> dtMin c <= a_dt e) /\
  (cum < outStep c -> g <> []) /\ (cum = outStep c -> g = []).

Lemma steps_spec : forall fuel fi cum n s, Inv s -> cum <= outStep c -> (n <= mxstep c)%nat ->
  (exists w, steps fuel fi cum n s = Throw w) \/
  (steps fuel fi cum n s = Ub /\ ~ cfg_ok c m) \/
  (steps fuel fi cum n s = NoFuel /\ ((fuel + n <= mxstep c)%nat \/ (fi < 11 + mxstepAdapt c)%nat)) \/
  (exists s' g, steps fuel fi cum n s = Ok s' /\ Inv s' /\ log s' = rev g ++ log s /\
     good_group cum n g).
Proof.
  induction fuel as [|k IH]; intros fi cum n s I Hc Hn.
  - right; right; left. split; [reflexivity|left; lia].
  - rewrite steps_unfold. destruct (Rltb cum (outStep c)) eqn:E.
    + apply Rltb_true in E.
      destruct (@one_step c imp conv scale m Hm Hm2 u0 t0 Hfatal Hmax Hmaxp fi cum s I E)
        as [[w Er]|[[Er Hno]|[[Er Hlt]|(s3&e&Er&I3&L3&T3&B3&P3)]]];
        fold (ostep fi cum s) in Er; rewrite Er; cbn [bind].
      * left. eexists; reflexivity.
      * right; left. split; [reflexivity|assumption].
      * right; right; left. split; [reflexivity|right; assumption].
      * destruct (ts s3) as [|h0 t] eqn:Et.
        { destruct (i_lens _ _ _ _ _ _ _ I3) as (_&_&X&_). rewrite Et in X. cbn [length] in X. lia. }
        cbn [hd] in T3. subst h0.
        destruct (Nat.ltb_spec (mxstep c) (S n)) as [Hlt|Hge]; [left; eexists; reflexivity|].
        destruct (IH fi (cum + a_dt e) (S n) s3 I3) as [[w Es]|[[Es Hno]|[[Es Hlt]|(s'&g&Es&I'&L'&G)]]];
          [lra|lia| | | |]; rewrite Es.
        -- left. eexists; reflexivity.
        -- right; left. split; [reflexivity|assumption].
        -- right; right; left. split; [reflexivity|]. destruct Hlt; [left; lia|right; lia].
        -- right; right; right. exists s', (e :: g). split; [reflexivity|]. split; [exact I'|].
           split. { rewrite L', L3. cbn [rev]. rewrite <- app_assoc. reflexivity. }
           destruct G as (G1&G2&G3&G4&G5&G6). repeat split.
           ++ cbn [total]. lra.
           ++ cbn [length]. lia.
           ++ destruct H as [<-|H]; [lra|apply G3, H].
           ++ destruct H as [<-|H]; [lra|apply G3, H].
           ++ intros before e' after Eg Ha. destruct before as [|b before].
              ** cbn [app] in Eg. injection Eg as <- <-.
                 destruct P3 as [P3|P3]; [exfalso; apply Ha, G6, P3|lra].
              ** cbn [app] in Eg. injection Eg as _ Eg. exact (G4 _ _ _ Eg Ha).
           ++ discriminate.
           ++ intro Hx. lra.
    + apply Rltb_false in E. right; right; right. exists s, []. split; [reflexivity|].
      split; [exact I|]. split; [reflexivity|]. repeat split.
      * cbn [total]. lra.
      * cbn [length]. lia.
      * destruct H.
      * destruct H.
      * intros before e after Eg. destruct before; discriminate.
      * intro Hx. lra.
Qed.

Lemma good_covers : forall g, 0 < outStep c -> good_group 0 0 g -> covers c g.
Proof.
  intros g H (G1&G2&G3&G4&G5&G6). unfold covers. split; [lra|]. split.
  - split; [|lia]. destruct g; [exfalso; apply (G5 H); reflexivity|cbn [length]; lia].
  - split; assumption.
Qed.

Lemma outputs_spec : forall nout fuel fi s, 0 < outStep c -> Inv s ->
  (exists w, outputs nout fuel fi s = Throw w) \/
  (outputs nout fuel fi s = Ub /\ ~ cfg_ok c m) \/
  (outputs nout fuel fi s = NoFuel /\ ((fuel <= mxstep c)%nat \/ (fi < 11 + mxstepAdapt c)%nat)) \/
  (exists s' gs, outputs nout fuel fi s = Ok s' /\ Inv s' /\
     log s' = rev (concat gs) ++ log s /\ length gs = nout /\ Forall (covers c) gs).
Proof.
  induction nout as [|k IH]; intros fuel fi s Ho I.
  - right; right; right. exists s, []. split; [reflexivity|]. split; [exact I|].
    split; [reflexivity|]. split; [reflexivity|constructor].
  - cbn [ImexModel.outputs].
    destruct (@steps_spec fuel fi 0 0 s I) as [[w Es]|[[Es Hno]|[[Es Hlt]|(s'&g&Es&I'&L'&G)]]];
      [lra|lia| | | |]; cbn [o0 Rops]; rewrite Es; cbn [bind].
    + left. eexists; reflexivity.
    + right; left. split; [reflexivity|assumption].
    + right; right; left. split; [reflexivity|]. destruct Hlt; [left; lia|right; lia].
    + destruct (IH fuel fi s' Ho I') as [[w Et]|[[Et Hno]|[[Et Hlt]|(s2&gs&Et&I2&L2&N2&F2)]]]; rewrite Et.
      * left. eexists; reflexivity.
      * right; left. split; [reflexivity|assumption].
      * right; right; left. split; [reflexivity|assumption].
      * right; right; right. exists s2, (g :: gs). split; [reflexivity|]. split; [exact I2|].
        split. { rewrite L2, L'. cbn [concat]. rewrite rev_app_distr, app_assoc. reflexivity. }
        split; [cbn [length]; lia|]. constructor; [apply good_covers; assumption|exact F2].
Qed.

Lemma Forall_repeat : forall A (Q : A -> Prop) x n, Q x -> Forall Q (repeat x n).
Proof. induction n; intros; cbn [repeat]; constructor; auto. Qed.

Lemma init_spec : 0 < outStep c ->
  (exists w, init Rops c u0 t0 = Throw w) \/
  (exists s, init Rops c u0 t0 = Ok s /\ Inv s /\ log s = []).
Proof.
  intro Ho. unfold init. cbv zeta.
  destruct (Nat.ltb (mxstep c) (ninternal Rops c)); [left; eexists; reflexivity|].
  destruct (Nat.ltb 4 (maxOrder c)); [left; eexists; reflexivity|].
  right. eexists. split; [reflexivity|]. split; [|reflexivity].
  constructor; cbn [uV fV ts uFac fFac order lastOrder u simtime log length map].
  - unfold lens. cbn [uV fV ts uFac fFac]. rewrite !repeat_length. repeat split; assumption.
  - lia.
  - repeat split; reflexivity.
  - apply Forall_repeat. rewrite ofnat_INR. cbn [odiv Rops].
    apply Rdiv_lt_0_compat; [assumption|]. apply lt_0_INR, ninternal_pos.
  - cbn [firstn]. destruct m; reflexivity.
  - cbn [firstn]. destruct m; reflexivity.
  - cbn [firstn]. destruct m; reflexivity.
  - exact I.
Qed.

Lemma run_spec : forall nout fuel fi, 0 < outStep c ->
  let r := run Rops c imp conv scale nout fuel fi u0 t0 in
  (exists w, r = Throw w) \/ (r = Ub /\ ~ cfg_ok c m) \/
  (r = NoFuel /\ ((fuel <= mxstep c)%nat \/ (fi < 11 + mxstepAdapt c)%nat)) \/
  (exists s' gs, r = Ok s' /\ Inv s' /\
     log s' = rev (concat gs) /\ length gs = nout /\ Forall (covers c) gs).
Proof.
  intros nout fuel fi Ho. cbv zeta. unfold run.
  destruct (init_spec Ho) as [[w E]|(s&E&I&L)]; rewrite E; cbn [bind].
  - left. eexists; reflexivity.
  - destruct (@outputs_spec nout fuel fi s Ho I) as [[w Et]|[[Et Hno]|[[Et Hlt]|(s2&gs&Et&I2&L2&N2&F2)]]];
      rewrite Et.
    + left. eexists; reflexivity.
    + right; left. split; [reflexivity|assumption].
    + right; right; left. split; [reflexivity|assumption].
    + right; right; right. exists s2, gs. rewrite L, app_nil_r in L2. exact (conj eq_refl (conj I2 (conj L2 (conj N2 F2)))).
Qed.

Lemma good_split : forall l, goodLog c imp conv m u0 t0 l ->
  forall newer e older, l = newer ++ e :: older ->
  chained imp conv u0 t0 e older /\ (fresh c imp -> imex_step e older) /\
  a_order e = Nat.min (S (length older)) m.
Proof.
  induction l as [|x l IH]; intros G newer e older E; [destruct newer; discriminate|].
  cbn [goodLog] in G. destruct G as (G1&G2&G3&_&G4).
  destruct newer as [|y newer]; cbn [app] in E; injection E as E1 E2; subst.
  - exact (conj G1 (conj G2 G3)).
  - exact (IH G4 newer e older eq_refl).
Qed.

End R.

(** Non-adaptive runs: equal steps. *)
Section Fixed.
Variable c : cfg R.
Variable imp : nat -> V R -> V R -> R -> R -> option (V R).
Variable conv : R -> V R -> V R.
Variable scale : V R -> V R -> nat -> R.
Hypothesis Hm2 : (2 <= maxOrder c <= 4)%nat.
Hypothesis Hpred : pred_ok c (maxOrder c).
Variable u0 : V R.
Variable t0 : R.
Hypothesis Hfatal : 0 < dtMinFatal c.
Hypothesis Hout : 0 < outStep c.
Hypothesis Had : adaptive c = false.
Hypothesis Himp : forall n g r a t, imp n g r a t <> None.
Let n := ninternal Rops c.
Let h := outStep c / INR n.
Hypothesis Hn : (n <= mxstep c)%nat.
Hypothesis Hh : dtMinFatal c <= h /\ dtMin c <= h <= dtMax c.

Notation steps := (steps Rops c imp conv scale).
Notation outputs := (outputs Rops c imp conv scale).
Notation Inv := (Inv c imp conv (maxOrder c) u0 t0).

Lemma attempt_fixed : forall cum s, lens (maxOrder c) s -> (1 <= order s <= maxOrder c)%nat ->
  dtNext s = h -> cum + h <= outStep c ->
  exists s', attempt Rops c imp scale false cum s 0 0 = Ok (s', false, 0%nat, 0%nat) /\
    dtNext s' = h /\ hd 0 (ts s') = h.
Proof.
  intros cum s L Ho Hd Hc.
  assert (Hw : want c s = h).
  { unfold want, clamp. cbn [olt Rops]. unfold Rltb. rewrite Hd.
    destruct (Rlt_dec h (dtMin c)); [lra|]. destruct (Rlt_dec (dtMax c) h); lra. }
  assert (Ht : tried c cum s = h).
  { unfold tried. rewrite Hw. destruct (Rlt_dec _ _); lra. }
  destruct (@attempt_spec c imp scale (maxOrder c) eq_refl Hm2 false cum s 0 0 L Ho)
    as [[w E]|[[E Hno]|[(s'&ac'&fc'&E&D)|(s'&ac'&fc'&E&D)]]]; [discriminate| | | |].
  - exfalso. revert E. unfold attempt. cbn [olt Rops oadd osub].
    destruct (Rltb (dtNext s) (dtMinFatal c)) eqn:Ef.
    { apply Rltb_true in Ef. lra. }
    destruct (ts s) as [|x t] eqn:Et; [discriminate|]. cbv zeta.
    set (s1 := setStep _ s).
    assert (L1 : lens (maxOrder c) s1) by (apply (@lens_setStep c (maxOrder c) eq_refl Hm2); assumption).
    assert (O1 : order s1 = order s) by reflexivity.
    set (cnd := (_ || _ || false)%bool).
    assert (H3 : exists s3, (if cnd then calcCoeffs Rops (order s1) s1 else Ok s1) = Ok s3 /\
        lens (maxOrder c) s3 /\ order s3 = order s).
    { destruct cnd.
      - destruct (@calc_ok c (maxOrder c) eq_refl Hm2 (order s1) s1 L1) as (s3&E3&F3&L3&_); [lia|].
        exists s3. split; [exact E3|]. split; [exact L3|]. destruct F3 as (_&_&x3&_). congruence.
      - exists s1. exact (conj eq_refl (conj L1 O1)). }
    destruct H3 as (s3&E3&L3&O3). rewrite E3. cbn [bind].
    destruct (@take_cases c imp (maxOrder c) eq_refl Hm2 (order s3) s3 L3) as [[E4 Hnp]|[[E4 Hf]|(s4&k&E4&_)]];
      [lia| | |]; rewrite E4; cbn [bind].
    + discriminate.
    + destruct Hf as (a1&a2&a3&a4&a5&Hf). exfalso. exact (Himp _ _ _ _ _ Hf).
    + discriminate.
  - exfalso. exact (Hno Hpred).
  - pose proof D as Q. destruct Q as [DF DL DS DFa DC DCof DK DN].
    exists s'. 
    assert (ac' = 0%nat /\ fc' = 0%nat).
    { revert E. unfold attempt. cbn [olt Rops oadd osub].
      destruct (Rltb (dtNext s) (dtMinFatal c)); [discriminate|].
      destruct (ts s) as [|x t] eqn:Et; [discriminate|]. cbv zeta.
      destruct (if (_ || _ || false)%bool then _ else _) as [s3| | |]; cbn [bind]; try discriminate.
      destruct (takeStep _ _ _ _ _) as [[s4|]| | |]; cbn [bind]; try discriminate.
      - intro E. injection E as _ <- <-. split; reflexivity.
      - intro E. destruct (@failed_spec c (maxOrder c) eq_refl Hm2 s3
          (if Rltb (outStep c) (cum + clamp Rops c (dtNext s)) then outStep c - cum else clamp Rops c (dtNext s)) 0 0)
          as [[w E5]|(s5&E5&A5&_)].
        + rewrite E5 in E. discriminate.
        + congruence. }
    destruct H as [-> ->]. split; [exact E|]. split; [rewrite DN by reflexivity; exact Hw|].
    rewrite DS. exact Ht.
  - exfalso. destruct D as [_ _ C]. destruct C as [(_&_&_&A&_)|(_&_&_&A)]; congruence.
Qed.
Definition allH (l : list (acc R)) : Prop := Forall (fun e => a_dt e = h) l.

Lemma hpos : 0 < h.
Proof. unfold h. apply Rdiv_lt_0_compat; [exact Hout|]. apply lt_0_INR. exact (ninternal_pos c). Qed.

Lemma hn : INR n * h = outStep c.
Proof.
  unfold h. field. apply not_0_INR. pose proof (ninternal_pos c). unfold n. lia.
Qed.

Lemma ostep_fixed : forall fi cum s, (1 <= fi)%nat -> Inv s -> dtNext s = h -> cum + h <= outStep c ->
  exists s3 e, ostep c imp conv scale fi cum s = Ok s3 /\ Inv s3 /\ log s3 = e :: log s /\
    a_dt e = h /\ hd 0 (ts s3) = h /\ dtNext s3 = h.
Proof.
  intros fi cum s Hfi I Hd Hc. pose proof hpos as Hp.
  destruct (@one_step c imp conv scale (maxOrder c) eq_refl Hm2 u0 t0 Hfatal ltac:(lra) ltac:(lra) fi cum s I ltac:(lra))
    as [[w Er]|[[Er Hno]|[[Er Hlt]|(s3&e&Er&I3&L3&T3&B3&P3)]]];
    fold (ostep c imp conv scale fi cum s) in Er.
  4: exists s3, e; split; [exact Er|]; split; [exact I3|]; split; [exact L3|].
  2:{ exfalso. apply Hno. split; [exact Hpred|]. intro Q. congruence. }
  all: revert Er; unfold ostep.
  all: pose proof (i_lens _ _ _ _ _ _ _ I) as (L1&L2&L3'&L4&L5).
  all: unfold shuffle;
    destruct (uV s) as [|x0 uv] eqn:Eu; [cbn [length] in L1; lia|];
    destruct (fV s) as [|y0 fv] eqn:Efv; [cbn [length] in L2; lia|];
    destruct (ts s) as [|z0 [|z1 t]] eqn:Et; try (cbn [length] in L3'; lia);
    cbn [bind]; rewrite <- Eu, <- Efv, <- Et in *.
  all: match goal with |- context [checks c ?x] => set (s1 := x) end.
  all: assert (Ls1 : lens (maxOrder c) s1) by
    (unfold lens, s1; cbn [uV fV ts uFac fFac]; rewrite !shift_length by lia; repeat split; assumption).
  all: unfold checks; rewrite Had; cbn [bind].
  all: destruct fi as [|fi]; [lia|]; cbn [inner].
  all: destruct (@attempt_fixed cum s1 Ls1) as (s2&E2&N2&H2);
    [pose proof (i_order _ _ _ _ _ _ _ I); unfold s1; cbn [order]; lia|exact Hd|exact Hc|].
  all: rewrite E2; cbn [bind]; unfold accept.
  all: destruct (ts s2) as [|q0 qt] eqn:Eq; cbn [hd] in H2; [|subst q0].
  all: destruct (lastCall s2) as [k|]; try discriminate.
  - intro E. injection E as <-. cbn [log] in L3. injection L3 as <-.
    cbn [a_dt ts hd dtNext]. repeat split. exact N2.
Qed.

Lemma steps_fixed : forall j fuel fi k s, (1 <= fi)%nat -> (j < fuel)%nat -> (k + j = n)%nat ->
  Inv s -> dtNext s = h ->
  exists s' g, steps fuel fi (INR k * h) k s = Ok s' /\ Inv s' /\ dtNext s' = h /\
    log s' = g ++ log s /\ length g = j /\ allH g.
Proof.
  induction j as [|j IH]; intros fuel fi k s Hfi Hf Hk I Hd.
  - destruct fuel as [|fuel]; [lia|]. rewrite steps_unfold.
    replace k with n by lia. rewrite hn. unfold Rltb.
    destruct (Rlt_dec (outStep c) (outStep c)); [lra|].
    exists s, []. split; [reflexivity|]. split; [exact I|]. repeat split; [exact Hd|constructor].
  - destruct fuel as [|fuel]; [lia|]. rewrite steps_unfold.
    pose proof hpos as Hp. pose proof hn as Hh'.
    assert (Hkn : INR k * h + h <= outStep c).
    { rewrite <- Hh'. replace (INR k * h + h) with (INR (S k) * h) by (rewrite S_INR; ring).
      apply Rmult_le_compat_r; [lra|]. apply le_INR. lia. }
    unfold Rltb. destruct (Rlt_dec (INR k * h) (outStep c)); [|lra].
    destruct (@ostep_fixed fi (INR k * h) s Hfi I Hd Hkn) as (s3&e&E3&I3&L3&D3&T3&N3).
    rewrite E3. cbn [bind].
    destruct (ts s3) as [|q0 qt] eqn:Eq.
    { pose proof (i_lens _ _ _ _ _ _ _ I3) as (_&_&X&_). rewrite Eq in X. cbn [length] in X. lia. }
    cbn [hd] in T3. subst q0. destruct (Nat.ltb_spec (mxstep c) (S k)); [lia|].
    replace (INR k * h + h) with (INR (S k) * h) by (rewrite S_INR; ring).
    destruct (IH fuel fi (S k) s3 Hfi ltac:(lia) ltac:(lia) I3 N3) as (s'&g&E'&I'&N'&L'&Lg&Ag).
    exists s', (g ++ [e]). split; [exact E'|]. split; [exact I'|]. split; [exact N'|].
    split; [rewrite L', L3, <- app_assoc; reflexivity|].
    split; [rewrite app_length; cbn [length]; lia|].
    apply Forall_app. split; [exact Ag|]. constructor; [exact D3|constructor].
Qed.

Lemma outputs_fixed : forall nout fuel fi s, (1 <= fi)%nat -> (n < fuel)%nat -> Inv s -> dtNext s = h ->
  exists s' g, outputs nout fuel fi s = Ok s' /\ Inv s' /\
    log s' = g ++ log s /\ length g = (nout * n)%nat /\ allH g.
Proof.
  induction nout as [|k IH]; intros fuel fi s Hfi Hf I Hd.
  - exists s, []. split; [reflexivity|]. split; [exact I|]. repeat split. constructor.
  - cbn [ImexModel.outputs].
    destruct (@steps_fixed n fuel fi 0 s Hfi Hf eq_refl I Hd) as (s1&g1&E1&I1&N1&L1&G1&A1).
    cbn [INR] in E1. rewrite Rmult_0_l in E1. cbn [o0 Rops]. rewrite E1. cbn [bind].
    destruct (IH fuel fi s1 Hfi Hf I1 N1) as (s2&g2&E2&I2&L2&G2&A2).
    exists s2, (g2 ++ g1). split; [exact E2|]. split; [exact I2|].
    split; [rewrite L2, L1, app_assoc; reflexivity|].
    split; [rewrite app_length, G1, G2; lia|]. apply Forall_app. split; assumption.
Qed.

Lemma run_fixed : forall nout fuel fi, (1 <= fi)%nat -> (n < fuel)%nat ->
  exists s, run Rops c imp conv scale nout fuel fi u0 t0 = Ok s /\
    length (log s) = (nout * n)%nat /\ (forall e, In e (log s) -> a_dt e = h).
Proof.
  intros nout fuel fi Hfi Hf. unfold run.
  destruct (@init_spec c imp conv (maxOrder c) eq_refl Hm2 u0 t0 Hout) as [[w E]|(s&E&I&L)].
  - exfalso. revert E. unfold init. cbv zeta. fold n.
    destruct (Nat.ltb_spec (mxstep c) n); [lia|].
    destruct (Nat.ltb_spec 4 (maxOrder c)); [lia|]. discriminate.
  - rewrite E. cbn [bind].
    assert (Hd : dtNext s = h).
    { revert E. unfold init. cbv zeta. fold n.
      destruct (Nat.ltb_spec (mxstep c) n); [lia|].
      destruct (Nat.ltb_spec 4 (maxOrder c)); [lia|]. intro E. injection E as <-.
      cbn [dtNext odiv Rops]. rewrite ofnat_INR. reflexivity. }
    destruct (@outputs_fixed nout fuel fi s Hfi Hf I Hd) as (s2&g&E2&I2&L2&G2&A2).
    exists s2. split; [exact E2|]. rewrite L, app_nil_r in L2. rewrite L2.
    split; [exact G2|]. intros e He. unfold allH in A2. rewrite Forall_forall in A2. exact (A2 e He).
Qed.
End Fixed.

(** The number of internal steps. *)
Lemma ninternal_spec : forall c : cfg R, 0 < outStep c -> 0 < userStep c ->
  let n := ninternal Rops c in
  outStep c / INR n <= userStep c /\ (0 < n)%nat /\
  (forall k, (0 < k < n)%nat -> userStep c < outStep c / INR k).
Proof.
  intros c Ho Hu. cbv zeta.
  assert (Hq : 0 < outStep c / userStep c) by (apply Rdiv_lt_0_compat; assumption).
  pose proof (base_Int_part (outStep c / userStep c)) as [B1 B2].
  assert (Hz : (0 <= Int_part (outStep c / userStep c))%Z).
  { assert ((-1 < Int_part (outStep c / userStep c))%Z); [|lia]. apply lt_IZR. lra. }
  split; [|split; [apply ninternal_pos|]]; unfold ninternal; cbv zeta; rewrite ?ofnat_INR;
    cbn [otrunc odiv olt Rops];
    set (z := Z.to_nat (Int_part (outStep c / userStep c)));
    assert (Ez : INR z = IZR (Int_part (outStep c / userStep c)))
      by (unfold z; rewrite INR_IZR_INZ, Z2Nat.id by exact Hz; reflexivity);
    rewrite <- Ez in B1, B2; clearbody z;
    assert (E : outStep c = outStep c / userStep c * userStep c) by (field; lra);
    revert B1 B2 E; generalize (outStep c / userStep c); intros q B1 B2 E.
  - destruct (Nat.eqb_spec z 0) as [->|Hz0].
    + cbn [INR] in *. unfold Rdiv. rewrite Rinv_1. nra.
    + assert (0 < INR z) by (apply lt_0_INR; lia).
      unfold Rltb. destruct (Rlt_dec (userStep c) (outStep c / INR z)); [|lra].
      rewrite S_INR. apply (Rmult_le_reg_r (INR z + 1)); [lra|].
      unfold Rdiv. rewrite Rmult_assoc, Rinv_l by lra. nra.
  - intros k Hk. assert (0 < INR k) by (apply lt_0_INR; lia).
    assert (Hgo : INR k < q -> userStep c < outStep c / INR k).
    { intro Hlt. apply (Rmult_lt_reg_r (INR k)); [assumption|].
      unfold Rdiv. rewrite Rmult_assoc, Rinv_l by lra. nra. }
    destruct (Nat.eqb_spec z 0) as [->|Hz0]; [lia|].
    assert (0 < INR z) by (apply lt_0_INR; lia).
    unfold Rltb in Hk. destruct (Rlt_dec (userStep c) (outStep c / INR z)) as [Hx|Hx].
    + destruct (Nat.eq_dec k z) as [->|Hkz]; [exact Hx|].
      apply Hgo. assert (INR k < INR z) by (apply lt_INR; lia). lra.
    + apply Hgo. assert (INR k < INR z) by (apply lt_INR; lia). lra.
Qed.

