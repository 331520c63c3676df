From Coq Require Import List Bool Arith Reals Lra Lia.
From Verif Require Import ImexModel ImexSpec ImexCoef ImexCoef4.
Import ListNotations.
Local Open Scope R_scope.

Lemma coeffs_all : forall p h, (1 <= p <= 4)%nat -> (p <= length h)%nat ->
  Forall (fun x => 0 < x) (firstn p h) ->
  exists uc a b h0 t, rawCoeffs Rops p h = Some (uc, a, b) /\ h = h0 :: t /\ 0 < uc /\
   length a = p /\ length b = p /\
   moments p (back h) (fun j => nth j a 0 / uc) (fun j => nth j b 0 / uc) (h0 / uc).
Proof.
  intros p h Hp Hl Hf.
  assert (Hq : p = 1%nat \/ p = 2%nat \/ p = 3%nat \/ p = 4%nat) by lia.
  destruct Hq as [Hq|[Hq|[Hq|Hq]]]; subst p.
  all: cbn [length] in Hl.
  1: destruct h as [|h0 h]; cbn [length] in Hl; try lia.
  2: destruct h as [|h0 [|h1 h]]; cbn [length] in Hl; try lia.
  3: destruct h as [|h0 [|h1 [|h2 h]]]; cbn [length] in Hl; try lia.
  4: destruct h as [|h0 [|h1 [|h2 [|h3 h]]]]; cbn [length] in Hl; try lia.
  all: cbn [firstn] in Hf;
    repeat match goal with H : Forall _ (_ :: _) |- _ => inversion H; clear H; subst end.
  - destruct (coeffs1 h0 h) as (uc & a & b & E & M); [assumption|].
    cbn [rawCoeffs] in E. injection E as <- <- <-.
    exists (o1 Rops). do 4 eexists. split; [reflexivity|]. split; [reflexivity|].
    split; [cbn [o1 Rops]; lra|]. split; [reflexivity|]. split; [reflexivity|]. exact M.
  - destruct (coeffs2 h0 h1 h) as (uc & a & b & E & U & M); try assumption.
    exists uc, a, b. do 2 eexists. split; [exact E|]. split; [reflexivity|].
    split; [assumption|]. cbn [rawCoeffs] in E. injection E as _ <- <-.
    split; [reflexivity|]. split; [reflexivity|]. exact M.
  - destruct (coeffs3 h0 h1 h2 h) as (uc & a & b & E & U & M); try assumption.
    exists uc, a, b. do 2 eexists. split; [exact E|]. split; [reflexivity|].
    split; [assumption|]. cbn [rawCoeffs] in E. injection E as _ <- <-.
    split; [reflexivity|]. split; [reflexivity|]. exact M.
  - destruct (coeffs4 h0 h1 h2 h3 h) as (uc & a & b & E & U & M); try assumption.
    exists uc, a, b. do 2 eexists. split; [exact E|]. split; [reflexivity|].
    split; [assumption|]. cbn [rawCoeffs] in E. injection E as _ <- <-.
    split; [reflexivity|]. split; [reflexivity|]. exact M.
Qed.

Lemma rawCoeffs_some : forall p h, (1 <= p <= 4)%nat -> (p <= length h)%nat ->
  exists uc a b h0 t, rawCoeffs Rops p h = Some (uc, a, b) /\ h = h0 :: t /\
   length a = p /\ length b = p.
Proof.
  intros p h Hp Hl.
  assert (Hq : p = 1%nat \/ p = 2%nat \/ p = 3%nat \/ p = 4%nat) by lia.
  destruct Hq as [Hq|[Hq|[Hq|Hq]]]; subst p.
  1: destruct h as [|h0 h]; cbn [length] in Hl; try lia.
  2: destruct h as [|h0 [|h1 h]]; cbn [length] in Hl; try lia.
  3: destruct h as [|h0 [|h1 [|h2 h]]]; cbn [length] in Hl; try lia.
  4: destruct h as [|h0 [|h1 [|h2 [|h3 h]]]]; cbn [length] in Hl; try lia.
  all: cbn [rawCoeffs]; do 5 eexists; repeat split.
Qed.

(** Coefficients stored in a state are those of order [q] for the steps [h]. *)
Definition Cof (q : nat) (h : list R) (s : st R) : Prop :=
  exists uc a b h0 t, rawCoeffs Rops q h = Some (uc, a, b) /\ h = h0 :: t /\
    firstn q (uFac s) = map (fun x => x / uc) a /\
    firstn q (fFac s) = map (fun x => x / uc) b /\
    dtImp s = h0 / uc.

Definition lens (m : nat) (s : st R) : Prop :=
  length (uV s) = m /\ length (fV s) = m /\ length (ts s) = m /\
  length (uFac s) = m /\ length (fFac s) = m.

(** What an attempt leaves alone. *)
Definition frame (s s' : st R) : Prop :=
  uV s' = uV s /\ fV s' = fV s /\ order s' = order s /\ lastOrder s' = lastOrder s /\
  lastTs s' = lastTs s /\ simtime s' = simtime s /\ icount s' = icount s /\
  log s' = log s /\ tl (ts s') = tl (ts s).

Lemma frame_refl : forall s, frame s s.
Proof. intros. repeat split. Qed.

Lemma frame_trans : forall a b c, frame a b -> frame b c -> frame a c.
Proof.
  intros a b c (A1&A2&A3&A4&A5&A6&A7&A8&A9) (B1&B2&B3&B4&B5&B6&B7&B8&B9).
  repeat split; congruence.
Qed.

Section R.
Variable c : cfg R.
Variable imp : nat -> V R -> V R -> R -> R -> option (V R).
Variable conv : R -> V R -> V R.
Variable scale : V R -> V R -> nat -> R.
Variable m : nat.
Hypothesis Hm : maxOrder c = m.
Hypothesis Hm2 : (2 <= m <= 4)%nat.

Definition call_ok (p : nat) (s : st R) (k : call R) : Prop :=
  k_out k = u s /\
  imp (k_no k) (k_guess k) (k_rhs k) (k_gamma k) (k_time k) = Some (k_out k) /\
  k_gamma k = dtImp s /\ k_time k = simtime s + hd 0 (ts s) /\
  k_rhs k = rhsLoop Rops p (uV s) (fV s) (uFac s) (fFac s) 0.

Lemma calc_ok : forall p s, lens m s -> (1 <= p <= m)%nat ->
  exists s', calcCoeffs Rops p s = Ok s' /\ frame s s' /\ lens m s' /\ ts s' = ts s /\
    Cof p (ts s') s' /\ u s' = u s /\ dtNext s' = dtNext s.
Proof.
  intros p s (L1&L2&L3&L4&L5) Hp. unfold calcCoeffs.
  destruct (Nat.eqb_spec p 0); [lia|]. destruct (Nat.ltb_spec 4 p); [lia|].
  cbn [orb]. destruct (Nat.ltb_spec (length (uFac s)) p); [lia|].
  destruct (@rawCoeffs_some p (ts s)) as (uc&a&b&h0&t&E&Et&La&Lb); try lia.
  rewrite E, Et. eexists. split; [reflexivity|].
  cbn [uV fV ts uFac fFac dtImp order lastOrder lastTs simtime icount log u dtNext].
  split; [|split; [|split; [|split; [|split; reflexivity]]]].
  - unfold frame. cbn [uV fV ts uFac fFac dtImp order lastOrder lastTs simtime icount log].
    rewrite Et. repeat split; reflexivity.
  - unfold lens. cbn [uV fV ts uFac fFac].
    rewrite !app_length, !skipn_length, !map_length.
    repeat split; try lia. rewrite <- Et. lia.
  - reflexivity.
  - exists uc, a, b, h0, t. cbn [uFac fFac dtImp odiv Rops].
    rewrite <- Et at 1. split; [exact E|]. split; [reflexivity|].
    rewrite !firstn_app, !map_length, La, Lb, Nat.sub_diag. cbn [firstn].
    rewrite !app_nil_r. split; [|split; [|reflexivity]].
    + apply firstn_all2. rewrite map_length. lia.
    + apply firstn_all2. rewrite map_length. lia.
Qed.

Definition pred_ok : Prop := predictor c = 2%nat -> (3 <= m)%nat.

Lemma guess_cases : forall uv rhs, length uv = m ->
  (exists g, guess Rops c uv rhs = Ok g) \/ (~ pred_ok /\ guess Rops c uv rhs = Ub).
Proof.
  intros uv rhs L. unfold guess, pred_ok.
  destruct (predictor c) as [|[|[|n]]];
    destruct uv as [|x [|y [|z uv]]]; cbn [length] in L; try lia;
    try (left; eexists; reflexivity).
  right. split; [|reflexivity]. intro H. specialize (H eq_refl). lia.
Qed.

Lemma take_cases : forall p s, lens m s -> (p <= m)%nat ->
  (takeStep Rops c imp p s = Ub /\ ~ pred_ok) \/
  (takeStep Rops c imp p s = Ok None /\
    exists n g r a t, imp n g r a t = None) \/
  exists s' k, takeStep Rops c imp p s = Ok (Some s') /\ frame s s' /\ lens m s' /\
    ts s' = ts s /\ uFac s' = uFac s /\ fFac s' = fFac s /\ dtImp s' = dtImp s /\
    lastCall s' = Some k /\ call_ok p s' k.
Proof.
  intros p s L Hp. pose proof L as (L1&L2&L3&L4&L5). unfold takeStep.
  destruct (Nat.ltb_spec (length (uV s)) p); [lia|].
  destruct (ts s) as [|h0 t] eqn:Et; [cbn [length] in L3; lia|].
  cbv zeta.
  match goal with |- context [guess Rops c (uV s) ?r] =>
    destruct (@guess_cases (uV s) r L1) as [[g Eg]|[Hn Eg]] end; rewrite Eg;
    cbn [bind]; [|left; split; [reflexivity|assumption]].
  right.
  match goal with |- context [imp ?n ?g ?r ?a ?t] => destruct (imp n g r a t) as [x|] eqn:Ei end.
  - right. eexists _, _. split; [reflexivity|].
    cbn [uV fV ts uFac fFac dtImp order lastOrder lastTs simtime icount log u lastCall].
    unfold frame, lens, call_ok.
    cbn [uV fV ts uFac fFac dtImp order lastOrder lastTs simtime icount log u k_out k_no k_guess k_rhs k_gamma k_time].
    cbn [length] in L3. rewrite Et. cbn [length hd].
    repeat split; try assumption; try reflexivity.
  - left. split; [reflexivity|]. do 5 eexists. exact Ei.
Qed.

(** The length of the step tried in a pass. *)
Definition want (s : st R) : R := clamp Rops c (dtNext s).
Definition tried (cum : R) (s : st R) : R :=
  if Rlt_dec (outStep c) (cum + want s) then outStep c - cum else want s.

Definition oot (s : st R) : Prop :=
  eqOrder (order s) (lastOrder s) = false \/ eqList Rops (lastTs s) (ts s) = false.

Record done_ok (checking : bool) (cum : R) (s s' : st R) : Prop := {
  d_frame : frame s s';
  d_lens : lens m s';
  d_step : hd 0 (ts s') = tried cum s;
  d_fatal : dtMinFatal c <= dtNext s;
  d_call : exists k, lastCall s' = Some k /\ call_ok (order s) s' k;
  d_cof : checking = true \/ oot s' -> Cof (order s) (ts s') s';
  d_keep : checking = false -> ~ oot s' ->
     uFac s' = uFac s /\ fFac s' = fFac s /\ dtImp s' = dtImp s;
  d_next : checking = false -> dtNext s' = want s }.

Record retry_ok (checking : bool) (s s' : st R) (ac fc ac' fc' : nat) : Prop := {
  r_frame : frame s s';
  r_lens : lens m s';
  r_count : (ac' = ac /\ fc' = S fc /\ (fc < 10)%nat /\ adaptive c = true /\
              exists n g r a t, imp n g r a t = None)
         \/ (ac' = S ac /\ fc' = fc /\ (ac < mxstepAdapt c)%nat /\ checking = true) }.

Lemma Rltb_true : forall a b, Rltb a b = true -> a < b.
Proof. intros a b. unfold Rltb. destruct (Rlt_dec a b); [auto|discriminate]. Qed.
Lemma Rltb_false : forall a b, Rltb a b = false -> b <= a.
Proof. intros a b. unfold Rltb. destruct (Rlt_dec a b); [discriminate|intro; lra]. Qed.

Lemma lens_setStep : forall d s, lens m s -> lens m (setStep d s).
Proof.
  intros d s (L1&L2&L3&L4&L5). unfold lens, setStep.
  cbn [uV fV ts uFac fFac]. repeat split; try assumption.
  destruct (ts s); cbn [length tl] in *; lia.
Qed.

Lemma frame_setStep : forall d s, frame s (setStep d s).
Proof. intros. repeat split. Qed.

Lemma failed_spec : forall s d ac fc,
  (exists w, failed Rops c s d ac fc = Throw w) \/
  exists s', failed Rops c s d ac fc = Ok (s', true, ac, S fc) /\
    adaptive c = true /\ (fc < 10)%nat /\ frame s s' /\ (lens m s -> lens m s').
Proof.
  intros. unfold failed. destruct (adaptive c) eqn:Ea; cbn [negb];
    [|left; eexists; reflexivity].
  destruct (Nat.ltb_spec 10 (S fc)); [left; eexists; reflexivity|].
  right. eexists. split; [reflexivity|]. split; [reflexivity|]. split; [lia|].
  split; [repeat split|]. intros (L1&L2&L3&L4&L5). unfold lens, setNext, bump.
  cbn [uV fV ts uFac fFac]. repeat split; assumption.
Qed.

Lemma judge_spec : forall s low d ac fc,
  (exists w, judge Rops c scale s low d ac fc = Throw w) \/
  exists d' r, judge Rops c scale s low d ac fc = Ok (setNext d' s, r, S ac, fc) /\
    (ac < mxstepAdapt c)%nat.
Proof.
  intros. unfold judge. cbv zeta.
  match goal with |- context [let '(_,_) := ?e in _] => destruct e as [r d'] end.
  destruct (Nat.ltb_spec (mxstepAdapt c) (S ac)); [left; eexists; reflexivity|].
  right. exists d', r. split; [reflexivity|lia].
Qed.

Lemma setNext_call : forall p d s k, call_ok p s k -> call_ok p (setNext d s) k.
Proof. intros p d s k H. exact H. Qed.

Lemma attempt_spec : forall checking cum s ac fc,
  lens m s -> (1 <= order s <= m)%nat ->
  (checking = true -> (2 <= order s)%nat) ->
  (exists w, attempt Rops c imp scale checking cum s ac fc = Throw w) \/
  (attempt Rops c imp scale checking cum s ac fc = Ub /\ ~ pred_ok) \/
  (exists s' ac' fc', attempt Rops c imp scale checking cum s ac fc = Ok (s', false, ac', fc')
      /\ done_ok checking cum s s') \/
  (exists s' ac' fc', attempt Rops c imp scale checking cum s ac fc = Ok (s', true, ac', fc')
      /\ retry_ok checking s s' ac fc ac' fc').
Proof.
  intros checking cum s ac fc L Ho Hc. unfold attempt.
  cbn [olt Rops oadd osub].
  destruct (Rltb (dtNext s) (dtMinFatal c)) eqn:Ef; [left; eexists; reflexivity|].
  apply Rltb_false in Ef.
  set (d1 := clamp Rops c (dtNext s)).
  set (d2 := if Rltb (outStep c) (cum + d1) then outStep c - cum else d1).
  assert (Hd2 : d2 = tried cum s).
  { unfold d2, tried, want, d1, Rltb. destruct (Rlt_dec _ _); reflexivity. }
  destruct (ts s) as [|h0 t] eqn:Et.
  { destruct L as (_&_&L&_). rewrite Et in L. cbn [length] in L. lia. }
  cbv zeta.
  pose proof (lens_setStep d2 s L) as L1. pose proof (frame_setStep d2 s) as F1.
  assert (S1 : hd 0 (ts (setStep d2 s)) = tried cum s) by (cbn [setStep ts hd]; exact Hd2).
  assert (O1 : order (setStep d2 s) = order s) by reflexivity.
  set (s1 := setStep d2 s) in *.
  assert (Hhigh : forall s2 low, frame s1 s2 -> lens m s2 -> ts s2 = ts s1 ->
     (checking = true <-> low <> None) ->
     (checking = false -> s2 = s1) ->
     let r := (s3 <- (if (negb (eqOrder (order s2) (lastOrder s2))
                 || negb (eqList Rops (lastTs s2) (ts s2)) || checking)%bool
             then calcCoeffs Rops (order s2) s2 else Ok s2) ;;
      r <- takeStep Rops c imp (order s3) s3 ;;
      match r with
      | None => failed Rops c s3 d2 ac fc
      | Some s4 =>
          match low with
          | Some l => judge Rops c scale s4 l d2 ac fc
          | None => Ok (setNext d1 s4, false, ac, fc)
          end
      end) in
     (exists w, r = Throw w) \/ (r = Ub /\ ~ pred_ok) \/
     (exists s' ac' fc', r = Ok (s', false, ac', fc') /\ done_ok checking cum s s') \/
     (exists s' ac' fc', r = Ok (s', true, ac', fc') /\ retry_ok checking s s' ac fc ac' fc')).
  { intros s2 low F2 L2 T2 Hlow Hs2. cbv zeta.
    pose proof F2 as (_&_&O2&_).
    set (cnd := (negb (eqOrder (order s2) (lastOrder s2))
                 || negb (eqList Rops (lastTs s2) (ts s2)) || checking)%bool).
    assert (H3 : exists s3, (if cnd then calcCoeffs Rops (order s2) s2 else Ok s2) = Ok s3 /\
        frame s2 s3 /\ lens m s3 /\ ts s3 = ts s2 /\
        (cnd = true -> Cof (order s) (ts s3) s3) /\ (cnd = false -> s3 = s2)).
    { destruct cnd eqn:Ec.
      - destruct (@calc_ok (order s2) s2 L2) as (s3&E3&F3&L3&T3&C3&_); [lia|].
        exists s3. split; [exact E3|]. split; [exact F3|]. split; [exact L3|].
        split; [exact T3|]. split; [|discriminate].
        intros _. rewrite <- O1, <- O2. exact C3.
      - exists s2. split; [reflexivity|]. split; [apply frame_refl|].
        split; [exact L2|]. split; [reflexivity|]. split; [discriminate|]. reflexivity. }
    destruct H3 as (s3&E3&F3&L3&T3&C3&K3). rewrite E3. cbn [bind].
    assert (F13 : frame s s3) by exact (frame_trans _ _ _ F1 (frame_trans _ _ _ F2 F3)).
    pose proof F13 as (_&_&O3&_).
    destruct (@take_cases (order s3) s3 L3) as [[E4 Hn]|[[E4 Hf]|(s4&k&E4&F4&L4&T4&U4&V4&D4&K4&Q4)]];
      [lia| | |]; rewrite E4; cbn [bind].
    - right; left. split; [reflexivity|exact Hn].
    - destruct (@failed_spec s3 d2 ac fc) as [[w E5]|(s5&E5&A5&B5&F5&L5)]; rewrite E5.
      + left. eexists; reflexivity.
      + right; right; right. exists s5, ac, (S fc). split; [reflexivity|].
        constructor.
        * exact (frame_trans _ _ _ F13 F5).
        * apply L5, L3.
        * left. repeat split; assumption.
    - assert (F04 : frame s s4) by exact (frame_trans _ _ _ F13 F4).
      assert (Hdone : forall d', (checking = false -> d' = want s) -> done_ok checking cum s (setNext d' s4)).
      { intros d' Hd'. constructor.
        - exact F04.
        - exact L4.
        - cbn [setNext ts]. rewrite T4, T3, T2. exact S1.
        - exact Ef.
        - exists k. split; [exact K4|]. rewrite <- O3. exact Q4.
        - intros Hx. assert (Ec : cnd = true).
          { unfold cnd. destruct Hx as [Hx|Hx].
            - rewrite Hx. apply orb_true_r.
            - unfold oot in Hx. cbn [setNext order lastOrder lastTs ts] in Hx.
              destruct F4 as (_&_&e1&e2&e3&_). destruct F3 as (_&_&e4&e5&e6&_).
              rewrite T4, T3, e1, e2, e3, e4, e5, e6 in Hx.
              destruct Hx as [Hx|Hx]; rewrite Hx; cbn [negb orb];
                [reflexivity|apply orb_true_iff; left; apply orb_true_r]. }
          specialize (C3 Ec). destruct C3 as (uc&a&b&g0&tt&X1&X2&X3&X4&X5).
          exists uc, a, b, g0, tt. cbn [setNext ts uFac fFac dtImp].
          rewrite T4, U4, V4, D4. repeat split; assumption.
        - intros Hx Hno. assert (Ec : cnd = false).
          { unfold cnd. rewrite Hx, orb_false_r.
            destruct (eqOrder (order s2) (lastOrder s2)) eqn:Y1.
            - destruct (eqList Rops (lastTs s2) (ts s2)) eqn:Y2; [reflexivity|].
              exfalso. apply Hno. right. cbn [setNext order lastOrder lastTs ts].
              destruct F4 as (_&_&e1&e2&e3&_). destruct F3 as (_&_&e4&e5&e6&_).
              rewrite T4, T3, e3, e6. exact Y2.
            - exfalso. apply Hno. left. cbn [setNext order lastOrder lastTs ts].
              destruct F4 as (_&_&e1&e2&e3&_). destruct F3 as (_&_&e4&e5&e6&_).
              rewrite e1, e2, e4, e5. exact Y1. }
          cbn [setNext uFac fFac dtImp]. rewrite U4, V4, D4, (K3 Ec), (Hs2 Hx).
          repeat split.
        - intros Hx. cbn [setNext dtNext]. apply Hd', Hx. }
      destruct low as [l|].
      + assert (Hck : checking = true) by (apply Hlow; discriminate).
        destruct (@judge_spec s4 l d2 ac fc) as [[w E5]|(d'&r&E5&B5)]; rewrite E5.
        * left. eexists; reflexivity.
        * right; right. destruct r.
          -- right. exists (setNext d' s4), (S ac), fc. split; [reflexivity|].
             constructor; [exact F04|exact L4|]. right. repeat split; assumption.
          -- left. exists (setNext d' s4), (S ac), fc. split; [reflexivity|].
             apply Hdone. intro Hx. congruence.
      + right; right; left. exists (setNext d1 s4), ac, fc. split; [reflexivity|].
        apply Hdone. reflexivity. }
  destruct checking eqn:Eck.
  - specialize (Hc eq_refl).
    destruct (@calc_ok (order s1 - 1) s1 L1) as (s2&E2&F2&L2&T2&C2&_); [lia|].
    rewrite E2. cbn [bind].
    destruct (@take_cases (order s1 - 1) s2 L2) as [[E4 Hn]|[[E4 Hf]|(s4&k&E4&F4&L4&T4&U4&V4&D4&K4&Q4)]];
      [lia| | |]; rewrite E4; cbn [bind].
    + right; left. split; [reflexivity|exact Hn].
    + destruct (@failed_spec s2 d2 ac fc) as [[w E5]|(s5&E5&A5&B5&F5&L5)]; rewrite E5.
      * left. eexists; reflexivity.
      * right; right; right. exists s5, ac, (S fc). split; [reflexivity|].
        constructor.
        -- exact (frame_trans _ _ _ F1 (frame_trans _ _ _ F2 F5)).
        -- apply L5, L2.
        -- left. repeat split; assumption.
    + refine (Hhigh s4 (Some (u s4)) (frame_trans _ _ _ F2 F4) L4 _ _ _).
      * congruence.
      * split; [discriminate|reflexivity].
      * discriminate.
  - refine (Hhigh s1 None (frame_refl _) L1 eq_refl _ (fun _ => eq_refl)).
    split; [discriminate|]. intro H; exfalso; apply H; reflexivity.
Qed.

End R.
