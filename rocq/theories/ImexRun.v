From Coq Require Import List Bool Arith Reals Lra Lia.
From Verif Require Import ImexModel ImexSpec ImexCoef ImexCoef4 ImexProofs.
Import ListNotations.
Local Open Scope R_scope.

Lemma sumn_front : forall n f, sumn (S n) f = f 0%nat + sumn n (fun k => f (S k)).
Proof.
  induction n as [|n IHn]; intro f; [cbn [sumn]; ring|].
  change (sumn (S (S n)) f) with (sumn (S n) f + f (S n)).
  rewrite IHn. cbn [sumn]. ring.
Qed.

Lemma rhsLoop_sum : forall p uv fv a b x i d,
  (p <= length uv)%nat -> (p <= length fv)%nat -> (p <= length a)%nat -> (p <= length b)%nat ->
  rhsLoop Rops p uv fv a b x i
  = x + sumn p (fun j => nth j uv d i * nth j a 0 + nth j fv d i * nth j b 0).
Proof.
  induction p as [|p IH]; intros uv fv a b x i d H1 H2 H3 H4.
  - cbn [rhsLoop sumn]. ring.
  - destruct uv, fv, a, b; cbn [length] in *; try lia.
    cbn [rhsLoop]. rewrite (IH _ _ _ _ _ _ d) by lia.
    rewrite sumn_front. cbn [nth Rops oadd omul]. ring.
Qed.

Lemma removelast_firstn : forall A (l : list A), removelast l = firstn (length l - 1) l.
Proof.
  intros A. induction l as [|x l IH]; [reflexivity|].
  destruct l as [|y l]; [reflexivity|].
  change (removelast (x :: y :: l)) with (x :: removelast (y :: l)).
  rewrite IH. cbn [length]. replace (S (S (length l)) - 1)%nat with (S (length l)) by lia.
  replace (S (length l) - 1)%nat with (length l) by lia. reflexivity.
Qed.

Lemma shift_hist : forall A B (g : B -> A) (x : A) l (L : list B) e m,
  length l = m -> (1 <= m)%nat -> firstn (length L) l = firstn m (map g L) -> x = g e ->
  firstn (length (e :: L)) (shift x l) = firstn m (map g (e :: L)).
Proof.
  intros A B g x l L e m Hl Hm H Hx. unfold shift.
  destruct m as [|m']; [lia|]. cbn [length firstn map]. rewrite Hx. f_equal.
  rewrite removelast_firstn, Hl. replace (S m' - 1)%nat with m' by lia.
  rewrite firstn_firstn, Nat.min_comm, <- firstn_firstn, H, firstn_firstn.
  f_equal. lia.
Qed.

Lemma shift_length : forall A (x : A) l, (1 <= length l)%nat -> length (shift x l) = length l.
Proof.
  intros A x l H. unfold shift. cbn [length]. rewrite removelast_firstn, firstn_length. lia.
Qed.

Lemma hist_nth : forall A B (g : B -> A) l (L : list B) m j d e,
  firstn (length L) l = firstn m (map g L) -> (j < length L)%nat -> (j < m)%nat ->
  nth j l d = g (nth j L e).
Proof.
  intros A B g l L m j d e H H1 H2.
  transitivity (nth j (firstn (length L) l) d).
  - rewrite <- (firstn_skipn (length L) l) at 1.
    destruct (Nat.lt_ge_cases j (length (firstn (length L) l))) as [Hj|Hj].
    + rewrite app_nth1 by exact Hj. reflexivity.
    + assert (length (firstn m (map g L)) <= j)%nat by (rewrite <- H; exact Hj).
      rewrite firstn_length, map_length in H0. lia.
  - rewrite H. 
    assert (Hn : forall n, (j < n)%nat -> nth j (firstn n (map g L)) d = nth j (map g L) d).
    { intros n Hn. rewrite <- (firstn_skipn n (map g L)) at 2. rewrite app_nth1; [reflexivity|].
      rewrite firstn_length, map_length. lia. }
    rewrite Hn by exact H2. rewrite <- (map_nth g).
    apply nth_indep. rewrite map_length. exact H1.
Qed.

Lemma moments_ext : forall p s s' a b g, (forall j, (j < p)%nat -> s j = s' j) ->
  moments p s a b g -> moments p s' a b g.
Proof.
  intros p s s' a b g H [A B]. split; intros q Hq.
  - rewrite (A q Hq). f_equal. apply sumn_ext. intros j Hj. rewrite (H j Hj). reflexivity.
  - rewrite <- (B q Hq). apply sumn_ext. intros j Hj. rewrite (H j Hj). reflexivity.
Qed.

Section R.
Variable c : cfg R.
Variable imp : nat -> V R -> V R -> R -> R -> option (V R).
Variable conv : R -> V R -> V R.
Variable scale : V R -> V R -> nat -> R.
Variable m : nat.
Hypothesis Hm : maxOrder c = m.
Hypothesis Hm2 : (2 <= m <= 4)%nat.
Variable u0 : V R.
Variable t0 : R.
Hypothesis Hfatal : 0 < dtMinFatal c.
Hypothesis Hmax : dtMin c <= dtMax c.
Hypothesis Hmaxp : 0 < dtMax c.

Notation attempt := (attempt Rops c imp scale).
Notation inner := (inner Rops c imp scale).
Notation steps := (steps Rops c imp conv scale).
Notation outputs := (outputs Rops c imp conv scale).

(** When can the stored coefficients be trusted? *)
Definition fresh : Prop :=
  adaptive c = false \/ nadapt c = 1%nat \/ (forall n g r a t, imp n g r a t <> None).

Lemma inner_spec : forall fuel checking cum s ac fc,
  lens m s -> (1 <= order s <= m)%nat -> (checking = true -> (2 <= order s)%nat) ->
  (ac <= mxstepAdapt c)%nat -> (fc <= 10)%nat ->
  (exists w, inner fuel checking cum s ac fc = Throw w) \/
  (inner fuel checking cum s ac fc = Ub /\ ~ pred_ok c m) \/
  (inner fuel checking cum s ac fc = NoFuel /\
     (fuel < (10 - fc) + (mxstepAdapt c - ac) + 1)%nat) \/
  (exists s0 s', inner fuel checking cum s ac fc = Ok s' /\ frame s s0 /\ lens m s0 /\
     done_ok c imp m checking cum s0 s' /\
     (s0 = s \/ checking = true \/
       (adaptive c = true /\ exists n g r a t, imp n g r a t = None))).
Proof.
  induction fuel as [|k IH]; intros checking cum s ac fc L Ho Hc Ha Hf.
  - right; right; left. split; [reflexivity|lia].
  - cbn [ImexModel.inner].
    destruct (@attempt_spec c imp scale m Hm Hm2 checking cum s ac fc L Ho Hc)
      as [[w E]|[[E Hn]|[(s'&ac'&fc'&E&D)|(s'&ac'&fc'&E&D)]]]; rewrite E; cbn [bind].
    + left. eexists; reflexivity.
    + right; left. split; [reflexivity|assumption].
    + right; right; right. exists s, s'. split; [reflexivity|].
      split; [apply frame_refl|]. split; [exact L|]. split; [exact D|]. left; reflexivity.
    + destruct D as [F L' C]. pose proof F as (_&_&O'&_).
      assert (Hx : (ac' <= mxstepAdapt c)%nat /\ (fc' <= 10)%nat /\
        ((10 - fc') + (mxstepAdapt c - ac') + 1 < (10 - fc) + (mxstepAdapt c - ac) + 1)%nat
        /\ (checking = true \/ (adaptive c = true /\ exists n g r a t, imp n g r a t = None))).
      { destruct C as [(A1&A2&A3&A4&A5)|(A1&A2&A3&A4)]; subst ac' fc';
          (split; [lia|]; split; [lia|]; split; [lia|]);
          [right; split; assumption|left; assumption]. }
      destruct Hx as (X1&X2&X3&X4).
      destruct (IH checking cum s' ac' fc' L' ltac:(lia) ltac:(intro y; specialize (Hc y); lia) X1 X2)
        as [[w E']|[[E' Hn]|[[E' Hlt]|(s0&s''&E'&F0&L0&D0&_)]]]; rewrite E'.
      * left. eexists; reflexivity.
      * right; left. split; [reflexivity|assumption].
      * right; right; left. split; [reflexivity|lia].
      * right; right; right. exists s0, s''. split; [reflexivity|].
        split; [exact (frame_trans _ _ _ F F0)|]. split; [exact L0|]. split; [exact D0|].
        right. exact X4.
Qed.

Fixpoint goodLog (l : list (acc R)) : Prop :=
  match l with
  | [] => True
  | e :: older =>
      chained imp conv u0 t0 e older /\ (fresh -> imex_step e older) /\
      a_order e = Nat.min (S (length older)) m /\
      k_time (a_call e) = a_t0 e + a_dt e /\ goodLog older
  end.

Fixpoint chainLog (l : list (acc R)) : Prop :=
  match l with
  | [] => True
  | e :: older => chained imp conv u0 t0 e older /\ chainLog older
  end.

Lemma good_chain : forall l, goodLog l -> chainLog l.
Proof.
  induction l as [|e l IH]; intro H; [exact I|]. cbn [goodLog chainLog] in *.
  destruct H as (H1&_&_&_&H2). split; [exact H1|apply IH, H2].
Qed.

Record Inv (s : st R) : Prop := {
  i_lens : lens m s;
  i_order : order s = Nat.min (S (length (log s))) m;
  i_last : match log s with
           | [] => lastOrder s = None /\ u s = u0 /\ simtime s = t0
           | e :: _ => lastOrder s = Some (a_order e) /\ lastTs s = ts s /\
               (fresh -> Cof (a_order e) (ts s) s) /\
               u s = k_out (a_call e) /\ simtime s = a_t0 e + a_dt e
           end;
  i_pos : Forall (fun x => 0 < x) (ts s);
  i_u : firstn (length (log s)) (uV s) = firstn m (map (@a_u0 R) (log s));
  i_f : firstn (length (log s)) (fV s) = firstn m (map (@a_f0 R) (log s));
  i_t : firstn (length (log s)) (ts s) = firstn m (map (@a_dt R) (log s));
  i_log : goodLog (log s) }.

Lemma Forall_removelast : forall A (Q : A -> Prop) l, Forall Q l -> Forall Q (removelast l).
Proof.
  intros A Q l H. rewrite removelast_firstn. apply Forall_forall. intros x Hx.
  rewrite Forall_forall in H. apply H. rewrite <- (firstn_skipn (length l - 1) l).
  apply in_or_app. left. exact Hx.
Qed.

Lemma times : forall L, chainLog L -> forall e older, L = e :: older ->
  forall j, (j < length L)%nat ->
  a_t0 (nth j L noacc) = a_t0 e + a_dt e - fold_right Rplus 0 (firstn (S j) (map (@a_dt R) L)).
Proof.
  induction L as [|e0 L IH]; intros G e older E j Hj; [discriminate|].
  injection E as -> ->. destruct j as [|j].
  - cbn [nth map firstn fold_right]. ring.
  - destruct older as [|e' older]; [cbn [length] in Hj; lia|].
    cbn [chainLog] in G. destruct G as (C&G').
    destruct C as (_&_&C1&C2).
    change (nth (S j) (e :: e' :: older) noacc) with (nth j (e' :: older) noacc).
    rewrite (IH G' e' older eq_refl j ltac:(cbn [length] in *; lia)).
    change (map (@a_dt R) (e :: e' :: older)) with (a_dt e :: map (@a_dt R) (e' :: older)).
    change (firstn (S (S j)) (a_dt e :: map (@a_dt R) (e' :: older)))
      with (a_dt e :: firstn (S j) (map (@a_dt R) (e' :: older))).
    cbn [fold_right]. rewrite C1. ring.
Qed.

(** One accepted step. *)
Lemma tried_pos : forall cum s, cum < outStep c -> dtMinFatal c <= dtNext s ->
  0 < tried c cum s /\ tried c cum s <= dtMax c /\
  ((cum + tried c cum s = outStep c) \/
   (cum + tried c cum s <= outStep c /\ dtMin c <= tried c cum s)).
Proof.
  intros cum s Hc Hd. unfold tried.
  assert (Hw : 0 < want c s /\ want c s <= dtMax c /\ dtMin c <= want c s).
  { unfold want, clamp. cbn [olt Rops]. unfold Rltb.
    destruct (Rlt_dec (dtNext s) (dtMin c)); [lra|].
    destruct (Rlt_dec (dtMax c) (dtNext s)); lra. }
  destruct (Rlt_dec (outStep c) (cum + want c s)); lra.
Qed.

Lemma eqList_true : forall a b, eqList Rops a b = true -> a = b.
Proof.
  induction a as [|x a IH]; intros [|y b] H; cbn [eqList] in H; try discriminate; [reflexivity|].
  apply andb_true_iff in H as [H1 H2]. rewrite (IH _ H2). f_equal.
  cbn [oeq Rops] in H1. unfold Reqb in H1. destruct (Req_EM_T x y); [assumption|discriminate].
Qed.

Definition cfg_ok : Prop := pred_ok c m /\ (adaptive c = true -> nadapt c <> 0%nat).

Lemma one_step : forall fi cum s, Inv s -> cum < outStep c ->
  let r := (s1 <- shuffle s (conv (simtime s) (u s)) ;;
            ck <- checks c s1 ;;
            s2 <- inner fi ck cum s1 0 0 ;;
            accept Rops c (simtime s) (u s) (conv (simtime s) (u s)) s2) in
  (exists w, r = Throw w) \/ (r = Ub /\ ~ cfg_ok) \/
  (r = NoFuel /\ (fi < 11 + mxstepAdapt c)%nat) \/
  (exists s3 e, r = Ok s3 /\ Inv s3 /\ log s3 = e :: log s /\ hd 0 (ts s3) = a_dt e /\
     0 < a_dt e <= dtMax c /\
     (cum + a_dt e = outStep c \/ (cum + a_dt e <= outStep c /\ dtMin c <= a_dt e))).
Proof.
  intros fi cum s I Hcum. cbv zeta. destruct I as [L Io Il Ip Iu If It Ig].
  pose proof L as (L1&L2&L3&L4&L5).
  unfold shuffle.
  destruct (uV s) as [|x0 uv] eqn:Eu; [cbn [length] in L1; lia|].
  destruct (fV s) as [|y0 fv] eqn:Efv; [cbn [length] in L2; lia|].
  destruct (ts s) as [|h0 [|h1 t]] eqn:Et; try (cbn [length] in L3; lia).
  cbn [bind]. rewrite <- Eu, <- Efv, <- Et in *.
  set (s1 := mkst _ _ _ _ _ _ _ _ _ _ _ _ _ _ _ _).
  assert (Ls1 : lens m s1).
  { unfold lens, s1. cbn [uV fV ts uFac fFac]. rewrite !shift_length by lia.
    repeat split; assumption. }
  assert (Os1 : order s1 = order s) by reflexivity.
  unfold checks.
  destruct (adaptive c && Nat.eqb (nadapt c) 0)%bool eqn:Ead.
  { apply andb_true_iff in Ead as [A1 A2]. rewrite A1, A2. cbn [bind].
    right; left. split; [reflexivity|]. intros [_ K]. apply (K A1).
    apply Nat.eqb_eq. exact A2. }
  assert (Ecks : exists ck, (if adaptive c then
      (if Nat.eqb (nadapt c) 0 then Ub
      else Ok (Nat.eqb (icount s1 mod nadapt c) 0 && Nat.ltb 1 (order s1))%bool) else Ok false) = Ok ck
    /\ (ck = true -> (2 <= order s1)%nat) /\
    (fresh -> ck = false -> (adaptive c = true -> exists n g r a t, imp n g r a t = None) ->
      adaptive c = true -> order s1 = 1%nat)).
  { destruct (adaptive c) eqn:Ea.
    - cbn [andb] in Ead. rewrite Ead. eexists. split; [reflexivity|]. split.
      + intro H. apply andb_true_iff in H as [_ H]. apply Nat.ltb_lt in H. lia.
      + intros [H|[H|H]] Hck Hx _; [congruence| |].
        * rewrite H in Hck. rewrite Nat.mod_1_r in Hck. cbn [Nat.eqb andb] in Hck.
          apply Nat.ltb_ge in Hck. rewrite Os1, Io in *. lia.
        * destruct (Hx eq_refl) as (n&g&rr&aa&tt&Hi). exfalso. exact (H _ _ _ _ _ Hi).
    - eexists. split; [reflexivity|]. split; [discriminate|]. discriminate. }
  destruct Ecks as (ck&Eck&Hck1&Hck2). rewrite Eck. cbn [bind].
  destruct (@inner_spec fi ck cum s1 0 0 Ls1) as [[w E]|[[E Hn]|[[E Hlt]|(s0&s2&E&F0&L0&D&Hs0)]]];
    [lia|exact Hck1|lia|lia| | | |]; rewrite E; cbn [bind].
  - left. eexists; reflexivity.
  - right; left. split; [reflexivity|]. intros [K _]. exact (Hn K).
  - right; right; left. split; [reflexivity|lia].
  - right; right; right.
    destruct D as [DF DL DS DFa DC DCof DK DN].
    pose proof (frame_trans _ _ _ F0 DF) as (G1&G2&G3&G4&G5&G6&G7&G8&G9).
    destruct (tried_pos _ _ Hcum DFa) as (P1&P2&P3).
    unfold accept. destruct (ts s2) as [|d2 t2] eqn:Et2.
    { destruct DL as (_&_&DL&_). rewrite Et2 in DL. cbn [length] in DL. lia. }
    destruct DC as (k&Ek&Ck). rewrite Ek.
    cbn [hd] in DS. subst d2. set (dt := tried c cum s0) in *.
    eexists. set (e := mkacc (simtime s) (u s) (conv (simtime s) (u s)) dt (order s2) k).
    exists e. split; [reflexivity|].
    cbn [log ts hd]. unfold s1 in G8, G6, G3, G1, G2, G9.
    cbn [uV fV order simtime log ts] in G8, G6, G3, G1, G2, G9.
    assert (Etl : t2 = removelast (ts s)).
    { cbn [tl] in G9. rewrite G9. unfold shift. reflexivity. }
    assert (Et2' : dt :: t2 = shift dt (ts s)) by (unfold shift; rewrite Etl; reflexivity).
    assert (F0o : order s0 = order s) by (destruct F0 as (_&_&x&_); rewrite x; exact Os1).
    assert (Lts : length (dt :: t2) = m).
    { destruct DL as (_&_&y&_). rewrite Et2 in y. exact y. }
    assert (Hpos : Forall (fun x => 0 < x) (dt :: t2)).
    { constructor; [exact P1|]. rewrite Etl. apply Forall_removelast. exact Ip. }
    assert (HCof : fresh -> Cof (order s) (dt :: t2) s2).
    { intro Hf. rewrite F0o in DCof.
      destruct ck eqn:Hckv; [apply DCof; left; reflexivity|].
      assert (Hdec : oot s2 \/ ~ oot s2).
      { unfold oot. destruct (eqOrder (order s2) (lastOrder s2)); destruct (eqList Rops (lastTs s2) (ts s2));
          try (left; right; reflexivity); try (left; left; reflexivity).
        right. intros [X|X]; discriminate. }
      destruct Hdec as [Ho|Hno]; [apply DCof; right; exact Ho|].
      destruct (DK eq_refl Hno) as (K1&K2&K3).
      (* the first attempt *)
      assert (Hord : eqOrder (order s2) (lastOrder s2) = true).
      { destruct (eqOrder _ _) eqn:Q; [reflexivity|]. exfalso. apply Hno. left. exact Q. }
      assert (Hts : lastTs s2 = ts s2).
      { apply eqList_true. destruct (eqList _ _ _) eqn:Q; [reflexivity|].
        exfalso. apply Hno. right. exact Q. }
      rewrite G4 in Hord. cbn [s1 lastOrder] in Hord.
      destruct (log s) as [|e0 lg] eqn:Elog.
      { destruct Il as (Il&_). unfold s1 in Hord. cbn [lastOrder] in Hord.
        rewrite Il in Hord. discriminate. }
      destruct Il as (Il1&Il2&Il3&_).
      assert (Hs01 : s0 = s1).
      { destruct Hs0 as [Hs0|[Hs0|[Ha Hi]]]; [exact Hs0|discriminate|].
        exfalso. assert (O1 : order s1 = 1%nat) by (apply Hck2; auto).
        rewrite Os1, Io in O1. cbn [length] in O1. lia. }
      subst s0. unfold s1 in K1, K2, K3. cbn [uFac fFac dtImp] in K1, K2, K3.
      unfold s1 in Hord. cbn [lastOrder] in Hord. rewrite Il1 in Hord. cbn [eqOrder] in Hord.
      apply Nat.eqb_eq in Hord. rewrite G3 in Hord.
      rewrite Hord. rewrite G5 in Hts. unfold s1 in Hts. cbn [lastTs] in Hts.
      rewrite Il2, Et2 in Hts. rewrite <- Hts.
      destruct (Il3 Hf) as (uc&a&b&q0&tt&Y1&Y2&Y3&Y4&Y5).
      exists uc, a, b, q0, tt. rewrite K1, K2, K3. repeat split; assumption. }
    assert (Hhu : firstn (length (e :: log s)) (uV s2) = firstn m (map (@a_u0 R) (e :: log s))).
    { rewrite G1. apply shift_hist; [exact L1|lia|exact Iu|reflexivity]. }
    assert (Hhf : firstn (length (e :: log s)) (fV s2) = firstn m (map (@a_f0 R) (e :: log s))).
    { rewrite G2. apply shift_hist; [exact L2|lia|exact If|reflexivity]. }
    assert (Hht : firstn (length (e :: log s)) (dt :: t2) = firstn m (map (@a_dt R) (e :: log s))).
    { rewrite Et2'. apply shift_hist; [exact L3|lia|exact It|reflexivity]. }
    assert (Hchain : chained imp conv u0 t0 e (log s)).
    { unfold chained. split; [reflexivity|]. split.
      - cbn [a_call e a_t0 a_dt]. destruct Ck as (_&C2&_&C4&_).
        rewrite C4, G6, Et2 in C2. cbn [hd] in C2. exact C2.
      - destruct (log s) as [|e' lg].
        + destruct Il as (_&I1&I2). split; [exact I2|exact I1].
        + destruct Il as (_&_&_&I1&I2). split; [exact I2|exact I1]. }
    assert (Hmin : order s = Nat.min (S (length (log s))) m) by exact Io.
    assert (Hstep : fresh -> imex_step e (log s)).
    { intro Hf. unfold imex_step. cbv zeta. cbn [a_order e]. rewrite G3.
      split; [lia|]. split; [lia|].
      specialize (HCof Hf).
      destruct (@coeffs_all (order s) (dt :: t2)) as (uc&a&b&g0&tt&Y1&Y2&Y3&Y4&Y5&Y6).
      { lia. } { lia. }
      { apply Forall_forall. intros z Hz. rewrite Forall_forall in Hpos. apply Hpos.
        rewrite <- (firstn_skipn (order s) (dt :: t2)). apply in_or_app. left. exact Hz. }
      destruct HCof as (uc'&a'&b'&g0'&tt'&Z1&Z2&Z3&Z4&Z5).
      rewrite Y1 in Z1. injection Z1 as <- <- <-.
      injection Y2 as <- <-. injection Z2 as <- <-.
      exists (fun j => nth j a 0 / uc), (fun j => nth j b 0 / uc). split.
      - apply moments_order. cbn [a_call e]. destruct Ck as (_&_&C3&_). rewrite C3, Z5.
        apply (moments_ext (order s) (back (dt :: t2))); [|exact Y6].
        intros j Hj.
        assert (Hgl : chainLog (e :: log s)) by (split; [exact Hchain|apply good_chain, Ig]).
        rewrite (times _ Hgl e (log s) eq_refl j) by (cbn [length]; lia).
        unfold back.
        replace (firstn (S j) (dt :: t2)) with (firstn (S j) (map (@a_dt R) (e :: log s))).
        { ring. }
        transitivity (firstn (S j) (firstn (length (e :: log s)) (dt :: t2))).
        + rewrite Hht, firstn_firstn. f_equal. lia.
        + rewrite firstn_firstn. f_equal. cbn [length]. lia.
      - intro i. cbn [a_call e]. destruct Ck as (_&_&_&_&C5). rewrite C5, F0o.
        destruct DL as (D1&D2&D3&D4&D5).
        rewrite (rhsLoop_sum _ _ _ _ _ _ _ (fun _ => 0)) by lia.
        rewrite Rplus_0_l. apply sumn_ext. intros j Hj.
        pose proof (hist_nth _ _ _ _ _ _ j (fun _ => 0) noacc Hhu) as Q1.
        pose proof (hist_nth _ _ _ _ _ _ j (fun _ => 0) noacc Hhf) as Q2.
        specialize (Q1 ltac:(cbn [length]; lia) ltac:(lia)).
        specialize (Q2 ltac:(cbn [length]; lia) ltac:(lia)).
        apply (f_equal (fun z : V R => z i)) in Q1, Q2.
        transitivity (a_u0 (nth j (e :: log s) noacc) i * nth j (uFac s2) 0 +
          a_f0 (nth j (e :: log s) noacc) i * nth j (fFac s2) 0).
        { f_equal; f_equal; [exact Q1|exact Q2]. }
        assert (Hq : forall fac aa, firstn (order s) fac = map (fun x => x / uc) aa ->
           length aa = order s -> nth j fac 0 = nth j aa 0 / uc).
        { intros fac aa R1 R2. rewrite <- (firstn_skipn (order s) fac), R1.
          rewrite app_nth1 by (rewrite map_length; lia).
          rewrite (nth_indep _ 0 ((fun x => x / uc) 0)) by (rewrite map_length; lia).
          rewrite (map_nth (fun x => x / uc)). reflexivity. }
        rewrite (Hq _ _ Z3 Y4), (Hq _ _ Z4 Y5). ring. }
    split; [|split; [|split; [|split]]].
    + constructor; cbn [uV fV ts uFac fFac dtImp order lastOrder lastTs simtime icount log u].
      * unfold lens. cbn [uV fV ts uFac fFac]. destruct DL as (D1&D2&D3&D4&D5).
        repeat split; assumption.
      * rewrite G3, Hm, G8. cbn [length]. destruct (Nat.ltb_spec (order s) m); lia.
      * rewrite G8. split; [reflexivity|]. split; [reflexivity|]. split.
        { intro Hf. cbn [e a_order]. rewrite G3.
          destruct (HCof Hf) as (uc&a&b&q0&tt&Y1&Y2&Y3&Y4&Y5).
          exists uc, a, b, q0, tt. cbn [uFac fFac dtImp]. repeat split; assumption. }
        cbn [e a_call a_t0 a_dt]. destruct Ck as (C1&_). split; [symmetry; exact C1|].
        cbn [oadd Rops]. rewrite G6. reflexivity.
      * exact Hpos.
      * rewrite G8. exact Hhu.
      * rewrite G8. exact Hhf.
      * rewrite G8. exact Hht.
      * rewrite G8. cbn [goodLog]. split; [exact Hchain|]. split; [exact Hstep|].
        split; [cbn [e a_order]; rewrite G3; exact Hmin|]. split; [|exact Ig].
        cbn [e a_call a_t0 a_dt]. destruct Ck as (_&_&_&C4&_). rewrite C4, G6, Et2. reflexivity.
    + rewrite G8. reflexivity.
    + reflexivity.
    + cbn [e a_dt]. lra.
    + cbn [e a_dt]. exact P3.
Qed.

End R.
