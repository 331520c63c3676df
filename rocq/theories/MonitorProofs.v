From Coq Require Import List ZArith Reals Lra Lia Bool Permutation.
From Verif Require Import Base MonitorModel MonitorSpec.
Import ListNotations.
Local Open Scope R_scope.

Lemma rfloor_spec x : IZR (rfloor x) <= x < IZR (rfloor x) + 1.
Proof. unfold rfloor. rewrite minus_IZR. destruct (archimed x). lra. Qed.
Lemma rfloor_unique x n : IZR n <= x < IZR n + 1 -> rfloor x = n.
Proof.
  intros H. pose proof (rfloor_spec x) as H2. assert (rfloor x < n + 1)%Z by (apply lt_IZR; rewrite plus_IZR; lra).
  assert (n < rfloor x + 1)%Z by (apply lt_IZR; rewrite plus_IZR; lra). lia.
Qed.
Lemma rround_nonneg x : 0 <= x -> IZR (rround x) <= x + /2 < IZR (rround x) + 1.
Proof. intros H. unfold rround. destruct (Rlt_dec x 0); [lra|]. apply rfloor_spec. Qed.
Lemma rround_unique x n : 0 <= x -> IZR n <= x + /2 < IZR n + 1 -> rround x = n.
Proof. intros H. unfold rround. destruct (Rlt_dec x 0); [lra|]. apply rfloor_unique. Qed.
Lemma rround_ge1 x : 1 <= x -> (1 <= rround x)%Z.
Proof. intros H. pose proof (rround_nonneg x ltac:(lra)). assert (0 < rround x)%Z by (apply lt_IZR; lra). lia. Qed.

Lemma tol_bounds : 0 < tol < / 10.
Proof. unfold tol. split; [apply Rinv_0_lt_compat; apply pow_lt; lra|]. apply Rinv_lt_contravar; [|lra]. apply Rmult_lt_0_compat; [lra|apply pow_lt; lra]. Qed.
Lemma slack_ge1 : 1 <= slack.
Proof. unfold slack. fold tol. pose proof tol_bounds. lra. Qed.
Lemma slack_tol : slack = 1 + 2 * tol.
Proof. reflexivity. Qed.
Opaque tol.
Global Opaque tol.

Lemma close_0 x : close 0 x x.
Proof. unfold close. cbn [pow]. lra. Qed.
Lemma pow_slack_ge1 k : 1 <= slack ^ k.
Proof. apply pow_R1_Rle, slack_ge1. Qed.
Lemma close_trans j k x y z : close j x y -> close k y z -> close (j + k) x z.
Proof.
  unfold close. intros [H1 H2] [H3 H4]. rewrite pow_add. pose proof (pow_slack_ge1 j). pose proof (pow_slack_ge1 k).
  split.
  - apply Rle_trans with (1 := H1). rewrite Rmult_assoc. apply Rmult_le_compat_l; [lra|assumption].
  - apply Rle_trans with (1 := H4). rewrite (Rmult_comm (slack ^ j)), Rmult_assoc. apply Rmult_le_compat_l; [lra|assumption].
Qed.
Lemma close_scale k c x y : 0 <= c -> close k x y -> close k (c * x) (c * y).
Proof.
  intros Hc [H1 H2]. split.
  - replace (slack ^ k * (c * y)) with (c * (slack ^ k * y)) by ring. now apply Rmult_le_compat_l.
  - replace (slack ^ k * (c * x)) with (c * (slack ^ k * x)) by ring. now apply Rmult_le_compat_l.
Qed.
Lemma close_sym k x y : close k x y -> close k y x.
Proof. unfold close. tauto. Qed.
Lemma close_weaken k j x y : (k <= j)%nat -> 0 <= x -> 0 <= y -> close k x y -> close j x y.
Proof.
  intros H Hx Hy [H1 H2]. assert (slack ^ k <= slack ^ j) by (apply Rle_pow; [apply slack_ge1|assumption]).
  split; [apply Rle_trans with (1 := H1)|apply Rle_trans with (1 := H2)]; apply Rmult_le_compat_r; assumption.
Qed.
Lemma close_1 x y : 0 < y -> Rabs (x - y) < tol * y -> close 1 x y.
Proof.
  intros Hy H. unfold close. rewrite pow_1, slack_tol. pose proof tol_bounds as [T1 T2].
  assert (HA : - (tol * y) < x - y < tol * y) by (apply Rabs_def2 in H; lra).
  assert (0 < tol * y) by (apply Rmult_lt_0_compat; assumption).
  split; [nra|]. assert (Hx : (1 - tol) * y <= x) by nra.
  assert (y <= (1 + 2 * tol) * ((1 - tol) * y)) by nra. apply Rle_trans with (1 := H1). apply Rmult_le_compat_l; [lra|assumption].
Qed.

(** What the test establishes. *)
Lemma isMultiple_le a b : 0 < a -> a <= b -> (isMultiple a b = Ok true \/ isMultiple b a = Ok true) ->
  let n := rround (b / a) in (1 <= n)%Z /\ Rabs (IZR n * a - b) < tol * b.
Proof.
  intros Ha Hab H n.
  assert (HB : Rabs ((IZR n * a - b) / b) < tol).
  { destruct H as [H|H]; unfold isMultiple in H.
    - destruct (Rlt_dec 0 a); [|discriminate]. destruct (Rlt_dec 0 b); [|discriminate].
      destruct (Rlt_dec b a); [lra|]. destruct (Rlt_dec _ tol) in H; [assumption|discriminate].
    - destruct (Rlt_dec 0 b); [|discriminate]. destruct (Rlt_dec 0 a); [|discriminate].
      destruct (Rlt_dec a b).
      + destruct (Rlt_dec _ tol) in H; [assumption|discriminate].
      + assert (a = b) by lra. subst b. destruct (Rlt_dec _ tol) in H; [assumption|discriminate]. }
  split.
  - apply rround_ge1. apply Rmult_le_reg_r with a; [assumption|]. unfold Rdiv. rewrite Rmult_assoc, Rinv_l; lra.
  - unfold Rdiv in HB. rewrite Rabs_mult, (Rabs_pos_eq (/ b)) in HB.
    + apply Rmult_lt_reg_r with (/ b); [apply Rinv_0_lt_compat; lra|]. rewrite (Rmult_assoc tol), Rinv_r by lra. lra.
    + left. apply Rinv_0_lt_compat. lra.
Qed.
(** [a] divided into [k] steps of (about) [b], for b up to 1.5 a. *)
Lemma isMultiple_small a b : 0 < a -> 0 < b -> b <= a * (3 / 2) -> (isMultiple a b = Ok true \/ isMultiple b a = Ok true) ->
  let k := rround (a / b) in (1 <= k)%Z /\ close 1 (IZR k * b) a.
Proof.
  intros Ha Hb Hle H k. destruct (Rle_lt_dec b a) as [C|C].
  - destruct (isMultiple_le b a Hb C) as [H1 H2]; [tauto|]. split; [exact H1|]. now apply close_1.
  - destruct (isMultiple_le a b Ha ltac:(lra) H) as [H1 H2]. pose proof tol_bounds as [T1 T2].
    set (n := rround (b / a)) in *. clearbody n.
    apply Rabs_def2 in H2. destruct H2 as [H2 H3].
    assert (n = 1%Z).
    { assert (tol * b <= / 10 * b) by (apply Rmult_le_compat_r; lra). assert (IZR n < 2) by (apply Rmult_lt_reg_r with a; [assumption|]; lra). assert (n < 2)%Z by (apply lt_IZR; assumption). lia. }
    subst n. assert (HT : b - a < tol * b) by lra.
    assert (E : k = 1%Z).
    { apply rround_unique; [apply Rlt_le; apply Rdiv_lt_0_compat; assumption|].
      assert (a / b <= 1) by (apply Rmult_le_reg_r with b; [assumption|]; unfold Rdiv; rewrite Rmult_assoc, Rinv_l; lra).
      assert (1 - tol < a / b) by (apply Rmult_lt_reg_r with b; [assumption|]; unfold Rdiv; rewrite (Rmult_assoc a), Rinv_l; lra).
      lra. }
    rewrite E. split; [lia|]. rewrite Rmult_1_l. apply close_sym, close_1; [assumption|].
    rewrite Rabs_minus_sym. rewrite Rabs_pos_eq; lra.
Qed.

(** Invariant of addMonitor. *)
Definition explicit_ok (k : nat) (internal : R) (m : mon) : Prop :=
  0 < m_t m -> (1 <= m_period m)%Z /\ close k (IZR (m_period m) * internal) (m_t m).
Definition sinv (k : nat) (s : sched) : Prop :=
  sc_init s = false /\ Forall (fun m => m_t m <> 0) (sc_mons s) /\
  ((sc_internal s < 0 /\ Forall (fun m => m_t m < 0) (sc_mons s) /\ sc_dperiod s = 1%Z) \/
   (0 < sc_internal s /\ Forall (explicit_ok k (sc_internal s)) (sc_mons s))).

Lemma explicit_weaken k j x m : (k <= j)%nat -> 0 < x -> explicit_ok k x m -> explicit_ok j x m.
Proof.
  intros H Hx HE Hm. destruct (HE Hm) as [H1 H2]. split; [assumption|]. apply (close_weaken k); try assumption; [|lra].
  apply Rmult_le_pos; [|lra]. apply (IZR_le 0). lia.
Qed.
Lemma Forall_app_one {A} (P : A -> Prop) front l x : Forall P l -> P x -> Forall P (if front : bool then x :: l else l ++ [x]).
Proof. intros H1 H2. destruct front; [constructor; assumption|]. apply Forall_app. split; [assumption|constructor; auto]. Qed.

Lemma mul_period_ok k n a b m : (1 <= n)%Z -> close 1 (IZR n * b) a -> explicit_ok k a m -> explicit_ok (S k) b (mul_period n m).
Proof.
  intros Hn HC HE Hm. cbn [mul_period m_t m_period] in *. destruct (HE Hm) as [H1 H2]. split; [nia|].
  rewrite mult_IZR. replace (S k) with (1 + k)%nat by lia. apply close_trans with (IZR (m_period m) * a); [|assumption].
  rewrite Rmult_assoc. apply close_scale; [|assumption]. apply (IZR_le 0). lia.
Qed.

Lemma add_inv k front id t s s' : t <> 0 -> sinv k s -> addMonitor front (MkMon id t 1) s = Ok s' -> sinv (S k) s'.
Proof.
  intros Ht (Hi & HN & HS) H. unfold addMonitor in H. destruct (adjustMonitorPeriods _ s) as [[m' s1]| |] eqn:EA; try discriminate.
  cbn [bind] in H. injection H as <-. unfold adjustMonitorPeriods in EA. cbn [m_t m_id m_period] in EA.
  destruct (Rlt_dec t 0) as [T0|T0].
  - injection EA as <- <-. split; [assumption|]. cbn [sc_mons sc_internal sc_dperiod].
    split; [apply Forall_app_one; assumption|].
    destruct HS as [(A1 & A2 & A3)|(A1 & A2)].
    + left. split; [assumption|]. split; [apply Forall_app_one; assumption|assumption].
    + right. split; [assumption|]. apply Forall_app_one; [|intros Hm; cbn in Hm; lra].
      eapply Forall_impl; [|exact A2]. intros a. apply explicit_weaken; [lia|assumption].
  - rewrite Hi in EA. cbn [negb andb] in EA. destruct (Rlt_dec (sc_internal s) 0) as [I0|I0].
    + injection EA as <- <-. split; [reflexivity|]. cbn [sc_mons sc_internal sc_dperiod].
      split; [apply Forall_app_one; assumption|]. right. split; [lra|].
      destruct HS as [(A1 & A2 & A3)|(A1 & A2)]; [|lra].
      apply Forall_app_one.
      * eapply Forall_impl; [|exact A2]. intros a Ha Hp. lra.
      * intros _. cbn [m_period m_t]. split; [lia|]. rewrite Rmult_1_l. apply (close_weaken 0); [lia|lra|lra|apply close_0].
    + destruct HS as [(A1 & _)|(A1 & A2)]; [lra|].
      destruct (isMultiple (sc_internal s) t) as [b| |] eqn:EM; try discriminate. cbn [bind] in EA.
      destruct b; cbn [negb] in EA; [|discriminate].
      destruct (Rlt_dec (sc_internal s * (3 / 2)) t) as [C|C].
      * injection EA as <- <-. split; [assumption|]. cbn [sc_mons sc_internal sc_dperiod].
        split; [apply Forall_app_one; assumption|]. right. split; [assumption|].
        apply Forall_app_one; [eapply Forall_impl; [|exact A2]; intros a; apply explicit_weaken; [lia|assumption]|].
        intros _. cbn [m_period m_t]. destruct (isMultiple_le (sc_internal s) t A1 ltac:(lra) ltac:(tauto)) as [H1 H2].
        split; [assumption|]. assert (HC : close 1 (IZR (rround (t / sc_internal s)) * sc_internal s) t) by (apply close_1; [lra|assumption]).
        apply (close_weaken 1); [lia| |lra|assumption]. apply Rmult_le_pos; [apply (IZR_le 0); lia|lra].
      * injection EA as <- <-. split; [reflexivity|]. cbn [sc_mons sc_internal sc_dperiod].
        destruct (isMultiple_small (sc_internal s) t A1 ltac:(lra) ltac:(lra) ltac:(tauto)) as [H1 H2].
        split; [apply Forall_app_one; [|assumption]; rewrite Forall_map; exact HN|]. right. split; [lra|].
        apply Forall_app_one.
        -- rewrite Forall_map. eapply Forall_impl; [|exact A2]. intros a Ha. eapply mul_period_ok; eassumption.
        -- intros _. cbn [m_period m_t]. split; [lia|]. rewrite Rmult_1_l. apply (close_weaken 0); [lia|lra|lra|apply close_0].
Qed.
Lemma adds_inv l : forall k s s', Forall (fun '(_, _, t) => t <> 0) l -> sinv k s -> addMonitors l s = Ok s' -> sinv (List.length l + k) s'.
Proof.
  induction l as [|[[f i] t] l IH]; intros k s s' HF HS H; cbn in H; [injection H as <-; exact HS|].
  inversion HF; subst. destruct (addMonitor f (MkMon i t 1) s) as [s1| |] eqn:E; try discriminate. cbn [bind] in H.
  cbn [List.length]. replace (S (List.length l) + k)%nat with (List.length l + S k)%nat by lia.
  apply (IH (S k) s1 s'); [assumption| |assumption]. eapply add_inv; eassumption.
Qed.

Definition tag (m : mon) : nat * R := (m_id m, m_t m).
Lemma tag_mul k l : map tag (map (mul_period k) l) = map tag l.
Proof. rewrite map_map. reflexivity. Qed.
Lemma add_tags front m s s' : addMonitor front m s = Ok s' -> Permutation (map tag (sc_mons s')) (tag m :: map tag (sc_mons s)).
Proof.
  intros H. unfold addMonitor in H. destruct (adjustMonitorPeriods m s) as [[m' s1]| |] eqn:EA; try discriminate.
  cbn [bind] in H. injection H as <-. cbn [sc_mons].
  assert (tag m' = tag m /\ map tag (sc_mons s1) = map tag (sc_mons s)) as [E1 E2].
  { unfold adjustMonitorPeriods in EA. destruct (Rlt_dec (m_t m) 0); [injection EA as <- <-; auto|].
    destruct (_ && _); [injection EA as <- <-; auto|]. destruct (isMultiple _ _) as [b| |]; try discriminate. cbn [bind] in EA.
    destruct b; cbn [negb] in EA; [|discriminate]. destruct (Rlt_dec _ _) in EA; [injection EA as <- <-; auto|].
    destruct (sc_init s); [discriminate|]. injection EA as <- <-. cbn [sc_mons]. rewrite tag_mul. auto. }
  destruct front.
  - cbn [map]. rewrite E1, E2. reflexivity.
  - rewrite map_app. cbn [map]. rewrite E1, E2. symmetry. apply Permutation_cons_append.
Qed.
Lemma adds_tags l : forall s s', addMonitors l s = Ok s' ->
  Permutation (map tag (sc_mons s')) (map (fun '(_, i, t) => (i, t)) l ++ map tag (sc_mons s)).
Proof.
  induction l as [|[[f i] t] l IH]; intros s s' H; cbn in H; [injection H as <-; reflexivity|].
  destruct (addMonitor f (MkMon i t 1) s) as [s1| |] eqn:E; try discriminate. cbn [bind] in H.
  rewrite (IH _ _ H). cbn [map app]. rewrite (add_tags _ _ _ _ E). symmetry. apply Permutation_middle.
Qed.

Lemma finalise_main k nout out s s' n' step : sinv k s -> 0 < out -> finaliseMonitorPeriods nout out s = Ok (s', n', step) ->
  0 < step /\ (1 <= sc_dperiod s')%Z /\ n' = (nout * sc_dperiod s')%Z /\ close 1 (IZR (sc_dperiod s') * step) out /\
  Forall2 (fun m m' => m_id m' = m_id m /\ (1 <= m_period m')%Z /\
     (m_t m < 0 -> m_period m' = sc_dperiod s') /\
     (0 < m_t m -> m_t m' = m_t m /\ close (S k) (IZR (m_period m') * step) (m_t m)))
   (sc_mons s) (sc_mons s').
Proof.
  intros (Hi & HN & HS) Ho H. unfold finaliseMonitorPeriods in H. destruct (Rlt_dec 0 (sc_internal s)) as [C|C].
  - destruct HS as [(A & _)|(A1 & A2)]; [lra|]. destruct (isMultiple (sc_internal s) out) as [b| |] eqn:EM; try discriminate.
    cbn [bind] in H. destruct b; cbn [negb] in H; [|discriminate].
    destruct (Rlt_dec (sc_internal s) (out * (3 / 2))) as [D|D].
    + injection H as <- <- <-. destruct (isMultiple_small out (sc_internal s) Ho A1 ltac:(lra) ltac:(tauto)) as [H1 H2].
      unfold finalise_defaults. cbn [sc_dperiod sc_mons sc_internal].
      set (p := rround (out / sc_internal s)) in *. clearbody p.
      split; [assumption|]. split; [assumption|]. split; [reflexivity|]. split; [exact H2|].
      clear EM H2. induction (sc_mons s) as [|m l IHl]; cbn [map]; [constructor|].
      apply Forall_cons_iff in A2, HN. destruct A2 as [A2 A3], HN as [N1 N2]. constructor; [|now apply IHl].
      destruct (Rlt_dec (m_t m) 0) as [T|T].
      * cbn [m_id m_period m_t]. split; [reflexivity|]. split; [assumption|]. split; [reflexivity|]. intros; lra.
      * destruct (A2 ltac:(lra)) as [P1 P2]. split; [reflexivity|]. split; [assumption|]. split; [intros; lra|].
        intros _. split; [reflexivity|]. apply (close_weaken k); [lia| |lra|assumption]. apply Rmult_le_pos; [apply (IZR_le 0); lia|lra].
    + injection H as <- <- <-. assert (DD : out <= sc_internal s) by lra.
      destruct (isMultiple_le out (sc_internal s) Ho DD ltac:(tauto)) as [H1 H2].
      assert (HC : close 1 (IZR (rround (sc_internal s / out)) * out) (sc_internal s)) by (apply close_1; assumption).
      unfold finalise_defaults. cbn [sc_dperiod sc_mons sc_internal].
      set (p := rround (sc_internal s / out)) in *. clearbody p.
      split; [assumption|]. split; [lia|]. split; [lia|]. split; [rewrite Rmult_1_l; apply (close_weaken 0); [lia|lra|lra|apply close_0]|].
      clear EM H2. induction (sc_mons s) as [|m l IHl]; cbn [map]; [constructor|].
      apply Forall_cons_iff in A2, HN. destruct A2 as [A2 A3], HN as [N1 N2]. constructor; [|now apply IHl].
      destruct (Rlt_dec (m_t (mul_period p m)) 0) as [T|T]; cbn [mul_period m_t] in T.
      * cbn [m_id m_period m_t mul_period]. split; [reflexivity|]. split; [lia|]. split; [reflexivity|]. intros; lra.
      * assert (0 < m_t m) by lra. destruct (mul_period_ok k p _ out m H1 HC A2) as [P1 P2]; [exact H|].
        split; [reflexivity|]. split; [assumption|]. split; [intros; lra|]. intros _. split; [reflexivity|assumption].
  - injection H as <- <- <-. destruct HS as [(A1 & A2 & A3)|(A1 & A2)]; [|lra].
    unfold finalise_defaults. cbn [sc_dperiod sc_mons sc_internal]. rewrite A3.
    split; [assumption|]. split; [lia|]. split; [lia|]. split; [rewrite Rmult_1_l; apply (close_weaken 0); [lia|lra|lra|apply close_0]|].
    induction (sc_mons s) as [|m l IHl]; cbn [map]; [constructor|].
    apply Forall_cons_iff in A2, HN. destruct A2 as [A2 A4], HN as [N1 N2]. constructor; [|now apply IHl].
    destruct (Rlt_dec (m_t m) 0) as [T|T]; [|lra]. cbn [m_id m_period m_t]. split; [reflexivity|]. split; [lia|]. split; [reflexivity|]. intros; lra.
Qed.

Lemma sinv0 : sinv 0 sched0.
Proof. split; [reflexivity|]. split; [constructor|]. left. cbn. split; [lra|]. split; [constructor|reflexivity]. Qed.

Lemma periods_main l nout out s s' n' step :
  Forall (fun '(_, _, t) => t <> 0) l -> 0 < out ->
  addMonitors l sched0 = Ok s -> finaliseMonitorPeriods nout out s = Ok (s', n', step) ->
  Permutation (map tag (sc_mons s)) (map (fun '(_, i, t) => (i, t)) l) /\
  0 < step /\ (1 <= sc_dperiod s')%Z /\ n' = (nout * sc_dperiod s')%Z /\ close 1 (IZR (sc_dperiod s') * step) out /\
  Forall2 (fun m m' => m_id m' = m_id m /\ (1 <= m_period m')%Z /\
     (m_t m < 0 -> m_period m' = sc_dperiod s') /\
     (0 < m_t m -> m_t m' = m_t m /\ close (S (List.length l)) (IZR (m_period m') * step) (m_t m)))
   (sc_mons s) (sc_mons s').
Proof.
  intros HF Ho HA H. pose proof (adds_tags _ _ _ HA) as HP. cbn [sc_mons sched0 map] in HP. rewrite app_nil_r in HP.
  split; [exact HP|]. pose proof (adds_inv l 0 _ _ HF sinv0 HA) as HS. rewrite Nat.add_0_r in HS. eapply finalise_main; eassumption.
Qed.

(** * The calls made *)
Definition for_id (id : nat) (c : mcall) : bool := (c_id c =? id)%nat.
Lemma filter_app' {A} (f : A -> bool) a b : filter f (a ++ b) = filter f a ++ filter f b.
Proof. apply filter_app. Qed.
Lemma call_list_other id t i n l c : call_list t i n l = Ok c -> ~ In id (map m_id l) -> filter (for_id id) c = [].
Proof.
  revert c. induction l as [|m l IH]; intros c H HI; cbn in H; [injection H as <-; reflexivity|].
  destruct (m_period m =? 0)%Z; [discriminate|]. destruct (call_list t i n l) as [r| |] eqn:E; try discriminate. cbn [bind] in H.
  injection H as <-. cbn [map] in HI. assert (HR : filter (for_id id) r = []) by (apply IH; [reflexivity|intros X; apply HI; now right]).
  destruct (Z.rem i (m_period m) =? 0)%Z; [|assumption]. cbn [filter]. unfold for_id at 1. cbn [c_id].
  destruct (Nat.eqb_spec (m_id m) id); [exfalso; apply HI; now left|assumption].
Qed.
Lemma call_list_one m t i n l c : NoDup (map m_id l) -> In m l -> call_list t i n l = Ok c ->
  filter (for_id (m_id m)) c = if (Z.rem i (m_period m) =? 0)%Z then [MkCall (m_id m) t (Z.quot i (m_period m) - 1) (Z.quot n (m_period m))] else [].
Proof.
  revert c. induction l as [|m0 l IH]; intros c ND HI H; [contradiction|]. cbn in H. cbn [map] in ND. apply NoDup_cons_iff in ND. destruct ND as [N1 N2].
  destruct (m_period m0 =? 0)%Z; [discriminate|]. destruct (call_list t i n l) as [r| |] eqn:E; try discriminate. cbn [bind] in H.
  injection H as <-. destruct HI as [->|HI].
  - pose proof (call_list_other (m_id m) _ _ _ _ _ E N1) as HR. destruct (Z.rem i (m_period m) =? 0)%Z; [|assumption].
    cbn [filter]. unfold for_id at 1. cbn [c_id]. rewrite Nat.eqb_refl. now rewrite HR.
  - assert (HD : m_id m0 <> m_id m) by (intros X; apply N1; rewrite X; now apply in_map).
    pose proof (IH r N2 HI eq_refl) as HR. destruct (Z.rem i (m_period m0) =? 0)%Z; [|assumption].
    cbn [filter]. unfold for_id at 1. cbn [c_id]. apply Nat.eqb_neq in HD. now rewrite HD.
Qed.
Lemma call_list_ok t i n l : Forall (fun m => (1 <= m_period m)%Z) l -> exists c, call_list t i n l = Ok c.
Proof.
  induction l as [|m l IH]; intros H; cbn; [eauto|]. apply Forall_cons_iff in H. destruct H as [H1 H2].
  destruct (Z.eqb_spec (m_period m) 0); [lia|]. destruct (IH H2) as [c ->]. cbn [bind]. eauto.
Qed.

Definition one_call (id : nat) (p nout : Z) (t0 dt : R) (i : nat) : list mcall :=
  if (Z.rem (Z.of_nat i) p =? 0)%Z then [MkCall id (t0 + INR i * dt) (Z.quot (Z.of_nat i) p - 1) (Z.quot nout p)] else [].
Lemma run_loop_calls m dt nout s : NoDup (map m_id (sc_mons s)) -> In m (sc_mons s) -> Forall (fun m => (1 <= m_period m)%Z) (sc_mons s) ->
  forall n k t t0, t = t0 + INR k * dt ->
  exists c, run_loop n (Z.of_nat k) t dt nout s = Ok c /\
    filter (for_id (m_id m)) c = flat_map (one_call (m_id m) (m_period m) nout t0 dt) (seq (S k) n).
Proof.
  intros ND HI HF. induction n as [|n IH]; intros k t t0 Ht; cbn [run_loop].
  - exists []. auto.
  - unfold call_monitors. destruct (call_list_ok (t + dt) (Z.of_nat k + 1) nout (sc_mons s) HF) as [a Ea]. rewrite Ea. cbn [bind].
    assert (Ht2 : t + dt = t0 + INR (S k) * dt) by (rewrite S_INR; lra).
    destruct (IH (S k) (t + dt) t0 Ht2) as (b & Eb & Fb). replace (Z.of_nat k + 1)%Z with (Z.of_nat (S k)) in * by lia.
    rewrite Eb. cbn [bind]. eexists. split; [reflexivity|]. rewrite filter_app, Fb. cbn [seq flat_map]. f_equal.
    rewrite (call_list_one m _ _ _ _ _ ND HI Ea). unfold one_call. rewrite Ht2. reflexivity.
Qed.

Lemma flat_one id p nout t0 dt : (1 <= p)%Z -> forall n,
  flat_map (one_call id p nout t0 dt) (seq 1 n) =
  map (fun j => MkCall id (t0 + INR j * (IZR p * dt)) (Z.of_nat j - 1) (Z.quot nout p)) (seq 1 (Z.to_nat (Z.of_nat n / p))).
Proof.
  intros Hp. induction n as [|n IH].
  - rewrite Z.div_small by lia. reflexivity.
  - rewrite seq_S, flat_map_app, IH. cbn [flat_map]. rewrite app_nil_r. unfold one_call.
    replace (1 + n)%nat with (S n) by lia. rewrite Z.rem_mod_nonneg, (Z.quot_div_nonneg (Z.of_nat (S n)) p) by lia.
    pose proof (Z.div_mod (Z.of_nat n) p ltac:(lia)) as D. pose proof (Z.mod_pos_bound (Z.of_nat n) p ltac:(lia)) as B.
    set (q := (Z.of_nat n / p)%Z) in *. set (r := (Z.of_nat n mod p)%Z) in *.
    assert (0 <= q)%Z by (unfold q; apply Z.div_pos; lia). clearbody q r.
    destruct (Z.eq_dec (r + 1) p) as [E|E].
    + assert (HM : (Z.of_nat (S n) mod p = 0)%Z) by (symmetry; apply (Z.mod_unique_pos _ _ (q + 1)); rewrite ?Nat2Z.inj_succ; lia).
      assert (HD : (Z.of_nat (S n) / p = q + 1)%Z) by (symmetry; apply (Z.div_unique_pos _ _ _ 0); rewrite ?Nat2Z.inj_succ; lia).
      rewrite HM, HD. cbn [Z.eqb]. replace (Z.to_nat (q + 1)) with (S (Z.to_nat q)) by lia.
      rewrite seq_S, map_app. f_equal. cbn [map]. f_equal. f_equal; [|lia].
      f_equal. rewrite <- Rmult_assoc. f_equal. rewrite !INR_IZR_INZ. rewrite <- mult_IZR. f_equal. nia.
    + assert (HM : (Z.of_nat (S n) mod p = r + 1)%Z) by (symmetry; apply (Z.mod_unique_pos _ _ q); rewrite ?Nat2Z.inj_succ; lia).
      assert (HD : (Z.of_nat (S n) / p = q)%Z) by (symmetry; apply (Z.div_unique_pos _ _ _ (r + 1)); rewrite ?Nat2Z.inj_succ; lia).
      rewrite HM, HD. destruct (Z.eqb_spec (r + 1) 0); [lia|]. apply app_nil_r.
Qed.

Lemma run_schedule m dt nout t0 n s : NoDup (map m_id (sc_mons s)) -> In m (sc_mons s) ->
  Forall (fun m => (1 <= m_period m)%Z) (sc_mons s) ->
  exists c, run_loop n 0 t0 dt nout s = Ok c /\
    filter (for_id (m_id m)) c =
    map (fun j => MkCall (m_id m) (t0 + INR j * (IZR (m_period m) * dt)) (Z.of_nat j - 1) (Z.quot nout (m_period m)))
        (seq 1 (Z.to_nat (Z.of_nat n / m_period m))).
Proof.
  intros ND HI HF. destruct (run_loop_calls m dt nout s ND HI HF n 0 t0 t0) as (c & E & F); [cbn; lra|].
  exists c. split; [exact E|]. rewrite F. rewrite flat_one; [reflexivity|]. rewrite Forall_forall in HF. now apply HF.
Qed.

Lemma Forall2_ids (P : mon -> mon -> Prop) l l' : Forall2 (fun m m' => m_id m' = m_id m /\ P m m') l l' -> map m_id l' = map m_id l.
Proof. induction 1 as [|a b l l' [H1 H2] H IH]; cbn; congruence. Qed.

Lemma solve_general l nout out t0 s s' n' step :
  Forall (fun '(_, _, t) => t <> 0) l -> 0 < out -> (0 <= nout)%Z -> NoDup (map (fun '(_, i, _) => i) l) ->
  addMonitors l sched0 = Ok s -> finaliseMonitorPeriods nout out s = Ok (s', n', step) ->
  exists c, solve nout out t0 s = Ok c /\
  forall front i t, In (front, i, t) l -> exists p : Z, (1 <= p)%Z /\
    (t < 0 -> p = sc_dperiod s') /\
    (0 < t -> close (S (List.length l)) (IZR p * step) t) /\
    filter (for_id i) c = MkCall i t0 (-1) (Z.quot n' p) :: map (fun j => MkCall i (t0 + INR j * (IZR p * out)) (Z.of_nat j - 1) (Z.quot nout p))
        (seq 1 (Z.to_nat (nout / p))).
Proof.
  intros HF Ho Hn ND HA H. destruct (periods_main _ _ _ _ _ _ _ HF Ho HA H) as (HP & P1 & P2 & P3 & P4 & P5).
  assert (HID : map m_id (sc_mons s') = map m_id (sc_mons s)).
  { eapply Forall2_ids. exact P5. }
  assert (HPer : Forall (fun m => (1 <= m_period m)%Z) (sc_mons s')).
  { clear - P5. induction P5 as [|a b x y (H1 & H2 & _) H IH]; constructor; auto. }
  assert (HND : NoDup (map m_id (sc_mons s'))).
  { rewrite HID. apply (Permutation_map fst) in HP. rewrite !map_map in HP. cbn [tag fst] in HP.
    eapply Permutation_NoDup; [symmetry; exact HP|]. erewrite map_ext; [exact ND|]. intros [[? ?] ?]. reflexivity. }
  unfold solve. rewrite H. cbn [bind]. unfold call_monitors.
  destruct (call_list_ok t0 (-1 + 1) n' (sc_mons s') HPer) as [a Ea]. rewrite Ea. cbn [bind].
  assert (HX : exists b, run_loop (Z.to_nat nout) 0 t0 out nout s' = Ok b).
  { destruct (sc_mons s') as [|m0 r] eqn:Em.
    - clear - Em. generalize (Z.to_nat nout) at 1. intros n. revert t0. generalize 0%Z as k. induction n as [|n IH]; intros k t0; cbn; [eauto|].
      unfold call_monitors. rewrite Em. cbn. destruct (IH (k + 1)%Z (t0 + out)) as [b ->]. cbn. eauto.
    - destruct (run_schedule m0 out nout t0 (Z.to_nat nout) s') as (c & E & _); rewrite ?Em; auto. now left. eauto. }
  destruct HX as [b Eb]. rewrite Eb. cbn [bind]. eexists. split; [reflexivity|].
  intros front i t HI.
  assert (HT : In (i, t) (map tag (sc_mons s))).
  { apply (Permutation_in (i, t)) with (2 := in_map (fun '(_, i, t) => (i, t)) _ _ HI). now symmetry. }
  apply in_map_iff in HT. destruct HT as (m & Em & Hm). injection Em as <- <-.
  assert (exists m', In m' (sc_mons s') /\ m_id m' = m_id m /\ (1 <= m_period m')%Z /\
     (m_t m < 0 -> m_period m' = sc_dperiod s') /\
     (0 < m_t m -> m_t m' = m_t m /\ close (S (List.length l)) (IZR (m_period m') * step) (m_t m))) as (m' & M1 & M2 & M3 & M4 & M5).
  { clear - P5 Hm. induction P5 as [|x y u v Hxy Huv IH]; [contradiction|]. destruct Hm as [->|Hm].
    - exists y. split; [now left|exact Hxy].
    - destruct (IH Hm) as (m' & A & B). exists m'. split; [now right|exact B]. }
  exists (m_period m'). split; [assumption|]. split; [assumption|]. split; [intros X; now apply M5|].
  rewrite <- M2. rewrite filter_app. rewrite (call_list_one m' _ _ _ _ _ HND M1 Ea).
  destruct (run_schedule m' out nout t0 (Z.to_nat nout) s' HND M1 HPer) as (b' & Eb' & Fb). rewrite Eb in Eb'. injection Eb' as <-.
  rewrite Fb. rewrite Z2Nat.id by assumption.
  replace (-1 + 1)%Z with 0%Z by lia. rewrite Z.rem_0_l, Z.quot_0_l by lia. reflexivity.
Qed.

Lemma solve_schedule l nout out t0 s s' n' step :
  Forall (fun '(_, _, t) => t <> 0) l -> 0 < out -> (0 <= nout)%Z -> NoDup (map (fun '(_, i, _) => i) l) ->
  addMonitors l sched0 = Ok s -> finaliseMonitorPeriods nout out s = Ok (s', n', step) -> sc_dperiod s' = 1%Z ->
  exists c, solve nout out t0 s = Ok c /\
  forall front i t, In (front, i, t) l -> exists p : Z, (1 <= p)%Z /\
    (t < 0 -> p = 1%Z) /\
    (0 < t -> close (2 + List.length l) (IZR p * out) t) /\
    filter (for_id i) c = map (fun j => MkCall i (t0 + INR j * (IZR p * out)) (Z.of_nat j - 1) (Z.quot nout p))
        (seq 0 (1 + Z.to_nat (nout / p))).
Proof.
  intros HF Ho Hn ND HA H HD. destruct (periods_main _ _ _ _ _ _ _ HF Ho HA H) as (_ & P1 & _ & P3 & P4 & _).
  destruct (solve_general _ _ _ t0 _ _ _ _ HF Ho Hn ND HA H) as (c & E & F). exists c. split; [assumption|].
  rewrite HD in *. rewrite Rmult_1_l in P4. rewrite Z.mul_1_r in P3. subst n'.
  intros front i t HI. destruct (F _ _ _ HI) as (p & F1 & F2 & F3 & F4). exists p. split; [assumption|]. split; [assumption|]. split.
  - intros Ht. specialize (F3 Ht). replace (2 + List.length l)%nat with (1 + S (List.length l))%nat by lia.
    apply close_trans with (IZR p * step); [|assumption]. apply close_scale; [apply (IZR_le 0); lia|now apply close_sym].
  - rewrite F4. cbn [Nat.add seq map]. f_equal. f_equal. cbn [INR]. lra.
Qed.

(** A fast monitor: the run loop keeps the coarse step. *)
Lemma rround_int z : (0 <= z)%Z -> rround (IZR z) = z.
Proof. intros H. apply rround_unique; [apply (IZR_le 0); lia|]. lra. Qed.
Lemma fast_finalise :
  let s := MkSched [MkMon 0 (-1) 1; MkMon 1 1 1] 1 1 false in
  addMonitors [(false, 0%nat, -1); (false, 1%nat, 1)] sched0 = Ok s /\
  finaliseMonitorPeriods 5 10 s = Ok (MkSched [MkMon 0 (1 * 10) 10; MkMon 1 1 1] 10 1 false, 50%Z, 1).
Proof.
  cbn zeta. split.
  - unfold sched0. cbn [addMonitors]. unfold addMonitor, adjustMonitorPeriods. cbn [m_t m_id m_period sc_dperiod sc_internal sc_init sc_mons].
    destruct (Rlt_dec (-1) 0); [|lra]. cbn [bind app sc_mons sc_internal sc_init sc_dperiod negb andb].
    destruct (Rlt_dec 1 0); [lra|]. destruct (Rlt_dec (-1) 0); [|lra]. reflexivity.
  - unfold finaliseMonitorPeriods. cbn [sc_internal sc_mons sc_init]. destruct (Rlt_dec 0 1); [|lra].
    assert (E10 : rround (10 / 1) = 10%Z) by (replace (10 / 1) with (IZR 10) by lra; apply rround_int; lia).
    unfold isMultiple. destruct (Rlt_dec 0 1); [|lra]. destruct (Rlt_dec 0 10); [|lra]. destruct (Rlt_dec 10 1); [lra|].
    rewrite E10. destruct (Rlt_dec (Rabs ((10 * 1 - 10) / 10)) tol) as [C|C].
    + cbn [bind negb]. destruct (Rlt_dec 1 (10 * (3 / 2))); [|lra]. unfold finalise_defaults. cbn [sc_mons sc_dperiod sc_internal sc_init map m_t m_id].
      destruct (Rlt_dec (-1) 0); [|lra]. destruct (Rlt_dec 1 0); [lra|]. reflexivity.
    + exfalso. apply C. replace ((10 * 1 - 10) / 10) with 0 by lra. rewrite Rabs_R0. apply tol_bounds.
Qed.
