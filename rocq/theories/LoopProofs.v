From Coq Require Import List Arith Reals Bool Lia Lra.
From Verif Require Import LoopSpec LoopModel.
Import ListNotations.
Local Open Scope R_scope.

Lemma trim_spec : forall t ts target dt running, trim t ts target = (dt, running) -> t < target -> 0 < ts ->
  0 < dt <= ts /\ (if running then dt = ts /\ t + dt < target else t + dt = target).
Proof.
  intros t ts target dt running H Ht Hts. unfold trim in H. destruct (Rle_dec _ _) as [Hle|Hgt]; injection H as <- <-.
  - split; [split|]; lra.
  - apply Rnot_le_lt in Hgt. split; [split|split]; lra.
Qed.

Section Generic.
Variable internal : R -> R -> R -> vec -> nat -> outcome iter.
Variable stepf : R -> R -> vec -> vec.
Variable ok : R -> R -> vec -> Prop.
Variable inv : R -> Prop.

Definition good : Prop := forall t target ts y count r, t < target -> inv ts ->
  internal t target ts y count = Done r ->
  0 < i_dt r /\ ok t (i_dt r) y /\ i_state r = stepf t (i_dt r) y /\ inv (i_timestep r) /\
  (if i_running r then t + i_dt r < target else t + i_dt r = target).

Hypothesis Hgood : good.

Lemma output_good : forall fuel target t ts y count t' ts' y', t < target -> inv ts ->
  output_loop internal fuel target t ts y count = Done (t', ts', y') ->
  t' = target /\ inv ts' /\ exists ds, ds <> [] /\ advances stepf ok t y ds target y'.
Proof.
  induction fuel as [|fuel IH]; intros target t ts y count t' ts' y' Ht Hi H; cbn [output_loop] in H; [discriminate|].
  destruct (internal t target ts y count) as [r| |] eqn:E; try discriminate.
  destruct (Hgood t target ts y count r Ht Hi E) as (Hd & Hok & Hs & Hi' & Hr).
  destruct (i_running r).
  - destruct (IH _ _ _ _ _ _ _ _ Hr Hi' H) as (-> & Hi2 & ds & _ & Ha). split; [reflexivity|]. split; [exact Hi2|].
    exists (i_dt r :: ds). split; [discriminate|]. constructor; [exact Hd|exact Hok|]. rewrite <- Hs. exact Ha.
  - injection H as <- <- <-. rewrite Hr. split; [reflexivity|]. split; [exact Hi'|].
    exists [i_dt r]. split; [discriminate|]. constructor; [exact Hd|exact Hok|]. rewrite <- Hs, Hr. constructor.
Qed.

Lemma advances_total : forall t y ds t' y', advances stepf ok t y ds t' y' -> t' = t + total ds.
Proof. intros t y ds t' y' H. induction H as [|t y d ds t' y' Hd Hok H IH]; cbn [total]; lra. Qed.

Lemma run_good : forall quit fuel T n s t ts y calls t' ts' y', 0 < T -> inv ts ->
  run_loop internal quit fuel T n s t ts y = Done (calls, (t', ts', y')) ->
  monitor_calls stepf ok T t s y calls /\ (length calls <= n)%nat /\ t' = t + INR (length calls) * T /\
  ((length calls < n)%nat -> exists tq sq yq pre, calls = pre ++ [(tq, sq, yq)] /\ quit tq sq yq = true).
Proof.
  intros quit fuel T. induction n as [|n IH]; intros s t ts y calls t' ts' y' HT Hi H; cbn [run_loop] in H.
  - injection H as <- <- <- <-. cbn [length INR]. split; [constructor|]. split; [lia|]. split; [lra|]. lia.
  - destruct (output_loop internal fuel (t + T) t ts y 0) as [[[t1 ts1] y1]| |] eqn:E; try discriminate.
    assert (Hlt : t < t + T) by lra.
    destruct (output_good _ _ _ _ _ _ _ _ _ Hlt Hi E) as (-> & Hi1 & ds & Hne & Ha).
    destruct (quit (t + T) s y1) eqn:Q.
    + injection H as <- <- <- <-. cbn [length]. rewrite INR_1 || change (INR 1) with 1. split; [econstructor; [exact Hne|exact Ha|constructor]|].
      split; [lia|]. split; [lra|]. intros _. exists (t + T), s, y1, []. split; [reflexivity|exact Q].
    + destruct (run_loop internal quit fuel T n (S s) (t + T) ts1 y1) as [[calls1 [[t2 ts2] y2]]| |] eqn:E2; try discriminate.
      injection H as <- <- <- <-. destruct (IH _ _ _ _ _ _ _ _ HT Hi1 E2) as (H1 & H2 & H3 & H4). cbn [length].
      split; [econstructor; eassumption|]. split; [lia|]. split; [rewrite S_INR; lra|].
      intros Hl. destruct (H4 ltac:(lia)) as (tq & sq & yq & pre & -> & Hq). exists tq, sq, yq, ((t + T, s, y1) :: pre).
      split; [reflexivity|exact Hq].
Qed.

(** Fixed step: the loop ends. *)
Definition fixed_step (ts : R) : Prop := forall t target y count,
  exists st cnt, internal t target ts y count
    = Done {| i_dt := fst (trim t ts target); i_running := snd (trim t ts target); i_timestep := ts; i_state := st; i_count := cnt |}.

Lemma fixed_terminates : forall ts fuel target t y count, 0 < ts -> fixed_step ts ->
  0 < target - t <= ts * INR fuel ->
  exists t' y', output_loop internal fuel target t ts y count = Done (t', ts, y').
Proof.
  intros ts. induction fuel as [|fuel IH]; intros target t y count Hts Hf H; [cbn [INR] in H; lra|].
  cbn [output_loop]. destruct (Hf t target y count) as (st & cnt & E). rewrite E. cbn [i_dt i_running i_timestep i_state i_count].
  unfold trim. destruct (Rle_dec _ _) as [Hle|Hgt]; cbn [fst snd]; [eauto|].
  apply Rnot_le_lt in Hgt. apply IH; [exact Hts|exact Hf|]. rewrite S_INR in H. lra.
Qed.

(** Counted steps: with enough fuel the loop ends or throws. *)
Definition counted (mx : nat) : Prop := forall t target ts y count,
  internal t target ts y count <> NoFuel /\
  forall r, internal t target ts y count = Done r -> (count < i_count r <= mx)%nat.
Lemma counted_terminates : forall mx fuel target t ts y count, counted mx -> (mx < fuel + count)%nat -> (0 < fuel)%nat ->
  output_loop internal fuel target t ts y count <> NoFuel.
Proof.
  intros mx. induction fuel as [|fuel IH]; intros target t ts y count Hc Hf H0; [lia|]. cbn [output_loop].
  destruct (Hc t target ts y count) as (Hn & Hr).
  destruct (internal t target ts y count) as [r| |] eqn:E; [|discriminate|congruence].
  specialize (Hr r eq_refl). destruct (i_running r); [|discriminate].
  destruct fuel as [|fuel]; [lia|]. apply IH; [exact Hc|lia|lia].
Qed.
Lemma run_counted : forall mx quit fuel T n s t ts y, counted mx -> (mx < fuel)%nat ->
  run_loop internal quit fuel T n s t ts y <> NoFuel.
Proof.
  intros mx quit fuel T. induction n as [|n IH]; intros s t ts y Hc Hf; cbn [run_loop]; [discriminate|].
  pose proof (counted_terminates mx fuel (t + T) t ts y 0 Hc ltac:(lia) ltac:(lia)) as H.
  destruct (output_loop internal fuel (t + T) t ts y 0) as [[[t1 ts1] y1]| |]; [|discriminate|congruence].
  destruct (quit t1 s y1); [discriminate|].
  specialize (IH (S s) t1 ts1 y1 Hc Hf).
  destruct (run_loop internal quit fuel T n (S s) t1 ts1 y1) as [[calls fin]| |]; [discriminate|discriminate|congruence].
Qed.
Lemma run_fixed : forall quit fuel T n s t ts y, 0 < ts -> fixed_step ts -> 0 < T <= ts * INR fuel ->
  exists calls fin, run_loop internal quit fuel T n s t ts y = Done (calls, fin).
Proof.
  intros quit fuel T. induction n as [|n IH]; intros s t ts y Hts Hf HT; cbn [run_loop]; [eauto|].
  destruct (fixed_terminates ts fuel (t + T) t y 0 Hts Hf ltac:(lra)) as (t1 & y1 & E). rewrite E.
  destruct (quit t1 s y1); [eauto|].
  destruct (IH (S s) t1 ts y1 Hts Hf HT) as (calls & fin & E2). rewrite E2. eauto.
Qed.
End Generic.

(** ** The solvers *)
Definition sane (c : config) : Prop :=
  (forall t dt y ts, 0 < ts -> 0 < lim c t dt y ts <= ts) /\ (forall e, 0 < powfac c e).
Definition limited (c : config) (ts : R) : Prop := 0 < ts /\ (0 < max_timestep c -> ts <= max_timestep c).

Lemma clip_limited : forall c ts, 0 < ts -> limited c (clip c ts).
Proof.
  intros c ts H. unfold limited, clip. destruct (Rlt_dec _ _) as [Hm|Hm]; [destruct (Rlt_dec _ _) as [H2|H2]|]; split; intros; lra.
Qed.

Definition within (c : config) (d : R) : Prop := 0 < max_timestep c -> d <= max_timestep c.

Lemma rk4_good_adaptive : forall c fuel, sane c -> adaptive c = true ->
  good (rk4_internal c fuel) (half_steps (step c))
    (fun t d y => within c d /\ errnorm c (step c t d y) (half_steps (step c) t d y) < rtol c) (limited c).
Proof.
  intros c fuel (Hl & Hp) Ha. induction fuel as [|fuel IH]; intros t target ts y count r Ht (Hts & Hmx) H; cbn [rk4_internal] in H; [discriminate|].
  destruct (trim t ts target) as [dt running] eqn:Et. rewrite Ha in H.
  destruct (trim_spec _ _ _ _ _ Et Ht Hts) as (Hd & Hr).
  destruct (mxstep c <? S count)%nat; [discriminate|].
  destruct (Hl t dt y ts Hts) as (Hl1 & Hl2). set (ts1 := lim c t dt y ts) in *.
  set (e := errnorm c _ _) in *.
  assert (L1 : limited c ts1) by (split; [exact Hl1|]; intros; specialize (Hmx H0); lra).
  assert (L2 : limited c (clip c (ts1 / powfac c e))).
  { apply clip_limited. apply Rdiv_lt_0_compat; [exact Hl1|apply Hp]. }
  set (ts2 := if Rlt_dec (rtol c) e then clip c (ts1 / powfac c e)
              else if Rlt_dec e (0.1 * rtol c) then clip c (ts1 / powfac c e) else ts1) in *.
  assert (L3 : limited c ts2) by (unfold ts2; destruct (Rlt_dec _ _); [exact L2|]; destruct (Rlt_dec _ _); [exact L2|exact L1]).
  destruct (Rlt_dec e (rtol c)) as [Hlt|Hge].
  - injection H as <-. cbn [i_dt i_running i_timestep i_state].
    assert (Eh : step c (t + 0.5 * dt) (0.5 * dt) (step c t (0.5 * dt) y) = half_steps (step c) t dt y).
    { unfold half_steps. replace (0.5 * dt) with (dt / 2) by lra. reflexivity. }
    split; [lra|]. split; [split; [intros Hm; specialize (Hmx Hm); lra|rewrite <- Eh; exact Hlt]|].
    split; [exact Eh|]. split; [exact L3|]. destruct running; [lra|lra].
  - exact (IH t target ts2 y (S count) r Ht L3 H).
Qed.

Lemma rk4_good_fixed : forall c fuel, adaptive c = false ->
  good (rk4_internal c fuel) (step c) (fun _ d _ => within c d) (limited c).
Proof.
  intros c [|fuel] Ha t target ts y count r Ht (Hts & Hmx) H; cbn [rk4_internal] in H; [discriminate|].
  destruct (trim t ts target) as [dt running] eqn:Et. rewrite Ha in H. injection H as <-.
  destruct (trim_spec _ _ _ _ _ Et Ht Hts) as (Hd & Hr). cbn [i_dt i_running i_timestep i_state].
  split; [lra|]. split; [intros Hm; specialize (Hmx Hm); lra|]. split; [reflexivity|]. split; [split; assumption|].
  destruct running; lra.
Qed.
Lemma rk4_fixed : forall c fuel ts, adaptive c = false -> fixed_step (rk4_internal c (S fuel)) ts.
Proof.
  intros c fuel ts Ha t target y count. cbn [rk4_internal]. rewrite Ha.
  destruct (trim t ts target) as [dt running]. cbn [fst snd]. eauto.
Qed.
Lemma rk4_counted : forall c fuel, adaptive c = true -> (mxstep c < fuel)%nat -> counted (rk4_internal c fuel) (mxstep c).
Proof.
  intros c fuel Ha. 
  assert (H : forall fuel t target ts y count, (mxstep c < fuel + count)%nat -> (0 < fuel)%nat ->
    rk4_internal c fuel t target ts y count <> NoFuel /\
    forall r, rk4_internal c fuel t target ts y count = Done r -> (count < i_count r <= mxstep c)%nat).
  { clear fuel. induction fuel as [|fuel IH]; intros t target ts y count Hf H0; [lia|]. cbn [rk4_internal]. rewrite Ha.
    destruct (trim t ts target) as [dt running]. destruct (Nat.ltb_spec (mxstep c) (S count)) as [Hm|Hm];
      [split; [discriminate|intros; discriminate]|].
    destruct (Rlt_dec _ (rtol c)).
    - split; [discriminate|]. intros r0 E. injection E as <-. cbn [i_count]. lia.
    - destruct (IH t target (if Rlt_dec (rtol c) (errnorm c (step c t dt y) (step c (t + 0.5 * dt) (0.5 * dt) (step c t (0.5 * dt) y)))
          then clip c (lim c t dt y ts / powfac c (errnorm c (step c t dt y) (step c (t + 0.5 * dt) (0.5 * dt) (step c t (0.5 * dt) y))))
          else if Rlt_dec (errnorm c (step c t dt y) (step c (t + 0.5 * dt) (0.5 * dt) (step c t (0.5 * dt) y))) (0.1 * rtol c)
               then clip c (lim c t dt y ts / powfac c (errnorm c (step c t dt y) (step c (t + 0.5 * dt) (0.5 * dt) (step c t (0.5 * dt) y))))
               else lim c t dt y ts) y (S count) ltac:(lia) ltac:(lia)) as (H1 & H2).
      split; [exact H1|]. intros r E. specialize (H2 r E). lia. }
  intros Hf t target ts y count. destruct fuel as [|fuel]; [lia|]. apply H; lia.
Qed.

Lemma rkgeneric_good_adaptive : forall c alt newdt fuel, sane c -> (forall dt e, 0 < dt -> 0 < newdt dt e) -> adaptive c = true ->
  good (rkgeneric_internal c alt newdt fuel) (step c)
    (fun t d y => within c d /\ errnorm c (step c t d y) (alt t d y) < rtol c) (limited c).
Proof.
  intros c alt newdt fuel (Hl & Hp) Hn Ha. induction fuel as [|fuel IH]; intros t target ts y count r Ht (Hts & Hmx) H; cbn [rkgeneric_internal] in H; [discriminate|].
  destruct (trim t ts target) as [dt running] eqn:Et. rewrite Ha in H.
  destruct (trim_spec _ _ _ _ _ Et Ht Hts) as (Hd & Hr).
  destruct (mxstep c <? S count)%nat; [discriminate|].
  destruct (Hl t dt y ts Hts) as (Hl1 & Hl2). set (ts1 := lim c t dt y ts) in *.
  set (e := errnorm c _ _) in *.
  assert (L1 : limited c ts1) by (split; [exact Hl1|]; intros; specialize (Hmx H0); lra).
  assert (L2 : limited c (clip c (newdt dt e))) by (apply clip_limited; apply Hn; lra).
  match type of H with context [Rlt_dec e (rtol c)] => idtac end.
  set (ts2 := if Rlt_dec (rtol c) e then clip c (newdt dt e)
              else if Rlt_dec e (0.1 * rtol c) then if running then clip c (newdt dt e) else ts1 else ts1) in *.
  assert (L3 : limited c ts2).
  { unfold ts2. destruct (Rlt_dec _ _); [exact L2|]. destruct (Rlt_dec _ _); [destruct running; [exact L2|exact L1]|exact L1]. }
  destruct (Rlt_dec e (rtol c)) as [Hlt|Hge].
  - injection H as <-. cbn [i_dt i_running i_timestep i_state].
    split; [lra|]. split; [split; [intros Hm; specialize (Hmx Hm); lra|exact Hlt]|].
    split; [reflexivity|]. split; [exact L3|]. destruct running; [lra|lra].
  - exact (IH t target ts2 y (S count) r Ht L3 H).
Qed.
Lemma rkgeneric_good_fixed : forall c alt newdt fuel, adaptive c = false ->
  good (rkgeneric_internal c alt newdt fuel) (step c) (fun _ d _ => within c d) (limited c).
Proof.
  intros c alt newdt [|fuel] Ha t target ts y count r Ht (Hts & Hmx) H; cbn [rkgeneric_internal] in H; [discriminate|].
  destruct (trim t ts target) as [dt running] eqn:Et. rewrite Ha in H. injection H as <-.
  destruct (trim_spec _ _ _ _ _ Et Ht Hts) as (Hd & Hr). cbn [i_dt i_running i_timestep i_state].
  split; [lra|]. split; [intros Hm; specialize (Hmx Hm); lra|]. split; [reflexivity|]. split; [split; assumption|].
  destruct running; lra.
Qed.
Lemma rkgeneric_fixed : forall c alt newdt fuel ts, adaptive c = false -> fixed_step (rkgeneric_internal c alt newdt (S fuel)) ts.
Proof.
  intros c alt newdt fuel ts Ha t target y count. cbn [rkgeneric_internal]. rewrite Ha.
  destruct (trim t ts target) as [dt running]. cbn [fst snd]. eauto.
Qed.
Lemma rkgeneric_counted : forall c alt newdt fuel, adaptive c = true -> (mxstep c < fuel)%nat ->
  counted (rkgeneric_internal c alt newdt fuel) (mxstep c).
Proof.
  intros c alt newdt fuel Ha.
  assert (H : forall fuel t target ts y count, (mxstep c < fuel + count)%nat -> (0 < fuel)%nat ->
    rkgeneric_internal c alt newdt fuel t target ts y count <> NoFuel /\
    forall r, rkgeneric_internal c alt newdt fuel t target ts y count = Done r -> (count < i_count r <= mxstep c)%nat).
  { clear fuel. induction fuel as [|fuel IH]; intros t target ts y count Hf H0; [lia|]. cbn [rkgeneric_internal]. rewrite Ha.
    destruct (trim t ts target) as [dt running]. destruct (Nat.ltb_spec (mxstep c) (S count)) as [Hm|Hm];
      [split; [discriminate|intros; discriminate]|].
    destruct (Rlt_dec (errnorm c (step c t dt y) (alt t dt y)) (rtol c)).
    - split; [discriminate|]. intros r0 E. injection E as <-. cbn [i_count]. lia.
    - match goal with |- rkgeneric_internal _ _ _ _ _ _ ?x _ _ <> _ /\ _ =>
        destruct (IH t target x y (S count) ltac:(lia) ltac:(lia)) as (H1 & H2) end.
      split; [exact H1|]. intros r E. specialize (H2 r E). lia. }
  intros Hf t target ts y count. destruct fuel as [|fuel]; [lia|]. apply H; lia.
Qed.

Lemma rk3ssp_good : forall c, sane c ->
  good (rk3ssp_internal c) (step c) (fun _ _ _ => True) (fun ts => 0 < ts).
Proof.
  intros c (Hl & _) t target ts y count r Ht Hts H. unfold rk3ssp_internal in H.
  destruct (trim t ts target) as [dt running] eqn:Et. injection H as <-.
  destruct (trim_spec _ _ _ _ _ Et Ht Hts) as (Hd & Hr). cbn [i_dt i_running i_timestep i_state].
  split; [lra|]. split; [exact I|]. split; [reflexivity|]. split; [apply Hl; exact Hts|]. destruct running; lra.
Qed.
Lemma rk3ssp_fixed : forall c ts, (forall t dt y x, lim c t dt y x = x) -> fixed_step (rk3ssp_internal c) ts.
Proof.
  intros c ts Hl t target y count. unfold rk3ssp_internal. destruct (trim t ts target) as [dt running]. rewrite Hl.
  cbn [fst snd]. eauto.
Qed.

(** The step is at most the limit that the right hand side asked for. *)
Lemma euler_good : forall c reduce, (forall t y dt d, 0 < dt -> reduce t y dt = Some d -> 0 < d) ->
  good (euler_internal c reduce) (step c)
    (fun t d y => exists dt, d <= dt /\ forall d', reduce t y dt = Some d' -> d <= d') (fun ts => 0 < ts).
Proof.
  intros c reduce Hp t target ts y count r Ht Hts H. unfold euler_internal in H.
  destruct (trim t ts target) as [dt running] eqn:Et. destruct (trim_spec _ _ _ _ _ Et Ht Hts) as (Hd & Hr).
  set (newdt := match reduce t y dt with Some d => d | None => 10 * dt end) in *.
  assert (Hn : 0 < newdt).
  { unfold newdt. destruct (reduce t y dt) as [d|] eqn:E; [|lra]. apply (Hp t y dt d); [lra|exact E]. }
  destruct (Rlt_dec newdt dt) as [Hlt|Hge]; destruct (mxstep c <? S count)%nat; try discriminate; injection H as <-;
    cbn [i_dt i_running i_timestep i_state].
  - split; [exact Hn|]. split; [exists dt; split; [lra|]; intros d' E; unfold newdt; rewrite E; lra|].
    split; [reflexivity|]. split; [exact Hn|]. destruct running; lra.
  - split; [lra|]. split; [exists dt; split; [lra|]; intros d' E; unfold newdt in Hge; rewrite E in Hge; lra|].
    split; [reflexivity|]. split; [exact Hts|]. destruct running; lra.
Qed.
Lemma euler_counted : forall c reduce, counted (euler_internal c reduce) (mxstep c).
Proof.
  intros c reduce t target ts y count. unfold euler_internal. destruct (trim t ts target) as [dt running].
  destruct (Rlt_dec _ dt); destruct (Nat.ltb_spec (mxstep c) (S count)); split; try discriminate;
    intros r0 E; try discriminate; injection E as <-; cbn [i_count]; lia.
Qed.

(** SplitRK: checking the error at every step. *)
Lemma splitrk_adapt_good : forall c fuel, sane c ->
  good (splitrk_adapt c fuel) (half_steps (step c))
    (fun t d y => within c d /\ errnorm c (step c t d y) (half_steps (step c) t d y) < rtol c) (limited c).
Proof.
  intros c fuel (Hl & Hp). induction fuel as [|fuel IH]; intros t target ts y count r Ht (Hts & Hmx) H; cbn [splitrk_adapt] in H; [discriminate|].
  destruct (trim t ts target) as [dt running] eqn:Et.
  destruct (trim_spec _ _ _ _ _ Et Ht Hts) as (Hd & Hr).
  destruct (mxstep c <? S count)%nat; [discriminate|].
  destruct (Hl t dt y ts Hts) as (Hl1 & Hl2). set (ts1 := lim c t dt y ts) in *.
  set (e := errnorm c _ _) in *.
  assert (L1 : limited c ts1) by (split; [exact Hl1|]; intros; specialize (Hmx H0); lra).
  assert (L2 : limited c (clip c (ts1 * powfac c e))) by (apply clip_limited; apply Rmult_lt_0_compat; [exact Hl1|apply Hp]).
  set (ts2 := if Rlt_dec (rtol c) e then clip c (ts1 * powfac c e)
              else if Rlt_dec e (0.1 * rtol c) then clip c (ts1 * powfac c e) else ts1) in *.
  assert (L3 : limited c ts2) by (unfold ts2; destruct (Rlt_dec _ _); [exact L2|]; destruct (Rlt_dec _ _); [exact L2|exact L1]).
  destruct (Rlt_dec e (rtol c)) as [Hlt|Hge].
  - injection H as <-. cbn [i_dt i_running i_timestep i_state].
    assert (Eh : step c (t + 0.5 * dt) (0.5 * dt) (step c t (0.5 * dt) y) = half_steps (step c) t dt y).
    { unfold half_steps. replace (0.5 * dt) with (dt / 2) by lra. reflexivity. }
    split; [lra|]. split; [split; [intros Hm; specialize (Hmx Hm); lra|rewrite <- Eh; exact Hlt]|].
    split; [exact Eh|]. split; [exact L3|]. destruct running; [lra|lra].
  - exact (IH t target ts2 y (S count) r Ht L3 H).
Qed.
Lemma splitrk_every_step : forall c fuel, sane c -> adaptive c = true -> adapt_period c = 1%nat ->
  good (splitrk_internal c fuel) (half_steps (step c))
    (fun t d y => within c d /\ errnorm c (step c t d y) (half_steps (step c) t d y) < rtol c) (limited c).
Proof.
  intros c fuel Hs Ha Hp t target ts y count r Ht Hi H. unfold splitrk_internal in H. rewrite Ha, Hp in H.
  cbn [Nat.modulo Nat.divmod fst snd Nat.sub Nat.eqb andb] in H.
  destruct (count mod 1 =? 0)%nat eqn:E; [|rewrite Nat.mod_1_r in E; discriminate].
  exact (splitrk_adapt_good c fuel Hs t target ts y count r Ht Hi H).
Qed.
