(** Rounds: all processors post their receives and sends, then wait for them. One execution of a round. *)
From Coq Require Import List Arith Bool Lia.
From Verif Require Import MpiModel MpiProofs.
Import ListNotations.

Section R.
Variables (M D : Type) (N : nat) (eager : chan -> nat -> bool).
Notation prog := (prog M D).
Notation state := (state M D).
Notation step := (step M D N eager).
Notation steps := (steps M D N eager).

Definition reach (st st' : state) : Prop := exists n, steps n st st'.
Lemma reach_refl st : reach st st. Proof. exists 0. constructor. Qed.
Lemma reach_trans s t u : reach s t -> reach t u -> reach s u.
Proof. intros [n H] [m H']. exists (n + m). eapply steps_app; eassumption. Qed.
Lemma reach_step p st st' : p < N -> step p st = Some st' -> reach st st'.
Proof. intros Hp E. exists 1. econstructor; [exact Hp|exact E|constructor]. Qed.

(** Posting. *)
Inductive pop := PS (r d t : nat) (m : M) | PR (r s t : nat) | PF.
Fixpoint emit (ops : list pop) (k : prog) : prog :=
  match ops with [] => k | PS r d t m :: o => Isend r d t m (emit o k) | PR r s t :: o => Irecv r s t (emit o k) | PF :: o => Reuse (emit o k) end.
Definition req_of (p : nat) (o : pop) : pending :=
  match o with PS r d t _ => [(r, RSend (p, d, t))] | PR r s t => [(r, RRecv (s, p, t))] | PF => [] end.
Fixpoint pend (p : nat) (e : pending) (ops : list pop) : pending := match ops with [] => e | o :: ops' => pend p (req_of p o ++ e) ops' end.
Fixpoint ok_ops (p : nat) (e : pending) (ops : list pop) : bool :=
  match ops with
  | [] => true
  | o :: ops' =>
    match o with
    | PS r d t _ => (d <? N) && free r e
    | PR r s t => (s <? N) && free r e && negb (existsb (is_recv_on (s, p, t)) e)
    | PF => negb (existsb is_send e)
    end && ok_ops p (req_of p o ++ e) ops'
  end.
Definition send_on (p : nat) (c : chan) (o : pop) : list M := match o with PS r d t m => if chan_eqb c (p, d, t) then [m] else [] | _ => [] end.
Definition recv_on (p : nat) (c : chan) (o : pop) : nat := match o with PR r s t => if chan_eqb c (s, p, t) then 1 else 0 | _ => 0 end.
Fixpoint sends_on (p : nat) (ops : list pop) (c : chan) : list M := match ops with [] => [] | o :: ops' => send_on p c o ++ sends_on p ops' c end.
Fixpoint recvs_on (p : nat) (ops : list pop) (c : chan) : nat := match ops with [] => 0 | o :: ops' => recv_on p c o + recvs_on p ops' c end.

Lemma emit_run p k ops : p < N -> forall e st, ok_ops p e ops = true -> procs st p = (emit ops k, e) ->
  exists st', reach st st' /\ procs st' p = (k, pend p e ops) /\ (forall q, q <> p -> procs st' q = procs st q) /\
  forall c, chans st' c = mkCh (queue (chans st c) ++ sends_on p ops c) (sent (chans st c) + length (sends_on p ops c)) (posted (chans st c) + recvs_on p ops c).
Proof.
  intros Hp. induction ops as [|o ops IH]; intros e st OK E.
  - exists st. split; [apply reach_refl|]. split; [exact E|]. split; [reflexivity|]. intros c. cbn [sends_on recvs_on length]. rewrite app_nil_r, !Nat.add_0_r. destruct (chans st c); reflexivity.
  - cbn [ok_ops] in OK. apply andb_true_iff in OK. destruct OK as [G OK]. cbn [emit] in E.
    assert (X : exists s1, step p st = Some s1 /\ procs s1 p = (emit ops k, req_of p o ++ e) /\ (forall q, q <> p -> procs s1 q = procs st q) /\
      forall c, chans s1 c = mkCh (queue (chans st c) ++ send_on p c o) (sent (chans st c) + length (send_on p c o)) (posted (chans st c) + recv_on p c o)).
    { unfold MpiModel.step. rewrite E. destruct o as [r d t m|r s t|].
      - rewrite G. eexists. split; [reflexivity|]. cbn [procs chans]. unfold set_proc. rewrite Nat.eqb_refl. split; [reflexivity|]. split; [intros q Hq; apply Nat.eqb_neq in Hq; rewrite Hq; reflexivity|].
        intros c. unfold set_chan. cbn [send_on recv_on]. destruct (chan_eqb c (p, d, t)) eqn:C; cbn [length]; rewrite ?Nat.add_0_r, ?app_nil_r.
        + apply chan_eqb_spec in C. subst c. rewrite Nat.add_1_r. reflexivity.
        + destruct (chans st c); reflexivity.
      - rewrite G. eexists. split; [reflexivity|]. cbn [procs chans]. unfold set_proc. rewrite Nat.eqb_refl. split; [reflexivity|]. split; [intros q Hq; apply Nat.eqb_neq in Hq; rewrite Hq; reflexivity|].
        intros c. unfold set_chan. cbn [send_on recv_on length]. rewrite app_nil_r, Nat.add_0_r. destruct (chan_eqb c (s, p, t)) eqn:C; rewrite ?Nat.add_0_r.
        + apply chan_eqb_spec in C. subst c. rewrite Nat.add_1_r. reflexivity.
        + destruct (chans st c); reflexivity.
      - apply negb_true_iff in G. rewrite G. eexists. split; [reflexivity|]. cbn [procs chans]. unfold set_proc. rewrite Nat.eqb_refl. split; [reflexivity|]. split; [intros q Hq; apply Nat.eqb_neq in Hq; rewrite Hq; reflexivity|].
        intros c. cbn [send_on recv_on length]. rewrite app_nil_r, !Nat.add_0_r. destruct (chans st c); reflexivity. }
    destruct X as (s1 & E1 & P1 & O1 & C1). destruct (IH _ s1 OK P1) as (s2 & R2 & P2 & O2 & C2). exists s2.
    split; [eapply reach_trans; [eapply reach_step; eassumption|exact R2]|]. split; [exact P2|]. split; [intros q Hq; rewrite O2, O1 by exact Hq; reflexivity|].
    intros c. rewrite C2, C1. cbn [queue sent posted sends_on recvs_on]. rewrite app_length. rewrite app_assoc. rewrite !Nat.add_assoc. reflexivity.
Qed.
Lemma sends_dst p e ops c : ok_ops p e ops = true -> N <= snd (fst c) -> sends_on p ops c = [].
Proof.
  revert e. induction ops as [|o ops IH]; intros e OK H; [reflexivity|]. cbn [ok_ops] in OK. apply andb_true_iff in OK. destruct OK as [G OK]. cbn [sends_on]. rewrite (IH _ OK H), app_nil_r.
  destruct o as [r d t m|r s t|]; cbn [send_on]; try reflexivity. destruct (chan_eqb c (p, d, t)) eqn:C; [|reflexivity]. apply chan_eqb_spec in C. subst c. cbn [fst snd] in H.
  apply andb_true_iff in G. destruct G as [G _]. apply Nat.ltb_lt in G. lia.
Qed.
Lemma recvs_src p e ops c : ok_ops p e ops = true -> N <= fst (fst c) -> recvs_on p ops c = 0.
Proof.
  revert e. induction ops as [|o ops IH]; intros e OK H; [reflexivity|]. cbn [ok_ops] in OK. apply andb_true_iff in OK. destruct OK as [G OK]. cbn [recvs_on]. rewrite (IH _ OK H), Nat.add_0_r.
  destruct o as [r d t m|r s t|]; cbn [recv_on]; try reflexivity. destruct (chan_eqb c (s, p, t)) eqn:C; [|reflexivity]. apply chan_eqb_spec in C. subst c. cbn [fst snd] in H.
  rewrite !andb_true_iff in G. destruct G as [[G _] _]. apply Nat.ltb_lt in G. lia.
Qed.
Lemma sends_src p ops c : fst (fst c) <> p -> sends_on p ops c = [].
Proof.
  intros H. induction ops as [|o ops IH]; [reflexivity|]. cbn [sends_on]. rewrite IH, app_nil_r. destruct o as [r d t m|r s t|]; cbn [send_on]; try reflexivity.
  destruct (chan_eqb c (p, d, t)) eqn:C; [|reflexivity]. apply chan_eqb_spec in C. subst c. cbn in H. congruence.
Qed.
Lemma recvs_dst p ops c : snd (fst c) <> p -> recvs_on p ops c = 0.
Proof.
  intros H. induction ops as [|o ops IH]; [reflexivity|]. cbn [recvs_on]. rewrite IH, Nat.add_0_r. destruct o as [r d t m|r s t|]; cbn [recv_on]; try reflexivity.
  destruct (chan_eqb c (s, p, t)) eqn:C; [|reflexivity]. apply chan_eqb_spec in C. subst c. cbn in H. congruence.
Qed.

(** Waiting: processor [p] goes to [l], taking the messages of the channels [taken]. *)
Definition taken_from (taken : list chan) (c : chan) (q : list M) : list M := if existsb (chan_eqb c) taken then [] else q.
Definition after (p : nat) (st : state) (l : prog * pending) (taken : list chan) (st' : state) : Prop :=
  reach st st' /\ procs st' p = l /\ (forall q, q <> p -> procs st' q = procs st q) /\
  forall c, chans st' c = mkCh (taken_from taken c (queue (chans st c))) (sent (chans st c)) (posted (chans st c)).
Lemma after_refl p st l : procs st p = l -> after p st l [] st.
Proof. intros E. split; [apply reach_refl|]. split; [exact E|]. split; [reflexivity|]. intros c. cbn [taken_from existsb]. destruct (chans st c); reflexivity. Qed.
Lemma after_trans p st l1 t1 s1 l2 t2 s2 : after p st l1 t1 s1 -> after p s1 l2 t2 s2 -> after p st l2 (t1 ++ t2) s2.
Proof.
  intros (R1 & P1 & O1 & C1) (R2 & P2 & O2 & C2). split; [eapply reach_trans; eassumption|]. split; [exact P2|]. split; [intros q Hq; rewrite O2, O1 by exact Hq; reflexivity|].
  intros c. rewrite C2, C1. cbn [queue sent posted]. f_equal. unfold taken_from. rewrite existsb_app. destruct (existsb (chan_eqb c) t1), (existsb (chan_eqb c) t2); reflexivity.
Qed.
Lemma wait_recv_run p st r k e c m : p < N -> procs st p = (WaitRecv r k, e) -> lookup r e = Some (RRecv c) -> queue (chans st c) = [m] ->
  exists st', after p st (k m, remove r e) [c] st'.
Proof.
  intros Hp E L Q. eexists. split; [|split; [|split]].
  - eapply reach_step; [exact Hp|]. unfold MpiModel.step. rewrite E, L, Q. reflexivity.
  - cbn [procs]. unfold set_proc. rewrite Nat.eqb_refl. reflexivity.
  - intros q Hq. cbn [procs]. unfold set_proc. apply Nat.eqb_neq in Hq. rewrite Hq. reflexivity.
  - intros d. cbn [chans]. unfold set_chan, taken_from. cbn [existsb]. rewrite orb_false_r. destruct (chan_eqb d c) eqn:X; [apply chan_eqb_spec in X; subst; reflexivity|destruct (chans st d); reflexivity].
Qed.
Lemma wait_send_run p st r k e c : p < N -> procs st p = (WaitSend r k, e) -> lookup r e = Some (RSend c) -> sent (chans st c) <= posted (chans st c) ->
  exists st', after p st (k, remove r e) [] st'.
Proof.
  intros Hp E L Q. apply Nat.leb_le in Q. eexists. split; [|split; [|split]].
  - eapply reach_step; [exact Hp|]. unfold MpiModel.step. rewrite E, L, Q, orb_true_r. reflexivity.
  - cbn [procs]. unfold set_proc. rewrite Nat.eqb_refl. reflexivity.
  - intros q Hq. cbn [procs]. unfold set_proc. apply Nat.eqb_neq in Hq. rewrite Hq. reflexivity.
  - intros d. cbn [chans taken_from existsb]. destruct (chans st d); reflexivity.
Qed.

(** All processors at [P], nothing pending, no message under way. *)
Definition quiet (st : state) (P : nat -> prog) : Prop :=
  (forall p, p < N -> procs st p = (P p, [])) /\ forall c, queue (chans st c) = [] /\ sent (chans st c) = posted (chans st c).

Section Round.
Variables (ops : nat -> list pop) (K P2 : nat -> prog).
Hypothesis OK : forall p, p < N -> ok_ops p [] (ops p) = true.
Hypothesis PAIR : forall s d t, s < N -> d < N -> recvs_on d (ops d) (s, d, t) = length (sends_on s (ops s) (s, d, t)).
Hypothesis WAITS : forall p st, p < N -> procs st p = (K p, pend p [] (ops p)) ->
  (forall s t, s < N -> queue (chans st (s, p, t)) = sends_on s (ops s) (s, p, t)) -> (forall c, sent (chans st c) <= posted (chans st c)) ->
  exists st' taken, after p st (P2 p, []) taken st' /\ (forall c, In c taken -> snd (fst c) = p) /\
    forall s t, s < N -> sends_on s (ops s) (s, p, t) <> [] -> In (s, p, t) taken.
Definition msgs (c : chan) : list M := if (fst (fst c) <? N) && (snd (fst c) <? N) then sends_on (fst (fst c)) (ops (fst (fst c))) c else [].

Lemma posting st0 j : quiet st0 (fun p => emit (ops p) (K p)) -> j <= N ->
  exists st, reach st0 st /\ (forall p, p < N -> procs st p = if p <? j then (K p, pend p [] (ops p)) else (emit (ops p) (K p), [])) /\
  forall c, queue (chans st c) = (if fst (fst c) <? j then msgs c else []) /\
    sent (chans st c) = sent (chans st0 c) + (if fst (fst c) <? j then length (msgs c) else 0) /\
    posted (chans st c) = posted (chans st0 c) + (if snd (fst c) <? j then length (msgs c) else 0).
Proof.
  intros [Q1 Q2]. induction j as [|j IH]; intros Hj.
  - exists st0. split; [apply reach_refl|]. split; [intros p Hp; apply Q1; exact Hp|]. intros c. rewrite !Nat.add_0_r. split; [apply Q2|]. split; reflexivity.
  - destruct IH as (st & R & P & C); [lia|]. assert (HJ : j < N) by lia.
    assert (PJ : procs st j = (emit (ops j) (K j), [])). { rewrite P by exact HJ. rewrite Nat.ltb_irrefl. reflexivity. }
    destruct (emit_run j (K j) (ops j) HJ [] st (OK j HJ) PJ) as (s1 & R1 & P1 & O1 & C1). exists s1. split; [eapply reach_trans; eassumption|]. split.
    + intros p Hp. destruct (Nat.eq_dec p j) as [->|NE]; [rewrite P1; assert (X : j <? S j = true) by (apply Nat.ltb_lt; lia); rewrite X; reflexivity|].
      rewrite O1 by exact NE. rewrite P by exact Hp. replace (p <? S j) with (p <? j); [reflexivity|]. destruct (Nat.ltb_spec p j), (Nat.ltb_spec p (S j)); try reflexivity; lia.
    + intros c. destruct (C c) as (A1 & A2 & A3). rewrite C1. cbn [queue sent posted]. rewrite A1, A2, A3. destruct c as [[s d] t]. unfold msgs in *. cbn [fst snd] in *.
      assert (S1 : sends_on j (ops j) (s, d, t) = if s =? j then (if (s <? N) && (d <? N) then sends_on s (ops s) (s, d, t) else []) else []).
      { destruct (Nat.eqb_spec s j) as [->|NE]; [|apply sends_src; exact NE]. apply Nat.ltb_lt in HJ. rewrite HJ. cbn [andb]. destruct (Nat.ltb_spec d N); [reflexivity|].
        eapply sends_dst; [apply OK; apply Nat.ltb_lt; exact HJ|exact H]. }
      assert (S2 : recvs_on j (ops j) (s, d, t) = if d =? j then length (if (s <? N) && (d <? N) then sends_on s (ops s) (s, d, t) else []) else 0).
      { destruct (Nat.eqb_spec d j) as [->|NE]; [|apply recvs_dst; exact NE]. destruct (Nat.ltb_spec s N) as [HS|HS]; cbn [andb length]; [|eapply recvs_src; [apply OK; exact HJ|exact HS]].
        replace (j <? N) with true by (symmetry; apply Nat.ltb_lt; exact HJ). apply PAIR; assumption. }
      rewrite S1, S2. replace (s <? S j) with ((s <? j) || (s =? j)) by (destruct (Nat.ltb_spec s j), (Nat.ltb_spec s (S j)), (Nat.eqb_spec s j); try reflexivity; lia).
      replace (d <? S j) with ((d <? j) || (d =? j)) by (destruct (Nat.ltb_spec d j), (Nat.ltb_spec d (S j)), (Nat.eqb_spec d j); try reflexivity; lia).
      destruct (Nat.ltb_spec s j), (Nat.eqb_spec s j); try lia; destruct (Nat.ltb_spec d j), (Nat.eqb_spec d j); try lia; cbn [orb length]; rewrite ?app_nil_r, ?Nat.add_0_r; auto.
Qed.
Lemma waiting st0 j : (forall p, p < N -> procs st0 p = (K p, pend p [] (ops p))) -> (forall c, queue (chans st0 c) = msgs c /\ sent (chans st0 c) = posted (chans st0 c)) -> j <= N ->
  exists st, reach st0 st /\ (forall p, p < N -> procs st p = if p <? j then (P2 p, []) else (K p, pend p [] (ops p))) /\
  forall c, queue (chans st c) = (if snd (fst c) <? j then [] else msgs c) /\ sent (chans st c) = posted (chans st c).
Proof.
  intros Q1 Q2. induction j as [|j IH]; intros Hj.
  - exists st0. split; [apply reach_refl|]. split; [exact Q1|]. intros c. apply Q2.
  - destruct IH as (st & R & P & C); [lia|]. assert (HJ : j < N) by lia.
    assert (PJ : procs st j = (K j, pend j [] (ops j))). { rewrite P by exact HJ. rewrite Nat.ltb_irrefl. reflexivity. }
    destruct (WAITS j st HJ PJ) as (s1 & taken & (R1 & P1 & O1 & C1) & T1 & T2).
    { intros s t Hs. rewrite (proj1 (C _)). cbn [fst snd]. rewrite Nat.ltb_irrefl. unfold msgs. cbn [fst snd]. apply Nat.ltb_lt in Hs, HJ. rewrite Hs, HJ. reflexivity. }
    { intros c. rewrite (proj2 (C c)). lia. }
    exists s1. split; [eapply reach_trans; eassumption|]. split.
    + intros p Hp. destruct (Nat.eq_dec p j) as [->|NE]; [rewrite P1; assert (X : j <? S j = true) by (apply Nat.ltb_lt; lia); rewrite X; reflexivity|].
      rewrite O1 by exact NE. rewrite P by exact Hp. replace (p <? S j) with (p <? j); [reflexivity|]. destruct (Nat.ltb_spec p j), (Nat.ltb_spec p (S j)); try reflexivity; lia.
    + intros c. destruct (C c) as (A1 & A2). rewrite C1. cbn [queue sent posted]. split; [|exact A2]. rewrite A1. unfold taken_from. destruct c as [[s d] t]. cbn [fst snd] in *.
      destruct (existsb (chan_eqb (s, d, t)) taken) eqn:X.
      * apply existsb_exists in X. destruct X as (c' & X & Y). apply chan_eqb_spec in Y. subst c'. apply T1 in X. cbn in X. subst d.
        destruct (Nat.ltb_spec j (S j)); [reflexivity|lia].
      * destruct (Nat.ltb_spec d j), (Nat.ltb_spec d (S j)); try reflexivity; try lia. replace d with j in * by lia. unfold msgs. cbn [fst snd].
        destruct (Nat.ltb_spec s N) as [HS|HS]; cbn [andb]; [|reflexivity]. destruct (j <? N); [|reflexivity].
        destruct (sends_on s (ops s) (s, j, t)) eqn:Y; [reflexivity|]. exfalso. assert (Z : In (s, j, t) taken) by (apply T2; [exact HS|rewrite Y; discriminate]).
        assert (Z' : existsb (chan_eqb (s, j, t)) taken = true) by (apply existsb_exists; exists (s, j, t); split; [exact Z|apply chan_eqb_refl]). congruence.
Qed.
Lemma round st0 : quiet st0 (fun p => emit (ops p) (K p)) -> exists st, reach st0 st /\ quiet st P2.
Proof.
  intros Q. destruct (posting st0 N Q (le_n N)) as (s1 & R1 & P1 & C1). destruct Q as [_ Q2].
  destruct (waiting s1 N) as (s2 & R2 & P2' & C2); [| |apply le_n|].
  - intros p Hp. rewrite P1 by exact Hp. apply Nat.ltb_lt in Hp. rewrite Hp. reflexivity.
  - intros c. destruct (C1 c) as (A1 & A2 & A3). assert (Z : (fst (fst c) <? N) = false \/ (snd (fst c) <? N) = false -> msgs c = []).
    { unfold msgs. intros [->| ->]; [reflexivity|]. rewrite andb_false_r. reflexivity. }
    split; [rewrite A1|rewrite A2, A3, (proj2 (Q2 c)); f_equal].
    + destruct (fst (fst c) <? N) eqn:X; [reflexivity|]. symmetry. apply Z. left. reflexivity.
    + destruct (fst (fst c) <? N) eqn:X; destruct (snd (fst c) <? N) eqn:Y; try reflexivity; rewrite Z by tauto; reflexivity.
  - exists s2. split; [eapply reach_trans; eassumption|]. split.
    + intros p Hp. rewrite P2' by exact Hp. apply Nat.ltb_lt in Hp. rewrite Hp. reflexivity.
    + intros c. destruct (C2 c) as (B1 & B2). split; [|exact B2]. rewrite B1. destruct (snd (fst c) <? N) eqn:X; [reflexivity|]. unfold msgs. rewrite X, andb_false_r. reflexivity.
Qed.
End Round.
End R.
