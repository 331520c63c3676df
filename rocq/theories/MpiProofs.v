(** Programs of MpiModel are deterministic whatever the order in which the processors run: if one execution ends, all do, in the
    same number of steps and the same final state. *)
From Coq Require Import List Arith Bool Lia.
From Verif Require Import MpiModel.
Import ListNotations.

Lemma chan_eqb_spec c d : chan_eqb c d = true <-> c = d.
Proof.
  destruct c as [[a b] t], d as [[a' b'] t']. unfold chan_eqb. rewrite !andb_true_iff, !Nat.eqb_eq. split.
  - intros ((-> & ->) & ->). reflexivity.
  - intros E. injection E as -> -> ->. tauto.
Qed.
Lemma chan_eqb_refl c : chan_eqb c c = true. Proof. apply chan_eqb_spec. reflexivity. Qed.

Section P.
Variables (M D : Type) (N : nat) (eager : chan -> nat -> bool).
Notation prog := (prog M D).
Notation state := (state M D).
Notation step := (step M D N eager).
Notation steps := (steps M D N eager).
Notation halted := (halted M D N eager).
Notation cstate := (cstate M).

Definition eqst (s t : state) : Prop := (forall p, procs s p = procs t p) /\ (forall c, chans s c = chans t c).
Lemma eqst_refl s : eqst s s. Proof. split; reflexivity. Qed.
Lemma eqst_sym s t : eqst s t -> eqst t s. Proof. intros [A B]. split; intros; symmetry; auto. Qed.
Lemma eqst_trans s t u : eqst s t -> eqst t u -> eqst s u.
Proof. intros [A B] [A' B']. split; intros; etransitivity; eauto. Qed.

(** The effect of a step on the one channel it looks at. *)
Inductive eff := ESend (m : M) | EPost | ETake (m : M) | EWait | ENone.
Definition can (e : eff) (c : chan) (s : cstate) : Prop :=
  match e with ETake m => exists t, queue s = m :: t | EWait => eager c (sent s) || (sent s <=? posted s) = true | _ => True end.
Definition app (e : eff) (s : cstate) : cstate :=
  match e with
  | ESend m => mkCh (queue s ++ [m]) (S (sent s)) (posted s)
  | EPost => mkCh (queue s) (sent s) (S (posted s))
  | ETake _ => mkCh (tl (queue s)) (sent s) (posted s)
  | _ => s
  end.
Definition role (e : eff) (c : chan) (p : nat) : Prop :=
  match e with ESend _ | EWait => fst (fst c) = p | EPost | ETake _ => snd (fst c) = p | ENone => True end.
Definition local := (prog * pending)%type.

Inductive acts (p : nat) : local -> chan -> eff -> local -> Prop :=
| a_send r dst tag m k e : (dst <? N) && free r e = true -> acts p (Isend r dst tag m k, e) (p, dst, tag) (ESend m) (k, (r, RSend (p, dst, tag)) :: e)
| a_send_bad r dst tag m k e c : (dst <? N) && free r e = false -> acts p (Isend r dst tag m k, e) c ENone (Bad, e)
| a_post r src tag k e : (src <? N) && free r e && negb (existsb (is_recv_on (src, p, tag)) e) = true ->
    acts p (Irecv r src tag k, e) (src, p, tag) EPost (k, (r, RRecv (src, p, tag)) :: e)
| a_post_bad r src tag k e c : (src <? N) && free r e && negb (existsb (is_recv_on (src, p, tag)) e) = false ->
    acts p (Irecv r src tag k, e) c ENone (Bad, e)
| a_take r k e c m : lookup r e = Some (RRecv c) -> acts p (WaitRecv r k, e) c (ETake m) (k m, remove r e)
| a_take_bad r k e c : (forall d, lookup r e <> Some (RRecv d)) -> acts p (WaitRecv r k, e) c ENone (Bad, e)
| a_wait r k e c : lookup r e = Some (RSend c) -> acts p (WaitSend r k, e) c EWait (k, remove r e)
| a_wait_bad r k e c : (forall d, lookup r e <> Some (RSend d)) -> acts p (WaitSend r k, e) c ENone (Bad, e)
| a_reuse k e c : existsb is_send e = false -> acts p (Reuse k, e) c ENone (k, e)
| a_reuse_bad k e c : existsb is_send e = true -> acts p (Reuse k, e) c ENone (Bad, e).

Definition result (p : nat) (st : state) c e v : state := mkSt (set_proc (procs st) p v) (set_chan (chans st) c (app e (chans st c))).
Lemma set_same (f : chan -> cstate) c d : set_chan f c (f c) d = f d.
Proof. unfold set_chan. destruct (chan_eqb d c) eqn:E; [apply chan_eqb_spec in E; subst; reflexivity|reflexivity]. Qed.
Lemma eq_none p st v c : eqst (mkSt (set_proc (procs st) p v) (chans st)) (result p st c ENone v).
Proof. split; cbn [procs chans result app]; intros; [reflexivity|]. symmetry. apply set_same. Qed.

Lemma step_acts p st st' : step p st = Some st' ->
  exists c e v, acts p (procs st p) c e v /\ can e c (chans st c) /\ eqst st' (result p st c e v).
Proof.
  unfold MpiModel.step. destruct (procs st p) as [pr e] eqn:EP. destruct pr as [d| |r dst tag m k|r src tag k|r k|r k|k]; try discriminate.
  - destruct ((dst <? N) && free r e) eqn:G; intros E; injection E as <-.
    + do 3 eexists. split; [apply a_send; exact G|]. split; [exact I|]. apply eqst_refl.
    + exists (0, 0, 0). do 2 eexists. split; [apply a_send_bad; exact G|]. split; [exact I|]. apply eq_none.
  - destruct (_ && _) eqn:G; intros E; injection E as <-.
    + do 3 eexists. split; [apply a_post; exact G|]. split; [exact I|]. apply eqst_refl.
    + exists (0, 0, 0). do 2 eexists. split; [apply a_post_bad; exact G|]. split; [exact I|]. apply eq_none.
  - destruct (lookup r e) as [[c|c]|] eqn:L.
    + intros E; injection E as <-. exists c. do 2 eexists. split; [apply a_take_bad; intros d; rewrite L; discriminate|]. split; [exact I|]. apply eq_none.
    + destruct (queue (chans st c)) as [|m t] eqn:Q; [discriminate|]. intros E; injection E as <-.
      exists c, (ETake m). eexists. split; [apply a_take; exact L|]. split; [exists t; exact Q|]. unfold result, app. rewrite Q. apply eqst_refl.
    + intros E; injection E as <-. exists (0, 0, 0). do 2 eexists. split; [apply a_take_bad; intros d; rewrite L; discriminate|]. split; [exact I|]. apply eq_none.
  - destruct (lookup r e) as [[c|c]|] eqn:L.
    + destruct (_ || _) eqn:Q; [|discriminate]. intros E; injection E as <-.
      exists c, EWait. eexists. split; [apply a_wait; exact L|]. split; [exact Q|].
      split; cbn [procs chans result app]; intros; [reflexivity|]. symmetry. apply set_same.
    + intros E; injection E as <-. exists c. do 2 eexists. split; [apply a_wait_bad; intros d; rewrite L; discriminate|]. split; [exact I|]. apply eq_none.
    + intros E; injection E as <-. exists (0, 0, 0). do 2 eexists. split; [apply a_wait_bad; intros d; rewrite L; discriminate|]. split; [exact I|]. apply eq_none.
  - destruct (existsb is_send e) eqn:G; intros E; injection E as <-; exists (0, 0, 0); do 2 eexists.
    + split; [apply a_reuse_bad; exact G|]. split; [exact I|]. apply eq_none.
    + split; [apply a_reuse; exact G|]. split; [exact I|]. apply eq_none.
Qed.
Lemma acts_step p st c e v : acts p (procs st p) c e v -> can e c (chans st c) -> exists st', step p st = Some st' /\ eqst st' (result p st c e v).
Proof.
  unfold MpiModel.step. destruct (procs st p) as [pr e0] eqn:EP. intros A C. inversion A; subst; cbn [can] in C;
    repeat match goal with
    | H : ?x = true |- context [if ?x then _ else _] => rewrite H
    | H : ?x = false |- context [if ?x then _ else _] => rewrite H
    | H : lookup _ _ = Some _ |- context [lookup _ _] => rewrite H
    end; try (eexists; split; [reflexivity|]; first [apply eqst_refl|apply eq_none]).
  - destruct C as [t C]. rewrite C. eexists. split; [reflexivity|]. unfold result, app. rewrite C. apply eqst_refl.
  - match goal with H : forall d, lookup _ _ <> _ |- _ => rename H into L0 end.
    destruct (lookup r e0) as [[d|d]|] eqn:L; [|destruct (L0 d eq_refl)|]; (eexists; split; [reflexivity|]; apply eq_none).
  - match goal with H : forall d, lookup _ _ <> _ |- _ => rename H into L0 end.
    destruct (lookup r e0) as [[d|d]|] eqn:L; [destruct (L0 d eq_refl)| |]; (eexists; split; [reflexivity|]; apply eq_none).
Qed.
Definition sound (st : state) : Prop := forall p r c, (In (r, RSend c) (snd (procs st p)) -> fst (fst c) = p) /\ (In (r, RRecv c) (snd (procs st p)) -> snd (fst c) = p).
Lemma lookup_in r e q : lookup r e = Some q -> In (r, q) e.
Proof.
  induction e as [|[s q'] e IH]; cbn [lookup]; [discriminate|]. destruct (r =? s) eqn:E; intros H; [injection H as ->; apply Nat.eqb_eq in E; subst; left; reflexivity|right; apply IH; exact H].
Qed.
Lemma remove_in r e x : In x (remove r e) -> In x e.
Proof. induction e as [|[s q'] e IH]; cbn [remove]; [tauto|]. destruct (r =? s); [right; assumption|]. intros [H|H]; [left; exact H|right; auto]. Qed.
Lemma acts_role p st c e v : sound st -> acts p (procs st p) c e v -> role e c p.
Proof.
  intros SD A. pose proof (SD p) as HS. destruct (procs st p) as [pr e0]. cbn [snd] in HS. inversion A; subst; cbn [role fst snd]; try exact I; try reflexivity.
  - apply (HS r c). apply lookup_in. assumption.
  - apply (HS r c). apply lookup_in. assumption.
Qed.
Lemma sound_step p st st' : sound st -> step p st = Some st' -> sound st'.
Proof.
  intros SD E. apply step_acts in E. destruct E as (c & e & v & A & _ & [EP _]). intros q r d. rewrite EP. cbn [procs result]. unfold set_proc.
  destruct (q =? p) eqn:EQ; [apply Nat.eqb_eq in EQ; subst q|apply SD]. pose proof (SD p) as HS. destruct (procs st p) as [pr e0]. cbn [snd] in HS.
  inversion A; subst; cbn [snd]; try apply HS.
  - split; intros [X|X]; try (injection X as _ <-; reflexivity); try discriminate X; apply (HS r d); exact X.
  - split; intros [X|X]; try (injection X as _ <-; reflexivity); try discriminate X; apply (HS r d); exact X.
  - split; intros X; apply remove_in in X; apply (HS r d); exact X.
  - split; intros X; apply remove_in in X; apply (HS r d); exact X.
Qed.

Lemma commute_eff e1 e2 c p q s : p <> q -> role e1 c p -> role e2 c q -> can e1 c s -> can e2 c s ->
  can e2 c (app e1 s) /\ app e1 (app e2 s) = app e2 (app e1 s).
Proof.
  intros N0 R1 R2 C1 C2. destruct s as [qu sn po]. destruct e1, e2; cbn [role can app queue sent posted] in *; try (exfalso; congruence); try (split; [assumption|reflexivity]).
  - destruct C2 as [t ->]. cbn [List.app tl]. split; [eexists; reflexivity|reflexivity].
  - split; [|reflexivity]. apply orb_true_iff in C2. apply orb_true_iff. destruct C2 as [C2|C2]; [left; exact C2|right]. apply Nat.leb_le in C2. apply Nat.leb_le. lia.
  - destruct C1 as [t ->]. split; [exact I|]. cbn [List.app tl]. reflexivity.
Qed.
Lemma diamond p q st s1 s2 : p <> q -> sound st -> step p st = Some s1 -> step q st = Some s2 ->
  exists s3 s4, step q s1 = Some s3 /\ step p s2 = Some s4 /\ eqst s3 s4.
Proof.
  intros NE SD E1 E2. apply step_acts in E1. apply step_acts in E2. destruct E1 as (c1 & e1 & v1 & A1 & C1 & [P1 H1]). destruct E2 as (c2 & e2 & v2 & A2 & C2 & [P2 H2]).
  pose proof (acts_role _ _ _ _ _ SD A1) as R1. pose proof (acts_role _ _ _ _ _ SD A2) as R2.
  assert (B1 : procs s1 q = procs st q). { rewrite P1. cbn [procs result]. unfold set_proc. destruct (q =? p) eqn:X; [apply Nat.eqb_eq in X; congruence|reflexivity]. }
  assert (B2 : procs s2 p = procs st p). { rewrite P2. cbn [procs result]. unfold set_proc. destruct (p =? q) eqn:X; [apply Nat.eqb_eq in X; congruence|reflexivity]. }
  assert (D2 : can e2 c2 (chans s1 c2)).
  { rewrite H1. cbn [chans result]. unfold set_chan. destruct (chan_eqb c2 c1) eqn:X; [apply chan_eqb_spec in X; subst c2|exact C2]. apply (commute_eff e1 e2 c1 p q); assumption. }
  assert (D1 : can e1 c1 (chans s2 c1)).
  { rewrite H2. cbn [chans result]. unfold set_chan. destruct (chan_eqb c1 c2) eqn:X; [apply chan_eqb_spec in X; subst c2|exact C1]. apply (commute_eff e2 e1 c1 q p); try assumption. congruence. }
  rewrite <- B1 in A2. rewrite <- B2 in A1. destruct (acts_step _ _ _ _ _ A2 D2) as (s3 & E3 & [P3 H3]). destruct (acts_step _ _ _ _ _ A1 D1) as (s4 & E4 & [P4 H4]).
  exists s3, s4. split; [exact E3|]. split; [exact E4|]. split.
  - intros r. rewrite P3, P4. cbn [procs result]. unfold set_proc. rewrite P1, P2. cbn [procs result]. unfold set_proc.
    destruct (r =? q) eqn:X; destruct (r =? p) eqn:Y; try reflexivity. apply Nat.eqb_eq in X, Y. congruence.
  - intros d. rewrite H3, H4. cbn [chans result]. unfold set_chan. rewrite !H1, !H2. cbn [chans result]. unfold set_chan.
    destruct (chan_eqb c2 c1) eqn:X.
    + apply chan_eqb_spec in X. subst c2. rewrite chan_eqb_refl. destruct (chan_eqb d c1) eqn:Y; [|reflexivity].
      symmetry. apply (commute_eff e1 e2 c1 p q); assumption.
    + assert (X' : chan_eqb c1 c2 = false). { destruct (chan_eqb c1 c2) eqn:Z; [|reflexivity]. apply chan_eqb_spec in Z. subst. rewrite chan_eqb_refl in X. discriminate. }
      rewrite X'. destruct (chan_eqb d c2) eqn:Y; destruct (chan_eqb d c1) eqn:Z; try reflexivity. apply chan_eqb_spec in Y, Z. subst. rewrite chan_eqb_refl in X. discriminate.
Qed.

Lemma step_eq p st st' t : eqst st t -> step p st = Some st' -> exists t', step p t = Some t' /\ eqst st' t'.
Proof.
  intros [EP EC] E. apply step_acts in E. destruct E as (c & e & v & A & C & Q). rewrite EP in A. rewrite EC in C.
  destruct (acts_step _ _ _ _ _ A C) as (t' & E & Q'). exists t'. split; [exact E|]. eapply eqst_trans; [exact Q|]. eapply eqst_trans; [|apply eqst_sym; exact Q'].
  split; cbn [procs chans result]; intros; unfold set_proc, set_chan; rewrite ?EP, ?EC; reflexivity.
Qed.
Lemma steps_eq n st st' t : eqst st t -> steps n st st' -> exists t', steps n t t' /\ eqst st' t'.
Proof.
  intros Q H. revert t Q. induction H as [st|n p st s1 s2 Hp E H IH]; intros t Q; [exists t; split; [constructor|exact Q]|].
  destruct (step_eq _ _ _ _ Q E) as (t1 & E1 & Q1). destruct (IH _ Q1) as (t2 & H2 & Q2). exists t2. split; [econstructor; eassumption|exact Q2].
Qed.
Lemma halted_eq st t : eqst st t -> halted st -> halted t.
Proof. intros Q H p Hp. destruct (step p t) as [t'|] eqn:E; [|reflexivity]. destruct (step_eq _ _ _ _ (eqst_sym _ _ Q) E) as (s' & E' & _). rewrite H in E' by exact Hp. discriminate. Qed.
Lemma sound_eq st t : eqst st t -> sound st -> sound t.
Proof. intros [Q _] H p r c. rewrite <- Q. apply H. Qed.

Lemma one_less n st ed p s1 : sound st -> steps n st ed -> halted ed -> p < N -> step p st = Some s1 ->
  exists m ed', n = S m /\ steps m s1 ed' /\ eqst ed ed'.
Proof.
  intros SD H. revert p s1 SD. induction H as [st|n q st s2 ed Hq E H IH]; intros p s1 SD HE Hp E1.
  - rewrite HE in E1 by exact Hp. discriminate.
  - destruct (Nat.eq_dec p q) as [<-|NE].
    + rewrite E in E1. injection E1 as <-. exists n, ed. split; [reflexivity|]. split; [exact H|apply eqst_refl].
    + destruct (diamond p q st s1 s2 NE SD E1 E) as (s3 & s4 & E3 & E4 & Q). pose proof (sound_step _ _ _ SD E) as SD2.
      destruct (IH p s4 SD2 HE Hp E4) as (m & ed' & -> & H' & Q'). destruct (steps_eq _ _ _ _ (eqst_sym _ _ Q) H') as (ed2 & H2 & Q2).
      exists (S m), ed2. split; [reflexivity|]. split; [econstructor; [exact Hq|exact E3|exact H2]|]. eapply eqst_trans; eassumption.
Qed.
(** Every execution can be continued to the same end, with the same total number of steps. *)
Lemma all_executions n st ed k st' : sound st -> steps n st ed -> halted ed -> steps k st st' ->
  exists m ed', n = k + m /\ steps m st' ed' /\ eqst ed ed'.
Proof.
  intros SD H HE H'. revert n ed SD H HE. induction H' as [st|k p st s1 s2 Hp E H' IH]; intros n ed SD H HE.
  - exists n, ed. split; [reflexivity|]. split; [exact H|apply eqst_refl].
  - destruct (one_less _ _ _ _ _ SD H HE Hp E) as (m & ed1 & -> & H1 & Q1). pose proof (sound_step _ _ _ SD E) as SD1.
    destruct (IH _ _ SD1 H1 (halted_eq _ _ Q1 HE)) as (m2 & ed2 & -> & H2 & Q2). exists m2, ed2. split; [reflexivity|]. split; [exact H2|]. eapply eqst_trans; eassumption.
Qed.
Lemma steps_app n m s t u : steps n s t -> steps m t u -> steps (n + m) s u.
Proof. intros H. induction H as [|n p s s1 s2 Hp E H IH]; intros H'; [exact H'|]. cbn [Nat.add]. econstructor; eauto. Qed.
Lemma sound_initial P : sound (initial M D P).
Proof. intros p r c. cbn. tauto. Qed.
End P.
