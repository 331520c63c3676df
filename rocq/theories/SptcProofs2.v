(** Executions of the schedule: phases of every slice on every processor, and the invariant. *)
From Coq Require Import List Arith Bool ZArith Lia.
From Verif Require Import Base SptcModel SptcProofs SptcProofs3.
Import ListNotations.

Definition act_dec (a b : act) : {a = b} + {a <> b}.
Proof. repeat decide equality. Defined.

Section P.
Variables L Msg : Type.
Variable N : nat.
Hypothesis N2 : 2 <= N.
Variable ns : nat.
Variable fst0 : nat -> Msg -> L -> res (L * Msg).
Variables mid turn midb : nat -> nat -> L -> Msg -> res (L * Msg).
Variable fstb : nat -> L -> Msg -> res L.
Notation cfg := (cfg L Msg).
Notation step := (step L Msg N fst0 mid turn midb fstb).
Notation steps := (steps L Msg N fst0 mid turn midb fstb).
Notation computes := (computes L Msg fst0 mid turn midb fstb).
Notation faulty := (faulty L Msg N fst0 mid turn midb fstb).

(** The sequential results. *)
Variables (w0 w1 w2 : nat -> nat -> L) (b0 fm bm : nat -> nat -> Msg).
Hypothesis H0 : forall s, s < ns -> fst0 s (b0 0 s) (w0 0 s) = Ok (w1 0 s, fm 0 s).
Hypothesis Hm : forall r s, s < ns -> 0 < r < N - 1 -> mid s r (w0 r s) (fm (r - 1) s) = Ok (w1 r s, fm r s).
Hypothesis Ht : forall s, s < ns -> turn s (N - 1) (w0 (N - 1) s) (fm (N - 2) s) = Ok (w1 (N - 1) s, bm (N - 1) s).
Hypothesis Hb : forall r s, s < ns -> 0 < r < N - 1 -> midb s r (w1 r s) (bm (S r) s) = Ok (w2 r s, bm r s).
Hypothesis Hf : forall s, s < ns -> fstb s (w1 0 s) (bm 1 s) = Ok (w2 0 s).

(** Phases: 0 -irecv- 1 -delivery- 2 -wait- 3 -compute- 4 -send- 5 -irecv- 6 -delivery- 7 -wait- 8 -compute- 9 -send- 10. *)
Definition ini (r : nat) : nat := if r =? 0 then 3 else 0.
Definition fin (r : nat) : nat := if r =? 0 then 9 else if r =? N - 1 then 5 else 10.
Definition back (r s p : nat) : list act :=
  if r =? N - 1 then [] else
  match p with
  | 5 => [AIrecv s true; AWait s] ++ (if r =? 0 then [AFstb s] else [AMidb s; ASend s false])
  | 6 | 7 => AWait s :: (if r =? 0 then [AFstb s] else [AMidb s; ASend s false])
  | 8 => if r =? 0 then [AFstb s] else [AMidb s; ASend s false]
  | 9 => if r =? 0 then [] else [ASend s false]
  | _ => []
  end.
Definition comp1 (r s : nat) : act := if r =? 0 then AFirst s else if r =? N - 1 then ATurn s else AMid s.
Definition todo (r s p : nat) : list act :=
  match p with
  | 0 => [AIrecv s false; AWait s; comp1 r s; ASend s (r <? N - 1)] ++ back r s 5
  | 1 | 2 => [AWait s; comp1 r s; ASend s (r <? N - 1)] ++ back r s 5
  | 3 => [comp1 r s; ASend s (r <? N - 1)] ++ back r s 5
  | 4 => [ASend s (r <? N - 1)] ++ back r s 5
  | _ => back r s p
  end.
Definition wk (r s p : nat) : L := if p <=? 3 then w0 r s else if p <=? 8 then w1 r s else w2 r s.
Definition bf (r s p : nat) : Msg :=
  if p <=? 1 then b0 r s else if p <=? 3 then (if r =? 0 then b0 0 s else fm (r - 1) s)
  else if p <=? 6 then (if r =? N - 1 then bm r s else fm r s) else if p <=? 8 then bm (S r) s else if r =? 0 then bm 1 s else bm r s.
Definition hd (r p : nat) : handle := match p with 1 => HPend (r - 1) | 2 | 7 => HDone | 6 => HPend (S r) | _ => HNone end.

Lemma head_cases r s p a l : r < N -> ini r <= p <= fin r -> todo r s p = a :: l ->
  (p = 0 /\ 0 < r /\ a = AIrecv s false /\ l = todo r s 1) \/
  ((p = 1 \/ p = 2) /\ 0 < r /\ a = AWait s /\ l = todo r s 3) \/
  (p = 3 /\ l = todo r s 4 /\ (r = 0 /\ a = AFirst s \/ 0 < r < N - 1 /\ a = AMid s \/ 0 < r /\ r = N - 1 /\ a = ATurn s)) \/
  (p = 4 /\ l = todo r s 5 /\ a = ASend s (r <? N - 1)) \/
  (p = 5 /\ r < N - 1 /\ a = AIrecv s true /\ l = todo r s 6) \/
  ((p = 6 \/ p = 7) /\ r < N - 1 /\ a = AWait s /\ l = todo r s 8) \/
  (p = 8 /\ r < N - 1 /\ l = todo r s 9 /\ (r = 0 /\ a = AFstb s \/ 0 < r /\ a = AMidb s)) \/
  (p = 9 /\ 0 < r < N - 1 /\ a = ASend s false /\ l = todo r s 10).
Proof.
  intros Hr Hp E. unfold ini, fin in Hp.
  destruct p as [|[|[|[|[|[|[|[|[|[|[|p]]]]]]]]]]]; cbn [todo] in E; unfold back, comp1 in E; unfold todo, back, comp1;
  destruct (Nat.eqb_spec r 0) as [R0|R0]; destruct (Nat.eqb_spec r (N - 1)) as [R1|R1]; try lia; cbn [app] in E |- *; try discriminate E; injection E as <- <-.
  all: try (left; repeat split; auto; lia).
  all: try (right; left; repeat split; auto; lia).
  all: try (right; right; left; split; [reflexivity|]; split; [reflexivity|]; (left + (right; left) + (right; right)); repeat split; auto; lia).
  all: try (do 3 right; left; repeat split; auto; lia).
  all: try (do 4 right; left; repeat split; auto; lia).
  all: try (do 5 right; left; repeat split; auto; lia).
  all: try (do 6 right; left; repeat split; auto; try lia; (left + right); repeat split; auto; lia).
  all: try (do 7 right; repeat split; auto; lia).
Qed.
Lemma todo_fin r s p : r < N -> ini r <= p <= fin r -> todo r s p = [] -> p = fin r.
Proof.
  intros Hr Hp E. unfold ini, fin in *.
  destruct p as [|[|[|[|[|[|[|[|[|[|[|p]]]]]]]]]]]; cbn [todo] in E; unfold back in E;
  destruct (Nat.eqb_spec r 0) as [R0|R0]; destruct (Nat.eqb_spec r (N - 1)) as [R1|R1]; try lia; cbn [app] in E; discriminate E.
Qed.

Definition fwd_ok (c : cfg) (ph : nat -> nat -> nat) (r s : nat) : Prop :=
  (ph r s < 5 /\ ph (S r) s <= 1 /\ chan c r (S r) s = []) \/
  (5 <= ph r s /\ ph (S r) s <= 1 /\ chan c r (S r) s = [fm r s]) \/
  (5 <= ph r s /\ 2 <= ph (S r) s /\ chan c r (S r) s = []).
Definition bwd_ok (c : cfg) (ph : nat -> nat -> nat) (r s : nat) : Prop :=
  (ph (S r) s < fin (S r) /\ ph r s <= 6 /\ chan c (S r) r s = []) \/
  (fin (S r) <= ph (S r) s /\ ph r s <= 6 /\ chan c (S r) r s = [bm (S r) s]) \/
  (fin (S r) <= ph (S r) s /\ 7 <= ph r s /\ chan c (S r) r s = []).
Record inv (c : cfg) (ph : nat -> nat -> nat) : Prop := {
  i_range : forall r s, r < N -> s < ns -> ini r <= ph r s <= fin r;
  i_todo : forall r s, r < N -> s < ns -> only s (rem c r) = todo r s (ph r s);
  i_slice : forall r a, r < N -> In a (rem c r) -> slice_of a < ns;
  i_work : forall r s, r < N -> s < ns -> work c r s = wk r s (ph r s);
  i_buf : forall r s, r < N -> s < ns -> buf c r s = bf r s (ph r s);
  i_hnd : forall r s, r < N -> s < ns -> hnd c r s = hd r (ph r s);
  i_none : forall r s, r < N -> ns <= s -> hnd c r s = HNone;
  i_fwd : forall r s, S r < N -> s < ns -> fwd_ok c ph r s;
  i_bwd : forall r s, S r < N -> s < ns -> bwd_ok c ph r s;
  i_chan : forall p q s, ~ ((q = S p \/ p = S q) /\ p < N /\ q < N /\ s < ns) -> chan c p q s = [] }.

(** A local step of processor r on slice s from phase p to p + 1 (not 1 or 6: deliveries; sends change a channel too). *)
Lemma todo_shift c ph r a rest t p' : inv c ph -> r < N -> rem c r = a :: rest -> slice_of a = t -> t < ns -> only t rest = todo r t p' ->
  forall q u, q < N -> u < ns -> only u (upd1 (rem c) r rest q) = todo q u (upd2 ph r t p' q u).
Proof.
  intros I Hr E Ha Ht' EQ q u Hq Hu. unfold upd1, upd2. destruct (Nat.eqb_spec q r) as [->|]; cbn [andb]; [|apply I; assumption].
  destruct (Nat.eqb_spec u t) as [->|]; [exact EQ|]. pose proof (i_todo _ _ I r u Hr Hu) as T. rewrite E, only_other in T by congruence. exact T.
Qed.
Lemma range_upd ph r t p' : (forall r s, r < N -> s < ns -> ini r <= ph r s <= fin r) -> ini r <= p' <= fin r ->
  forall q u, q < N -> u < ns -> ini q <= upd2 ph r t p' q u <= fin q.
Proof. intros H Hp q u Hq Hu. unfold upd2. destruct (Nat.eqb_spec q r) as [->|]; cbn [andb]; [|apply H; assumption]. destruct (u =? t); [exact Hp|apply H; assumption]. Qed.
Lemma slice_upd c ph r a rest : inv c ph -> r < N -> rem c r = a :: rest -> forall q b, q < N -> In b (upd1 (rem c) r rest q) -> slice_of b < ns.
Proof.
  intros I Hr E q b Hq Hin. unfold upd1 in Hin. destruct (Nat.eqb_spec q r) as [->|]; [|exact (i_slice _ _ I q b Hq Hin)].
  apply (i_slice _ _ I r b Hr). rewrite E. right. exact Hin.
Qed.
Lemma upd2_val {A} (f : nat -> nat -> A) (g : nat -> nat -> nat -> A) ph r t p' v :
  (forall q u, q < N -> u < ns -> f q u = g q u (ph q u)) -> v = g r t p' ->
  forall q u, q < N -> u < ns -> upd2 f r t v q u = g q u (upd2 ph r t p' q u).
Proof.
  intros H E q u Hq Hu. unfold upd2. destruct (Nat.eqb_spec q r) as [->|]; cbn [andb]; [|apply H; assumption].
  destruct (Nat.eqb_spec u t) as [->|]; [exact E|apply H; assumption].
Qed.
Lemma keep_val {A} (f : nat -> nat -> A) (g : nat -> nat -> nat -> A) ph r t p' :
  (forall q u, q < N -> u < ns -> f q u = g q u (ph q u)) -> r < N -> t < ns -> g r t (ph r t) = g r t p' ->
  forall q u, q < N -> u < ns -> f q u = g q u (upd2 ph r t p' q u).
Proof.
  intros H Hr Ht' E q u Hq Hu. unfold upd2. destruct (Nat.eqb_spec q r) as [->|]; cbn [andb]; [|apply H; assumption].
  destruct (Nat.eqb_spec u t) as [->|]; [rewrite H by assumption; exact E|apply H; assumption].
Qed.
Ltac branch Z := destruct Z as [(Z1 & Z2 & Z3)|[(Z1 & Z2 & Z3)|(Z1 & Z2 & Z3)]];
  [left; repeat split; [lia|lia|exact Z3] | right; left; repeat split; [lia|lia|exact Z3] | right; right; repeat split; [lia|lia|exact Z3]].
(** Channels not touched, no threshold crossed. *)
Lemma fwd_keep c c' ph r t p' : (forall r s, S r < N -> s < ns -> fwd_ok c ph r s) -> (forall q u, chan c' q (S q) u = chan c q (S q) u) ->
  (N <= S r \/ (5 <= ph r t <-> 5 <= p')) -> (2 <= ph r t <-> 2 <= p') -> forall q u, S q < N -> u < ns -> fwd_ok c' (upd2 ph r t p') q u.
Proof.
  intros H HC T1 T2 q u Hq Hu. specialize (H q u Hq Hu). unfold fwd_ok, upd2 in *. rewrite !HC.
  destruct (Nat.eqb_spec u t) as [->|]; [|rewrite !andb_false_r; exact H]. rewrite !andb_true_r.
  destruct (Nat.eqb_spec q r) as [E1|E1]; destruct (Nat.eqb_spec (S q) r) as [E2|E2]; try lia; try exact H; subst; branch H.
Qed.
Lemma bwd_keep c c' ph r t p' : (forall r s, S r < N -> s < ns -> bwd_ok c ph r s) -> (forall q u, chan c' (S q) q u = chan c (S q) q u) ->
  (r = 0 \/ (fin r <= ph r t <-> fin r <= p')) -> (7 <= ph r t <-> 7 <= p') -> forall q u, S q < N -> u < ns -> bwd_ok c' (upd2 ph r t p') q u.
Proof.
  intros H HC T1 T2 q u Hq Hu. specialize (H q u Hq Hu). unfold bwd_ok, upd2 in *. rewrite !HC.
  destruct (Nat.eqb_spec u t) as [->|]; [|rewrite !andb_false_r; exact H]. rewrite !andb_true_r.
  destruct (Nat.eqb_spec q r) as [E1|E1]; destruct (Nat.eqb_spec (S q) r) as [E2|E2]; try lia; try exact H; subst; branch H.
Qed.

Ltac split_inv := constructor; cbn [rem work buf hnd chan].
Lemma none_upd c ph r t v : inv c ph -> t < ns -> forall q u, q < N -> ns <= u -> upd2 (hnd c) r t v q u = HNone.
Proof. intros I Ht' q u Hq Hu. unfold upd2. destruct (Nat.eqb_spec u t); [lia|]. rewrite andb_false_r. apply I; assumption. Qed.
Lemma head_of c ph r a rest : inv c ph -> r < N -> rem c r = a :: rest -> slice_of a < ns /\ todo r (slice_of a) (ph r (slice_of a)) = a :: only (slice_of a) rest.
Proof.
  intros I Hr E. assert (Hs : slice_of a < ns) by (apply (i_slice _ _ I r); [exact Hr|rewrite E; left; reflexivity]). split; [exact Hs|].
  rewrite <- (i_todo _ _ I r _ Hr Hs), E, only_same; reflexivity.
Qed.
(** The local results. *)
Lemma comp_first c ph r s : inv c ph -> r < N -> s < ns -> ph r s = 3 ->
  computes r (comp1 r s) c = Some (s, Ok (w1 r s, bf r s 4)) /\ bf r s 4 = (if r =? N - 1 then bm r s else fm r s).
Proof.
  intros I Hr Hs E. split; [|reflexivity]. unfold comp1, bf. cbn [Nat.leb].
  pose proof (i_work _ _ I r s Hr Hs) as W. pose proof (i_buf _ _ I r s Hr Hs) as B. rewrite E in W, B. unfold wk, bf in W, B. cbn [Nat.leb] in W, B.
  destruct (Nat.eqb_spec r 0) as [->|R0].
  - destruct (Nat.eqb_spec 0 (N - 1)); [lia|]. cbn [computes SptcModel.computes]. rewrite W, B, H0 by exact Hs. reflexivity.
  - destruct (Nat.eqb_spec r (N - 1)) as [->|R1]; cbn [computes SptcModel.computes]; rewrite W, B.
    + replace (N - 1 - 1) with (N - 2) by lia. rewrite Ht by exact Hs. reflexivity.
    + rewrite Hm by (try exact Hs; lia). reflexivity.
Qed.
Lemma comp_second c ph r s : inv c ph -> r < N - 1 -> s < ns -> ph r s = 8 ->
  computes r (if r =? 0 then AFstb s else AMidb s) c = Some (s, Ok (w2 r s, bf r s 9)).
Proof.
  intros I Hr Hs E. pose proof (i_work _ _ I r s ltac:(lia) Hs) as W. pose proof (i_buf _ _ I r s ltac:(lia) Hs) as B. rewrite E in W, B.
  unfold wk, bf in *. cbn [Nat.leb] in *. destruct (Nat.eqb_spec r 0) as [->|R0]; cbn [computes SptcModel.computes]; rewrite W, B.
  - rewrite Hf by exact Hs. reflexivity.
  - rewrite Hb by (try exact Hs; lia). reflexivity.
Qed.
Lemma fin_range r : r < N -> 5 <= fin r <= 10.
Proof. intros. unfold fin. destruct (r =? 0); [lia|]. destruct (r =? N - 1); lia. Qed.
Lemma fin_mid r : 0 < r < N - 1 -> fin r = 10.
Proof. intros H. unfold fin. destruct (Nat.eqb_spec r 0); [lia|]. destruct (Nat.eqb_spec r (N - 1)); [lia|reflexivity]. Qed.
Lemma fin_inner r : r < N - 1 -> 9 <= fin r.
Proof. intros H. unfold fin. destruct (Nat.eqb_spec r 0); [lia|]. destruct (Nat.eqb_spec r (N - 1)); lia. Qed.

(** A step that changes no channel. *)
Lemma quiet_step c ph r t p' rem' work' buf' hnd' : inv c ph -> r < N -> t < ns -> ini r <= p' <= fin r ->
  (forall q u, q < N -> u < ns -> only u (rem' q) = todo q u (upd2 ph r t p' q u)) ->
  (forall q a, q < N -> In a (rem' q) -> slice_of a < ns) ->
  (forall q u, q < N -> u < ns -> work' q u = wk q u (upd2 ph r t p' q u)) ->
  (forall q u, q < N -> u < ns -> buf' q u = bf q u (upd2 ph r t p' q u)) ->
  (forall q u, q < N -> u < ns -> hnd' q u = hd q (upd2 ph r t p' q u)) ->
  (forall q u, q < N -> ns <= u -> hnd' q u = HNone) ->
  (5 <= ph r t <-> 5 <= p') -> (2 <= ph r t <-> 2 <= p') -> (r = 0 \/ (fin r <= ph r t <-> fin r <= p')) -> (7 <= ph r t <-> 7 <= p') ->
  inv (mkCfg rem' work' buf' hnd' (chan c)) (upd2 ph r t p').
Proof.
  intros I Hr Ht' Hp C1 C2 C3 C4 C5 C6 T1 T2 T3 T4. constructor; cbn [rem work buf hnd chan]; try assumption.
  - apply range_upd; [apply I|exact Hp].
  - apply (fwd_keep c); [apply I|reflexivity|right; exact T1|exact T2].
  - apply (bwd_keep c); [apply I|reflexivity|exact T3|exact T4].
  - apply I.
Qed.

Lemma upd3_same {A} (f : nat -> nat -> nat -> A) p q u v : upd3 f p q u v p q u = v.
Proof. unfold upd3. rewrite !Nat.eqb_refl. reflexivity. Qed.
Lemma upd3_other {A} (f : nat -> nat -> nat -> A) p q u v p' q' u' : ~ (p' = p /\ q' = q /\ u' = u) -> upd3 f p q u v p' q' u' = f p' q' u'.
Proof. intros H. unfold upd3. destruct (Nat.eqb_spec p' p), (Nat.eqb_spec q' q), (Nat.eqb_spec u' u); cbn [andb]; try reflexivity. tauto. Qed.
Lemma upd2_same {A} (f : nat -> nat -> A) p q v : upd2 f p q v p q = v.
Proof. unfold upd2. rewrite !Nat.eqb_refl. reflexivity. Qed.
Lemma upd2_other {A} (f : nat -> nat -> A) p q v p' q' : ~ (p' = p /\ q' = q) -> upd2 f p q v p' q' = f p' q'.
Proof. intros H. unfold upd2. destruct (Nat.eqb_spec p' p), (Nat.eqb_spec q' q); cbn [andb]; try reflexivity. tauto. Qed.
(** The forward channel of (r, s) is written by its sender or emptied by its receiver. *)
Lemma fwd_change c c' ph x r t p' v : (forall r s, S r < N -> s < ns -> fwd_ok c ph r s) ->
  (forall q u, ~ (q = x /\ u = t) -> chan c' q (S q) u = chan c q (S q) u) -> chan c' x (S x) t = v ->
  (r = x /\ ph r t = 4 /\ p' = 5 /\ ph (S x) t <= 1 /\ v = [fm x t] \/ r = S x /\ ph r t = 1 /\ p' = 2 /\ 5 <= ph x t /\ v = []) ->
  forall q u, S q < N -> u < ns -> fwd_ok c' (upd2 ph r t p') q u.
Proof.
  intros H HC HV HX q u Hq Hu. pose proof (H q u Hq Hu) as Z. unfold fwd_ok in *.
  destruct (Nat.eq_dec u t) as [->|NU]; [|rewrite HC by tauto; rewrite !upd2_other by tauto; exact Z].
  destruct (Nat.eq_dec q x) as [->|NQ].
  - rewrite HV. destruct HX as [(-> & P & -> & Q & ->)|(-> & P & -> & Q & ->)]; rewrite upd2_same, upd2_other by lia.
    + right; left. repeat split; [lia|lia].
    + right; right. repeat split; [lia|lia].
  - rewrite HC by tauto. destruct (Nat.eq_dec q r) as [->|N1].
    { destruct HX as [(-> & _)|(E & P & -> & _)]; [contradiction|]. rewrite upd2_same, upd2_other by lia. branch Z. }
    rewrite (upd2_other ph r t p' q t) by tauto. destruct (Nat.eq_dec (S q) r) as [<-|N3].
    { destruct HX as [(E & P & -> & _)|(E & _)]; [|lia]. rewrite upd2_same. branch Z. }
    rewrite upd2_other by tauto. exact Z.
Qed.
Lemma bwd_change c c' ph x r t p' v : (forall r s, S r < N -> s < ns -> bwd_ok c ph r s) ->
  (forall q u, ~ (q = x /\ u = t) -> chan c' (S q) q u = chan c (S q) q u) -> chan c' (S x) x t = v ->
  (r = S x /\ S (ph r t) = fin r /\ p' = fin r /\ p' <> 7 /\ ph x t <= 6 /\ v = [bm (S x) t] \/ r = x /\ ph r t = 6 /\ p' = 7 /\ fin r <> 7 /\ fin (S x) <= ph (S x) t /\ v = []) ->
  forall q u, S q < N -> u < ns -> bwd_ok c' (upd2 ph r t p') q u.
Proof.
  intros H HC HV HX q u Hq Hu. pose proof (H q u Hq Hu) as Z. unfold bwd_ok in *.
  destruct (Nat.eq_dec u t) as [->|NU]; [|rewrite HC by tauto; rewrite !upd2_other by tauto; exact Z].
  destruct (Nat.eq_dec q x) as [->|NQ].
  - rewrite HV. destruct HX as [(-> & P & P2 & _ & Q & ->)|(-> & P & -> & _ & Q & ->)]; rewrite upd2_same, upd2_other by lia.
    + right; left. repeat split; [lia|lia].
    + right; right. repeat split; [lia|lia].
  - rewrite HC by tauto. destruct (Nat.eq_dec q r) as [->|N1].
    { destruct HX as [(E & P & P2 & P3 & _)|(-> & _)]; [|contradiction]. rewrite upd2_same, upd2_other by lia. branch Z. }
    rewrite (upd2_other ph r t p' q t) by tauto. destruct (Nat.eq_dec (S q) r) as [<-|N3].
    { destruct HX as [(E & _)|(E & P & -> & P3 & _)]; [lia|]. rewrite upd2_same. branch Z. }
    rewrite upd2_other by tauto. exact Z.
Qed.

Lemma inv_step c ph c' : inv c ph -> step c c' -> exists r t, r < N /\ t < ns /\ inv c' (upd2 ph r t (S (ph r t))).
Proof.
  intros I ST. destruct ST as [r a rest s l b Hr E EC|r s out rest Hr E|r s rest Hr E EH|r s out rest Hr E|r s src m ms Hr EH EM].
  - destruct (head_of _ _ _ _ _ I Hr E) as [Hs TD].
    assert (Ets : slice_of a = s) by (clear - EC; destruct a; cbn in EC; try discriminate EC; injection EC; intros; subst; reflexivity).
    rewrite Ets in *. rename s into t. pose proof (i_range _ _ I r _ Hr Hs) as RG. exists r, t. split; [exact Hr|]. split; [exact Hs|].
    destruct (head_cases r t _ _ _ Hr RG TD) as [(P & _ & -> & _)|[(_ & _ & -> & _)|[(P & TL & A)|[(P & _ & ->)|[(P & _ & -> & _)|[(_ & _ & -> & _)|[(P & R1 & TL & A)|(P & _ & -> & _)]]]]]]]; try discriminate EC.
    + assert (EA : a = comp1 r t).
      { unfold comp1. destruct A as [[-> ->]|[[R ->]|[R0 [R ->]]]]; [reflexivity| |]; destruct (Nat.eqb_spec r 0); try lia; destruct (Nat.eqb_spec r (N - 1)); try lia; reflexivity. }
      destruct (comp_first _ _ _ _ I Hr Hs P) as [CF _]. rewrite <- EA, EC in CF. injection CF as -> ->. clear EC.
      pose proof (fin_range r Hr) as FR. pose proof (todo_shift c ph r a rest t 4 I Hr E Ets Hs TL) as TS. rewrite P.
      apply quiet_step; try assumption; try (rewrite P; lia).
      * unfold ini in *; lia.
      * apply (slice_upd _ _ _ _ _ I Hr E).
      * apply upd2_val; [apply I|reflexivity].
      * apply upd2_val; [apply I|reflexivity].
      * apply (keep_val (hnd c) (fun q u p => hd q p)); [apply I|exact Hr|exact Hs|rewrite P; reflexivity].
      * apply I.
    + assert (EA : a = if r =? 0 then AFstb t else AMidb t) by (destruct A as [[-> ->]|[R ->]]; [reflexivity|]; destruct (Nat.eqb_spec r 0); [lia|reflexivity]).
      pose proof (comp_second _ _ _ _ I R1 Hs P) as CF. rewrite <- EA, EC in CF. injection CF as -> ->. clear EC.
      pose proof (fin_inner r R1) as FR. pose proof (todo_shift c ph r a rest t 9 I Hr E Ets Hs TL) as TS. rewrite P.
      apply quiet_step; try assumption; try (rewrite P; lia).
      * unfold ini; destruct (r =? 0); lia.
      * apply (slice_upd _ _ _ _ _ I Hr E).
      * apply upd2_val; [apply I|reflexivity].
      * apply upd2_val; [apply I|reflexivity].
      * apply (keep_val (hnd c) (fun q u p => hd q p)); [apply I|exact Hr|exact Hs|rewrite P; reflexivity].
      * apply I.
      * destruct (Nat.eq_dec r 0) as [->|]; [left; reflexivity|right]. rewrite P, fin_mid by lia. lia.
  - destruct (head_of _ _ _ _ _ I Hr E) as [Hs TD]. cbn [slice_of] in *. pose proof (i_range _ _ I r _ Hr Hs) as RG. exists r, s. split; [exact Hr|]. split; [exact Hs|].
    pose proof (fin_range r Hr) as FR.
    destruct (head_cases r s _ _ _ Hr RG TD) as [(P & R0 & A & TL)|[(_ & _ & A & _)|[(P & TL & A)|[(P & _ & A)|[(P & R1 & A & TL)|[(_ & _ & A & _)|[(P & R1 & TL & A)|(P & _ & A & _)]]]]]]]; try discriminate A;
    try (exfalso; intuition discriminate).
    + injection A as ->. pose proof (todo_shift c ph r _ rest s 1 I Hr E eq_refl Hs TL) as TS. rewrite P.
      apply quiet_step; try assumption; try (rewrite P; lia).
      * unfold ini; destruct (Nat.eqb_spec r 0); lia.
      * apply (slice_upd _ _ _ _ _ I Hr E).
      * apply (keep_val (work c) wk); [apply I|exact Hr|exact Hs|rewrite P; reflexivity].
      * apply (keep_val (buf c) bf); [apply I|exact Hr|exact Hs|rewrite P; reflexivity].
      * apply (upd2_val (hnd c) (fun q u p => hd q p)); [apply I|reflexivity].
      * apply (none_upd _ _ _ _ _ I Hs).
    + injection A as ->. pose proof (todo_shift c ph r _ rest s 6 I Hr E eq_refl Hs TL) as TS. pose proof (fin_inner r R1) as FI. rewrite P.
      apply quiet_step; try assumption; try (rewrite P; lia).
      * unfold ini; destruct (r =? 0); lia.
      * apply (slice_upd _ _ _ _ _ I Hr E).
      * apply (keep_val (work c) wk); [apply I|exact Hr|exact Hs|rewrite P; reflexivity].
      * apply (keep_val (buf c) bf); [apply I|exact Hr|exact Hs|rewrite P; reflexivity].
      * apply (upd2_val (hnd c) (fun q u p => hd q p)); [apply I|reflexivity].
      * apply (none_upd _ _ _ _ _ I Hs).
  - destruct (head_of _ _ _ _ _ I Hr E) as [Hs TD]. cbn [slice_of] in *. pose proof (i_range _ _ I r _ Hr Hs) as RG. exists r, s. split; [exact Hr|]. split; [exact Hs|].
    pose proof (fin_range r Hr) as FR. pose proof (i_hnd _ _ I r s Hr Hs) as HH. rewrite EH in HH.
    destruct (head_cases r s _ _ _ Hr RG TD) as [(P & R0 & A & TL)|[(P & _ & A & TL)|[(P & TL & A)|[(P & _ & A)|[(P & R1 & A & TL)|[(P & R1 & A & TL)|[(P & R1 & TL & A)|(P & _ & A & _)]]]]]]]; try discriminate A;
    try (exfalso; intuition discriminate).
    + destruct P as [P|P]; [rewrite P in HH; discriminate HH|]. pose proof (todo_shift c ph r _ rest s 3 I Hr E eq_refl Hs TL) as TS. rewrite P.
      apply quiet_step; try assumption; try (rewrite P; lia).
      * unfold ini; destruct (r =? 0); lia.
      * apply (slice_upd _ _ _ _ _ I Hr E).
      * apply (keep_val (work c) wk); [apply I|exact Hr|exact Hs|rewrite P; reflexivity].
      * apply (keep_val (buf c) bf); [apply I|exact Hr|exact Hs|rewrite P; reflexivity].
      * apply (upd2_val (hnd c) (fun q u p => hd q p)); [apply I|reflexivity].
      * apply (none_upd _ _ _ _ _ I Hs).
    + destruct P as [P|P]; [rewrite P in HH; discriminate HH|]. pose proof (todo_shift c ph r _ rest s 8 I Hr E eq_refl Hs TL) as TS. pose proof (fin_inner r R1) as FI. rewrite P.
      apply quiet_step; try assumption; try (rewrite P; lia).
      * unfold ini; destruct (r =? 0); lia.
      * apply (slice_upd _ _ _ _ _ I Hr E).
      * apply (keep_val (work c) wk); [apply I|exact Hr|exact Hs|rewrite P; reflexivity].
      * apply (keep_val (buf c) bf); [apply I|exact Hr|exact Hs|rewrite P; reflexivity].
      * apply (upd2_val (hnd c) (fun q u p => hd q p)); [apply I|reflexivity].
      * apply (none_upd _ _ _ _ _ I Hs).
  - (* send *)
    destruct (head_of _ _ _ _ _ I Hr E) as [Hs TD]. cbn [slice_of] in *. pose proof (i_range _ _ I r _ Hr Hs) as RG. exists r, s. split; [exact Hr|]. split; [exact Hs|].
    pose proof (fin_range r Hr) as FR. pose proof (i_buf _ _ I r s Hr Hs) as HB.
    destruct (head_cases r s _ _ _ Hr RG TD) as [(P & R0 & A & TL)|[(P & _ & A & TL)|[(P & TL & A)|[(P & TL & A)|[(P & R1 & A & TL)|[(P & R1 & A & TL)|[(P & R1 & TL & A)|(P & R1 & A & TL)]]]]]]]; try discriminate A;
    try (exfalso; intuition discriminate).
    + injection A as ->. pose proof (todo_shift c ph r _ rest s 5 I Hr E eq_refl Hs TL) as TS. rewrite P in HB |- *.
      destruct (Nat.ltb_spec r (N - 1)) as [R1|R1]; cbn [neighbour].
      * assert (BV : buf c r s = fm r s) by (rewrite HB; unfold bf; cbn [Nat.leb]; destruct (Nat.eqb_spec r (N - 1)); [lia|reflexivity]).
        destruct (i_fwd _ _ I r s ltac:(lia) Hs) as [(Z1 & Z2 & Z3)|[(Z1 & _)|(Z1 & _)]]; [|lia|lia].
        pose proof (fin_inner r R1) as FI.
        constructor; cbn [rem work buf hnd chan]; try exact TS.
        -- apply range_upd; [apply I|]. unfold ini; destruct (r =? 0); lia.
        -- apply (slice_upd _ _ _ _ _ I Hr E).
        -- apply (keep_val (work c) wk); [apply I|exact Hr|exact Hs|rewrite P; reflexivity].
        -- apply (keep_val (buf c) bf); [apply I|exact Hr|exact Hs|rewrite P; reflexivity].
        -- apply (keep_val (hnd c) (fun q u p => hd q p)); [apply I|exact Hr|exact Hs|rewrite P; reflexivity].
        -- apply I.
        -- apply (fwd_change c _ ph r r s 5 [fm r s]); [apply I|intros q u Hx; apply upd3_other; lia|cbn [chan]; rewrite upd3_same, Z3, BV; reflexivity|].
           left. repeat split; try assumption; try lia.
        -- apply (bwd_keep c); [apply I|intros q u; apply upd3_other; lia|right; rewrite P; lia|rewrite P; lia].
        -- intros p q u Hx. cbn [chan]. rewrite upd3_other by (intros (-> & -> & ->); apply Hx; repeat split; [left; reflexivity|lia|lia|lia]). apply I. exact Hx.
      * assert (RN : r = N - 1) by lia. assert (BV : buf c r s = bm r s) by (rewrite HB; unfold bf; cbn [Nat.leb]; destruct (Nat.eqb_spec r (N - 1)); [reflexivity|lia]).
        assert (FI : fin r = 5) by (unfold fin; destruct (Nat.eqb_spec r 0); [lia|]; destruct (Nat.eqb_spec r (N - 1)); [reflexivity|lia]).
        assert (SR : S (r - 1) = r) by lia.
        destruct (i_bwd _ _ I (r - 1) s ltac:(lia) Hs) as [(Z1 & Z2 & Z3)|[(Z1 & _)|(Z1 & _)]]; rewrite SR in *; [|lia|lia].
        constructor; cbn [rem work buf hnd chan]; try exact TS.
        -- apply range_upd; [apply I|]. unfold ini; destruct (r =? 0); lia.
        -- apply (slice_upd _ _ _ _ _ I Hr E).
        -- apply (keep_val (work c) wk); [apply I|exact Hr|exact Hs|rewrite P; reflexivity].
        -- apply (keep_val (buf c) bf); [apply I|exact Hr|exact Hs|rewrite P; reflexivity].
        -- apply (keep_val (hnd c) (fun q u p => hd q p)); [apply I|exact Hr|exact Hs|rewrite P; reflexivity].
        -- apply I.
        -- apply (fwd_keep c); [apply I|intros q u; apply upd3_other; lia|left; lia|rewrite P; lia].
        -- apply (bwd_change c _ ph (r - 1) r s 5 [bm r s]); [apply I|intros q u Hx; apply upd3_other; lia|cbn [chan]; rewrite SR, upd3_same, Z3, BV; reflexivity|].
           left. rewrite SR. repeat split; try assumption; try lia.
        -- intros p q u Hx. cbn [chan]. rewrite upd3_other by (intros (-> & -> & ->); apply Hx; repeat split; [right; lia|lia|lia|lia]). apply I. exact Hx.
    + injection A as ->. pose proof (todo_shift c ph r _ rest s 10 I Hr E eq_refl Hs TL) as TS. rewrite P in HB |- *. cbn [neighbour].
      assert (BV : buf c r s = bm r s) by (rewrite HB; unfold bf; cbn [Nat.leb]; destruct (Nat.eqb_spec r 0); [lia|reflexivity]).
      pose proof (fin_mid r R1) as FI. assert (SR : S (r - 1) = r) by lia.
      destruct (i_bwd _ _ I (r - 1) s ltac:(lia) Hs) as [(Z1 & Z2 & Z3)|[(Z1 & _)|(Z1 & _)]]; rewrite SR in *; [|lia|lia].
      constructor; cbn [rem work buf hnd chan]; try exact TS.
      * apply range_upd; [apply I|]. unfold ini; destruct (r =? 0); lia.
      * apply (slice_upd _ _ _ _ _ I Hr E).
      * apply (keep_val (work c) wk); [apply I|exact Hr|exact Hs|rewrite P; reflexivity].
      * apply (keep_val (buf c) bf); [apply I|exact Hr|exact Hs|rewrite P; reflexivity].
      * apply (keep_val (hnd c) (fun q u p => hd q p)); [apply I|exact Hr|exact Hs|rewrite P; reflexivity].
      * apply I.
      * apply (fwd_keep c); [apply I|intros q u; apply upd3_other; lia|right; rewrite P; lia|rewrite P; lia].
      * apply (bwd_change c _ ph (r - 1) r s 10 [bm r s]); [apply I|intros q u Hx; apply upd3_other; lia|cbn [chan]; rewrite SR, upd3_same, Z3, BV; reflexivity|].
        left. rewrite SR. repeat split; try assumption; try lia.
      * intros p q u Hx. cbn [chan]. rewrite upd3_other by (intros (-> & -> & ->); apply Hx; repeat split; [right; lia|lia|lia|lia]). apply I. exact Hx.
  - (* delivery *)
    assert (Hs : s < ns) by (destruct (Nat.lt_ge_cases s ns) as [|G]; [assumption|]; rewrite (i_none _ _ I r s Hr G) in EH; discriminate EH).
    pose proof (i_hnd _ _ I r s Hr Hs) as HH. rewrite EH in HH. pose proof (i_range _ _ I r s Hr Hs) as RG. exists r, s. split; [exact Hr|]. split; [exact Hs|].
    pose proof (fin_range r Hr) as FR.
    assert (HC : (ph r s = 1 /\ src = r - 1) \/ (ph r s = 6 /\ src = S r)).
    { destruct (ph r s) as [|[|[|[|[|[|[|[|p]]]]]]]]; cbn [hd] in HH; try discriminate HH; injection HH as ->; auto. }
    destruct HC as [[P ->]|[P ->]]; rewrite P.
    + assert (R0 : 0 < r) by (unfold ini in RG; destruct (Nat.eqb_spec r 0); lia). assert (SR : S (r - 1) = r) by lia.
      destruct (i_fwd _ _ I (r - 1) s ltac:(lia) Hs) as [(Z1 & Z2 & Z3)|[(Z1 & Z2 & Z3)|(Z1 & Z2 & Z3)]]; rewrite SR in *; [congruence| |congruence].
      rewrite Z3 in EM. injection EM as <- <-.
      constructor; cbn [rem work buf hnd chan].
      * apply range_upd; [apply I|]. unfold ini; destruct (Nat.eqb_spec r 0); lia.
      * apply (keep_val (fun q u => only u (rem c q)) todo); [apply I|exact Hr|exact Hs|rewrite P; reflexivity].
      * apply I.
      * apply (keep_val (work c) wk); [apply I|exact Hr|exact Hs|rewrite P; reflexivity].
      * apply (upd2_val (buf c) bf); [apply I|]. unfold bf. cbn [Nat.leb]. destruct (Nat.eqb_spec r 0); [lia|reflexivity].
      * apply (upd2_val (hnd c) (fun q u p => hd q p)); [apply I|reflexivity].
      * apply (none_upd _ _ _ _ _ I Hs).
      * apply (fwd_change c _ ph (r - 1) r s 2 []); [apply I|intros q u Hx; apply upd3_other; lia|cbn [chan]; rewrite SR, upd3_same; reflexivity|].
        right. rewrite SR. repeat split; try assumption; try lia.
      * apply (bwd_keep c); [apply I|intros q u; apply upd3_other; lia|right; rewrite P; lia|rewrite P; lia].
      * intros p q u Hx. cbn [chan]. rewrite upd3_other by (intros (-> & -> & ->); apply Hx; repeat split; [left; lia|lia|lia|lia]). apply I. exact Hx.
    + assert (R1 : r < N - 1) by (unfold fin in RG; destruct (Nat.eqb_spec r 0); [lia|]; destruct (Nat.eqb_spec r (N - 1)); lia).
      destruct (i_bwd _ _ I r s ltac:(lia) Hs) as [(Z1 & Z2 & Z3)|[(Z1 & Z2 & Z3)|(Z1 & Z2 & Z3)]]; [congruence| |congruence].
      rewrite Z3 in EM. injection EM as <- <-. pose proof (fin_inner r R1) as FI.
      constructor; cbn [rem work buf hnd chan].
      * apply range_upd; [apply I|]. unfold ini; destruct (Nat.eqb_spec r 0); lia.
      * apply (keep_val (fun q u => only u (rem c q)) todo); [apply I|exact Hr|exact Hs|rewrite P; reflexivity].
      * apply I.
      * apply (keep_val (work c) wk); [apply I|exact Hr|exact Hs|rewrite P; reflexivity].
      * apply (upd2_val (buf c) bf); [apply I|reflexivity].
      * apply (upd2_val (hnd c) (fun q u p => hd q p)); [apply I|reflexivity].
      * apply (none_upd _ _ _ _ _ I Hs).
      * apply (fwd_keep c); [apply I|intros q u; apply upd3_other; lia|right; rewrite P; lia|rewrite P; lia].
      * apply (bwd_change c _ ph r r s 7 []); [apply I|intros q u Hx; apply upd3_other; lia|cbn [chan]; rewrite upd3_same; reflexivity|].
        right. repeat split; try assumption; try lia.
      * intros p q u Hx. cbn [chan]. rewrite upd3_other by (intros (-> & -> & ->); apply Hx; repeat split; [right; lia|lia|lia|lia]). apply I. exact Hx.
Qed.

(** ** The start. *)
Definition code_for (ops : list (nat * nat)) : Prop := Forall (fun sk => fst sk < ns) ops /\ forall s, s < ns -> of_slice s ops = seq 0 (S (last_visit N)).
Lemma seq_split a n m : seq a (n + m) = seq a n ++ seq (a + n) m.
Proof. apply seq_app. Qed.
Ltac arith_path := unfold path, last_visit; repeat match goal with |- context [?a <? ?b] => destruct (Nat.ltb_spec a b) end; lia.
Ltac one_act := unfold acts, path, last_visit; repeat match goal with
  | |- context [?a <? ?b] => destruct (Nat.ltb_spec a b); try (exfalso; lia)
  | |- context [?a =? ?b] => destruct (Nat.eqb_spec a b); try (exfalso; lia) end; cbn [andb negb app]; try reflexivity.
Lemma start_todo r s : r < N -> flat_map (fun k => acts N r (s, k)) (seq 0 (S (last_visit N))) = todo r s (ini r).
Proof.
  intros Hr. unfold ini. destruct (Nat.eqb_spec r 0) as [->|R0].
  - replace (S (last_visit N)) with (1 + (2 * N - 4) + 1 + 1) by (unfold last_visit; lia). rewrite !seq_split, !flat_map_app.
    rewrite (quiet N N2 0 s _ (2 * N - 4)) by (intros k Hk; arith_path). cbn [seq flat_map Nat.add]. rewrite !app_nil_r.
    unfold todo, comp1, back. change (0 =? 0) with true. cbv iota.
    destruct (Nat.eqb_spec 0 (N - 1)); [lia|]. destruct (Nat.ltb_spec 0 (N - 1)); [|lia].
    assert (A0 : acts N 0 (s, 0) = [AFirst s; ASend s true]) by one_act.
    assert (A1 : acts N 0 (s, S (2 * N - 4)) = [AIrecv s true]) by one_act.
    assert (A2 : acts N 0 (s, S (2 * N - 4 + 1)) = [AWait s; AFstb s]) by one_act.
    rewrite A0, A1, A2. reflexivity.
  - destruct (Nat.eq_dec r (N - 1)) as [E|R1].
    + replace (S (last_visit N)) with ((r - 1) + 1 + 1 + (N - 1)) by (unfold last_visit; lia). rewrite !seq_split, !flat_map_app.
      rewrite (quiet N N2 r s _ (r - 1)) by (intros k Hk; arith_path). rewrite (quiet N N2 r s _ (N - 1)) by (intros k Hk; arith_path). cbn [seq flat_map Nat.add]. rewrite !app_nil_r.
      unfold todo, comp1, back. destruct (Nat.eqb_spec r 0); [lia|]. destruct (Nat.eqb_spec r (N - 1)); [|lia]. destruct (Nat.ltb_spec r (N - 1)); [lia|].
      assert (A0 : acts N r (s, r - 1) = [AIrecv s false]) by one_act.
      assert (A1 : acts N r (s, r - 1 + 1) = [AWait s; ATurn s; ASend s false]) by one_act.
      rewrite A0, A1. reflexivity.
    + replace (S (last_visit N)) with ((r - 1) + 1 + 1 + (2 * N - 4 - 2 * r) + 1 + 1 + r) by (unfold last_visit; lia). rewrite !seq_split, !flat_map_app.
      rewrite (quiet N N2 r s _ (r - 1)) by (intros k Hk; arith_path). rewrite (quiet N N2 r s _ (2 * N - 4 - 2 * r)) by (intros k Hk; arith_path).
      rewrite (quiet N N2 r s _ r) by (intros k Hk; arith_path). cbn [seq flat_map Nat.add]. rewrite !app_nil_r.
      unfold todo, comp1, back. destruct (Nat.eqb_spec r 0); [lia|]. destruct (Nat.eqb_spec r (N - 1)); [lia|]. destruct (Nat.ltb_spec r (N - 1)); [|lia].
      assert (A0 : acts N r (s, r - 1) = [AIrecv s false]) by one_act.
      assert (A1 : acts N r (s, r - 1 + 1) = [AWait s; AMid s; ASend s true]) by one_act.
      assert (A2 : acts N r (s, r - 1 + 1 + 1 + (2 * N - 4 - 2 * r)) = [AIrecv s true]) by one_act.
      assert (A3 : acts N r (s, r - 1 + 1 + 1 + (2 * N - 4 - 2 * r) + 1) = [AWait s; AMidb s; ASend s false]) by one_act.
      rewrite A0, A1, A2, A3. reflexivity.
Qed.
Lemma inv_start c ops : code_for ops -> (forall r, r < N -> rem c r = flat_map (acts N r) ops) -> (forall r s, r < N -> s < ns -> work c r s = w0 r s) ->
  (forall r s, r < N -> s < ns -> buf c r s = b0 r s) -> (forall r s, hnd c r s = HNone) -> (forall p q s, chan c p q s = []) -> inv c (fun r _ => ini r).
Proof.
  intros [F C] HR HW HB HH HC. constructor; try (intros; cbv beta).
  - unfold ini, fin. destruct (r =? 0); [lia|]. destruct (r =? N - 1); lia.
  - rewrite HR by assumption. rewrite only_flat, C by assumption. apply start_todo. assumption.
  - rewrite HR in H1 by assumption. apply in_flat_map in H1. destruct H1 as ([t k] & IN & A). apply acts_slice in A. rewrite A. rewrite Forall_forall in F. apply (F (t, k) IN).
  - rewrite HW by assumption. unfold wk, ini. destruct (r =? 0); reflexivity.
  - rewrite HB by assumption. unfold bf, ini. destruct (Nat.eqb_spec r 0) as [->|]; reflexivity.
  - rewrite HH. unfold hd, ini. destruct (r =? 0); reflexivity.
  - apply HH.
  - left. rewrite HC. unfold ini. destruct (r =? 0); cbn [Nat.eqb]; repeat split; lia.
  - left. rewrite HC. unfold ini, fin. change (S r =? 0) with false. cbv iota. destruct (S r =? N - 1); destruct (r =? 0); repeat split; lia.
  - apply HC.
Qed.

(** ** Nothing goes wrong. *)
Lemma no_fault c ph r a rest : inv c ph -> r < N -> rem c r = a :: rest -> ~ faulty c r a.
Proof.
  intros I Hr E. destruct (head_of _ _ _ _ _ I Hr E) as [Hs TD]. set (s := slice_of a) in *. pose proof (i_range _ _ I r _ Hr Hs) as RG. pose proof (i_hnd _ _ I r _ Hr Hs) as HH.
  destruct (head_cases r s _ _ _ Hr RG TD) as [(P & R0 & A & TL)|[(P & R0 & A & TL)|[(P & TL & A)|[(P & TL & A)|[(P & R1 & A & TL)|[(P & R1 & A & TL)|[(P & R1 & TL & A)|(P & R1 & A & TL)]]]]]]].
  - rewrite A. cbn [SptcModel.faulty]. rewrite HH, P. cbn [hd]. intros [|]; [congruence|lia].
  - rewrite A. cbn [SptcModel.faulty]. rewrite HH. destruct P as [-> | ->]; discriminate.
  - destruct (comp_first _ _ _ _ I Hr Hs P) as [CF _]. rewrite P in HH. cbn [hd] in HH. unfold comp1 in CF.
    destruct A as [[-> A]|[[R A]|[R0 [R A]]]]; rewrite A in *.
    + cbn [Nat.eqb] in CF. unfold SptcModel.faulty. rewrite CF, HH. congruence.
    + destruct (Nat.eqb_spec r 0); [lia|]. destruct (Nat.eqb_spec r (N - 1)); [lia|]. unfold SptcModel.faulty. rewrite CF, HH. congruence.
    + destruct (Nat.eqb_spec r 0); [lia|]. destruct (Nat.eqb_spec r (N - 1)); [|lia]. unfold SptcModel.faulty. rewrite CF, HH. congruence.
  - rewrite A. cbn [SptcModel.faulty]. rewrite HH, P. cbn [hd]. intros [|X]; [congruence|]. destruct (Nat.ltb_spec r (N - 1)); lia.
  - rewrite A. cbn [SptcModel.faulty]. rewrite HH, P. cbn [hd]. intros [|]; [congruence|lia].
  - rewrite A. cbn [SptcModel.faulty]. rewrite HH. destruct P as [-> | ->]; discriminate.
  - pose proof (comp_second _ _ _ _ I R1 Hs P) as CF. rewrite P in HH. cbn [hd] in HH. destruct A as [[-> A]|[R A]]; rewrite A in *.
    + cbn [Nat.eqb] in CF. unfold SptcModel.faulty. rewrite CF, HH. congruence.
    + destruct (Nat.eqb_spec r 0); [lia|]. unfold SptcModel.faulty. rewrite CF, HH. congruence.
  - rewrite A. cbn [SptcModel.faulty]. rewrite HH, P. cbn [hd]. intros [|]; [congruence|lia].
Qed.

(** ** The end. *)
Lemma at_end c ph : inv c ph -> (forall r, r < N -> rem c r = []) ->
  (forall r s, r < N -> s < ns -> work c r s = (if r =? N - 1 then w1 r s else w2 r s) /\ hnd c r s = HNone) /\ forall p q s, chan c p q s = [].
Proof.
  intros I H. assert (PF : forall r s, r < N -> s < ns -> ph r s = fin r).
  { intros r s Hr Hs. apply (todo_fin r s); [exact Hr|apply I; assumption|]. rewrite <- (i_todo _ _ I r s Hr Hs), H by exact Hr. reflexivity. }
  split.
  - intros r s Hr Hs. rewrite (i_work _ _ I r s Hr Hs), (i_hnd _ _ I r s Hr Hs), PF by assumption. unfold wk, hd, fin.
    destruct (Nat.eqb_spec r 0) as [->|]; [destruct (Nat.eqb_spec 0 (N - 1)); [lia|split; reflexivity]|]. destruct (r =? N - 1); split; reflexivity.
  - intros p q s. destruct (Nat.lt_ge_cases p N) as [Hp|]; [|apply (i_chan _ _ I); lia]. destruct (Nat.lt_ge_cases q N) as [Hq|]; [|apply (i_chan _ _ I); lia].
    destruct (Nat.lt_ge_cases s ns) as [Hs|]; [|apply (i_chan _ _ I); lia].
    destruct (Nat.eq_dec q (S p)) as [->|]; [|destruct (Nat.eq_dec p (S q)) as [->|]; [|apply (i_chan _ _ I); lia]].
    + destruct (i_fwd _ _ I p s Hq Hs) as [(_ & _ & E)|[(_ & G & _)|(_ & _ & E)]]; [exact E| |exact E].
      exfalso. rewrite PF in G by lia. unfold fin in G. destruct (S p =? 0); [lia|]. destruct (S p =? N - 1); lia.
    + destruct (i_bwd _ _ I q s Hp Hs) as [(_ & _ & E)|[(_ & G & _)|(_ & _ & E)]]; [exact E| |exact E].
      exfalso. rewrite PF in G by lia. pose proof (fin_inner q ltac:(lia)). lia.
Qed.

(** ** The number of steps. *)
Fixpoint sum (n : nat) (f : nat -> nat) : nat := match n with O => 0 | S n' => sum n' f + f n' end.
Lemma sum_ext n f g : (forall i, i < n -> f i = g i) -> sum n f = sum n g.
Proof. induction n as [|n IH]; intros H; [reflexivity|]. cbn [sum]. rewrite IH, H by (intros; try apply H; lia). reflexivity. Qed.
Lemma sum_bump n f g i : i < n -> g i = S (f i) -> (forall j, j < n -> j <> i -> g j = f j) -> sum n g = S (sum n f).
Proof.
  induction n as [|n IH]; intros Hi E H; [lia|]. cbn [sum]. destruct (Nat.eq_dec i n) as [->|NE].
  - rewrite E. rewrite (sum_ext n g f); [lia|]. intros j Hj. apply H; lia.
  - rewrite IH; [|lia|exact E|intros; apply H; lia]. rewrite (H n) by lia. lia.
Qed.
Lemma sum_bound n f b : (forall i, i < n -> f i <= b) -> sum n f <= b * n.
Proof. induction n as [|n IH]; intros H; cbn [sum]; [lia|]. pose proof (IH ltac:(intros; apply H; lia)). pose proof (H n ltac:(lia)). lia. Qed.
Definition total (ph : nat -> nat -> nat) : nat := sum N (fun r => sum ns (fun s => ph r s)).
Lemma total_bump ph r t : r < N -> t < ns -> total (upd2 ph r t (S (ph r t))) = S (total ph).
Proof.
  intros Hr Ht'. unfold total. apply (sum_bump N _ _ r); [exact Hr| |].
  - apply (sum_bump ns _ _ t); [exact Ht'|apply upd2_same|]. intros j Hj NE. apply upd2_other. tauto.
  - intros j Hj NE. apply sum_ext. intros u Hu. apply upd2_other. tauto.
Qed.
Lemma total_bound c ph : inv c ph -> total ph <= 10 * ns * N.
Proof.
  intros I. unfold total. apply sum_bound. intros r Hr. apply sum_bound. intros s Hs. pose proof (i_range _ _ I r s Hr Hs) as [_ H]. unfold fin in H.
  destruct (r =? 0); [lia|]. destruct (r =? N - 1); lia.
Qed.
Lemma inv_steps n c0 c ph0 : inv c0 ph0 -> steps n c0 c -> exists ph, inv c ph /\ total ph = n + total ph0.
Proof.
  intros I ST. induction ST as [|n c0 c1 c2 ST IH ST1]; [exists ph0; split; [exact I|reflexivity]|].
  destruct (IH I) as (ph & I1 & E). destruct (inv_step _ _ _ I1 ST1) as (r & t & Hr & Ht' & I2).
  eexists. split; [exact I2|]. rewrite total_bump by assumption. lia.
Qed.
Lemma suffix_steps n c0 c ops : (forall r, r < N -> rem c0 r = flat_map (acts N r) ops) -> steps n c0 c -> forall r, r < N -> suffix (rem c r) (flat_map (acts N r) ops).
Proof.
  intros H ST. induction ST as [|n c0 c1 c2 ST IH ST1]; intros r Hr; [rewrite H by exact Hr; exists []; reflexivity|].
  specialize (IH H r Hr). assert (K : forall q rest a, rem c1 q = a :: rest -> suffix (upd1 (rem c1) q rest r) (flat_map (acts N r) ops)).
  { intros q rest a E. unfold upd1. destruct (Nat.eqb_spec r q) as [->|]; [|exact IH]. apply (suffix_tl a). rewrite <- E. exact IH. }
  destruct ST1; cbn [rem]; try (eapply K; eassumption). exact IH.
Qed.

(** ** Progress, even if every send waits for its receive. *)
Lemma seq_cut n : forall a A k B, seq a n = A ++ k :: B -> a <= k < a + n /\ forall k', In k' B -> k < k' < a + n.
Proof.
  induction n as [|n IH]; intros a A k B E; cbn [seq] in E; [destruct A; discriminate E|].
  destruct A as [|x A]; cbn [app] in E; injection E as <- E.
  - split; [lia|]. intros k' H. rewrite <- E in H. apply in_seq in H. lia.
  - destruct (IH _ _ _ _ E) as [H1 H2]. split; [lia|]. intros k' Hk. specialize (H2 k' Hk). lia.
Qed.
Lemma later l1 s k l n : of_slice s (l1 ++ (s, k) :: l) = seq 0 n -> k < n /\ forall k', In (s, k') l -> k < k' < n.
Proof.
  intros E. rewrite of_slice_app in E. unfold of_slice at 2 in E. cbn [filter fst] in E. rewrite Nat.eqb_refl in E. cbn [map snd] in E.
  symmetry in E. destruct (seq_cut _ _ _ _ _ E) as [H1 H2]. split; [lia|]. intros k' H. apply H2.
  apply in_map_iff. exists (s, k'). split; [reflexivity|]. apply filter_In. split; [exact H|]. apply Nat.eqb_refl.
Qed.
Lemma todo_in c ph r s p a : inv c ph -> r < N -> s < ns -> ph r s = p -> In a (todo r s p) -> In a (rem c r).
Proof. intros I Hr Hs <- H. rewrite <- (i_todo _ _ I r s Hr Hs) in H. unfold only in H. apply filter_In in H. tauto. Qed.
Lemma in_todo c ph r a : inv c ph -> r < N -> In a (rem c r) -> In a (todo r (slice_of a) (ph r (slice_of a))).
Proof.
  intros I Hr H. rewrite <- (i_todo _ _ I r _ Hr) by (apply (i_slice _ _ I r a Hr H)). unfold only. apply filter_In. split; [exact H|apply Nat.eqb_refl].
Qed.
Notation needs_buffering := (needs_buffering L Msg N).
Definition can (c : cfg) : Prop := exists c', step c c' /\ ~ needs_buffering c c'.
Lemma not_send c c' : (forall r s out rest, r < N -> rem c r = ASend s out :: rest -> rem c' r = rem c r) -> ~ needs_buffering c c'.
Proof. intros H (r & s & out & rest & Hr & E & E' & _). rewrite (H r s out rest Hr E), E in E'. apply (f_equal (@length _)) in E'. cbn [length] in E'. lia. Qed.
Lemma not_send1 c c' r a rest : rem c r = a :: rest -> (forall s out, a <> ASend s out) -> rem c' = upd1 (rem c) r rest -> ~ needs_buffering c c'.
Proof. intros E NS E'. apply not_send. intros q s out rest' Hq Eq. rewrite E'. unfold upd1. destruct (Nat.eqb_spec q r) as [->|]; [|reflexivity]. rewrite E in Eq. injection Eq as -> _. exfalso. exact (NS s out eq_refl). Qed.
Lemma can_irecv c r s out rest : r < N -> rem c r = AIrecv s out :: rest -> can c.
Proof. intros Hr E. eexists. split; [eapply st_irecv; eassumption|]. eapply not_send1; [exact E|discriminate|reflexivity]. Qed.
Lemma can_wait c r s rest : r < N -> rem c r = AWait s :: rest -> hnd c r s = HDone -> can c.
Proof. intros Hr E H. eexists. split; [eapply st_wait; eassumption|]. eapply not_send1; [exact E|discriminate|reflexivity]. Qed.
Lemma can_deliver c r s src m ms : r < N -> hnd c r s = HPend src -> chan c src r s = m :: ms -> can c.
Proof. intros Hr E H. eexists. split; [eapply st_deliver; eassumption|]. apply not_send. reflexivity. Qed.
Lemma can_send c r s out rest : r < N -> rem c r = ASend s out :: rest -> hnd c (neighbour r out) s = HPend r -> can c.
Proof.
  intros Hr E H. eexists. split; [eapply st_send; eassumption|]. intros (q & t & o & rest' & Hq & E1 & E2 & E3). cbn [rem] in E2. unfold upd1 in E2.
  destruct (Nat.eqb_spec q r) as [->|]; [rewrite E in E1; injection E1 as <- <- <-; contradiction|]. rewrite E1 in E2. apply (f_equal (@length _)) in E2. cbn [length] in E2. lia.
Qed.
Lemma can_compute c r a rest s l b : r < N -> rem c r = a :: rest -> computes r a c = Some (s, Ok (l, b)) -> can c.
Proof. intros Hr E H. eexists. split; [eapply st_compute; eassumption|]. eapply not_send1; [exact E| |reflexivity]. intros t out ->. discriminate H. Qed.

Lemma progress c ph ops : code_for ops -> inv c ph -> forall l l1, ops = l1 ++ l -> (forall q, q < N -> suffix (rem c q) (flat_map (acts N q) l)) ->
  (exists q, q < N /\ rem c q <> []) -> can c.
Proof.
  intros [FA CO] I. induction l as [|[s k] l IH]; intros l1 EO HS (q0 & Hq0 & NE).
  - exfalso. destruct (HS q0 Hq0) as [p E]. cbn [flat_map] in E. destruct p; [|discriminate E]. apply NE. symmetry. exact E.
  - cbn [flat_map] in HS.
    destruct (all_or (fun q => suffix (rem c q) (flat_map (acts N q) l)) (fun q => exists a1 b a2, acts N q (s, k) = a1 ++ b :: a2 /\ rem c q = b :: a2 ++ flat_map (acts N q) l) N) as [G|(r & Hr & a1 & a & a2 & EA & ER)].
    { intros q Hq. apply suffix_app. apply HS. exact Hq. }
    { apply (IH (l1 ++ [(s, k)])); [rewrite <- app_assoc; exact EO|exact G|exists q0; split; assumption]. }
    clear IH q0 Hq0 NE.
    assert (Hs : s < ns) by (rewrite Forall_forall in FA; apply (FA (s, k)); rewrite EO; apply in_or_app; right; left; reflexivity).
    assert (LT : k < S (last_visit N) /\ forall k', In (s, k') l -> k < k' < S (last_visit N)) by (apply (later l1); rewrite <- EO; apply CO; exact Hs). destruct LT as [KL LT].
    assert (SA : slice_of a = s) by (apply (acts_slice N r s k); rewrite EA; apply in_or_app; right; left; reflexivity).
    (* where an action of slice s is *)
    assert (WH : forall q x, q < N -> slice_of x = s -> In x (rem c q) -> exists k', k <= k' < S (last_visit N) /\ In x (acts N q (s, k')) /\
      (k' = k -> In x (acts N q (s, k)) /\ ~ suffix (rem c q) (flat_map (acts N q) l) \/ In (s, k) l)).
    { intros q x Hq Sx Hx. pose proof (suffix_in x _ _ (HS q Hq) Hx) as HI. apply in_app_or in HI.
      destruct (in_dec act_dec x (flat_map (acts N q) l)) as [H2|H2].
      - apply in_flat_map in H2. destruct H2 as ([t k'] & H3 & H4). pose proof (acts_slice _ _ _ _ _ H4) as T. rewrite Sx in T. subst t.
        exists k'. pose proof (LT k' H3). split; [lia|]. split; [exact H4|]. intros ->. right. exact H3.
      - destruct HI as [HI|HI]; [|contradiction]. exists k. split; [lia|]. split; [exact HI|]. intros _. left. split; [exact HI|]. intros SU. apply H2. exact (suffix_in x _ _ SU Hx). }
    assert (NL : ~ In (s, k) l) by (intros H; specialize (LT k H); lia).
    (* the receive of the same visit can be posted *)
    assert (POST : forall q out, q < N -> In (AIrecv s out) (rem c q) -> (forall k', In (AIrecv s out) (acts N q (s, k')) -> k' <= k) -> can c).
    { intros q out Hq HI HK. destruct (WH q (AIrecv s out) Hq eq_refl HI) as (k' & K1 & K2 & K3). pose proof (HK k' K2). assert (k' = k) by lia. subst k'.
      destruct (K3 eq_refl) as [[K4 K5]|]; [|contradiction]. destruct (suffix_app _ _ _ (HS q Hq)) as [|(x1 & b & x2 & X1 & X2)]; [contradiction|].
      apply acts_irecv in K4. destruct K4 as (_ & _ & _ & _ & K4). rewrite K4 in X1. destruct x1 as [|y x1]; cbn [app] in X1; [|injection X1 as _ X1; destruct x1; discriminate X1].
      injection X1 as <- <-. eapply can_irecv; [exact Hq|exact X2]. }
    destruct (head_of _ _ _ _ _ I Hr ER) as [_ TD]. rewrite SA in TD. pose proof (i_range _ _ I r _ Hr Hs) as RG. pose proof (i_hnd _ _ I r _ Hr Hs) as HH.
    assert (RP : forall t out, a = ASend t out -> r = path N k /\ k < last_visit N /\ out = (k <? N - 1)).
    { intros t out ->. destruct (acts_send N N2 r s k t out) as [(_ & X)|X]; [rewrite EA; apply in_or_app; right; left; reflexivity|exact X|lia]. }
    destruct (head_cases r s _ _ _ Hr RG TD) as [(P & R0 & A & TL)|[(P & R0 & A & TL)|[(P & TL & A)|[(P & TL & A)|[(P & R1 & A & TL)|[(P & R1 & A & TL)|[(P & R1 & TL & A)|(P & R1 & A & TL)]]]]]]].
    + rewrite A in ER. eapply can_irecv; eassumption.
    + (* waiting for r - 1 *)
      rewrite A in ER, EA. destruct P as [P|P]; [|eapply can_wait; [exact Hr|exact ER|rewrite HH, P; reflexivity]].
      rewrite P in HH. cbn [hd] in HH. apply (acts_wait N N2) in EA. destruct EA as (RK & _ & _).
      assert (SR : S (r - 1) = r) by lia. destruct (i_fwd _ _ I (r - 1) s ltac:(lia) Hs) as [(Z1 & Z2 & Z3)|[(Z1 & Z2 & Z3)|(Z1 & Z2 & Z3)]]; rewrite SR in *; [| |lia].
      * exfalso. assert (HI : In (ASend s true) (rem c (r - 1))).
        { apply (todo_in c ph (r - 1) s (ph (r - 1) s)); [exact I|lia|exact Hs|reflexivity|]. destruct (ph (r - 1) s) as [|[|[|[|[|p]]]]]; [| | | | |lia]; unfold todo; (destruct (Nat.ltb_spec (r - 1) (N - 1)); [|lia]); cbn [app In]; tauto. }
        destruct (WH (r - 1) (ASend s true) ltac:(lia) eq_refl HI) as (k' & K1 & K2 & _). apply (acts_send N N2) in K2. destruct K2 as [(_ & K2 & K3 & K4)|]; [|lia].
        symmetry in K4. apply Nat.ltb_lt in K4. unfold path in K2, RK. destruct (Nat.ltb_spec k' N); [|lia]. destruct (Nat.ltb_spec k N); lia.
      * eapply can_deliver; [exact Hr|exact HH|exact Z3].
    + destruct (comp_first _ _ _ _ I Hr Hs P) as [CF _]. assert (EQ : a = comp1 r s).
      { unfold comp1. destruct A as [[-> ->]|[[R ->]|[R0 [R ->]]]]; [reflexivity| |]; destruct (Nat.eqb_spec r 0); try lia; destruct (Nat.eqb_spec r (N - 1)); try lia; reflexivity. }
      rewrite <- EQ in CF. eapply can_compute; eassumption.
    + destruct (RP _ _ A) as (RK & KK & OUT). rewrite A in ER. destruct (Nat.ltb_spec r (N - 1)) as [R1|R1].
      * symmetry in OUT. apply Nat.ltb_lt in OUT. assert (k = r) by (unfold path in RK; destruct (Nat.ltb_spec k N); lia). subst k.
        destruct (i_fwd _ _ I r s ltac:(lia) Hs) as [(Z1 & Z2 & Z3)|[(Z1 & _)|(Z1 & _)]]; [|lia|lia].
        destruct (Nat.eq_dec (ph (S r) s) 1) as [Q|Q].
        { eapply can_send; [exact Hr|exact ER|]. cbn [neighbour]. rewrite (i_hnd _ _ I (S r) s) by lia. rewrite Q. cbn [hd]. f_equal. lia. }
        apply (POST (S r) false); [lia| |].
        { apply (todo_in c ph (S r) s 0); [exact I|lia|exact Hs|lia|]. left. reflexivity. }
        { intros k' K. apply acts_irecv in K. destruct K as (_ & K1 & _ & K2 & _). assert (K3 : (k' <? N - 1) = true) by (destruct (k' <? N - 1); [reflexivity|discriminate K2]). apply Nat.ltb_lt in K3. unfold path in K1. destruct (Nat.ltb_spec (S k') N); lia. }
      * assert (RN : r = N - 1) by lia. assert (k = N - 1) by (unfold path in RK; destruct (Nat.ltb_spec k N); lia).
        assert (FI : fin r = 5) by (unfold fin; destruct (Nat.eqb_spec r 0); [lia|]; destruct (Nat.eqb_spec r (N - 1)); [reflexivity|lia]).
        assert (SR : S (r - 1) = r) by lia.
        destruct (i_bwd _ _ I (r - 1) s ltac:(lia) Hs) as [(Z1 & Z2 & Z3)|[(Z1 & _)|(Z1 & _)]]; rewrite SR in *; [|lia|lia].
        destruct (Nat.eq_dec (ph (r - 1) s) 6) as [Q|Q].
        { eapply can_send; [exact Hr|exact ER|]. cbn [neighbour]. rewrite (i_hnd _ _ I (r - 1) s) by lia. rewrite Q. cbn [hd]. f_equal. lia. }
        apply (POST (r - 1) true); [lia| |].
        { apply (todo_in c ph (r - 1) s (ph (r - 1) s)); [exact I|lia|exact Hs|reflexivity|]. assert (LE : ph (r - 1) s <= 5) by lia. clear - LE SR RN N2.
          assert (B : In (AIrecv s true) (back (r - 1) s 5)) by (unfold back; destruct (Nat.eqb_spec (r - 1) (N - 1)); [lia|left; reflexivity]).
          destruct (ph (r - 1) s) as [|[|[|[|[|[|p]]]]]]; [| | | | | |lia]; unfold todo; try (apply in_or_app; right); exact B. }
        { intros k' K. apply acts_irecv in K. destruct K as (_ & K1 & K5 & K2 & _). assert (K3 : (k' <? N - 1) = false) by (destruct (k' <? N - 1); [discriminate K2|reflexivity]). apply Nat.ltb_ge in K3. unfold path in K1. unfold last_visit in K5. destruct (Nat.ltb_spec (S k') N); lia. }
    + rewrite A in ER. eapply can_irecv; eassumption.
    + (* waiting for r + 1 *)
      rewrite A in ER, EA. destruct P as [P|P]; [|eapply can_wait; [exact Hr|exact ER|rewrite HH, P; reflexivity]].
      rewrite P in HH. cbn [hd] in HH. apply (acts_wait N N2) in EA. destruct EA as (RK & AF & K0).
      assert (KB : N - 1 < k).
      { destruct (Nat.le_gt_cases k (N - 1)) as [KN|]; [exfalso|assumption].
        assert (KN2 : k < N - 1) by (unfold path in RK; destruct (Nat.ltb_spec k N); lia). assert (KN3 : k < last_visit N) by (unfold last_visit; lia).
        specialize (AF KN3). destruct (Nat.ltb_spec k (N - 1)); [|lia].
        assert (HI : In (ASend s true) (todo r s (ph r s))) by (apply (in_todo c ph r (ASend s true) I Hr); rewrite ER; right; apply in_or_app; left; exact AF).
        rewrite P in HI. unfold todo, back in HI. destruct (Nat.eqb_spec r (N - 1)); [lia|]. destruct (r =? 0); cbn [In] in HI; intuition discriminate. }
      destruct (i_bwd _ _ I r s ltac:(lia) Hs) as [(Z1 & Z2 & Z3)|[(Z1 & Z2 & Z3)|(Z1 & Z2 & Z3)]]; [| |lia].
      * exfalso. assert (HI : In (ASend s false) (rem c (S r))).
        { apply (todo_in c ph (S r) s (ph (S r) s)); [exact I|lia|exact Hs|reflexivity|]. clear - Z1 R1 N2. unfold fin in Z1. change (S r =? 0) with false in Z1. cbv iota in Z1.
          destruct (Nat.eqb_spec (S r) (N - 1)) as [E|E].
          - destruct (ph (S r) s) as [|[|[|[|[|p]]]]]; [| | | | |lia]; unfold todo; (destruct (Nat.ltb_spec (S r) (N - 1)); [lia|]); cbn [app In]; tauto.
          - assert (B : In (ASend s false) (back (S r) s 5)) by (unfold back; destruct (Nat.eqb_spec (S r) (N - 1)); [lia|]; change (S r =? 0) with false; cbn [app In]; tauto).
            destruct (ph (S r) s) as [|[|[|[|[|[|[|[|[|[|p]]]]]]]]]]; [| | | | | | | | | |lia]; unfold todo; try (apply in_or_app; right; exact B); try exact B;
            unfold back; destruct (Nat.eqb_spec (S r) (N - 1)); try lia; change (S r =? 0) with false; cbn [app In]; tauto. }
        destruct (WH (S r) (ASend s false) ltac:(lia) eq_refl HI) as (k' & K1 & K2 & _). apply (acts_send N N2) in K2. destruct K2 as [(_ & K2 & K3 & K4)|]; [|lia].
        unfold path in K2, RK. destruct (Nat.ltb_spec k' N); destruct (Nat.ltb_spec k N); unfold last_visit in *; lia.
      * eapply can_deliver; [exact Hr|exact HH|exact Z3].
    + pose proof (comp_second _ _ _ _ I R1 Hs P) as CF. assert (EQ : a = if r =? 0 then AFstb s else AMidb s) by (destruct A as [[-> ->]|[R ->]]; [reflexivity|]; destruct (Nat.eqb_spec r 0); [lia|reflexivity]).
      rewrite <- EQ in CF. eapply can_compute; eassumption.
    + destruct (RP _ _ A) as (RK & KK & OUT). rewrite A in ER. symmetry in OUT. apply Nat.ltb_ge in OUT.
      assert (k = 2 * N - 2 - r) by (unfold path in RK; destruct (Nat.ltb_spec k N); lia).
      pose proof (fin_mid r R1) as FI. assert (SR : S (r - 1) = r) by lia.
      destruct (i_bwd _ _ I (r - 1) s ltac:(lia) Hs) as [(Z1 & Z2 & Z3)|[(Z1 & _)|(Z1 & _)]]; rewrite SR in *; [|lia|lia].
      destruct (Nat.eq_dec (ph (r - 1) s) 6) as [Q|Q].
      { eapply can_send; [exact Hr|exact ER|]. cbn [neighbour]. rewrite (i_hnd _ _ I (r - 1) s) by lia. rewrite Q. cbn [hd]. f_equal. lia. }
      apply (POST (r - 1) true); [lia| |].
      { apply (todo_in c ph (r - 1) s (ph (r - 1) s)); [exact I|lia|exact Hs|reflexivity|]. assert (LE : ph (r - 1) s <= 5) by lia. clear - LE SR R1 N2.
        assert (B : In (AIrecv s true) (back (r - 1) s 5)) by (unfold back; destruct (Nat.eqb_spec (r - 1) (N - 1)); [lia|left; reflexivity]).
        destruct (ph (r - 1) s) as [|[|[|[|[|[|p]]]]]]; [| | | | | |lia]; unfold todo; try (apply in_or_app; right); exact B. }
      { intros k' K. apply acts_irecv in K. destruct K as (_ & K1 & K5 & K2 & _). assert (K3 : (k' <? N - 1) = false) by (destruct (k' <? N - 1); [discriminate K2|reflexivity]). apply Nat.ltb_ge in K3. unfold path in K1. unfold last_visit in K5. destruct (Nat.ltb_spec (S k') N); lia. }
Qed.
End P.
