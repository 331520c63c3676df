(** Executions of the schedule: start, faults, progress, length, end. *)
From Coq Require Import List Arith Bool ZArith Lia.
From Verif Require SptModel.
From Verif Require Import Base SptcModel SptcProofs.
Import ListNotations.

(** The messages and local data of one sequential chain. *)
Section ChainData.
Variables L Msg : Type.
Variables mid midb : nat -> L -> Msg -> res (L * Msg).
Lemma forward_data : forall k p w m w' m', SptModel.chain_forward L Msg mid k p w m = Ok (w', m') ->
  exists fm : nat -> Msg, fm p = m /\ fm (p + k) = m' /\ (forall r, p <= r < p + k -> mid r (w r) (fm r) = Ok (w' r, fm (S r))) /\
    forall r, r < p \/ p + k <= r -> w' r = w r.
Proof.
  induction k as [|k IH]; intros p w m w' m' E; cbn [SptModel.chain_forward] in E.
  - injection E as <- <-. exists (fun _ => m). rewrite Nat.add_0_r. repeat split; try reflexivity; intros; lia.
  - destruct (mid p (w p) m) as [[l x]| |] eqn:E1; try discriminate E. cbn [bind fst snd] in E.
    destruct (IH _ _ _ _ _ E) as (fm & A & B & C & D). exists (fun r => if r =? p then m else fm r).
    rewrite Nat.eqb_refl. split; [reflexivity|]. split; [destruct (Nat.eqb_spec (p + S k) p); [lia|]; rewrite <- B; f_equal; lia|]. split.
    + intros r Hr. destruct (Nat.eqb_spec r p) as [->|].
      * destruct (Nat.eqb_spec (S p) p); [lia|]. rewrite A, E1. rewrite D by lia. unfold SptModel.upd. rewrite Nat.eqb_refl. reflexivity.
      * destruct (Nat.eqb_spec (S r) p); [lia|]. rewrite <- C by lia. unfold SptModel.upd. destruct (Nat.eqb_spec r p); [contradiction|reflexivity].
    + intros r Hr. rewrite D by lia. unfold SptModel.upd. destruct (Nat.eqb_spec r p); [lia|reflexivity].
Qed.
Lemma back_data : forall k w m w' m', SptModel.chain_back L Msg midb k w m = Ok (w', m') ->
  exists bm : nat -> Msg, bm (S k) = m /\ bm 1 = m' /\ (forall r, 0 < r <= k -> midb r (w r) (bm (S r)) = Ok (w' r, bm r)) /\
    forall r, r = 0 \/ k < r -> w' r = w r.
Proof.
  induction k as [|k IH]; intros w m w' m' E; cbn [SptModel.chain_back] in E.
  - injection E as <- <-. exists (fun _ => m). repeat split; try reflexivity; intros; lia.
  - destruct (midb (S k) (w (S k)) m) as [[l x]| |] eqn:E1; try discriminate E. cbn [bind fst snd] in E.
    destruct (IH _ _ _ _ E) as (bm & A & B & C & D). exists (fun r => if r =? S (S k) then m else bm r).
    rewrite Nat.eqb_refl. split; [reflexivity|]. split; [exact B|]. split.
    + intros r Hr. destruct (Nat.eqb_spec r (S (S k))); [lia|]. destruct (Nat.eqb_spec (S r) (S (S k))) as [Q|Q].
      * assert (r = S k) by lia. subst r. rewrite E1, A. rewrite D by lia. unfold SptModel.upd. rewrite Nat.eqb_refl. reflexivity.
      * rewrite <- C by lia. unfold SptModel.upd. destruct (Nat.eqb_spec r (S k)); [lia|reflexivity].
    + intros r Hr. rewrite D by lia. unfold SptModel.upd. destruct (Nat.eqb_spec r (S k)); [lia|reflexivity].
Qed.
Lemma chain_data N (fst0 : L -> res (L * Msg)) turn fstb w w' : SptModel.chain L Msg N fst0 mid turn midb fstb w = Ok w' ->
  exists (w1 w2 : nat -> L) (fm bm : nat -> Msg),
    fst0 (w 0) = Ok (w1 0, fm 0) /\
    (forall r, 0 < r < N - 1 -> mid r (w r) (fm (r - 1)) = Ok (w1 r, fm r)) /\
    turn (N - 1) (w (N - 1)) (fm (N - 2)) = Ok (w1 (N - 1), bm (N - 1)) /\
    (forall r, 0 < r < N - 1 -> midb r (w1 r) (bm (S r)) = Ok (w2 r, bm r)) /\
    fstb (w1 0) (bm 1) = Ok (w2 0) /\
    forall r, r < N -> w' r = if r =? N - 1 then w1 r else w2 r.
Proof.
  unfold SptModel.chain. destruct (Nat.ltb_spec N 2) as [|HN]; [discriminate|].
  destruct (fst0 (w 0)) as [[l0 m0]| |] eqn:E0; try discriminate. cbn [bind fst snd].
  destruct (SptModel.chain_forward _ _ _ _ _ _ _) as [[wf mf]| |] eqn:E1; try discriminate. cbn [bind fst snd].
  destruct (turn (N - 1) (wf (N - 1)) mf) as [[l2 m2]| |] eqn:E2; try discriminate. cbn [bind fst snd].
  destruct (SptModel.chain_back _ _ _ _ _ _) as [[wb mb]| |] eqn:E3; try discriminate. cbn [bind fst snd].
  destruct (fstb (wb 0) mb) as [l4| |] eqn:E4; try discriminate. cbn [bind]. intros E. injection E as <-.
  destruct (forward_data _ _ _ _ _ _ E1) as (fm & A & B & C & D). destruct (back_data _ _ _ _ _ E3) as (bm & A' & B' & C' & D').
  exists (SptModel.upd wf (N - 1) l2), (SptModel.upd wb 0 l4), (fun r => fm (S r)), bm.
  assert (W0 : SptModel.upd wf (N - 1) l2 0 = l0) by (unfold SptModel.upd at 1; destruct (Nat.eqb_spec 0 (N - 1)); [lia|]; rewrite D by lia; reflexivity).
  repeat split.
  - rewrite W0, A. reflexivity.
  - intros r Hr. replace (S (r - 1)) with r by lia. specialize (C r ltac:(lia)). unfold SptModel.upd in C |- *. destruct (Nat.eqb_spec r 0); [lia|]. destruct (Nat.eqb_spec r (N - 1)); [lia|]. exact C.
  - replace (S (N - 2)) with (1 + (N - 2)) by lia. rewrite B. assert (A'' : bm (N - 1) = m2) by (rewrite <- A'; f_equal; lia). rewrite A''.
    rewrite D in E2 by lia. unfold SptModel.upd in E2 |- *. rewrite Nat.eqb_refl. destruct (Nat.eqb_spec (N - 1) 0); [lia|]. exact E2.
  - intros r Hr. rewrite C' by lia. unfold SptModel.upd. destruct (Nat.eqb_spec r 0); [lia|reflexivity].
  - rewrite <- D' by lia. rewrite B'. unfold SptModel.upd. rewrite E4. reflexivity.
  - intros r Hr. unfold SptModel.upd. destruct (Nat.eqb_spec r (N - 1)) as [->|].
    + destruct (Nat.eqb_spec (N - 1) 0); [lia|]. rewrite D' by lia. unfold SptModel.upd. rewrite Nat.eqb_refl. reflexivity.
    + reflexivity.
Qed.
End ChainData.

(** Lists. *)
Definition suffix {A} (l m : list A) : Prop := exists p, m = p ++ l.
Lemma suffix_tl {A} (a : A) l m : suffix (a :: l) m -> suffix l m.
Proof. intros [p ->]. exists (p ++ [a]). rewrite <- app_assoc. reflexivity. Qed.
Lemma suffix_app {A} (l x y : list A) : suffix l (x ++ y) -> suffix l y \/ exists a1 b a2, x = a1 ++ b :: a2 /\ l = b :: a2 ++ y.
Proof.
  intros [p E]. revert p E. induction x as [|a x IH]; intros p E; [left; exists p; exact E|].
  destruct p as [|b p]; cbn [app] in E.
  - right. exists [], a, x. split; [reflexivity|]. symmetry. exact E.
  - injection E as <- E. destruct (IH p E) as [H|(a1 & c & a2 & -> & ->)]; [left; exact H|right]. exists (a :: a1), c, a2. split; reflexivity.
Qed.
Lemma suffix_in {A} (a : A) l m : suffix l m -> In a l -> In a m.
Proof. intros [p ->] H. apply in_or_app. right. exact H. Qed.
Lemma all_or (P Q : nat -> Prop) n : (forall i, i < n -> P i \/ Q i) -> (forall i, i < n -> P i) \/ exists i, i < n /\ Q i.
Proof.
  induction n as [|n IH]; intros H; [left; intros; lia|]. destruct IH as [A|(i & A & B)]; [intros; apply H; lia| |right; exists i; split; [lia|exact B]].
  destruct (H n ltac:(lia)) as [B|B]; [|right; exists n; split; [lia|exact B]]. left. intros i Hi. destruct (Nat.eq_dec i n) as [->|]; [exact B|apply A; lia].
Qed.

Section A.
Variable N : nat.
Hypothesis N2 : 2 <= N.
Notation acts := (acts N).
Notation path := (path N).
Lemma acts_slice r s k a : In a (acts r (s, k)) -> slice_of a = s.
Proof.
  unfold SptcProofs.acts. destruct (r =? path k).
  - intros H. apply in_app_or in H. destruct H as [H|H].
    + destruct (k =? 0); cbn [In] in H; [destruct H as [<-|[]]; reflexivity|]. destruct H as [<-|[<-|[]]]; [reflexivity|]. destruct (r =? N - 1); [reflexivity|]. destruct (k <? N); [reflexivity|]. destruct (r =? 0); reflexivity.
    + destruct (k =? last_visit N); cbn [In] in H; [destruct H|]. destruct H as [<-|[]]. reflexivity.
  - destruct ((r =? path (S k)) && (k <? last_visit N)); intros H; [destruct H as [<-|[]]; reflexivity|destruct H].
Qed.
Ltac one H := first [destruct H as [H|[]] | destruct H].
Ltac no := first [discriminate | contradiction].
Lemma acts_send r s k t out : In (ASend t out) (acts r (s, k)) -> t = s /\ r = path k /\ k < last_visit N /\ out = (k <? N - 1) \/ last_visit N < k.
Proof.
  intros H. pose proof (acts_slice _ _ _ _ H) as E. cbn [slice_of] in E. subst t. unfold SptcProofs.acts in H. destruct (Nat.eqb_spec r (path k)) as [R|R].
  - apply in_app_or in H. destruct H as [H|H].
    + exfalso. destruct (k =? 0); cbn [In] in H; [destruct H as [H|[]]; no|]. destruct H as [H|[H|[]]]; [no|]. destruct (r =? N - 1); [no|]. destruct (k <? N); [no|]. destruct (r =? 0); no.
    + destruct (Nat.eqb_spec k (last_visit N)); cbn [In] in H; [destruct H|]. destruct H as [H|[]]. injection H as <-. destruct (Nat.lt_ge_cases k (last_visit N)); [left; auto|right; lia].
  - destruct ((r =? path (S k)) && (k <? last_visit N)); one H; no.
Qed.
Lemma acts_irecv r s k t out : In (AIrecv t out) (acts r (s, k)) -> t = s /\ r = path (S k) /\ k < last_visit N /\ out = negb (k <? N - 1) /\ acts r (s, k) = [AIrecv s out].
Proof.
  intros H. pose proof (acts_slice _ _ _ _ H) as E. cbn [slice_of] in E. subst t. unfold SptcProofs.acts in *. destruct (Nat.eqb_spec r (path k)) as [R|R].
  - exfalso. apply in_app_or in H. destruct H as [H|H].
    + destruct (k =? 0); cbn [In] in H; [destruct H as [H|[]]; no|]. destruct H as [H|[H|[]]]; [no|]. destruct (r =? N - 1); [no|]. destruct (k <? N); [no|]. destruct (r =? 0); no.
    + destruct (Nat.eqb_spec k (last_visit N)); cbn [In] in H; [destruct H|]. destruct H as [H|[]]. no.
  - destruct (Nat.eqb_spec r (path (S k))); cbn [andb] in *; [|destruct H]. destruct (Nat.ltb_spec k (last_visit N)); one H. injection H as <-. auto.
Qed.
(** A wait: what follows it in the visit. *)
Lemma acts_wait r s k a1 t a2 : acts r (s, k) = a1 ++ AWait t :: a2 -> r = path k /\ (k < last_visit N -> In (ASend s (k <? N - 1)) a2) /\ 1 <= k.
Proof.
  unfold SptcProofs.acts. destruct (Nat.eqb_spec r (path k)) as [R|R].
  - intros H. split; [exact R|]. destruct (Nat.eqb_spec k 0) as [K|K].
    + exfalso. assert (HI : In (AWait t) ([AFirst s] ++ (if k =? last_visit N then [] else [ASend s (k <? N - 1)]))) by (rewrite H; apply in_or_app; right; left; reflexivity).
      cbn [app In] in HI. destruct HI as [HI|HI]; [no|]. destruct (k =? last_visit N); one HI; no.
    + split; [|lia]. intros KL. destruct (Nat.eqb_spec k (last_visit N)); [lia|]. cbn [app] in H. destruct a1 as [|x a1]; cbn [app] in H.
      * injection H as _ <-. right. left. reflexivity.
      * injection H as _ H. destruct a1 as [|y a1]; cbn [app] in H; injection H as H H'.
        { exfalso. destruct (r =? N - 1); [no|]. destruct (k <? N); [no|]. destruct (r =? 0); no. }
        destruct a1 as [|z a1]; cbn [app] in H'; [injection H' as H' _; discriminate H'|]. injection H' as _ H'. destruct a1; discriminate H'.
  - intros H. exfalso. destruct ((r =? path (S k)) && (k <? last_visit N)).
    + destruct a1 as [|x a1]; [discriminate H|]. cbn [app] in H. injection H as _ H. destruct a1; discriminate H.
    + destruct a1; discriminate H.
Qed.
Lemma path_le k : k <= last_visit N -> path k <= N - 1 /\ path k <= k.
Proof. unfold SptcProofs.path, last_visit. destruct (Nat.ltb_spec k N); lia. Qed.
End A.

(** What a processor does for a slice. *)
Section B.
Variable N : nat.
Hypothesis N2 : 2 <= N.
Lemma only_flat r s ops : only s (flat_map (acts N r) ops) = flat_map (fun k => acts N r (s, k)) (of_slice s ops).
Proof.
  induction ops as [|[t k] ops IH]; [reflexivity|]. cbn [flat_map]. unfold only in *. rewrite filter_app, IH. unfold of_slice. cbn [filter fst].
  destruct (Nat.eqb_spec t s) as [->|NE]; cbn [map flat_map snd]; f_equal.
  - assert (H : forall a, In a (acts N r (s, k)) -> slice_of a = s) by (intros a; apply acts_slice).
    revert H. generalize (acts N r (s, k)). intros l H. induction l as [|a l IHl]; [reflexivity|]. cbn [filter]. rewrite (H a) by (left; reflexivity). rewrite Nat.eqb_refl, IHl; [reflexivity|]. intros; apply H; right; assumption.
  - assert (H : forall a, In a (acts N r (t, k)) -> slice_of a = t) by (intros a; apply acts_slice).
    revert H. generalize (acts N r (t, k)). intros l H. induction l as [|a l IHl]; [reflexivity|]. cbn [filter]. rewrite (H a) by (left; reflexivity). destruct (Nat.eqb_spec t s); [contradiction|]. apply IHl. intros; apply H; right; assumption.
Qed.
Lemma flat_nil {X Y} (f : X -> list Y) l : (forall x, In x l -> f x = []) -> flat_map f l = [].
Proof. induction l as [|x l IH]; intros H; [reflexivity|]. cbn [flat_map]. rewrite H, IH; [reflexivity| |left; reflexivity]. intros; apply H; right; assumption. Qed.
Lemma acts_none r s k : r <> path N k -> r <> path N (S k) \/ k = last_visit N -> acts N r (s, k) = [].
Proof.
  intros H1 H2. unfold acts. destruct (Nat.eqb_spec r (path N k)); [contradiction|]. destruct (Nat.eqb_spec r (path N (S k))); cbn [andb]; [|reflexivity].
  destruct H2 as [H2|H2]; [contradiction|]. destruct (Nat.ltb_spec k (last_visit N)); [lia|reflexivity].
Qed.
Lemma quiet r s a n : (forall k, a <= k < a + n -> r <> path N k /\ (r <> path N (S k) \/ k = last_visit N)) -> flat_map (fun k => acts N r (s, k)) (seq a n) = [].
Proof. intros H. apply flat_nil. intros k Hk. apply in_seq in Hk. destruct (H k Hk). apply acts_none; assumption. Qed.
End B.
