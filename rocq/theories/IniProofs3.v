From Coq Require Import Ascii String List Arith Bool ZArith Lia.
From Verif Require Import Base StringsModel StringsSpec OptionsModel OptionsSpec OptionsProofs OptionsProofs2 IniModel IniSpec.
Import ListNotations.

Lemma veqb_ok a b : veqb a b = true <-> a = b.
Proof.
  destruct a as [s|x], b as [t|y]; cbn [veqb].
  - rewrite str_eqb_eq. split; [now intros ->|now intros [=]].
  - split; discriminate.
  - split; discriminate.
  - rewrite Bool.eqb_true_iff. split; [now intros ->|now intros [=]].
Qed.

(** * Which nodes there are *)
Lemma walk_nodes {A} p (k : tree -> tree * res A) : keeps_kids k -> forall o o' r, reachable_path p o -> walk p k o = (o', r) ->
  forall q, node_at q o' <> None <-> node_at q o <> None \/ exists s, p = q ++ s.
Proof.
  intros HK. induction p as [|n p IH]; intros o o' r HR H q.
  - cbn [walk] in H. pose proof (HK o) as HKo. rewrite H in HKo. cbn [fst] in HKo. destruct q as [|m q]; cbn [node_at].
    + split; [left; discriminate|discriminate].
    + rewrite HKo. split; [auto|]. intros [X|(s & X)]; [assumption|discriminate].
  - apply reachable_cons in HR. destruct HR as [R1 R2]. cbn [walk] in H. rewrite R1 in H. cbn [negb] in H. unfold on_child in H. destruct o as [i f cs]. cbn [kids] in R2.
    destruct (find_child n cs) as [c|] eqn:EF.
    + destruct (walk p k c) as [c1 r1] eqn:EW. injection H as <- <-. specialize (IH _ _ _ R2 EW).
      destruct q as [|m q]; cbn [node_at kids]; [split; [left; discriminate|discriminate]|].
      destruct (str_dec m n) as [->|N].
      * rewrite (find_replace_same _ _ _ _ EF), EF, IH. split; (intros [X|(s & X)]; [now left|right; exists s]); [cbn; congruence|cbn in X; congruence].
      * rewrite find_replace_other by assumption. split; [auto|]. intros [X|(s & X)]; [assumption|]. cbn in X. congruence.
    + destruct (walk p k (Node info0 (child_full f n) [])) as [c1 r1] eqn:EW. injection H as <- <-.
      assert (R3 : reachable_path p (Node info0 (child_full f n) [] : tree)) by (intros q' _; now rewrite info_at_fresh).
      specialize (IH _ _ _ R3 EW).
      destruct q as [|m q]; cbn [node_at kids]; [split; [left; discriminate|discriminate]|].
      destruct (str_dec m n) as [->|N].
      * rewrite (find_insert_same _ _ _ EF), EF, IH. split.
        -- intros [X|(s & X)]; right; [|exists s; cbn; congruence]. destruct q as [|x q]; [exists p; reflexivity|]. now cbn in X.
        -- intros [X|(s & X)]; [congruence|]. right. exists s. cbn in X. congruence.
      * rewrite find_insert_other by assumption. split; [auto|]. intros [X|(s & X)]; [assumption|]. cbn in X. congruence.
Qed.
Lemma has_children_node p (o : tree) : has_children p o <-> exists n, node_at (p ++ [n]) o <> None.
Proof.
  split.
  - intros (c & C1 & C2). destruct (kids c) as [|[n d] l] eqn:EK; [congruence|]. exists n. rewrite node_at_app, C1. cbn [node_at]. rewrite EK. cbn [find_child].
    rewrite str_eqb_refl. discriminate.
  - intros (n & H). rewrite node_at_app in H. destruct (node_at p o) as [c|] eqn:E; [|congruence]. exists c. split; [assumption|]. intros K. cbn [node_at] in H. rewrite K in H. now apply H.
Qed.
Lemma index_children {A} p (k : tree -> tree * res A) : keeps_kids k -> good_path p -> p <> [] -> forall o o' r, reachable_path p o -> index (path_name p) k o = (o', r) ->
  forall q, has_children q o' <-> has_children q o \/ proper_prefix q p.
Proof.
  intros HK G N o o' r HR H q. rewrite index_walk in H by assumption. rewrite !has_children_node. split.
  - intros (n & X). apply (walk_nodes p k HK o o' r HR H) in X. destruct X as [X|(s & X)]; [left; eauto|].
    right. exists (n :: s). split; [discriminate|]. rewrite X, <- app_assoc. reflexivity.
  - intros [(n & X)|(s & S1 & S2)].
    + exists n. apply (walk_nodes p k HK o o' r HR H). now left.
    + destruct s as [|n s]; [congruence|]. exists n. apply (walk_nodes p k HK o o' r HR H). right. exists s. rewrite S2, <- app_assoc. reflexivity.
Qed.

(** * One action *)
Definition good_action (a : action) : Prop := good_path (place a) /\ place a <> [].
Definition step_ok (s : str) (a : action) (o : tree) : Prop :=
  fits o a /\ match a with Put p v => ~ conflict v s (info_at p o) | Enter _ => True end.
Definition puts_at (a : action) (q : path) : Prop := match a with Put p _ => p = q | Enter _ => False end.

Lemma kk_id : keeps_kids (fun c : tree => (c, Ok tt)).
Proof. intros c. reflexivity. Qed.
Lemma perform1_spec s a o o' r : good_action a -> wf o -> perform1 s a o = (o', r) ->
  wf o' /\
  ((r = Ok tt /\ step_ok s a o /\ (forall q, ~ puts_at a q -> info_at q o' = info_at q o) /\
    (forall p v, a = Put p v -> info_at p o' = written v s (info_at p o)) /\
    (forall q, has_children q o' <-> has_children q o \/ proper_prefix q (place a))) \/
   (r = Throw /\ ~ step_ok s a o /\ (forall q, info_at q o' = info_at q o))).
Proof.
  intros [G N] W H. destruct a as [p|p v]; cbn [perform1 place] in *.
  - split. { change o' with (fst (o', r)). rewrite <- H. apply wf_index; [intros c Wc; exact Wc|assumption]. }
    pose proof (index_children p _ kk_id G N o o' r) as HC. pose proof H as H'. apply index_local in H; [|assumption|assumption|apply kk_id].
    destruct H as [(-> & H2 & H3)|(HR & c & c' & I1 & I2 & I3 & I4 & I5 & I6 & I7)].
    + right. split; [reflexivity|]. split; [|assumption]. intros [[X _] _]. auto.
    + injection I4 as <- <-. left. split; [reflexivity|]. split; [split; [split; [assumption|exact I]|exact I]|].
      split; [|split; [discriminate|]].
      * intros q _. destruct (path_dec q p) as [->|]; [now rewrite I6|auto].
      * exact (HC HR H').
  - split. { change o' with (fst (o', r)). rewrite <- H. apply wf_index; [intros c Wc; apply wf_assign; [exact veqb_ok|assumption]|assumption]. }
    pose proof (index_children p _ (kk_assign veqb v s) G N o o' r) as HC. pose proof H as H'.
    apply (assign_spec veqb veqb_ok p o G N W) in H. destruct H as [(-> & H2 & H3 & H4 & H5 & H6)|(-> & H2 & H3)].
    + left. split; [reflexivity|]. split; [split; [split|]; assumption|]. split; [|split].
      * intros q Hq. apply H6. intros ->. now apply Hq.
      * intros p' v' [= <- <-]. assumption.
      * exact (HC H2 H').
    + right. split; [reflexivity|]. split; [|assumption]. intros [[X1 X2] X3]. cbn [place] in X1. tauto.
Qed.

(** * Sequences *)
Lemma last_put_snoc_put p v acts : last_put p v (acts ++ [Put p v]).
Proof. exists acts, []. split; [reflexivity|]. intros w []. Qed.
Lemma last_put_snoc p v acts a : last_put p v (acts ++ [a]) <-> a = Put p v \/ (~ puts_at a p /\ last_put p v acts).
Proof.
  split.
  - intros (b & c & E & H). destruct c as [|x c] using rev_ind; [|clear IHc].
    + apply app_inj_tail in E. left. tauto.
    + right. replace (b ++ Put p v :: c ++ [x]) with ((b ++ Put p v :: c) ++ [x]) in E by (rewrite <- app_assoc; reflexivity).
      apply app_inj_tail in E. destruct E as [-> ->]. split.
      * destruct x as [q|q w]; cbn; [tauto|]. intros ->. apply (H w). rewrite in_app_iff. right. now left.
      * exists b, c. split; [reflexivity|]. intros w X. apply (H w). rewrite in_app_iff. now left.
  - intros [->|[N (b & c & -> & H)]]; [apply last_put_snoc_put|]. exists b, (c ++ [a]). split; [rewrite <- app_assoc; reflexivity|].
    intros w X. rewrite in_app_iff in X. destruct X as [X|[->|[]]]; [exact (H w X)|]. apply N. reflexivity.
Qed.
Lemma never_put_snoc p acts a : never_put p (acts ++ [a]) <-> never_put p acts /\ ~ puts_at a p.
Proof.
  unfold never_put. split.
  - intros H. split; [intros w X; apply (H w); rewrite in_app_iff; now left|]. destruct a as [q|q w]; cbn; [tauto|]. intros ->. apply (H w). rewrite in_app_iff. right. now left.
  - intros [H1 H2] w X. rewrite in_app_iff in X. destruct X as [X|[X|[]]]; [exact (H1 w X)|]. subst a. now apply H2.
Qed.
Lemma put_cases p acts : never_put p acts \/ exists v, last_put p v acts.
Proof.
  induction acts as [|a acts IH] using rev_ind; [left; intros w []|].
  destruct a as [q|q w]; [|destruct (path_dec q p) as [->|Nq]].
  - destruct IH as [IH|(v & IH)]; [left; apply never_put_snoc; cbn; tauto|right; exists v; apply last_put_snoc; right; cbn; tauto].
  - right. exists w. apply last_put_snoc_put.
  - destruct IH as [IH|(v & IH)]; [left; apply never_put_snoc; cbn; tauto|right; exists v; apply last_put_snoc; right; cbn; tauto].
Qed.
Lemma last_put_In p v acts : last_put p v acts -> In (Put p v) acts.
Proof. intros (b & c & -> & _). rewrite in_app_iff. right. now left. Qed.

Lemma perform_app s a b o : perform s (a ++ b) o = match perform s a o with (o', Ok _) => perform s b o' | x => x end.
Proof. revert o. induction a as [|x a IH]; intros o; cbn [app perform]; [reflexivity|]. destruct (perform1 s x o) as [o' [u| |]]; try reflexivity. apply IH. Qed.

Lemma perform_state s acts : Forall good_action acts -> forall o o' r, wf o -> perform s acts o = (o', r) ->
  wf o' /\ r <> UB /\ (r = Ok tt ->
    (forall p v, last_put p v acts -> entry_at p o' = Some (Some v, Some s)) /\
    (forall p, never_put p acts -> info_at p o' = info_at p o) /\
    (forall q, has_children q o' <-> has_children q o \/ exists b, In b acts /\ proper_prefix q (place b)) /\
    (forall p, i_tdim (info_at p o') = i_tdim (info_at p o))).
Proof.
  induction acts as [|a acts IH] using rev_ind; intros G o o' r W H.
  - injection H as <- <-. split; [assumption|]. split; [discriminate|]. intros _. split; [intros p v (b & c & E & _); destruct b; discriminate|].
    split; [reflexivity|]. split; [|reflexivity]. intros q. split; [auto|]. intros [X|(b & [] & _)]; assumption.
  - apply Forall_app in G. destruct G as [G1 G2]. inversion G2 as [|? ? G3 _]; subst. rewrite perform_app in H.
    destruct (perform s acts o) as [o1 r1] eqn:E1. specialize (IH G1 o o1 r1 W E1). destruct IH as (W1 & NU & IH).
    destruct r1 as [u| |]; [|injection H as <- <-; split; [assumption|]; split; discriminate|congruence].
    destruct u. destruct (IH eq_refl) as (I1 & I2 & I3 & I4). cbn [perform] in H.
    destruct (perform1 s a o1) as [o2 r2] eqn:E2.
    destruct (perform1_spec s a o1 o2 r2 G3 W1 E2) as (W2 & [(-> & S1 & S2 & S3 & S4)|(-> & S1 & S2)]).
    2:{ injection H as <- <-. split; [assumption|]. split; discriminate. }
    injection H as <- <-. split; [assumption|]. split; [discriminate|]. intros _. split; [|split; [|split]].
    + intros p v L. apply last_put_snoc in L. destruct L as [->|[L1 L2]].
      * unfold entry_at. rewrite (S3 p v eq_refl). reflexivity.
      * unfold entry_at. rewrite S2 by assumption. apply I1. assumption.
    + intros p L. apply never_put_snoc in L. destruct L as [L1 L2]. rewrite S2 by assumption. now apply I2.
    + intros q. rewrite S4, I3. split.
      * intros [[X|(b & B1 & B2)]|X]; [auto| |]; right; [exists b; rewrite in_app_iff; auto|exists a; rewrite in_app_iff; cbn; auto].
      * intros [X|(b & B1 & B2)]; [auto|]. rewrite in_app_iff in B1. destruct B1 as [B1|[<-|[]]]; [left; right; eauto|auto].
    + intros p. rewrite <- I4. destruct a as [q|q w]; [now rewrite S2 by (cbn; tauto)|]. destruct (path_dec q p) as [->|Nq].
      * rewrite (S3 p w eq_refl). reflexivity.
      * now rewrite S2.
Qed.

(** * Success *)
Lemma sect_after s acts o o' : Forall good_action acts -> wf o -> perform s acts o = (o', Ok tt) ->
  forall q, i_sect (info_at q o') = true <-> i_sect (info_at q o) = true /\ never_put q acts.
Proof.
  intros G W H q. destruct (perform_state s acts G o o' _ W H) as (_ & _ & X). destruct (X eq_refl) as (I1 & I2 & _). destruct (put_cases q acts) as [L|(v & L)].
  - rewrite I2 by assumption. tauto.
  - specialize (I1 q v L). unfold entry_at, entry in I1. destruct (i_sect (info_at q o')) eqn:E; [discriminate|]. split; [discriminate|].
    intros [_ Y]. exfalso. apply (Y v). now apply last_put_In.
Qed.
Lemma reach_after s acts o o' : Forall good_action acts -> wf o -> perform s acts o = (o', Ok tt) ->
  forall p, reachable_path p o' <-> reachable_path p o /\ forall q w, In (Put q w) acts -> ~ proper_prefix q p.
Proof.
  intros G W H p. unfold reachable_path. split.
  - intros X. split; [intros q Hq; now apply (sect_after s acts o o' G W H q), X|]. intros q w Hw Hq. specialize (X q Hq). apply (sect_after s acts o o' G W H q) in X.
    now apply X in Hw.
  - intros [X Y] q Hq. apply (sect_after s acts o o' G W H q). split; [auto|]. intros w Hw. exact (Y q w Hw Hq).
Qed.
Lemma conflict_after s acts o o' p v : s <> DEFAULT_SOURCE -> plain_tree s o -> Forall good_action acts -> perform s acts o = (o', Ok tt) ->
  (conflict v s (info_at p o') <-> exists w, last_put p w acts /\ w <> v).
Proof.
  intros ND (W & NS & NT) G H. destruct (perform_state s acts G o o' _ W H) as (W' & _ & X). destruct (X eq_refl) as (I1 & I2 & _ & I4). unfold conflict. split.
  - intros (C1 & C2 & C3 & C4 & C5). destruct (put_cases p acts) as [L|(w & L)].
    + exfalso. rewrite I2 in * by assumption. apply (NS p (i_val (info_at p o))). unfold entry_at, entry. rewrite C1, C3. reflexivity.
    + exists w. split; [assumption|]. specialize (I1 p w L). unfold entry_at, entry in I1. rewrite C1 in I1. injection I1 as I1 _. congruence.
  - intros (w & L & Nw). specialize (I1 p w L). unfold entry_at, entry in I1. destruct (i_sect (info_at p o')) eqn:E; [discriminate|]. injection I1 as E1 E2.
    repeat split; auto; [rewrite I4; apply NT|congruence].
Qed.
Lemma compat_self a : compatible a a.
Proof.
  destruct a as [p|p v]; [exact I|]. split; [|intros w [=]; congruence]. intros (r & R1 & R2). cbn [place] in R2.
  apply R1. apply (f_equal (@List.length _)) in R2. rewrite app_length in R2. destruct r; [reflexivity|cbn in R2; lia].
Qed.
Lemma perform_success s acts o : s <> DEFAULT_SOURCE -> plain_tree s o -> Forall good_action acts ->
  (snd (perform s acts o) = Ok tt <-> consistent acts /\ Forall (fits o) acts).
Proof.
  intros ND PT. pose proof PT as (W & NS & NT). induction acts as [|a acts IH] using rev_ind; intros G.
  - cbn. split; [|reflexivity]. intros _. split; [intros x y []|constructor].
  - apply Forall_app in G. destruct G as [G1 G2]. inversion G2 as [|? ? G3 _]; subst. specialize (IH G1). rewrite perform_app.
    assert (HC : consistent (acts ++ [a]) <-> consistent acts /\ forall b, In b acts -> compatible a b /\ compatible b a).
    { unfold consistent. split.
      - intros X. split; [intros x y Hx Hy; apply X; rewrite in_app_iff; auto|]. intros b Hb. split; apply X; rewrite in_app_iff; cbn; auto.
      - intros [X Y] x y Hx Hy. rewrite in_app_iff in Hx, Hy. destruct Hx as [Hx|[<-|[]]], Hy as [Hy|[<-|[]]]; auto; [now apply Y|now apply Y|apply compat_self]. }
    rewrite HC, Forall_app. destruct (perform s acts o) as [o1 r1] eqn:E1. cbn [snd] in IH.
    destruct (perform_state s acts G1 o o1 r1 W E1) as (W1 & NU & ST).
    destruct r1 as [[]| |]; [|cbn [snd]; split; [discriminate|]; tauto|congruence].
    destruct (proj1 IH eq_refl) as [CA FA]. destruct (ST eq_refl) as (I1 & I2 & I3 & I4). cbn [perform].
    destruct (perform1 s a o1) as [o2 r2] eqn:E2.
    assert (HS : step_ok s a o1 <-> (forall b, In b acts -> compatible a b /\ compatible b a) /\ fits o a).
    { unfold step_ok, fits. rewrite (reach_after s acts o o1 G1 W E1). destruct a as [p|p v]; cbn [place compatible].
      - split.
        + intros [[[R1 R2] _] _]. split; [|tauto]. intros b Hb. split; [exact I|]. destruct b as [q|q w]; [exact I|]. cbn [compatible]. split; [eapply R2; eassumption|discriminate].
        + intros [X [Y _]]. split; [|exact I]. split; [|exact I]. split; [assumption|]. intros q w Hw. destruct (X _ Hw) as [_ Z]. cbn [compatible place] in Z. tauto.
      - rewrite I3. rewrite (conflict_after s acts o o1 p v ND PT G1 E1). split.
        + intros [[[R1 R2] R3] R4]. split; [|tauto]. intros b Hb. split.
          * split; [intros X; apply R3; right; eauto|]. intros w ->. destruct (put_cases p acts) as [L|(w' & L)]; [exfalso; now apply L in Hb|].
            assert (w' = w) by (specialize (CA _ _ Hb (last_put_In _ _ _ L)); cbn [compatible] in CA; destruct CA as [_ CA]; now apply CA). subst w'.
            destruct (veqb w v) eqn:EV; [now apply veqb_ok|]. exfalso. apply R4. exists w. split; [assumption|]. intros X. apply veqb_ok in X. congruence.
          * destruct b as [q|q w]; [exact I|]. cbn [compatible place]. split; [eapply R2; eassumption|]. intros w' [= <- <-].
            destruct (put_cases p acts) as [L|(w' & L)]; [exfalso; now apply L in Hb|].
            assert (w' = w) by (specialize (CA _ _ Hb (last_put_In _ _ _ L)); cbn [compatible] in CA; destruct CA as [_ CA]; now apply CA). subst w'.
            destruct (veqb w v) eqn:EV; [symmetry; now apply veqb_ok|]. exfalso. apply R4. exists w. split; [assumption|]. intros X. apply veqb_ok in X. congruence.
        + intros [X [Y Z]]. split; [split; [split; [assumption|]|]|].
          * intros q w Hw. destruct (X _ Hw) as [_ U]. cbn [compatible place] in U. tauto.
          * intros [U|(b & B1 & B2)]; [tauto|]. destruct (X _ B1) as [[U _] _]. contradiction.
          * intros (w & L & Nw). apply last_put_In in L. destruct (X _ L) as [[_ U] _]. apply Nw. now apply U. }
    destruct (perform1_spec s a o1 o2 r2 G3 W1 E2) as (_ & [(-> & S1 & _)|(-> & S1 & _)]).
    + cbn [snd]. split; [|reflexivity]. intros _. apply HS in S1. destruct S1. split; [split; assumption|]. split; [assumption|]. repeat constructor; apply H0.
    + cbn [snd]. split; [discriminate|]. intros [[_ X] [_ Y]]. exfalso. apply S1. apply HS. split; [assumption|]. inversion Y; assumption.
Qed.
