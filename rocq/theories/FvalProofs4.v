From Coq Require Import List ZArith Lia Bool Arith Permutation.
From Verif Require Import Base FvalModel FvalSpec FvalProofs FvalProofs2 FvalProofs3.
Import ListNotations.

Section P4.
  Variable V : Type.
  Variable ar : bop -> V -> V -> V.
  Variable one : V.
  Variables nx ny nz : nat.
  Variables order3 order2 orderp : list nat.
  Hypothesis O3 : Permutation order3 (seq 0 (nx * ny * nz)).
  Hypothesis O2 : Permutation order2 (seq 0 (nx * ny)).
  Hypothesis Op : Permutation orderp (seq 0 (nx * nz)).
  Notation N := (nx * ny * nz).
  Notation st := (st V).
  Notation Inv := (Inv V nx ny nz).
  Notation obs := (observe V).
  Notation owns := (owns V nx ny nz).
  Notation step := (step V ar one nx ny nz order3 order2 orderp).
  Notation effect := (effect V ar one nx ny nz).
  Notation legal := (legal V nx ny nz).

  Definition good (s : st) (d : option nat) : Prop :=
    match d with None => True | Some b => b < next V s /\ exists x, heap V s b = Some x /\ length x = N end.

  Lemma inv_good (s : st) x d : Inv s -> lookup (slots V s) x = Some d -> good s d.
  Proof. intros [_ I] H. destruct d as [b|]; cbn [good]; auto. apply (I x). apply lookup_In. exact H. Qed.

  Lemma inv_add (s : st) l : Inv s -> NoDup (keys l) -> (forall x, In x (keys l) -> lookup (slots V s) x = None) ->
    (forall x d, In (x, d) l -> good s d) -> Inv (add V s l).
  Proof.
    intros [ND I] NDl DJ G. split; cbn [add slots heap next].
    - rewrite map_app. clear I G. induction l as [|e l IH]; [exact ND|]. cbn [map app] in *. inversion NDl; subst. constructor.
      + rewrite in_app_iff. intros [A|A]; [auto|]. apply (lookup_None_keys (slots V s) (fst e)); [apply DJ; left; reflexivity|exact A].
      + apply IH; [assumption|]. intros x J. apply DJ. right; exact J.
    - intros x b H. apply in_app_iff in H. destruct H as [H|H]; [|apply (I x b H)]. apply (G x (Some b) H).
  Qed.
  Lemma obs_add (s : st) l x : obs (add V s l) x =
    match lookup l x with
    | Some (Some b) => match heap V s b with Some d => Data V d | None => Dangling V end
    | Some None => Empty V
    | None => obs s x
    end.
  Proof. unfold observe, add. cbn [slots heap]. rewrite lookup_app. destruct (lookup l x) as [[b|]|]; reflexivity. Qed.

  Lemma in_copies_good (s : st) p q x d : Inv s -> In (x, d) (copies (slots V s) p q) -> good s d.
  Proof.
    intros [ND I] H. unfold copies in H. apply in_map_iff in H. destruct H as (e & E & H). apply filter_In in H.
    destruct d as [b|]; cbn [good]; auto. destruct H as [H _]. destruct e as [y d]. cbn [snd fst] in E. injection E as _ ->. apply (I y b H).
  Qed.

  (** Objects of variable [v] are absent. *)
  Lemma fresh_lookup (s : st) v x : fresh V (obs s) v -> owner (fst x) = v -> lookup (slots V s) x = None.
  Proof.
    intros F E. destruct x as [[m|m] q]; cbn [fst owner] in E; subst m; destruct (F q) as [A B]; apply observe_absent; assumption.
  Qed.

  Lemma swap_root_inv v w r : swap_root v w (swap_root v w r) = r.
  Proof.
    destruct r as [m|m]; cbn [swap_root]; f_equal; destruct (Nat.eqb_spec m v); destruct (Nat.eqb_spec m w); subst;
      repeat (match goal with |- context[?a =? ?b] => destruct (Nat.eqb_spec a b) end); congruence.
  Qed.
  Lemma lookup_swap (s : st) v w x : lookup (slots V (swap V s v w)) x = lookup (slots V s) (swap_root v w (fst x), snd x).
  Proof.
    unfold swap. cbn [slots]. generalize (slots V s). intros l. induction l as [|e l IH]; [reflexivity|].
    destruct e as [[re pe] de]. cbn [map]. rewrite !lookup_cons. cbn [fst snd]. rewrite IH.
    enough (Q : slot_eqb (swap_root v w re, pe) x = slot_eqb (re, pe) (swap_root v w (fst x), snd x)) by (rewrite Q; reflexivity).
    symmetry. destruct x as [rx px]. cbn [fst snd].
    destruct (slot_eqb (re, pe) (swap_root v w rx, px)) eqn:E.
    - apply slot_eqb_eq in E. injection E as -> ->. rewrite swap_root_inv. symmetry. apply slot_eqb_refl.
    - symmetry. apply slot_eqb_neq. apply slot_eqb_neq in E. intros A. apply E. injection A as <- <-. rewrite swap_root_inv. reflexivity.
  Qed.
  Lemma inv_swap (s : st) v w : Inv s -> Inv (swap V s v w).
  Proof.
    intros [ND I]. split; unfold swap; cbn [slots heap next].
    - rewrite map_map. cbn [fst]. rewrite <- (map_map fst (fun x : slot => (swap_root v w (fst x), snd x))).
      apply NoDup_map_in; [exact ND|]. intros x y _ _ E. injection E as E1 E2.
      apply injective_projections; [|exact E2]. rewrite <- (swap_root_inv v w (fst x)), E1. apply swap_root_inv.
    - intros x b H. apply in_map_iff in H. destruct H as (e & E & H). injection E as _ E. destruct e as [y d]. cbn [snd] in E. subst d. apply (I y b H).
  Qed.
  Lemma obs_swap (s : st) v w x : obs (swap V s v w) x = obs s (swap_root v w (fst x), snd x).
  Proof. apply observe_ext; [apply lookup_swap|reflexivity]. Qed.
  Lemma swap_other v w r : owner r <> v -> owner r <> w -> swap_root v w r = r.
  Proof. destruct r; cbn [owner swap_root]; intros A B; rewrite (proj2 (Nat.eqb_neq _ _) A), (proj2 (Nat.eqb_neq _ _) B); reflexivity. Qed.
  Lemma swap_l v w : swap_root v w (Var v) = Var w /\ swap_root v w (Ddt v) = Ddt w.
  Proof. cbn [swap_root]. rewrite Nat.eqb_refl. auto. Qed.
  Lemma swap_r v w : swap_root v w (Var w) = Var v /\ swap_root v w (Ddt w) = Ddt v.
  Proof. cbn [swap_root]. rewrite Nat.eqb_refl. destruct (Nat.eqb_spec w v); subst; auto. Qed.

  Definition freed (o : op V) (s' : st) : Prop :=
    match o with
    | SetReal _ p _ _ | Set2D _ p _ _ | SetPerp _ p _ _ _ | Update _ p _ _ _ | Allocate _ p _ => unique V s' p = true
    | NewBinary _ v _ _ _ _ => unique V s' (Var v, Main) = true
    | _ => True
    end.
  Definition wr_ok (o : op V) (s : st) : Prop := match o with Write _ p _ _ => unique V s p = true | _ => True end.
  Definition stepped (s : st) (o : op V) : Prop := exists s', step s o = Ok s' /\ Inv s' /\ effect (obs s) o (obs s') /\ freed o s'.

  Lemma slice_var v x : slice (Var v, Main) x <-> fst x = Var v /\ snd x <> Main.
  Proof. unfold slice. cbn [fst snd]. tauto. Qed.
  Lemma is_slice_iff q : is_slice q = true <-> q <> Main.
  Proof. destruct q; cbn [is_slice]; split; congruence. Qed.

  Lemma step_NewEmpty s v : Inv s -> legal (obs s) (NewEmpty V v) -> stepped s (NewEmpty V v).
  Proof.
    intros IV F. cbn [legal] in F. eexists. split; [reflexivity|]. split; [|split; [|exact I]].
    - apply inv_add; auto.
      + repeat constructor. intros [].
      + intros x [<-|[]]. apply fresh_lookup with v; auto.
      + intros x d [E|[]]. injection E as _ <-. exact I.
    - cbn [effect]. split.
      + rewrite obs_add, lookup_cons. cbn [fst snd]. rewrite slot_eqb_refl. reflexivity.
      + intros x NE. rewrite obs_add, lookup_cons. cbn [fst]. rewrite (proj2 (slot_eqb_neq _ _)) by congruence. reflexivity.
  Qed.

  Lemma step_NewCopy s v q : Inv s -> legal (obs s) (NewCopy V v q) -> stepped s (NewCopy V v q).
  Proof.
    intros IV [F AL]. destruct (observe_alive V s q AL) as [d Ed]. unfold stepped. cbn [step]. rewrite Ed.
    eexists. split; [reflexivity|]. change (slice_copies V s (Var v, Main) q) with (copies (slots V s) (Var v, Main) q).
    split; [|split; [|exact I]].
    - apply inv_add; auto.
      + cbn [map fst]. constructor; [|apply keys_copies_NoDup, IV]. intros A. apply in_keys_copies in A. destruct A as [_ A]. discriminate A.
      + intros x [<-|A]; [apply fresh_lookup with v; auto|]. apply in_keys_copies in A. apply fresh_lookup with v; [auto|].
        destruct A as [A _]. cbn [fst] in A. rewrite A. reflexivity.
      + intros x d0 [E|A]; [injection E as _ <-; apply (inv_good s q); auto|]. eapply in_copies_good; eauto.
    - cbn [effect]. split; [|split].
      + intros x NE NS. rewrite obs_add, lookup_cons. cbn [fst]. rewrite (proj2 (slot_eqb_neq _ _)) by congruence.
        rewrite lookup_copies. cbn [fst]. destruct (root_eqb (fst x) (Var v)) eqn:A; cbn [andb]; [|reflexivity].
        destruct (is_slice (snd x)) eqn:B; cbn [andb]; [|reflexivity]. exfalso. apply NS. apply slice_var.
        apply root_eqb_eq in A. apply is_slice_iff in B. auto.
      + rewrite obs_add, lookup_cons. cbn [fst snd]. rewrite slot_eqb_refl. unfold observe. rewrite Ed. reflexivity.
      + intros x S. apply slice_var in S. destruct S as [S1 S2]. rewrite obs_add, lookup_cons. cbn [fst].
        rewrite (proj2 (slot_eqb_neq _ _)) by (intros <-; apply S2; reflexivity).
        rewrite lookup_copies. cbn [fst]. rewrite S1, (proj2 (root_eqb_eq _ _) eq_refl), (proj2 (is_slice_iff _) S2). cbn [andb].
        assert (NX : obs s x = Absent V) by (apply observe_absent, fresh_lookup with v; [auto|rewrite S1; reflexivity]).
        split; intros Q.
        * rewrite Q. cbn [is_slice negb]. unfold observe at 2. destruct (lookup (slots V s) (fst q, snd x)) as [[b|]|]; auto.
        * rewrite (proj2 (is_slice_iff _) Q). cbn [negb]. exact NX.
  Qed.

  Lemma step_NewMove s v w : Inv s -> legal (obs s) (NewMove V v w) -> stepped s (NewMove V v w).
  Proof.
    intros IV [F AL]. unfold stepped. cbn [step]. eexists. split; [reflexivity|].
    assert (VW : v <> w). { intros <-. apply AL. apply F. }
    assert (IA : Inv (add V s [((Var v, Main), None)])).
    { apply inv_add; auto.
      + repeat constructor. intros [].
      + intros x [<-|[]]. apply fresh_lookup with v; auto.
      + intros x d [E|[]]. injection E as _ <-. exact I. }
    assert (OA : forall x, obs (add V s [((Var v, Main), None)]) x = if slot_eqb (Var v, Main) x then Empty V else obs s x).
    { intros x. rewrite obs_add, lookup_cons. cbn [fst snd]. destruct (slot_eqb (Var v, Main) x); reflexivity. }
    split; [apply inv_swap; exact IA|]. split; [|exact I]. cbn [effect].
    assert (NV : forall x, owner (fst x) <> v -> slot_eqb (Var v, Main) x = false).
    { intros x H. apply slot_eqb_neq. intros <-. apply H. reflexivity. }
    split; [|split; [|split]].
    - intros q. rewrite !obs_swap. cbn [fst snd]. destruct (swap_l v w) as [-> ->]. rewrite !OA, !NV by (cbn [fst owner]; congruence). auto.
    - rewrite obs_swap. cbn [fst snd]. destruct (swap_r v w) as [-> _]. rewrite OA, slot_eqb_refl. reflexivity.
    - intros q. rewrite !obs_swap. cbn [fst snd]. destruct (swap_r v w) as [-> ->]. rewrite !OA. split.
      + intros Q. rewrite (proj2 (slot_eqb_neq _ _)) by congruence. apply F.
      + rewrite (proj2 (slot_eqb_neq _ _)) by congruence. apply F.
    - intros x H1 H2. rewrite obs_swap, swap_other by auto. rewrite OA, NV by exact H1. destruct x; reflexivity.
  Qed.

  Lemma step_Swap s v w : Inv s -> legal (obs s) (Swap V v w) -> stepped s (Swap V v w).
  Proof.
    intros IV _. eexists. split; [reflexivity|]. split; [apply inv_swap; exact IV|]. split; [|exact I]. cbn [effect]. split.
    - intros q. rewrite !obs_swap. cbn [fst snd]. destruct (swap_l v w) as [-> ->], (swap_r v w) as [-> ->]. auto.
    - intros x H1 H2. rewrite obs_swap, swap_other by auto. destruct x; reflexivity.
  Qed.

  Lemma step_Destroy s v : Inv s -> legal (obs s) (Destroy V v) -> stepped s (Destroy V v).
  Proof.
    intros IV _. eexists. split; [reflexivity|]. split; [|split; [|exact I]].
    - destruct IV as [ND J]. split; cbn [slots heap next]; [apply NoDup_map_filter; exact ND|]. intros x b H. apply filter_In in H. apply (J x). tauto.
    - cbn [effect]. assert (L : forall x, lookup (filter (fun e : entry => negb (owner (fst (fst e)) =? v)) (slots V s)) x =
                              if owner (fst x) =? v then None else lookup (slots V s) x).
      { intros x. rewrite (lookup_filter (fun y => negb (owner (fst y) =? v))). destruct (owner (fst x) =? v); reflexivity. }
      split; intros x H.
      + unfold observe. cbn [slots]. rewrite L, H, Nat.eqb_refl. reflexivity.
      + apply observe_ext; [|reflexivity]. cbn [slots]. rewrite L, (proj2 (Nat.eqb_neq _ _) H). reflexivity.
  Qed.

  Lemma step_ClearSl s p : Inv s -> legal (obs s) (ClearSl V p) -> stepped s (ClearSl V p).
  Proof.
    intros IV _. eexists. split; [reflexivity|]. split; [apply inv_clear; exact IV|]. split; [|exact I]. cbn [effect]. split; intros x H.
    - apply obs_clear_gone; exact H.
    - apply obs_clear_only; exact H.
  Qed.

  Lemma step_TimeDeriv s v j : Inv s -> legal (obs s) (TimeDeriv V v j) -> stepped s (TimeDeriv V v j).
  Proof.
    intros IV _. unfold stepped. cbn [step]. destruct (lookup (slots V s) (Ddt v, Main)) as [d|] eqn:E.
    - exists s. split; [reflexivity|]. split; [exact IV|]. split; [|exact I]. cbn [effect]. repeat split; auto.
      intros A. apply observe_absent in A. congruence.
    - assert (Lj : length (map j (seq 0 (n nx ny nz))) = N) by (rewrite map_length, seq_length; reflexivity).
      destruct (inv_new V nx ny nz s _ IV Lj) as [I1 Ob]. set (d := map j (seq 0 (n nx ny nz))) in *.
      unfold new_block in *. cbn [snd] in *. eexists. split; [reflexivity|].
      assert (EX : upd V (heap V s) (next V s) d (next V s) = Some d) by (unfold upd; rewrite Nat.eqb_refl; reflexivity).
      split; [|split; [|exact I]].
      + apply inv_add; auto.
        * repeat constructor. intros [].
        * intros x [<-|[]]. exact E.
        * intros x c [A|[]]. injection A as _ <-. cbn [good next heap]. split; [lia|]. exists d. auto.
      + cbn [effect]. split; [|split].
        * intros x NE. rewrite obs_add, lookup_cons. cbn [fst]. rewrite (proj2 (slot_eqb_neq _ _)) by congruence. apply Ob.
        * intros A. exfalso. apply A. apply observe_absent. exact E.
        * intros _. exists d. split; [|exact Lj]. rewrite obs_add, lookup_cons. cbn [fst snd heap]. rewrite slot_eqb_refl, EX. reflexivity.
  Qed.

  Lemma inv_slots (s : st) l : NoDup (keys l) -> (forall x d, In (x, d) l -> good s d) -> Inv (mkSt V l (heap V s) (next V s)).
  Proof. intros ND G. split; cbn [slots heap next]; [exact ND|]. intros x b H. apply (G x (Some b) H). Qed.
  Lemma inv_in_good (s : st) x d : Inv s -> In (x, d) (slots V s) -> good s d.
  Proof. intros [_ I] H. destruct d as [b|]; cbn [good]; auto. apply (I x b H). Qed.
  Lemma nodup_app {A} (l1 l2 : list A) : NoDup l1 -> NoDup l2 -> (forall x, In x l1 -> ~ In x l2) -> NoDup (l1 ++ l2).
  Proof.
    induction 1 as [|x l NI ND IH]; intros N2 D; [exact N2|]. cbn [app]. constructor.
    - rewrite in_app_iff. intros [Y|Y]; [auto|]. apply (D x); [left; reflexivity|exact Y].
    - apply IH; [exact N2|]. intros y Hy. apply D. right; exact Hy.
  Qed.
  Lemma has_slices_iff (s : st) p : has_slices V s p = true <-> exists x, slice p x /\ obs s x <> Absent V.
  Proof.
    unfold has_slices. rewrite existsb_exists. split.
    - intros (e & I & S). exists (fst e). split; [apply slice_of_iff; exact S|]. intros A. apply observe_absent, lookup_None_keys in A.
      apply A. apply in_map. exact I.
    - intros (x & S & A). destruct (observe_alive V s x A) as [d E]. apply lookup_In in E. exists (x, d). split; [exact E|].
      cbn [fst]. apply slice_of_iff. exact S.
  Qed.

  Lemma step_Split s p y : Inv s -> legal (obs s) (Split V p y) -> stepped s (Split V p y).
  Proof.
    intros IV [AL MP]. unfold stepped. cbn [step]. unfold split_slices. destruct (has_slices V s p) eqn:H.
    - exists s. split; [reflexivity|]. split; [exact IV|]. split; [|exact I]. cbn [effect].
      apply has_slices_iff in H. destruct H as (x & S & A).
      split; [auto|]. split; [auto|]. intros NS. exfalso. apply A. apply NS. exact S.
    - assert (NSl : forall x, slice p x -> lookup (slots V s) x = None).
      { intros x S. apply observe_absent. destruct (obs s x) eqn:E; auto; exfalso;
          (assert (has_slices V s p = true); [apply has_slices_iff; exists x; split; [exact S|congruence]|congruence]). }
      set (new := map (fun k => ((fst p, Up k), @None nat)) (seq 0 y) ++ map (fun k => ((fst p, Down k), None)) (seq 0 y)).
      assert (KN : forall x, In x (keys new) -> slice p x).
      { intros x A. unfold new in A. rewrite map_app, !map_map in A. cbn [fst] in A. apply in_app_iff in A.
        destruct A as [A|A]; apply in_map_iff in A; destruct A as (k & <- & _); unfold slice; cbn [fst snd]; repeat split; auto; discriminate. }
      assert (NDn : NoDup (keys new)).
      { unfold new. rewrite map_app, !map_map. cbn [fst]. apply nodup_app.
        - apply NoDup_map_in; [apply seq_NoDup|]. intros; congruence.
        - apply NoDup_map_in; [apply seq_NoDup|]. intros; congruence.
        - intros x I1 I2. apply in_map_iff in I1. apply in_map_iff in I2. destruct I1 as (a & <- & _), I2 as (b & E & _). congruence. }
      assert (VN : forall x d, In (x, d) new -> d = None).
      { intros x d A. unfold new in A. apply in_app_iff in A. destruct A as [A|A]; apply in_map_iff in A; destruct A as (k & E & _); congruence. }
      assert (LN : forall x, (In x (keys new) -> lookup new x = Some None) /\ (~ In x (keys new) -> lookup new x = None)).
      { intros x. split; intros A; [|apply lookup_None_keys; exact A].
        destruct (lookup new x) as [d|] eqn:E; [|apply lookup_None_keys in E; contradiction].
        apply lookup_In in E. apply VN in E. subst. reflexivity. }
      assert (KU : forall k, (In (fst p, Up k) (keys new) <-> k < y) /\ (In (fst p, Down k) (keys new) <-> k < y)).
      { intros k. unfold new. rewrite map_app, !map_map. cbn [fst]. rewrite !in_app_iff, !in_map_iff. split; split.
        - intros [(a & E & A)|(a & E & A)]; [|congruence]. apply in_seq in A. assert (a = k) by congruence. lia.
        - intros L. left. exists k. split; [reflexivity|]. apply in_seq. lia.
        - intros [(a & E & A)|(a & E & A)]; [congruence|]. apply in_seq in A. assert (a = k) by congruence. lia.
        - intros L. right. exists k. split; [reflexivity|]. apply in_seq. lia. }
      eexists. split; [reflexivity|]. fold new. split; [|split; [|exact I]].
      + apply inv_slots.
        * rewrite map_app. apply nodup_app; [apply IV|exact NDn|]. intros x A B. apply KN in B. apply NSl in B.
          apply lookup_None_keys in B. contradiction.
        * intros x d A. apply in_app_iff in A. destruct A as [A|A]; [apply (inv_in_good s x d IV A)|]. rewrite (VN x d A). exact I.
      + cbn [effect].
        assert (LX : forall x, ~ slice p x -> lookup (slots V s ++ new) x = lookup (slots V s) x).
        { intros x NS. rewrite lookup_app. destruct (lookup (slots V s) x); [reflexivity|]. apply LN. intros A. apply NS, KN, A. }
        split; [intros x NS; apply observe_ext; [apply LX; exact NS|reflexivity]|]. split.
        * intros (x & S & A). exfalso. apply A. apply observe_absent. apply NSl. exact S.
        * intros _ k.
          assert (S1 : slice p (fst p, Up k)) by (unfold slice; cbn [fst snd]; repeat split; auto; discriminate).
          assert (S2 : slice p (fst p, Down k)) by (unfold slice; cbn [fst snd]; repeat split; auto; discriminate).
          unfold observe. cbn [slots]. rewrite !lookup_app, (NSl _ S1), (NSl _ S2). destruct (KU k) as [K1 K2].
          destruct (Nat.ltb_spec k y) as [L|L].
          -- rewrite (proj1 (LN _)) by (apply K1; exact L). rewrite (proj1 (LN _)) by (apply K2; exact L). auto.
          -- rewrite (proj2 (LN _)) by (rewrite K1; lia). rewrite (proj2 (LN _)) by (rewrite K2; lia). auto.
  Qed.

  Lemma copies_nil l p q : (forall x, slice q x -> lookup l x = None) -> copies l p q = [].
  Proof.
    intros H. unfold copies. replace (filter _ l) with (@nil entry); [reflexivity|]. symmetry.
    destruct (filter _ l) as [|e r] eqn:E; [reflexivity|exfalso].
    assert (I : In e (filter (fun e => slice_of q (fst e)) l)) by (rewrite E; left; reflexivity).
    apply filter_In in I. destruct I as [I S]. apply slice_of_iff in S. apply H, lookup_None_keys in S. apply S, in_map, I.
  Qed.
  Lemma slice_main p x : snd p = Main -> (slice p x <-> fst x = fst p /\ is_slice (snd x) = true).
  Proof. intros M. unfold slice. rewrite is_slice_iff. tauto. Qed.
  Lemma slice_nomain p x : snd p <> Main -> ~ slice p x.
  Proof. unfold slice. tauto. Qed.
  (** A slice of [p] cannot be [p], and roots tell slices apart. *)
  Lemma not_both_slices p q x : slice p x -> slice q x -> fst p = fst q.
  Proof. unfold slice. intros (_ & A & _) (_ & B & _). congruence. Qed.

  Lemma main_eq (p q : slot) : snd p = Main -> snd q = Main -> fst p = fst q -> p = q.
  Proof. intros A B C. apply injective_projections; congruence. Qed.

  Lemma step_CopyAssign s p q : Inv s -> legal (obs s) (CopyAssign V p q) -> stepped s (CopyAssign V p q).
  Proof.
    intros IV (AP & AQ & NS & SL). unfold stepped. cbn [step effect]. unfold copy_assign. destruct (slot_eqb p q) eqn:PQ.
    - exists s. split; [reflexivity|]. split; [exact IV|]. split; [auto|exact I].
    - apply slot_eqb_neq in PQ. pose proof (inv_clear V nx ny nz s p IV) as Ic. set (s1 := clear_slices V s p) in *.
      assert (L1 : forall x, ~ slice p x -> lookup (slots V s1) x = lookup (slots V s) x).
      { intros x N1. unfold s1. rewrite lookup_clear, (proj2 (slice_of_false p x) N1). reflexivity. }
      assert (L2 : forall x, slice p x -> lookup (slots V s1) x = None).
      { intros x N1. unfold s1. rewrite lookup_clear, (proj2 (slice_of_iff p x) N1). reflexivity. }
      destruct (observe_alive V s p AP) as [dp Edp]. destruct (observe_alive V s q AQ) as [d Ed].
      rewrite (L1 p (slice_irr p)), (L1 q NS), Edp, Ed. change (slice_copies V s1 p q) with (copies (slots V s1) p q).
      eexists. split; [reflexivity|].
      assert (KD : forall x, In x (keys (copies (slots V s1) p q)) -> lookup (slots V s1) x = None).
      { intros x A. destruct (is_slice (snd p)) eqn:MP.
        - rewrite copies_nil in A; [destruct A|]. intros y Sy. apply is_slice_iff in MP. rewrite L1 by (apply slice_nomain; exact MP).
          apply observe_absent. apply SL; [exact MP|exact Sy].
        - apply in_keys_copies in A. apply L2. apply slice_main; [|exact A]. destruct (snd p); [reflexivity|discriminate|discriminate]. }
      assert (ND2 : NoDup (keys (slots V s1 ++ copies (slots V s1) p q))).
      { rewrite map_app. apply nodup_app; [apply Ic|apply keys_copies_NoDup, Ic|]. intros x A B. apply KD in B. apply lookup_None_keys in B. contradiction. }
      split; [|split; [|exact I]].
      + apply (inv_slots s1).
        * rewrite keys_assign. exact ND2.
        * intros x d0 A. unfold assign in A. apply in_map_iff in A. destruct A as (e & Ee & A).
          destruct (slot_eqb (fst e) p); [injection Ee as _ <-; apply (inv_good s1 q d Ic); rewrite L1 by exact NS; exact Ed|].
          subst e. apply in_app_iff in A. destruct A as [A|A]; [apply (inv_in_good s1 x d0 Ic A)|apply (in_copies_good s1 p q x d0 Ic A)].
      + assert (LK : forall x, x <> p -> lookup (assign (slots V s1 ++ copies (slots V s1) p q) p d) x =
                       match lookup (slots V s1) x with Some e => Some e | None => lookup (copies (slots V s1) p q) x end).
        { intros x NE. rewrite lookup_assign, (proj2 (slot_eqb_neq x p) NE), lookup_app. reflexivity. }
        split; [|split].
        * intros x NE NSx. apply observe_ext; [|reflexivity]. cbn [slots]. rewrite LK, (L1 x NSx) by exact NE.
          destruct (lookup (slots V s) x) as [e|] eqn:E; [reflexivity|]. destruct (lookup (copies _ _ _) x) eqn:F; [|reflexivity].
          exfalso. apply lookup_In in F. apply (in_map fst) in F. cbn [fst] in F. destruct (is_slice (snd p)) eqn:MP.
          -- rewrite copies_nil in F; [destruct F|]. intros y Sy. apply is_slice_iff in MP. rewrite L1 by (apply slice_nomain; exact MP).
             apply observe_absent. apply SL; [exact MP|exact Sy].
          -- apply in_keys_copies in F. apply NSx. apply slice_main; [|exact F]. destruct (snd p); [reflexivity|discriminate|discriminate].
        * apply observe_ext; [|reflexivity]. cbn [slots]. rewrite lookup_assign, slot_eqb_refl, lookup_app, (L1 p (slice_irr p)), Edp, Ed. reflexivity.
        * intros x Sx. assert (NE : x <> p) by (intros ->; apply (slice_irr p Sx)).
          assert (E : lookup (assign (slots V s1 ++ copies (slots V s1) p q) p d) x =
                      if negb (is_slice (snd q)) then lookup (slots V s1) (fst q, snd x) else None).
          { rewrite LK, (L2 x Sx), lookup_copies by exact NE. destruct Sx as (M & A & B).
            rewrite A, (proj2 (root_eqb_eq _ _) eq_refl), (proj2 (is_slice_iff _) B). reflexivity. }
          split; intros Q.
          -- apply observe_ext; [|reflexivity]. cbn [slots]. rewrite E, Q. cbn [is_slice negb]. apply L1. intros S2.
             destruct S2 as (M & A & B). cbn [fst snd] in A. apply PQ. apply main_eq; auto.
          -- unfold observe. cbn [slots]. rewrite E, (proj2 (is_slice_iff _) Q). reflexivity.
  Qed.

  Lemma step_MoveAssign s p q : Inv s -> legal (obs s) (MoveAssign V p q) -> stepped s (MoveAssign V p q).
  Proof.
    intros IV (AP & AQ & PQ & NS & SL). unfold stepped. cbn [step effect]. unfold move_assign.
    pose proof (inv_clear V nx ny nz s p IV) as Ic. set (s1 := clear_slices V s p) in *.
    assert (L1 : forall x, ~ slice p x -> lookup (slots V s1) x = lookup (slots V s) x).
    { intros x N1. unfold s1. rewrite lookup_clear, (proj2 (slice_of_false p x) N1). reflexivity. }
    assert (L2 : forall x, slice p x -> lookup (slots V s1) x = None).
    { intros x N1. unfold s1. rewrite lookup_clear, (proj2 (slice_of_iff p x) N1). reflexivity. }
    destruct (observe_alive V s p AP) as [dp Edp]. destruct (observe_alive V s q AQ) as [d Ed].
    rewrite (L1 p (slice_irr p)), (L1 q NS), Edp, Ed. change (slice_copies V s1 p q) with (copies (slots V s1) p q).
    pose proof (inv_clear V nx ny nz s1 q Ic) as Ic2. set (s2 := clear_slices V s1 q) in *.
    assert (NPQ : ~ slice q p).
    { intros S. destruct (is_slice (snd p)) eqn:MP.
      - apply is_slice_iff in MP. apply AP. apply SL; auto.
      - destruct S as (_ & _ & B). destruct (snd p); [congruence|discriminate|discriminate]. }
    assert (L3 : forall x, ~ slice q x -> lookup (slots V s2) x = lookup (slots V s1) x).
    { intros x N1. unfold s2. rewrite lookup_clear, (proj2 (slice_of_false q x) N1). reflexivity. }
    assert (L4 : forall x, slice q x -> lookup (slots V s2) x = None).
    { intros x N1. unfold s2. rewrite lookup_clear, (proj2 (slice_of_iff q x) N1). reflexivity. }
    assert (L2' : forall x, slice p x -> lookup (slots V s2) x = None).
    { intros x S. unfold s2. rewrite lookup_clear, (L2 x S). destruct (slice_of q x); reflexivity. }
    assert (CK : forall x, In x (keys (copies (slots V s1) p q)) -> slice p x).
    { intros x A. destruct (is_slice (snd p)) eqn:MP.
      - rewrite copies_nil in A; [destruct A|]. intros y Sy. apply is_slice_iff in MP. rewrite L1 by (apply slice_nomain; exact MP).
        apply observe_absent. apply SL; [exact MP|exact Sy].
      - apply in_keys_copies in A. apply slice_main; [|exact A]. destruct (snd p); [reflexivity|discriminate|discriminate]. }
    eexists. split; [reflexivity|].
    set (l := assign (assign (slots V s2) q None ++ copies (slots V s1) p q) p d).
    assert (NDl : NoDup (keys l)).
    { unfold l. rewrite keys_assign, map_app, keys_assign. apply nodup_app; [apply Ic2|apply keys_copies_NoDup, Ic|].
      intros x A B. apply CK in B. apply L2' in B. apply lookup_None_keys in B. contradiction. }
    assert (LK : forall x, x <> p -> lookup l x =
                   match (if slot_eqb x q then match lookup (slots V s2) q with Some _ => Some None | None => None end else lookup (slots V s2) x) with
                   | Some e => Some e | None => lookup (copies (slots V s1) p q) x end).
    { intros x NE. unfold l. rewrite lookup_assign, (proj2 (slot_eqb_neq x p) NE), lookup_app, lookup_assign. reflexivity. }
    assert (CN : forall x, ~ slice p x -> lookup (copies (slots V s1) p q) x = None).
    { intros x A. apply lookup_None_keys. intros B. apply A, CK, B. }
    split; [|split; [|exact I]].
    - apply (inv_slots s2); [exact NDl|]. intros x d0 A. unfold l, assign in A. apply in_map_iff in A. destruct A as (e & Ee & A).
      destruct (slot_eqb (fst e) p).
      { injection Ee as _ <-. change (good s1 d). apply (inv_good s1 q d Ic). rewrite L1 by exact NS. exact Ed. }
      subst e. apply in_app_iff in A. destruct A as [A|A].
      + apply in_map_iff in A. destruct A as (e & Ee & A). destruct (slot_eqb (fst e) q); [injection Ee as _ <-; exact I|].
        subst e. apply (inv_in_good s2 x d0 Ic2 A).
      + change (good s1 d0). apply (in_copies_good s1 p q x d0 Ic A).
    - split; [|split; [|split; [|split]]].
      + apply observe_ext; [|reflexivity]. cbn [slots]. unfold l. rewrite lookup_assign, slot_eqb_refl, lookup_app, lookup_assign.
        rewrite (proj2 (slot_eqb_neq p q) PQ), (L3 p NPQ), (L1 p (slice_irr p)), Edp, Ed. reflexivity.
      + intros x Sx. assert (NE : x <> p) by (intros ->; apply (slice_irr p Sx)).
        assert (NQ : x <> q) by (intros ->; contradiction).
        assert (E : lookup l x = if negb (is_slice (snd q)) then lookup (slots V s1) (fst q, snd x) else None).
        { rewrite LK, (proj2 (slot_eqb_neq x q) NQ), (L2' x Sx), lookup_copies by exact NE. destruct Sx as (M & A & B).
          rewrite A, (proj2 (root_eqb_eq _ _) eq_refl), (proj2 (is_slice_iff _) B). reflexivity. }
        split; intros Q.
        * apply observe_ext; [|reflexivity]. cbn [slots]. rewrite E, Q. cbn [is_slice negb]. apply L1. intros S2.
          destruct S2 as (M & A & B). cbn [fst snd] in A. apply PQ. apply main_eq; auto.
        * unfold observe. cbn [slots]. rewrite E, (proj2 (is_slice_iff _) Q). reflexivity.
      + intros NE _. unfold observe. cbn [slots]. rewrite LK, slot_eqb_refl, (L3 q (slice_irr q)), (L1 q NS), Ed by exact NE. reflexivity.
      + intros x Sx NE. unfold observe. cbn [slots]. rewrite LK by exact NE.
        assert (NQ : x <> q) by (intros ->; apply (slice_irr q Sx)).
        rewrite (proj2 (slot_eqb_neq x q) NQ), (L4 x Sx), CN; [reflexivity|].
        intros Sp. destruct Sp as (M & A & B), Sx as (M' & A' & B'). apply PQ. apply main_eq; congruence.
      + intros x NE NSp NQ NSq. apply observe_ext; [|reflexivity]. cbn [slots].
        rewrite LK, (proj2 (slot_eqb_neq x q) NQ), (L3 x NSq), (L1 x NSp), (CN x NSp) by exact NE. destruct (lookup (slots V s) x); reflexivity.
  Qed.

  Lemma step_Allocate s p j : Inv s -> legal (obs s) (Allocate V p j) -> stepped s (Allocate V p j).
  Proof.
    intros IV AL. unfold stepped. cbn [step effect freed legal] in *.
    destruct (allocate_spec V nx ny nz s p j IV) as (s1 & b & d & E & I1 & Ow & Ob & Keep).
    { intros A. apply AL, observe_absent, A. }
    exists s1. split; [exact E|]. split; [exact I1|]. split; [|eapply owns_unique; exact Ow]. split; [intros x NE; apply (Ob x NE)|].
    split; [eapply owns_full; exact Ow|]. intros [d0 D]. destruct Ow as (Ep & _ & Eh & _).
    rewrite (observe_lookup V s1 p b d Ep Eh), D, (Keep d0 D). reflexivity.
  Qed.

  Lemma step_Write s p i x : Inv s -> legal (obs s) (Write V p i x) -> unique V s p = true -> stepped s (Write V p i x).
  Proof.
    intros IV [HD L] U. destruct (unique_owns V nx ny nz s p IV U) as (b & d & Ow). unfold stepped. cbn [step effect freed].
    destruct (loop_on_spec V nx ny nz s p b d (fun _ _ _ _ => Some x) [(i, i)] (fun _ => x) IV Ow)
      as (s' & d' & E & I' & Sl & Ow' & Ob & Vs & Vo).
    - split; [repeat constructor; intros []|]. intros a k [A|[]]. injection A as <- <-. exact L.
    - reflexivity.
    - exists s'. split; [exact E|]. split; [exact I'|]. split; [|exact I]. split; [exact Ob|]. split; [eapply owns_full; exact Ow'|].
      split.
      + rewrite (owns_elem V nx ny nz s' p b d' i Ow'). apply Vs. left; reflexivity.
      + intros k NE. rewrite (owns_elem V nx ny nz s' p b d' k Ow'), (owns_elem V nx ny nz s p b d k Ow). apply Vo.
        intros [A|[]]. apply NE. symmetry. exact A.
  Qed.
  (** A write through shared data still leaves a consistent state. *)
  Lemma inv_Write s p i x : Inv s -> legal (obs s) (Write V p i x) -> exists s', step s (Write V p i x) = Ok s' /\ Inv s'.
  Proof.
    intros IV [[d HD] L]. cbn [step]. unfold loop_on. destruct (observe_Data V s p d HD) as (b & Eb & Eh). rewrite Eb.
    destruct (inv_lookup V nx ny nz s p b IV Eb) as (_ & d1 & Eh1 & Ld & _). assert (d1 = d) by congruence. subst d1.
    destruct (loop_spec V [(i, i)] (heap V s) (heap V s) b d d (fun _ _ _ _ => Some x) (fun _ => x)) as (h' & d' & E & Hb & L' & O & _); auto.
    - repeat constructor. intros [].
    - intros a k [A|[]]. injection A as <- <-. lia.
    - rewrite E. cbn [bind]. eexists. split; [reflexivity|]. destruct IV as [ND J]. split; cbn [slots heap next]; [exact ND|].
      intros y c H. destruct (J y c H) as (Lc & dc & Ec & Lnc). split; [exact Lc|].
      destruct (Nat.eq_dec c b) as [->|NE]; [exists d'; split; [exact Hb|congruence]|]. exists dc. rewrite O by exact NE. auto.
  Qed.

  Lemma step_NewBinary s v o p r j : Inv s -> legal (obs s) (NewBinary V v o p r j) -> stepped s (NewBinary V v o p r j).
  Proof.
    intros IV (F & HP & HR). unfold stepped. cbn [step effect freed].
    destruct (binary_spec V ar one nx ny nz order3 order2 O3 O2 s o p r j IV HP HR) as (s1 & d & E & Sl & Nx & Hh & Hb & Ld & Vd).
    rewrite E. cbn [bind fst snd]. eexists. split; [reflexivity|].
    assert (I1 : Inv s1).
    { destruct IV as [ND J]. split; [rewrite Sl; exact ND|]. rewrite Sl, Nx. intros x b H. destruct (J x b H) as (Lb & dd & Ed & Ln).
      split; [lia|]. exists dd. rewrite Hh by lia. auto. }
    assert (Ob1 : forall x, obs s1 x = obs s x).
    { intros x. apply observe_ext; [rewrite Sl; reflexivity|]. intros b H. apply Hh. destruct (inv_lookup V nx ny nz s x b IV H) as [L _]. lia. }
    assert (IA : Inv (add V s1 [((Var v, Main), Some (next V s))])).
    { apply inv_add; auto.
      - repeat constructor. intros [].
      - intros x [<-|[]]. rewrite Sl. apply fresh_lookup with v; auto.
      - intros x c [A|[]]. injection A as _ <-. cbn [good]. split; [lia|eauto]. }
    assert (OV : obs (add V s1 [((Var v, Main), Some (next V s))]) (Var v, Main) = Data V d).
    { rewrite obs_add, lookup_cons. cbn [fst snd]. rewrite slot_eqb_refl, Hb. reflexivity. }
    split; [exact IA|]. split; [split; [|split]|].
    - intros x NE. rewrite obs_add, lookup_cons. cbn [fst]. rewrite (proj2 (slot_eqb_neq _ _)) by congruence. apply Ob1.
    - exists d. auto.
    - intros k L. destruct (vcalc_ex V ar one nx ny nz s o p r j k IV HP HR L) as (x & y & Ex & Ey & Ev).
      exists x, y. split; [exact Ex|]. split; [exact Ey|]. unfold elem. rewrite OV, Vd, Ev by exact L. reflexivity.
    - unfold unique. assert (LV : lookup (slots V (add V s1 [((Var v, Main), Some (next V s))])) (Var v, Main) = Some (Some (next V s))).
      { unfold add. cbn [slots app]. rewrite lookup_cons. cbn [fst snd]. rewrite slot_eqb_refl. reflexivity. }
      rewrite LV. apply Nat.eqb_eq. unfold use_count. apply count_one with (Var v, Main).
      + apply IA.
      + apply lookup_In. exact LV.
      + intros x A. unfold add in A. cbn [slots app] in A. destruct A as [A|A]; [congruence|]. rewrite Sl in A.
        destruct IV as [_ J]. destruct (J x _ A). lia.
  Qed.

  Lemma step_Update s p o r j : Inv s -> legal (obs s) (Update V p o r j) -> stepped s (Update V p o r j).
  Proof.
    intros IV (HP & HR & NS). unfold stepped. cbn [step effect freed].
    destruct (update_spec V ar one nx ny nz order3 order2 O3 O2 s p o r j IV HP HR NS) as (s' & E & I' & U & On & Go & Fu & Va).
    exists s'. split; [exact E|]. split; [exact I'|]. split; [|exact U]. repeat (split; [assumption|]).
    intros k L. destruct (vcalc_ex V ar one nx ny nz s o p r j k IV HP HR L) as (x & y & Ex & Ey & Ev).
    exists x, y. rewrite Va, Ev by exact L. auto.
  Qed.

  Lemma at3_bound ix iy iz : inside nx ny nz ix iy iz -> at3 ny nz ix iy iz < N.
  Proof. intros (A & B & C). unfold at3. assert (ix * ny + iy < nx * ny) by nia. nia. Qed.

  Lemma step_SetReal s p x j : Inv s -> legal (obs s) (SetReal V p x j) -> stepped s (SetReal V p x j).
  Proof.
    intros IV AL. unfold stepped. cbn [step effect freed].
    destruct (fill_spec V nx ny nz s p j (fun _ => Some x) (pairs3 order3) (fun _ => x) IV AL (pairs3_ok nx ny nz order3 O3))
      as (s' & E & I' & On & Go & Fu & U & Vs & _); [reflexivity|].
    exists s'. split; [exact E|]. split; [exact I'|]. split; [|exact U]. repeat (split; [assumption|]).
    intros k L. apply Vs. rewrite pairs3_fst. apply (pairs3_in nx ny nz); auto.
  Qed.
  Lemma step_Set2D s p d j : Inv s -> legal (obs s) (Set2D V p d j) -> stepped s (Set2D V p d j).
  Proof.
    intros IV [AL LD]. unfold stepped. cbn [step effect freed].
    set (val := fun i => match nth_error d (i / nz) with Some x => x | None => j 0 end).
    destruct (fill_spec V nx ny nz s p j (fun k => nth_error d k) (pairs2 nz order2) val IV AL (pairs2_ok nx ny nz order2 O2))
      as (s' & E & I' & On & Go & Fu & U & Vs & _).
    { intros i k A. pose proof (proj2 (pairs2_ok nx ny nz order2 O2) i k A) as B. apply pairs2_snd in A. subst k. unfold val.
      destruct (nth_error d (i / nz)) eqn:F; [reflexivity|]. apply nth_error_None in F. pose proof (div_bound nx ny nz i B). lia. }
    exists s'. split; [exact E|]. split; [exact I'|]. split; [|exact U]. repeat (split; [assumption|]).
    intros ix iy iz IN. rewrite Vs by (apply (pairs2_in nx ny); auto; apply at3_bound; exact IN).
    unfold val. assert (Q : at3 ny nz ix iy iz / nz = ix * ny + iy).
    { destruct IN as (A & B & C). unfold at3. rewrite Nat.div_add_l by lia. rewrite Nat.div_small by lia. lia. }
    rewrite Q. destruct (nth_error d (ix * ny + iy)) eqn:F; [reflexivity|]. exfalso. apply nth_error_None in F.
    destruct IN as (A & B & C). assert (ix * ny + iy < nx * ny) by nia. lia.
  Qed.
  Lemma step_SetPerp s p jy d j : Inv s -> legal (obs s) (SetPerp V p jy d j) -> stepped s (SetPerp V p jy d j).
  Proof.
    intros IV (AL & J & LD). unfold stepped. cbn [step effect freed].
    set (val := fun i => match nth_error d (i / nz / ny * nz + i mod nz) with Some x => x | None => j 0 end).
    assert (IDX : forall i, nz <> 0 -> ((i / nz * ny + jy) * nz + i mod nz) / nz / ny * nz +
                                       ((i / nz * ny + jy) * nz + i mod nz) mod nz = i).
    { intros i Z. assert (M : i mod nz < nz) by (apply Nat.mod_upper_bound; lia).
      rewrite Nat.div_add_l by lia. rewrite (Nat.div_small (i mod nz)) by lia. rewrite Nat.add_0_r.
      rewrite Nat.div_add_l by lia. rewrite (Nat.div_small jy) by lia. rewrite Nat.add_0_r.
      rewrite Nat.add_comm with (n := (i / nz * ny + jy) * nz), Nat.mod_add by lia. rewrite Nat.mod_mod by lia.
      pose proof (Nat.div_mod i nz Z). lia. }
    assert (PI : forall x, In x orderp <-> x < nx * nz).
    { intros x. split; intros A; [apply (Permutation_in _ Op), in_seq in A; lia|].
      apply (Permutation_in _ (Permutation_sym Op)). apply in_seq. lia. }
    destruct (fill_spec V nx ny nz s p j (fun k => nth_error d k) (pairsp ny nz orderp jy) val IV AL (pairsp_ok nx ny nz order3 orderp O3 Op jy J))
      as (s' & E & I' & On & Go & Fu & U & Vs & Vo).
    { intros i k A. unfold pairsp in A. apply in_map_iff in A. destruct A as (x & Ex & A). injection Ex as <- <-.
      apply PI in A. assert (Z : nz <> 0) by (intros ->; lia). unfold val. rewrite (IDX x Z).
      destruct (nth_error d x) eqn:F; [reflexivity|]. apply nth_error_None in F. lia. }
    exists s'. split; [exact E|]. split; [exact I'|]. split; [|exact U]. repeat (split; [assumption|]). split.
    - intros ix iz IN. assert (Z : nz <> 0) by (destruct IN; lia).
      assert (QD : (ix * nz + iz) / nz = ix). { destruct IN as (A & B & C). rewrite Nat.div_add_l by lia. rewrite Nat.div_small by lia. lia. }
      assert (QM : (ix * nz + iz) mod nz = iz).
      { destruct IN as (A & B & C). rewrite Nat.add_comm, Nat.mod_add by lia. apply Nat.mod_small. exact C. }
      assert (EQ : at3 ny nz ix jy iz = ((ix * nz + iz) / nz * ny + jy) * nz + (ix * nz + iz) mod nz) by (rewrite QD, QM; reflexivity).
      assert (LT : ix * nz + iz < nx * nz) by (destruct IN as (A & B & C); nia).
      rewrite Vs.
      + unfold val. rewrite EQ, (IDX _ Z). destruct (nth_error d (ix * nz + iz)) eqn:F; [reflexivity|]. apply nth_error_None in F. lia.
      + unfold pairsp. rewrite map_map. cbn [fst]. apply in_map_iff. exists (ix * nz + iz). split; [symmetry; exact EQ|]. apply PI. exact LT.
    - intros ix iy iz IN NE HD. apply Vo; [|exact HD]. unfold pairsp. rewrite map_map. cbn [fst]. intros A. apply in_map_iff in A.
      destruct A as (x & Ex & A). apply PI in A. assert (Z : nz <> 0) by (intros ->; lia).
      assert (M : x mod nz < nz) by (apply Nat.mod_upper_bound; lia). destruct IN as (B & C & D). unfold at3 in Ex.
      assert (Q : x / nz * ny + jy = ix * ny + iy) by nia.
      apply NE. apply (f_equal (fun k => k mod ny)) in Q. rewrite (Nat.add_comm _ jy), (Nat.add_comm _ iy), !Nat.mod_add in Q by lia.
      rewrite !Nat.mod_small in Q by lia. lia.
  Qed.

  Theorem step_ok s o : Inv s -> legal (obs s) o -> wr_ok o s -> stepped s o.
  Proof.
    intros IV L W. destruct o; cbn [wr_ok] in W.
    - apply step_NewEmpty; auto.
    - apply step_NewCopy; auto.
    - apply step_NewMove; auto.
    - apply step_NewBinary; auto.
    - apply step_CopyAssign; auto.
    - apply step_MoveAssign; auto.
    - apply step_SetReal; auto.
    - apply step_Set2D; auto.
    - apply step_SetPerp; auto.
    - apply step_Update; auto.
    - apply step_Allocate; auto.
    - apply step_Write; auto.
    - apply step_Split; auto.
    - apply step_ClearSl; auto.
    - apply step_TimeDeriv; auto.
    - apply step_Swap; auto.
    - apply step_Destroy; auto.
  Qed.
End P4.
