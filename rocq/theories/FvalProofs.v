From Coq Require Import List ZArith Lia Bool Arith Permutation.
From Verif Require Import Base FvalModel FvalSpec.
Import ListNotations.

Lemma root_eqb_eq a b : root_eqb a b = true <-> a = b.
Proof.
  destruct a, b; cbn [root_eqb]; try (split; [discriminate|congruence]); rewrite Nat.eqb_eq; split; congruence.
Qed.
Lemma pos_eqb_eq a b : pos_eqb a b = true <-> a = b.
Proof.
  destruct a, b; cbn [pos_eqb]; try (split; [discriminate|congruence]); try tauto; rewrite Nat.eqb_eq; split; congruence.
Qed.
Lemma slot_eqb_eq a b : slot_eqb a b = true <-> a = b.
Proof.
  unfold slot_eqb. rewrite andb_true_iff, root_eqb_eq, pos_eqb_eq. destruct a, b; cbn [fst snd]. split; [intros [? ?]|intros E; inversion E]; subst; auto.
Qed.
Lemma slot_eqb_refl a : slot_eqb a a = true. Proof. apply slot_eqb_eq; reflexivity. Qed.
Lemma slot_eqb_neq a b : slot_eqb a b = false <-> a <> b.
Proof. rewrite <- slot_eqb_eq. destruct (slot_eqb a b); split; congruence. Qed.
Lemma slot_dec (a b : slot) : {a = b} + {a <> b}.
Proof. destruct (slot_eqb a b) eqn:E; [left; apply slot_eqb_eq; auto|right; apply slot_eqb_neq; auto]. Qed.
Lemma slice_of_iff p x : slice_of p x = true <-> slice p x.
Proof.
  unfold slice_of, slice. rewrite !andb_true_iff, root_eqb_eq.
  destruct p as [rp pp], x as [rx px]; cbn [fst snd]. destruct pp, px; cbn [is_slice negb]; intuition congruence.
Qed.
Lemma slice_of_false p x : slice_of p x = false <-> ~ slice p x.
Proof. rewrite <- slice_of_iff. destruct (slice_of p x); split; congruence. Qed.
Lemma slice_dec p x : {slice p x} + {~ slice p x}.
Proof. destruct (slice_of p x) eqn:E; [left; apply slice_of_iff; auto|right; apply slice_of_false; auto]. Qed.
Lemma slice_irr p : ~ slice p p. Proof. unfold slice. tauto. Qed.

Notation entry := (slot * option nat)%type.
Notation keys l := (map (@fst slot (option nat)) l).

Lemma lookup_nil x : lookup [] x = None. Proof. reflexivity. Qed.
Lemma lookup_cons e l x : lookup (e :: l) x = if slot_eqb (fst e) x then Some (snd e) else lookup l x.
Proof. unfold lookup. cbn [find]. destruct (slot_eqb (fst e) x); reflexivity. Qed.
Lemma lookup_app l1 l2 x : lookup (l1 ++ l2) x = match lookup l1 x with Some d => Some d | None => lookup l2 x end.
Proof. induction l1; [reflexivity|]. rewrite <- app_comm_cons, !lookup_cons. destruct (slot_eqb (fst a) x); auto. Qed.
Lemma lookup_filter (P : slot -> bool) l x : lookup (filter (fun e : entry => P (fst e)) l) x = if P x then lookup l x else None.
Proof.
  induction l as [|e l IH]; [destruct (P x); reflexivity|]. cbn [filter]. rewrite (lookup_cons e l).
  destruct (slot_eqb (fst e) x) eqn:E.
  - apply slot_eqb_eq in E. subst x. destruct (P (fst e)) eqn:Q.
    + rewrite lookup_cons, slot_eqb_refl. reflexivity.
    + exact IH.
  - destruct (P (fst e)); [rewrite lookup_cons, E|]; exact IH.
Qed.
Lemma lookup_assign l x d y : lookup (assign l x d) y =
  if slot_eqb y x then match lookup l x with Some _ => Some d | None => None end else lookup l y.
Proof.
  unfold assign. induction l as [|e l IH]; [destruct (slot_eqb y x); reflexivity|].
  cbn [map]. rewrite !lookup_cons, IH.
  destruct (slot_eqb (fst e) x) eqn:E; cbn [fst snd].
  - apply slot_eqb_eq in E. subst x. destruct (slot_eqb (fst e) y) eqn:F.
    + apply slot_eqb_eq in F. subst y. rewrite slot_eqb_refl. reflexivity.
    + destruct (slot_eqb y (fst e)) eqn:G; [apply slot_eqb_eq in G; subst; rewrite slot_eqb_refl in F; discriminate|reflexivity].
  - destruct (slot_eqb (fst e) y) eqn:F; [|reflexivity].
    apply slot_eqb_eq in F. subst y. rewrite E. reflexivity.
Qed.
Lemma lookup_In l x d : lookup l x = Some d -> In (x, d) l.
Proof.
  induction l as [|e l IH]; [discriminate|]. rewrite lookup_cons. destruct (slot_eqb (fst e) x) eqn:E.
  - intros H. injection H as <-. left. apply slot_eqb_eq in E. destruct e; cbn [fst snd] in *; congruence.
  - intros H. right; auto.
Qed.
Lemma lookup_None_keys l x : lookup l x = None <-> ~ In x (keys l).
Proof.
  induction l as [|e l IH]; [cbn; tauto|]. rewrite lookup_cons. cbn [map In].
  destruct (slot_eqb (fst e) x) eqn:E.
  - apply slot_eqb_eq in E. split; [discriminate|tauto].
  - apply slot_eqb_neq in E. tauto.
Qed.
Lemma In_lookup l x d : NoDup (keys l) -> In (x, d) l -> lookup l x = Some d.
Proof.
  induction l as [|e l IH]; [contradiction|]. cbn [map]. intros ND I. inversion ND; subst. rewrite lookup_cons.
  destruct I as [->|I].
  - cbn [fst snd]. rewrite slot_eqb_refl. reflexivity.
  - destruct (slot_eqb (fst e) x) eqn:E; [|auto]. apply slot_eqb_eq in E. subst x.
    exfalso. apply H1. apply (in_map fst) in I. exact I.
Qed.

(** Keys. *)
Lemma keys_assign l x d : keys (assign l x d) = keys l.
Proof. unfold assign. rewrite map_map. apply map_ext. intros e. destruct (slot_eqb (fst e) x); reflexivity. Qed.
Lemma NoDup_map_filter (P : entry -> bool) l : NoDup (keys l) -> NoDup (keys (filter P l)).
Proof.
  induction l as [|e l IH]; [auto|]. cbn [map filter]. intros ND. inversion ND; subst.
  destruct (P e); [|auto]. cbn [map]. constructor; [|auto]. intros I. apply H1.
  apply in_map_iff in I. destruct I as (y & <- & I). apply filter_In in I. apply in_map. tauto.
Qed.

Definition copies (l : list entry) (p q : slot) : list entry :=
  map (fun e => ((fst p, snd (fst e)), snd e)) (filter (fun e => slice_of q (fst e)) l).
Lemma lookup_copies l p q x : lookup (copies l p q) x =
  if root_eqb (fst x) (fst p) && is_slice (snd x) && negb (is_slice (snd q)) then lookup l (fst q, snd x) else None.
Proof.
  unfold copies. induction l as [|e l IH].
  { cbn. destruct (_ && _ && _); reflexivity. }
  cbn [filter]. destruct (slice_of q (fst e)) eqn:E.
  - cbn [map]. rewrite !lookup_cons. cbn [fst snd]. rewrite IH. apply slice_of_iff in E.
    destruct E as (E1 & E2 & E3). destruct e as [[re pe] de]. cbn [fst snd] in *. subst re.
    destruct x as [rx px]. unfold slot_eqb. cbn [fst snd]. rewrite E1. cbn [is_slice negb]. rewrite andb_true_r.
    destruct (root_eqb (fst p) rx) eqn:A.
    + apply root_eqb_eq in A. subst rx. rewrite (proj2 (root_eqb_eq _ _) eq_refl), (proj2 (root_eqb_eq _ _) eq_refl).
      cbn [andb]. destruct (pos_eqb pe px) eqn:B.
      * apply pos_eqb_eq in B. subst px. destruct pe; cbn [is_slice]; try reflexivity. congruence.
      * reflexivity.
    + cbn [andb]. assert (A' : root_eqb rx (fst p) = false).
      { destruct (root_eqb rx (fst p)) eqn:C; [|reflexivity]. apply root_eqb_eq in C. subst.
        rewrite (proj2 (root_eqb_eq _ _) eq_refl) in A. discriminate. }
      rewrite A'. reflexivity.
  - rewrite IH, lookup_cons. destruct (_ && _ && _) eqn:C; [|reflexivity].
    destruct (slot_eqb (fst e) (fst q, snd x)) eqn:D; [|reflexivity].
    apply slot_eqb_eq in D. exfalso. apply slice_of_false in E. apply E. rewrite D. unfold slice. cbn [fst snd].
    rewrite !andb_true_iff in C. destruct (snd q), (snd x); cbn [is_slice negb] in C; intuition congruence.
Qed.
Lemma keys_copies_NoDup l p q : NoDup (keys l) -> NoDup (keys (copies l p q)).
Proof.
  unfold copies. intros ND. rewrite map_map. cbn [fst].
  induction l as [|e l IH]; [constructor|]. inversion ND; subst. cbn [filter].
  destruct (slice_of q (fst e)) eqn:E; [|auto]. cbn [map]. constructor; [|auto].
  intros I. apply in_map_iff in I. destruct I as (y & Ey & Iy). apply filter_In in Iy. destruct Iy as [Iy Sy].
  apply H1. apply in_map_iff. exists y. split; [|exact Iy].
  apply slice_of_iff in E. apply slice_of_iff in Sy. destruct E as (_ & E & _), Sy as (_ & Sy & _).
  apply injective_projections; [exact (eq_trans Sy (eq_sym E))|]. apply (f_equal snd) in Ey. exact Ey.
Qed.
Lemma in_keys_copies l p q x : In x (keys (copies l p q)) -> fst x = fst p /\ is_slice (snd x) = true.
Proof.
  intros I. unfold copies in I. rewrite map_map in I. apply in_map_iff in I. destruct I as (e & <- & I). cbn [fst snd].
  apply filter_In in I. destruct I as [_ S]. apply slice_of_iff in S. destruct S as (_ & _ & S).
  split; [reflexivity|]. destruct e as [[re pe] de]; cbn [fst snd] in *. destruct pe; [congruence|reflexivity|reflexivity].
Qed.

Section P.
  Variable V : Type.
  Variable ar : bop -> V -> V -> V.
  Variable one : V.
  Variables nx ny nz : nat.
  Variables order3 order2 orderp : list nat.
  Notation N := (nx * ny * nz).
  Notation st := (st V).
  Notation heapT := (nat -> option (list V)).

  Definition Inv (s : st) : Prop :=
    NoDup (keys (slots V s)) /\
    forall x b, In (x, Some b) (slots V s) -> b < next V s /\ exists d, heap V s b = Some d /\ length d = N.

  Lemma vec_set_spec {A} (d : list A) i y : i < length d ->
    exists d', vec_set d i y = Some d' /\ length d' = length d /\ nth_error d' i = Some y /\
      forall k, k <> i -> nth_error d' k = nth_error d k.
  Proof.
    revert i. induction d as [|x d IH]; intros i L; [cbn in L; lia|]. destruct i as [|i].
    - exists (y :: d). cbn [vec_set]. repeat split. intros k K. destruct k; [lia|reflexivity].
    - cbn [length] in L. destruct (IH i ltac:(lia)) as (d' & E & Ln & G & O).
      exists (x :: d'). cbn [vec_set]. rewrite E. split; [reflexivity|]. split; [cbn [length]; congruence|]. split; [exact G|].
      intros k K. destruct k as [|k]; [reflexivity|]. apply O. lia.
  Qed.

  (** Loops: [val i] is the value written to element [i]. *)
  Lemma loop_spec : forall l (h0 h : heapT) b d0 d g (val : nat -> V),
    h0 b = Some d0 -> h b = Some d -> length d = length d0 -> (forall c, c <> b -> h c = h0 c) ->
    NoDup (map fst l) -> (forall i k, In (i, k) l -> i < length d0) ->
    (forall i k, In (i, k) l -> nth_error d i = nth_error d0 i) ->
    (forall i k h' d' x, In (i, k) l -> h' b = Some d' -> length d' = length d0 -> (forall c, c <> b -> h' c = h0 c) ->
       nth_error d' i = nth_error d0 i -> nth_error d0 i = Some x -> g h' i k x = Some (val i)) ->
    exists h' d', loop V h b g l = Ok h' /\ h' b = Some d' /\ length d' = length d0 /\ (forall c, c <> b -> h' c = h0 c) /\
      (forall i, In i (map fst l) -> nth_error d' i = Some (val i)) /\
      (forall i, ~ In i (map fst l) -> nth_error d' i = nth_error d i).
  Proof.
    induction l as [|[i k] l IH]; intros h0 h b d0 d g val H0 H L O ND B SAME G.
    - exists h, d. cbn [loop map]. repeat split; auto. contradiction.
    - cbn [map fst] in ND. inversion ND as [|? ? NI ND']; subst.
      assert (Bi : i < length d0) by (apply (B i k); left; reflexivity).
      cbn [loop]. rewrite H.
      destruct (nth_error d0 i) as [x|] eqn:Ex; [|apply nth_error_None in Ex; lia].
      assert (Ed : nth_error d i = Some x) by (rewrite (SAME i k) by (left; reflexivity); exact Ex).
      rewrite Ed.
      rewrite (G i k h d x); [|left; reflexivity|exact H|exact L|exact O|congruence|exact Ex].
      cbn [ofopt bind].
      destruct (vec_set_spec d i (val i)) as (d1 & E1 & L1 & G1 & O1); [lia|]. rewrite E1. cbn [ofopt bind].
      assert (NIk : forall j m, In (j, m) l -> j <> i).
      { intros j m I ->. apply NI. apply in_map_iff. exists (i, m). auto. }
      destruct (IH h0 (upd V h b d1) b d0 d1 g val) as (h' & d' & E' & Hb & L' & Oc & Vs & Vo).
      + exact H0.
      + unfold upd. rewrite Nat.eqb_refl. reflexivity.
      + congruence.
      + intros c C. unfold upd. apply Nat.eqb_neq in C. rewrite C. apply O. apply Nat.eqb_neq. exact C.
      + exact ND'.
      + intros j m I. apply (B j m). right; exact I.
      + intros j m I. rewrite O1 by (apply (NIk j m); exact I). apply (SAME j m). right; exact I.
      + intros j m h2 d2 y I. apply G. right; exact I.
      + exists h', d'. split; [exact E'|]. split; [exact Hb|]. split; [exact L'|]. split; [exact Oc|].
        split.
        * intros j [<-|I]; [|apply Vs; exact I].
          cbn [fst]. destruct (in_dec Nat.eq_dec i (map fst l)) as [I|I]; [apply Vs; exact I|]. rewrite Vo by exact I. exact G1.
        * intros j NJ. cbn [map fst In] in NJ. rewrite Vo by tauto. apply O1. intros ->. apply NJ. left; reflexivity.
  Qed.

  Lemma unique_only (s : st) p b : lookup (slots V s) p = Some (Some b) -> use_count V s b = 1 ->
    forall x, lookup (slots V s) x = Some (Some b) -> x = p.
  Proof.
    intros Hp U x Hx. apply lookup_In in Hp. apply lookup_In in Hx. unfold use_count in U.
    destruct (slot_dec x p) as [|NE]; [assumption|exfalso].
    assert (I : forall y, In (y, Some b) (slots V s) -> In (y, Some b) (filter (points b) (slots V s))).
    { intros y I. apply filter_In. split; [exact I|]. unfold points. cbn [snd]. apply Nat.eqb_refl. }
    apply I in Hp. apply I in Hx. destruct (filter (points b) (slots V s)) as [|e [|e' l]]; cbn [length] in U; try lia.
    destruct Hp as [->|[]], Hx as [Hx|[]]. congruence.
  Qed.

  Lemma count_one (l : list entry) p b : NoDup (keys l) -> In (p, Some b) l ->
    (forall x, In (x, Some b) l -> x = p) -> length (filter (points b) l) = 1.
  Proof.
    induction l as [|e l IH]; intros ND I U; [contradiction|]. inversion ND; subst. cbn [filter].
    destruct (points b e) eqn:E.
    - cbn [length]. f_equal. destruct (filter (points b) l) as [|f r] eqn:F; [reflexivity|exfalso].
      assert (If : In f (filter (points b) l)) by (rewrite F; left; reflexivity).
      apply filter_In in If. destruct If as [If Pf]. destruct e as [x dx], f as [y dy].
      unfold points in *. cbn [snd fst] in *. destruct dx as [c|], dy as [c'|]; try discriminate.
      apply Nat.eqb_eq in E. apply Nat.eqb_eq in Pf. subst c c'.
      assert (x = p) by (apply U; left; reflexivity). assert (y = p) by (apply U; right; exact If). subst.
      apply H1. apply (in_map fst) in If. exact If.
    - apply IH; [assumption| |intros x J; apply U; right; exact J].
      destruct I as [->|I]; [|exact I]. unfold points in E. cbn [snd] in E. rewrite Nat.eqb_refl in E. discriminate.
  Qed.
  Lemma observe_lookup (s : st) x b d : lookup (slots V s) x = Some (Some b) -> heap V s b = Some d -> observe V s x = Data V d.
  Proof. intros H1 H2. unfold observe. rewrite H1, H2. reflexivity. Qed.
  Lemma observe_Data (s : st) x d : observe V s x = Data V d -> exists b, lookup (slots V s) x = Some (Some b) /\ heap V s b = Some d.
  Proof.
    unfold observe. destruct (lookup (slots V s) x) as [[b|]|]; try discriminate.
    destruct (heap V s b) as [d'|] eqn:E; [|discriminate]. intros H. injection H as <-. exists b. auto.
  Qed.
  Lemma observe_alive (s : st) x : observe V s x <> Absent V -> exists d, lookup (slots V s) x = Some d.
  Proof. unfold observe. destruct (lookup (slots V s) x); [eauto|congruence]. Qed.
  Lemma observe_absent (s : st) x : observe V s x = Absent V <-> lookup (slots V s) x = None.
  Proof.
    unfold observe. destruct (lookup (slots V s) x) as [[b|]|]; [|split; discriminate|tauto].
    destruct (heap V s b); split; discriminate.
  Qed.
  Lemma inv_lookup (s : st) x b : Inv s -> lookup (slots V s) x = Some (Some b) ->
    b < next V s /\ exists d, heap V s b = Some d /\ length d = N /\ observe V s x = Data V d.
  Proof.
    intros [ND I] H. destruct (I x b) as (L & d & E & Ln); [apply lookup_In; exact H|].
    split; [exact L|]. exists d. repeat split; auto. eapply observe_lookup; eauto.
  Qed.
  (** Observations depend on the lookup and the contents of live blocks. *)
  Lemma observe_ext (s s' : st) x y : lookup (slots V s') x = lookup (slots V s) y ->
    (forall b, lookup (slots V s) y = Some (Some b) -> heap V s' b = heap V s b) -> observe V s' x = observe V s y.
  Proof.
    intros H1 H2. unfold observe. rewrite H1. destruct (lookup (slots V s) y) as [[b|]|]; auto. rewrite (H2 b eq_refl). reflexivity.
  Qed.
End P.
