From Coq Require Import List ZArith Lia Bool Arith.
From Verif Require Import Base ArrayModel ArraySpec.
Import ListNotations.

Section P.
  Variable V : Type.
  Notation st := (st V).
  Implicit Types s : st.

  (** * Association lists *)
  Lemma lookup_in l v p : NoDup (map fst l) -> lookup l v = Some p <-> In (v, p) l.
  Proof.
    induction l as [|[w q] l IH]; cbn; intros HN; [split; [discriminate|tauto]|].
    inversion HN as [|? ? Hn HN']; subst. destruct (w =? v) eqn:E.
    - apply Nat.eqb_eq in E; subst. split; intros H.
      + injection H as ->. auto.
      + destruct H as [H|H]; [congruence|]. exfalso. apply Hn. apply in_map_iff. exists (v, p). auto.
    - apply Nat.eqb_neq in E. rewrite IH by assumption. split; [auto|]. intros [H|H]; [congruence|auto].
  Qed.
  Lemma lookup_none l v : lookup l v = None <-> ~ In v (map fst l).
  Proof.
    induction l as [|[w q] l IH]; cbn; [tauto|]. destruct (w =? v) eqn:E.
    - apply Nat.eqb_eq in E. split; [discriminate|]. intros H. exfalso. auto.
    - apply Nat.eqb_neq in E. rewrite IH. tauto.
  Qed.
  Lemma lookup_assign l v p w : lookup l v <> None ->
    lookup (assign l v p) w = if v =? w then Some p else lookup l w.
  Proof.
    induction l as [|[u q] l IH]; cbn; [congruence|]. intros H. destruct (u =? v) eqn:E; cbn.
    - apply Nat.eqb_eq in E; subst. destruct (v =? w) eqn:E2; [reflexivity|]. reflexivity.
    - rewrite IH by assumption. destruct (u =? w) eqn:E2, (v =? w) eqn:E3; try reflexivity.
      apply Nat.eqb_eq in E2, E3. apply Nat.eqb_neq in E. lia.
  Qed.
  Lemma fst_assign l v p : map fst (assign l v p) = map fst l.
  Proof. induction l as [|[u q] l IH]; cbn; [reflexivity|]. destruct (u =? v); cbn; congruence. Qed.
  Lemma assign_split l v old p : lookup l v = Some old -> exists l1 l2, l = l1 ++ (v, old) :: l2 /\
    assign l v p = l1 ++ (v, p) :: l2 /\ remove l v = l1 ++ l2.
  Proof.
    induction l as [|[u q] l IH]; cbn; [discriminate|]. destruct (u =? v) eqn:E.
    - apply Nat.eqb_eq in E; subst. intros H; injection H as ->. exists [], l. auto.
    - intros H. destruct (IH H) as (l1 & l2 & -> & -> & ->). exists ((u, q) :: l1), l2. auto.
  Qed.
  Lemma lookup_remove l v w : NoDup (map fst l) -> lookup (remove l v) w = if v =? w then None else lookup l w.
  Proof.
    induction l as [|[u q] l IH]; cbn; intros HN; [destruct (v =? w); reflexivity|].
    inversion HN as [|? ? Hn HN']; subst. destruct (u =? v) eqn:E; cbn.
    - apply Nat.eqb_eq in E; subst. destruct (v =? w) eqn:E2; [|reflexivity]. apply Nat.eqb_eq in E2; subst.
      apply lookup_none. exact Hn.
    - rewrite IH by assumption. destruct (u =? w) eqn:E2; [|reflexivity]. destruct (v =? w) eqn:E3; [|reflexivity].
      apply Nat.eqb_eq in E2, E3. apply Nat.eqb_neq in E. lia.
  Qed.

  (** * References *)
  Definition nrefs (l : list (nat * option nat)) b := length (filter (points b) l).
  Definition opt (p : option nat) : list nat := match p with Some b => [b] | None => [] end.
  Definition hits (p : option nat) b : nat := match p with Some c => if c =? b then 1 else 0 | None => 0 end.
  Lemma nrefs_app l1 l2 b : nrefs (l1 ++ l2) b = nrefs l1 b + nrefs l2 b.
  Proof. unfold nrefs. now rewrite filter_app, app_length. Qed.
  Lemma nrefs_cons v p l b : nrefs ((v, p) :: l) b = hits p b + nrefs l b.
  Proof. unfold nrefs, hits. cbn [filter]. unfold points at 1. cbn [snd]. destruct p as [c|]; [destruct (c =? b)|]; reflexivity. Qed.
  Lemma nrefs_assign l v old p b : lookup l v = Some old ->
    nrefs (assign l v p) b + hits old b = nrefs l b + hits p b.
  Proof.
    intros H. destruct (assign_split l v old p H) as (l1 & l2 & -> & -> & _).
    rewrite !nrefs_app, !nrefs_cons. lia.
  Qed.
  Lemma nrefs_in l v b : lookup l v = Some (Some b) -> 0 < nrefs l b.
  Proof.
    intros H. destruct (assign_split l v (Some b) None H) as (l1 & l2 & -> & _).
    rewrite nrefs_app, nrefs_cons. unfold hits. rewrite Nat.eqb_refl. lia.
  Qed.
  Lemma nrefs_pos l b : NoDup (map fst l) -> 0 < nrefs l b -> exists v, lookup l v = Some (Some b).
  Proof.
    intros HN. unfold nrefs. intros H. destruct (filter (points b) l) as [|[v p] f] eqn:E; [cbn in H; lia|].
    assert (Hin : In (v, p) (filter (points b) l)) by (rewrite E; cbn; auto).
    apply filter_In in Hin. destruct Hin as [Hin Hp]. unfold points in Hp; cbn in Hp. destruct p as [c|]; [|discriminate].
    apply Nat.eqb_eq in Hp; subst. exists v. now apply lookup_in.
  Qed.
  Definition nstore (l : list nat) b := length (filter (fun c => c =? b) l).
  Lemma nstore_pos l b : 0 < nstore l b <-> In b l.
  Proof.
    unfold nstore. induction l as [|c l IH]; cbn; [split; [lia|tauto]|]. destruct (c =? b) eqn:E.
    - apply Nat.eqb_eq in E. cbn. split; [auto|lia].
    - apply Nat.eqb_neq in E. rewrite IH. tauto.
  Qed.
  Lemma use_count_eq s b : use_count V s b = nrefs (vars V s) b + nstore (store V s) b.
  Proof. reflexivity. Qed.

  (** * Invariant. [X] lists blocks held by C++ temporaries. *)
  Record Inv s (X : list nat) : Prop := {
    i_names : NoDup (map fst (vars V s));
    i_refs : forall b, (0 < nrefs (vars V s) b \/ In b (store V s) \/ In b X) -> heap V s b <> None /\ b < next V s;
    i_store : NoDup (store V s);
    i_disj : forall b, In b (store V s) -> nrefs (vars V s) b = 0 /\ ~ In b X;
    i_live : forall b, heap V s b <> None -> 0 < nrefs (vars V s) b \/ In b (store V s) \/ In b X;
    i_next : forall b, next V s <= b -> heap V s b = None }.

  Lemma inv_init : Inv (init V) [].
  Proof.
    constructor; cbn.
    - constructor.
    - intros b [H|[H|H]]; [unfold nrefs in H; cbn in H; lia|tauto|tauto].
    - constructor.
    - tauto.
    - congruence.
    - reflexivity.
  Qed.

  Lemma inv_ext s X Y : (forall b, In b X <-> In b Y) -> Inv s X -> Inv s Y.
  Proof.
    intros HE [A B C D E F]. constructor; auto.
    - intros b Hb. apply B. rewrite HE. exact Hb.
    - intros b Hb. rewrite <- HE. apply D. exact Hb.
    - intros b Hb. rewrite <- HE. apply E. exact Hb.
  Qed.

  Lemma in_opt p b : In b (opt p) <-> 0 < hits p b.
  Proof.
    destruct p as [c|]; cbn; [|split; [tauto|lia]]. destruct (c =? b) eqn:E.
    - apply Nat.eqb_eq in E. split; [lia|auto].
    - apply Nat.eqb_neq in E. split; [intros [H|H]; [lia|tauto]|lia].
  Qed.

  Lemma inv_dup s X v p : lookup (vars V s) v = Some p -> Inv s X -> Inv s (opt p ++ X).
  Proof.
    intros Hl [A B C D E F].
    assert (Hp : forall b, In b (opt p) -> 0 < nrefs (vars V s) b).
    { intros b Hb. destruct p as [c|]; [|destruct Hb]. destruct Hb as [->|[]]. eapply nrefs_in; eauto. }
    constructor; auto.
    - intros b Hb. apply B. destruct Hb as [Hb|[Hb|Hb]]; auto. apply in_app_iff in Hb. destruct Hb as [Hb|Hb]; auto.
    - intros b Hb. destruct (D b Hb) as [D1 D2]. split; [assumption|]. intros HI. apply in_app_iff in HI.
      destruct HI as [HI|HI]; [|auto]. specialize (Hp b HI). lia.
    - intros b Hb. destruct (E b Hb) as [?|[?|?]]; auto. right; right. apply in_app_iff; auto.
  Qed.

  Lemma inv_assign s X v old p : lookup (vars V s) v = Some old -> Inv s (opt p ++ X) ->
    Inv (set_vars V s (assign (vars V s) v p)) (opt old ++ X).
  Proof.
    intros Hl [A B C D E F].
    assert (HA := fun b => nrefs_assign (vars V s) v old p b Hl).
    assert (HO : forall b, 0 < hits old b -> 0 < nrefs (vars V s) b).
    { intros b Hb. destruct old as [c|]; cbn in Hb; [|lia]. destruct (c =? b) eqn:Ec; [|lia]. apply Nat.eqb_eq in Ec; subst.
      eapply nrefs_in; eauto. }
    constructor; cbn [vars heap next store set_vars].
    - now rewrite fst_assign.
    - intros b Hb. apply B. specialize (HA b). rewrite in_app_iff in *. rewrite in_opt in *.
      destruct Hb as [Hb|[Hb|[Hb|Hb]]]; auto.
      destruct (Nat.eq_dec (hits p b) 0); [left; lia|]. right; right; left; lia.
    - exact C.
    - intros b Hb. destruct (D b Hb) as [D1 D2]. specialize (HA b). specialize (HO b). rewrite in_app_iff in *. rewrite in_opt in *.
      split; [lia|]. intros [HI|HI]; [|tauto]. lia.
    - intros b Hb. specialize (HA b). rewrite in_app_iff in *. rewrite in_opt in *.
      destruct (E b Hb) as [HE|[HE|HE]]; auto.
      + destruct (Nat.eq_dec (hits old b) 0); [left; lia|]. right; right; left; lia.
      + rewrite in_app_iff, in_opt in HE. destruct HE as [HE|HE]; auto.
        destruct (Nat.eq_dec (hits old b) 0); [left; lia|]. right; right; left; lia.
    - exact F.
  Qed.

  Lemma inv_newvar s X v p : lookup (vars V s) v = None -> Inv s (opt p ++ X) ->
    Inv (set_vars V s ((v, p) :: vars V s)) X.
  Proof.
    intros Hl [A B C D E F]. constructor; cbn [vars heap next store set_vars].
    - cbn. constructor; [now apply lookup_none|assumption].
    - intros b Hb. rewrite nrefs_cons in Hb. apply B. rewrite in_app_iff, in_opt. destruct Hb as [Hb|[Hb|Hb]]; auto. lia.
    - exact C.
    - intros b Hb. destruct (D b Hb) as [D1 D2]. rewrite nrefs_cons. rewrite in_app_iff, in_opt in D2.
      split; [|tauto]. lia.
    - intros b Hb. rewrite nrefs_cons. destruct (E b Hb) as [HE|[HE|HE]]; auto; [left; lia|].
      rewrite in_app_iff, in_opt in HE. destruct HE as [HE|HE]; auto. left; lia.
    - exact F.
  Qed.

  Lemma inv_remove s X v : lookup (vars V s) v = Some None -> Inv s X ->
    Inv (set_vars V s (remove (vars V s) v)) X.
  Proof.
    intros Hl [A B C D E F]. destruct (assign_split (vars V s) v None None Hl) as (l1 & l2 & E1 & _ & E3).
    assert (HR : forall b, nrefs (remove (vars V s) v) b = nrefs (vars V s) b).
    { intros b. rewrite E3, E1, !nrefs_app, nrefs_cons. reflexivity. }
    constructor; cbn [vars heap next store set_vars]; auto.
    - rewrite E3. rewrite E1 in A. rewrite map_app in *. cbn in A. now apply NoDup_remove_1 in A.
    - intros b. rewrite HR. apply B.
    - intros b. rewrite HR. apply D.
    - intros b. rewrite HR. apply E.
  Qed.

  Lemma inv_drop s X b : ~ In b X -> Inv s (b :: X) -> Inv (drop_ref V s b) X.
  Proof.
    intros HX [A B C D E F]. unfold drop_ref. rewrite use_count_eq.
    destruct (nrefs (vars V s) b + nstore (store V s) b =? 0) eqn:EC.
    - apply Nat.eqb_eq in EC.
      assert (Hns : ~ In b (store V s)) by (rewrite <- nstore_pos; lia).
      destruct (use_store V s).
      + constructor; cbn [vars heap next store]; auto.
        * intros c Hc. apply B. cbn in *. tauto.
        * constructor; assumption.
        * intros c [<-|Hc]; [split; [lia|assumption]|]. destruct (D c Hc) as [D1 D2]. split; [assumption|]. cbn in D2; tauto.
        * intros c Hc. destruct (E c Hc) as [HE|[HE|[HE|HE]]]; cbn; auto.
      + constructor; cbn [vars heap next store]; auto.
        * intros c Hc. unfold upd_heap. destruct (c =? b) eqn:E2.
          -- apply Nat.eqb_eq in E2; subst. exfalso. destruct Hc as [Hc|[Hc|Hc]]; [lia|tauto|tauto].
          -- apply B. cbn. tauto.
        * intros c Hc. destruct (D c Hc) as [D1 D2]. split; [assumption|]. cbn in D2; tauto.
        * intros c. unfold upd_heap. destruct (c =? b) eqn:E2; [congruence|]. apply Nat.eqb_neq in E2.
          intros Hc. destruct (E c Hc) as [HE|[HE|[HE|HE]]]; auto. congruence.
        * intros c Hc. unfold upd_heap. destruct (c =? b); auto.
    - apply Nat.eqb_neq in EC. constructor; auto.
      + intros c Hc. apply B. cbn. tauto.
      + intros c Hc. destruct (D c Hc) as [D1 D2]. split; [assumption|]. cbn in D2; tauto.
      + intros c Hc. destruct (E c Hc) as [HE|[HE|[HE|HE]]]; auto. subst c.
        destruct (Nat.eq_dec (nrefs (vars V s) b) 0); [right; left; apply nstore_pos; lia|left; lia].
  Qed.

  Lemma observe_drop s b w : observe V (drop_ref V s b) w = observe V s w.
  Proof.
    unfold drop_ref. rewrite use_count_eq. destruct (_ =? 0) eqn:EC; [|reflexivity]. apply Nat.eqb_eq in EC.
    destruct (use_store V s); [reflexivity|]. unfold observe. cbn [vars heap].
    destruct (lookup (vars V s) w) as [[c|]|] eqn:El; try reflexivity.
    unfold upd_heap. destruct (c =? b) eqn:E; [|reflexivity]. apply Nat.eqb_eq in E; subst.
    apply nrefs_in in El. lia.
  Qed.
  Lemma vars_drop s b : vars V (drop_ref V s b) = vars V s.
  Proof. unfold drop_ref. destruct (_ =? 0); [destruct (use_store V s)|]; reflexivity. Qed.

  Lemma take_stored_spec h : forall l len b r, take_stored V h l len = Some (b, r) ->
    exists l1 l2, l = l1 ++ b :: l2 /\ r = l1 ++ l2 /\ exists d, h b = Some d /\ length d = len.
  Proof.
    induction l as [|c l IH]; intros len b r H; cbn in H; [discriminate|].
    destruct (match h c with Some d => length d =? len | None => false end) eqn:E.
    - injection H as <- <-. destruct (h c) as [d|] eqn:Eh; [|discriminate]. apply Nat.eqb_eq in E.
      exists [], l. repeat split; eauto.
    - destruct (take_stored V h l len) as [[b' r']|] eqn:Et; [|discriminate]. injection H as <- <-.
      destruct (IH _ _ _ Et) as (l1 & l2 & -> & -> & Hd). exists (c :: l1), l2. auto.
  Qed.

  Lemma inv_get s X len j b s1 : Inv s X -> get V s len j = (b, s1) ->
    Inv s1 (b :: X) /\ vars V s1 = vars V s /\ nrefs (vars V s) b = 0 /\ ~ In b (store V s1) /\ ~ In b X /\
    (exists d, heap V s1 b = Some d /\ length d = len) /\ (forall c, c <> b -> heap V s1 c = heap V s c).
  Proof.
    intros [A B C D E F] H. unfold get in H. destruct (take_stored V (heap V s) (store V s) len) as [[c r]|] eqn:Et.
    - injection H as <- <-. apply take_stored_spec in Et. destruct Et as (l1 & l2 & E1 & -> & d & Hd & Hl).
      assert (Hc : In c (store V s)) by (rewrite E1; apply in_or_app; cbn; auto).
      assert (HI : forall x, In x (store V s) <-> x = c \/ In x (l1 ++ l2)).
      { intros x. rewrite E1, !in_app_iff. cbn. intuition. }
      assert (Hnc : ~ In c (l1 ++ l2)) by (rewrite E1 in C; now apply NoDup_remove_2 in C).
      destruct (D c Hc) as [Dc1 Dc2]. split; [|cbn [vars store heap]; repeat split; eauto].
      constructor; cbn [vars heap next store]; auto.
      + intros x Hx. apply B. rewrite HI. cbn in Hx. intuition.
      + rewrite E1 in C. now apply NoDup_remove_1 in C.
      + intros x Hx. destruct (D x) as [D1 D2]; [rewrite HI; auto|]. split; [assumption|]. intros [->|Hy]; auto.
      + intros x Hx. destruct (E x Hx) as [HE|[HE|HE]]; cbn; auto. rewrite HI in HE. destruct HE; subst; auto.
    - injection H as <- <-.
      assert (Hn : heap V s (next V s) = None) by (apply F; lia).
      assert (Hz : nrefs (vars V s) (next V s) = 0).
      { destruct (Nat.eq_dec (nrefs (vars V s) (next V s)) 0); [assumption|]. exfalso. destruct (B (next V s)); [left; lia|lia]. }
      assert (Hs : ~ In (next V s) (store V s)) by (intros HI; destruct (B (next V s)); [auto|lia]).
      assert (Hx : ~ In (next V s) X) by (intros HI; destruct (B (next V s)); [auto|lia]).
      split.
      + constructor; cbn [vars heap next store]; auto.
        * intros x Hb. unfold upd_heap. destruct (x =? next V s) eqn:E2.
          -- apply Nat.eqb_eq in E2. split; [congruence|lia].
          -- apply Nat.eqb_neq in E2. destruct (B x) as [B1 B2]; [cbn in Hb; intuition congruence|]. split; [assumption|lia].
        * intros x Hb. destruct (D x Hb) as [D1 D2]. split; [assumption|]. intros [<-|Hy]; auto.
        * intros x. unfold upd_heap. destruct (x =? next V s) eqn:E2.
          -- apply Nat.eqb_eq in E2; subst. cbn; auto.
          -- intros Hb. destruct (E x Hb) as [HE|[HE|HE]]; cbn; auto.
        * intros x Hb. unfold upd_heap. destruct (x =? next V s) eqn:E2; [apply Nat.eqb_eq in E2; lia|]. apply F; lia.
      + cbn [vars store heap]. repeat split; auto.
        * exists (map j (seq 0 len)). unfold upd_heap. rewrite Nat.eqb_refl, map_length, seq_length. auto.
        * intros c Hc. unfold upd_heap. apply Nat.eqb_neq in Hc. now rewrite Hc.
  Qed.

  Lemma observe_get s X len j b s1 w : Inv s X -> get V s len j = (b, s1) -> observe V s1 w = observe V s w.
  Proof.
    intros HI HG. destruct (inv_get s X len j b s1 HI HG) as (_ & Hv & Hz & _ & _ & _ & Hh).
    unfold observe. rewrite Hv. destruct (lookup (vars V s) w) as [[c|]|] eqn:El; try reflexivity.
    rewrite Hh; [reflexivity|]. intros ->. apply nrefs_in in El. lia.
  Qed.

  Definition obs_ptr s (p : option nat) : view V :=
    match p with None => Empty V | Some b => match heap V s b with Some d => Data V d | None => Dangling V end end.
  Lemma observe_lookup s v p : lookup (vars V s) v = Some p -> observe V s v = obs_ptr s p.
  Proof. intros H. unfold observe. rewrite H. reflexivity. Qed.
  Lemma observe_assign s v p w : lookup (vars V s) v <> None ->
    observe V (set_vars V s (assign (vars V s) v p)) w = if v =? w then obs_ptr s p else observe V s w.
  Proof.
    intros H. unfold observe. cbn [vars set_vars heap]. rewrite lookup_assign by assumption.
    destruct (v =? w); reflexivity.
  Qed.
  Lemma observe_cons s v p w : 
    observe V (set_vars V s ((v, p) :: vars V s)) w = if v =? w then obs_ptr s p else observe V s w.
  Proof. unfold observe. cbn [vars set_vars heap lookup]. destruct (v =? w); reflexivity. Qed.
  Lemma alive_lookup s v : alive V (observe V s) v <-> lookup (vars V s) v <> None.
  Proof.
    unfold alive, observe. destruct (lookup (vars V s) v) as [[c|]|]; [destruct (heap V s c)|..]; split; congruence.
  Qed.
  Lemma not_alive_lookup s v : ~ alive V (observe V s) v <-> lookup (vars V s) v = None.
  Proof. rewrite alive_lookup. destruct (lookup (vars V s) v); split; try congruence. intros H; exfalso; apply H; discriminate. Qed.

  Lemma inv_release s X v p : lookup (vars V s) v = Some p -> (forall b, p = Some b -> ~ In b X) -> Inv s X ->
    Inv (release V s v) X /\ lookup (vars V (release V s v)) v = Some None /\
    (forall w, observe V (release V s v) w = if v =? w then Empty V else observe V s w).
  Proof.
    intros Hl HX HI. unfold release. rewrite Hl. destruct p as [b|].
    - assert (HI2 : Inv (set_vars V s (assign (vars V s) v None)) (b :: X)).
      { apply (inv_assign s X v (Some b) None Hl). exact HI. }
      split; [apply inv_drop; [apply HX; reflexivity|assumption]|]. split.
      + rewrite vars_drop. cbn [vars set_vars]. rewrite lookup_assign by congruence. now rewrite Nat.eqb_refl.
      + intros w. rewrite observe_drop, observe_assign by congruence. destruct (v =? w); reflexivity.
    - split; [assumption|]. split; [assumption|]. intros w. destruct (v =? w) eqn:E; [|reflexivity].
      apply Nat.eqb_eq in E; subst. now rewrite (observe_lookup s w None).
  Qed.

  Lemma vec_set_spec {A} : forall (d : list A) i x, i < length d ->
    exists d1 y d2, d = d1 ++ y :: d2 /\ length d1 = i /\ vec_set d i x = Some (d1 ++ x :: d2).
  Proof.
    induction d as [|a d IH]; intros i x Hi; cbn in Hi; [lia|]. destruct i as [|i].
    - exists [], a, d. auto.
    - destruct (IH i x ltac:(lia)) as (d1 & y & d2 & -> & <- & E). exists (a :: d1), y, d2. cbn. now rewrite E.
  Qed.

  Lemma inv_set_heap s X b d d' : Inv s X -> heap V s b = Some d ->
    Inv (mkSt V (vars V s) (upd_heap V (heap V s) b (Some d')) (next V s) (store V s) (use_store V s)) X.
  Proof.
    intros [A B C D E F] Hb. constructor; cbn [vars heap next store]; auto.
    - intros c Hc. unfold upd_heap. destruct (B c Hc). destruct (c =? b); split; auto; congruence.
    - intros c Hc. apply E. unfold upd_heap in Hc. destruct (c =? b) eqn:E2; [|assumption]. apply Nat.eqb_eq in E2; subst. congruence.
    - intros c Hc. unfold upd_heap. destruct (c =? b) eqn:E2; [|auto]. apply Nat.eqb_eq in E2; subst.
      rewrite F in Hb by assumption. discriminate.
  Qed.

  (** When [v]'s block has use count one, no other Array points to it. *)
  Lemma unique_only s v b w : Inv s [] -> lookup (vars V s) v = Some (Some b) -> use_count V s b = 1 ->
    w <> v -> lookup (vars V s) w <> Some (Some b).
  Proof.
    intros HI Hv Hu Hw Hc. rewrite use_count_eq in Hu.
    pose proof (nrefs_assign (vars V s) v (Some b) None b Hv) as HA. cbn in HA. rewrite Nat.eqb_refl in HA.
    assert (Hc' : lookup (assign (vars V s) v None) w = Some (Some b)).
    { rewrite lookup_assign by congruence. destruct (v =? w) eqn:E; [apply Nat.eqb_eq in E; congruence|assumption]. }
    apply nrefs_in in Hc', Hv. lia.
  Qed.

  Lemma heap_of_ref s X v b : Inv s X -> lookup (vars V s) v = Some (Some b) -> exists d, heap V s b = Some d.
  Proof.
    intros HI Hl. destruct (i_refs s X HI b) as [H _]; [left; eapply nrefs_in; eauto|].
    destruct (heap V s b) as [d|]; [eauto|congruence].
  Qed.

  Definition ok_write s (o : op V) : Prop := match o with OWrite _ v _ _ => unique V s v = true | _ => True end.

  Lemma step_ok s o : Inv s [] -> legal V (observe V s) o -> ok_write s o ->
    exists s', step V s o = Ok s' /\ Inv s' [] /\ effect V (observe V s) o (observe V s').
  Proof.
    intros HI HL HW. destruct o as [v|v len j|v w|v w|v w|v w|v w|v len j|v|v|v j|v i x| |]; cbn [legal step effect ok_write] in *.
    - (* ONewEmpty *) apply not_alive_lookup in HL. eexists; split; [reflexivity|]. split; [apply inv_newvar; assumption|].
      split; [rewrite observe_cons, Nat.eqb_refl; reflexivity|]. intros w Hw. rewrite observe_cons.
      destruct (v =? w) eqn:E; [apply Nat.eqb_eq in E; subst; exfalso; apply Hw; cbn; auto|reflexivity].
    - (* ONew *) apply not_alive_lookup in HL. destruct (get V s len j) as [b s1] eqn:EG.
      destruct (inv_get s [] len j b s1 HI EG) as (H1 & H2 & H3 & H4 & H5 & (d & H6 & H6') & H7).
      eexists; split; [reflexivity|]. split; [apply inv_newvar; [rewrite H2; assumption|assumption]|].
      split; [exists d; rewrite observe_cons, Nat.eqb_refl; cbn; rewrite H6; auto|].
      intros w Hw. rewrite observe_cons. destruct (v =? w) eqn:E; [apply Nat.eqb_eq in E; subst; exfalso; apply Hw; cbn; auto|].
      eapply observe_get; eauto.
    - (* OCopy *) destruct HL as [Hv Hw]. apply not_alive_lookup in Hv. apply alive_lookup in Hw.
      destruct (lookup (vars V s) w) as [p|] eqn:El; [|congruence].
      eexists; split; [reflexivity|]. split; [apply inv_newvar; [assumption|]; eapply inv_dup; eauto|].
      split; [rewrite observe_cons, Nat.eqb_refl; symmetry; now apply observe_lookup|].
      intros u Hu. rewrite observe_cons. destruct (v =? u) eqn:E; [apply Nat.eqb_eq in E; subst; exfalso; apply Hu; cbn; auto|reflexivity].
    - (* OMoveNew *) destruct HL as [Hv Hw]. apply not_alive_lookup in Hv. apply alive_lookup in Hw.
      destruct (lookup (vars V s) w) as [p|] eqn:El; [|congruence].
      assert (Hvw : v <> w) by congruence.
      assert (Hl2 : lookup (assign (vars V s) w None) v = None).
      { rewrite lookup_assign by congruence. destruct (w =? v) eqn:E; [apply Nat.eqb_eq in E; congruence|assumption]. }
      eexists; split; [reflexivity|]. split.
      + change (set_vars V s ((v, p) :: assign (vars V s) w None))
          with (set_vars V (set_vars V s (assign (vars V s) w None)) ((v, p) :: vars V (set_vars V s (assign (vars V s) w None)))).
        apply inv_newvar; [exact Hl2|]. eapply inv_assign; eauto.
      + change (set_vars V s ((v, p) :: assign (vars V s) w None))
          with (set_vars V (set_vars V s (assign (vars V s) w None)) ((v, p) :: vars V (set_vars V s (assign (vars V s) w None)))).
        split; [|split].
        * rewrite observe_cons, Nat.eqb_refl. symmetry. rewrite (observe_lookup s w p El). reflexivity.
        * rewrite observe_cons. destruct (v =? w) eqn:E; [apply Nat.eqb_eq in E; congruence|].
          rewrite observe_assign by congruence. now rewrite Nat.eqb_refl.
        * intros u Hu. rewrite observe_cons. destruct (v =? u) eqn:E; [apply Nat.eqb_eq in E; subst; exfalso; apply Hu; cbn; auto|].
          rewrite observe_assign by congruence. destruct (w =? u) eqn:E2; [apply Nat.eqb_eq in E2; subst; exfalso; apply Hu; cbn; auto|reflexivity].
    - (* OAssign *) destruct HL as [Hv Hw]. apply alive_lookup in Hv, Hw.
      destruct (lookup (vars V s) v) as [old|] eqn:Elv; [|congruence].
      destruct (lookup (vars V s) w) as [p|] eqn:El; [|congruence].
      eexists; split; [reflexivity|].
      assert (HI1 : Inv (set_vars V s (assign (vars V s) v p)) (opt old ++ [])) by (apply inv_assign; [assumption|]; eapply inv_dup; eauto).
      assert (HO : forall u, observe V (set_vars V s (assign (vars V s) v p)) u = if v =? u then observe V s w else observe V s u).
      { intros u. rewrite observe_assign by congruence. rewrite (observe_lookup s w p El). reflexivity. }
      assert (HE : forall s', (forall u, observe V s' u = observe V (set_vars V s (assign (vars V s) v p)) u) ->
         observe V s' v = observe V s w /\ others_same V [v] (observe V s) (observe V s')).
      { intros s' Hs'. split; [rewrite Hs', HO, Nat.eqb_refl; reflexivity|]. intros u Hu. rewrite Hs', HO.
        destruct (v =? u) eqn:E; [apply Nat.eqb_eq in E; subst; exfalso; apply Hu; cbn; auto|reflexivity]. }
      destruct old as [b|].
      + split; [apply inv_drop; [tauto|exact HI1]|]. apply HE. intros; apply observe_drop.
      + split; [exact HI1|]. apply HE. reflexivity.
    - (* OMoveAssign *) destruct HL as [Hv Hw]. apply alive_lookup in Hv, Hw.
      destruct (lookup (vars V s) w) as [p|] eqn:El; [|congruence].
      set (s0 := set_vars V s (assign (vars V s) w None)).
      assert (HI0 : Inv s0 (opt p ++ [])) by (eapply inv_assign; eauto).
      assert (Hl0 : lookup (vars V s0) v <> None).
      { unfold s0; cbn [vars set_vars]. rewrite lookup_assign by congruence. destruct (w =? v); congruence. }
      destruct (lookup (vars V s0) v) as [old|] eqn:Elv; [|congruence].
      eexists; split; [reflexivity|].
      assert (HI1 : Inv (set_vars V s0 (assign (vars V s0) v p)) (opt old ++ [])) by (apply inv_assign; assumption).
      assert (HO : forall u, observe V (set_vars V s0 (assign (vars V s0) v p)) u
         = if v =? u then observe V s w else if w =? u then Empty V else observe V s u).
      { intros u. rewrite observe_assign by congruence. unfold s0. rewrite observe_assign by congruence.
        rewrite (observe_lookup s w p El). reflexivity. }
      assert (HE : forall s', (forall u, observe V s' u = observe V (set_vars V s0 (assign (vars V s0) v p)) u) ->
         (v <> w -> observe V s' v = observe V s w /\ observe V s' w = Empty V) /\ (v = w -> observe V s' v = observe V s v) /\
         others_same V [v; w] (observe V s) (observe V s')).
      { intros s' Hs'. split; [|split].
        - intros Hne. rewrite !Hs', !HO, !Nat.eqb_refl. split; [reflexivity|]. apply Nat.eqb_neq in Hne. now rewrite Hne.
        - intros ->. rewrite Hs', HO, Nat.eqb_refl. reflexivity.
        - intros u Hu. rewrite Hs', HO. cbn in Hu. destruct (v =? u) eqn:E; [apply Nat.eqb_eq in E; tauto|].
          destruct (w =? u) eqn:E2; [apply Nat.eqb_eq in E2; tauto|reflexivity]. }
      destruct old as [b|].
      + split; [apply inv_drop; [tauto|exact HI1]|]. apply HE. intros; apply observe_drop.
      + split; [exact HI1|]. apply HE. reflexivity.
    - (* OSwap *) destruct HL as [Hv Hw]. apply alive_lookup in Hv, Hw.
      destruct (lookup (vars V s) v) as [p|] eqn:Elv; [|congruence].
      destruct (lookup (vars V s) w) as [q|] eqn:Elw; [|congruence].
      eexists; split; [reflexivity|].
      set (s0 := set_vars V s (assign (vars V s) v q)).
      change (set_vars V s (assign (assign (vars V s) v q) w p)) with (set_vars V s0 (assign (vars V s0) w p)).
      assert (HI0 : Inv s0 (opt p ++ [])) by (apply inv_assign; [assumption|]; eapply inv_dup; eauto).
      assert (Hlw : lookup (vars V s0) w = Some q).
      { unfold s0; cbn [vars set_vars]. rewrite lookup_assign by congruence. destruct (v =? w); congruence. }
      split.
      + assert (HI1 : Inv (set_vars V s0 (assign (vars V s0) w p)) (opt q ++ [])) by (apply inv_assign; assumption).
        (* the temporary reference to q coincides with v's (or w's) own reference *)
        destruct HI1 as [A B C D E F]. constructor; auto.
        * intros b Hb. apply B. rewrite in_app_iff. cbn in Hb |- *. tauto.
        * intros b Hb. destruct (D b Hb). split; [assumption|tauto].
        * intros b Hb. destruct (E b Hb) as [HE|[HE|HE]]; auto. rewrite app_nil_r in HE. left.
          destruct q as [c|]; [|destruct HE]. destruct HE as [->|[]].
          destruct (Nat.eq_dec v w) as [->|Hne].
          -- assert (p = Some b) by congruence. subst p. apply (nrefs_in _ w). cbn [vars set_vars s0].
             rewrite lookup_assign; [now rewrite Nat.eqb_refl|]. rewrite lookup_assign by congruence. rewrite Nat.eqb_refl. discriminate.
          -- apply (nrefs_in _ v). cbn [vars set_vars s0]. rewrite lookup_assign.
             ++ destruct (w =? v) eqn:E2; [apply Nat.eqb_eq in E2; congruence|]. rewrite lookup_assign by congruence. now rewrite Nat.eqb_refl.
             ++ rewrite lookup_assign by congruence. destruct (v =? w); congruence.
      + assert (HO : forall u, observe V (set_vars V s0 (assign (vars V s0) w p)) u
         = if w =? u then observe V s v else if v =? u then observe V s w else observe V s u).
        { intros u. rewrite observe_assign by congruence. unfold s0. rewrite observe_assign by congruence.
          rewrite (observe_lookup s w q Elw), (observe_lookup s v p Elv). reflexivity. }
        split; [|split].
        * rewrite HO. destruct (w =? v) eqn:E; [apply Nat.eqb_eq in E; subst; reflexivity|]. now rewrite Nat.eqb_refl.
        * rewrite HO. now rewrite Nat.eqb_refl.
        * intros u Hu. rewrite HO. cbn in Hu. destruct (w =? u) eqn:E; [apply Nat.eqb_eq in E; tauto|].
          destruct (v =? u) eqn:E2; [apply Nat.eqb_eq in E2; tauto|reflexivity].
    - (* ORealloc *) apply alive_lookup in HL. destruct (lookup (vars V s) v) as [p|] eqn:Elv; [|congruence].
      destruct (inv_release s [] v p Elv ltac:(intros ? ? []) HI) as (HI1 & Hl1 & HO1).
      destruct (get V (release V s v) len j) as [b s2] eqn:EG.
      destruct (inv_get _ [] len j b s2 HI1 EG) as (H1 & H2 & H3 & H4 & H5 & (d & H6 & H6') & H7).
      eexists; split; [reflexivity|]. split.
      + apply (inv_assign s2 [] v None (Some b)); [rewrite H2; assumption|assumption].
      + assert (HO : forall u, observe V (set_vars V s2 (assign (vars V s2) v (Some b))) u = if v =? u then Data V d else observe V s u).
        { intros u. rewrite observe_assign by (rewrite H2; congruence). cbn [obs_ptr]. rewrite H6. destruct (v =? u) eqn:E; [reflexivity|].
          rewrite (observe_get _ [] len j b s2 u HI1 EG), HO1, E. reflexivity. }
        split; [exists d; rewrite HO, Nat.eqb_refl; auto|]. intros u Hu. rewrite HO.
        destruct (v =? u) eqn:E; [apply Nat.eqb_eq in E; subst; exfalso; apply Hu; cbn; auto|reflexivity].
    - (* OClear *) apply alive_lookup in HL. destruct (lookup (vars V s) v) as [p|] eqn:Elv; [|congruence].
      destruct (inv_release s [] v p Elv ltac:(intros ? ? []) HI) as (HI1 & Hl1 & HO1).
      eexists; split; [reflexivity|]. split; [assumption|]. split; [rewrite HO1, Nat.eqb_refl; reflexivity|].
      intros u Hu. rewrite HO1. destruct (v =? u) eqn:E; [apply Nat.eqb_eq in E; subst; exfalso; apply Hu; cbn; auto|reflexivity].
    - (* ODestroy *) apply alive_lookup in HL. destruct (lookup (vars V s) v) as [p|] eqn:Elv; [|congruence].
      destruct (inv_release s [] v p Elv ltac:(intros ? ? []) HI) as (HI1 & Hl1 & HO1).
      eexists; split; [reflexivity|]. split; [apply inv_remove; assumption|].
      assert (HO : forall u, observe V (set_vars V (release V s v) (remove (vars V (release V s v)) v)) u
          = if v =? u then NoVar V else observe V s u).
      { intros u. unfold observe at 1. cbn [vars set_vars heap]. rewrite lookup_remove by (apply (i_names _ _ HI1)).
        destruct (v =? u) eqn:E; [reflexivity|]. fold (observe V (release V s v) u). rewrite HO1, E. reflexivity. }
      split; [rewrite HO, Nat.eqb_refl; reflexivity|].
      intros u Hu. rewrite HO. destruct (v =? u) eqn:E; [apply Nat.eqb_eq in E; subst; exfalso; apply Hu; cbn; auto|reflexivity].
    - (* OEnsureUnique *) apply alive_lookup in HL. destruct (lookup (vars V s) v) as [[b|]|] eqn:Elv; [| |congruence].
      2:{ eexists; split; [reflexivity|]. split; [assumption|]. intros u _. reflexivity. }
      destruct (use_count V s b =? 1) eqn:EU.
      { eexists; split; [reflexivity|]. split; [assumption|]. intros u _. reflexivity. }
      destruct (heap_of_ref s [] v b HI Elv) as (d & Hd). rewrite Hd.
      destruct (get V s (length d) j) as [p s1] eqn:EG.
      destruct (inv_get s [] (length d) j p s1 HI EG) as (H1 & H2 & H3 & H4 & H5 & (d' & H6 & H6') & H7).
      assert (Hbp : b <> p) by (intros ->; apply nrefs_in in Elv; lia).
      rewrite (H7 b Hbp), Hd, H6, H6', Nat.eqb_refl. cbn [negb].
      eexists; split; [reflexivity|].
      set (s2 := mkSt V (vars V s1) (upd_heap V (heap V s1) p (Some d)) (next V s1) (store V s1) (use_store V s1)).
      assert (HI2 : Inv s2 [p]) by (eapply inv_set_heap; eauto).
      assert (Hl2 : lookup (vars V s2) v = Some (Some b)) by (cbn [vars s2]; rewrite H2; assumption).
      destruct (inv_release s2 [p] v (Some b) Hl2 ltac:(intros c Hc [He|[]]; congruence) HI2) as (HI3 & Hl3 & HO3).
      assert (Hp3 : heap V (release V s2 v) p = Some d).
      { unfold release. rewrite Hl2. unfold drop_ref. destruct (_ =? 0); [destruct (use_store _ _)|]; cbn [heap set_vars s2];
          unfold upd_heap; rewrite ?Nat.eqb_refl; try reflexivity. apply Nat.neq_sym, Nat.eqb_neq in Hbp. now rewrite Hbp. }
      split; [apply (inv_assign _ [] v None (Some p)); assumption|].
      intros u _. rewrite observe_assign by congruence. cbn [obs_ptr]. rewrite Hp3. destruct (v =? u) eqn:E.
      + apply Nat.eqb_eq in E; subst. rewrite (observe_lookup s u _ Elv). cbn [obs_ptr]. now rewrite Hd.
      + rewrite HO3, E. rewrite <- (observe_get s [] _ j p s1 u HI EG). unfold observe. cbn [vars heap s2].
        destruct (lookup (vars V s1) u) as [[c|]|] eqn:El; try reflexivity.
        unfold upd_heap. destruct (c =? p) eqn:Ec; [|reflexivity]. apply Nat.eqb_eq in Ec; subst.
        rewrite H2 in El. apply nrefs_in in El. lia.
    - (* OWrite *) destruct HL as (d & Hd & Hi). unfold unique in HW.
      destruct (lookup (vars V s) v) as [[b|]|] eqn:Elv; try discriminate. apply Nat.eqb_eq in HW.
      rewrite (observe_lookup s v _ Elv) in Hd. cbn in Hd. destruct (heap V s b) as [d0|] eqn:Eh; [|discriminate].
      injection Hd as ->. destruct (vec_set_spec d i x Hi) as (d1 & y & d2 & E1 & E2 & E3). rewrite E3. cbn [ofopt bind].
      eexists; split; [reflexivity|]. split; [eapply inv_set_heap; eauto|]. split.
      + exists d1, y, d2. repeat split; auto.
        * rewrite (observe_lookup s v _ Elv). cbn. rewrite Eh. congruence.
        * unfold observe. cbn [vars heap]. rewrite Elv. unfold upd_heap. now rewrite Nat.eqb_refl.
      + intros u Hu. unfold observe. cbn [vars heap]. destruct (lookup (vars V s) u) as [[c|]|] eqn:El; try reflexivity.
        unfold upd_heap. destruct (c =? b) eqn:Ec; [|reflexivity]. apply Nat.eqb_eq in Ec; subst.
        exfalso. apply (unique_only s v b u HI Elv HW); [intros ->; apply Hu; cbn; auto|assumption].
    - (* OCleanup *) eexists; split; [reflexivity|]. destruct HI as [A B C D E F].
      assert (HX : forall b, existsb (Nat.eqb b) (store V s) = true <-> In b (store V s)).
      { intros b. rewrite existsb_exists. split; [intros (c & Hc & He); apply Nat.eqb_eq in He; now subst|].
        intros Hb. exists b. split; [assumption|apply Nat.eqb_refl]. }
      split.
      + constructor; cbn [vars heap next store]; auto.
        * intros b Hb. destruct Hb as [Hb|[[]|[]]].
          destruct (existsb (Nat.eqb b) (store V s)) eqn:EX; [apply HX in EX; destruct (D b EX); lia|]. apply B; auto.
        * constructor.
        * intros b [].
        * intros b. destruct (existsb (Nat.eqb b) (store V s)) eqn:EX; [congruence|]. intros Hb. destruct (E b Hb) as [HE|[HE|HE]]; auto.
          apply HX in HE. congruence.
        * intros b Hb. destruct (existsb _ _); auto.
      + intros u _. unfold observe; cbn [vars heap]. destruct (lookup (vars V s) u) as [[c|]|] eqn:El; try reflexivity.
        destruct (existsb (Nat.eqb c) (store V s)) eqn:EX; [|reflexivity]. apply HX in EX. destruct (D c EX).
        apply nrefs_in in El. lia.
    - (* OUseStoreFalse *) eexists; split; [reflexivity|]. split; [destruct HI; constructor; auto|]. intros u _. reflexivity.
  Qed.

  (** Histories: each operation is legal (and writes go through a unique Array) in the state where it is issued. *)
  Inductive legal_run : st -> list (op V) -> Prop :=
  | lr_nil s : legal_run s []
  | lr_cons s o os : legal V (observe V s) o -> ok_write s o ->
      (forall s', step V s o = Ok s' -> legal_run s' os) -> legal_run s (o :: os).

  Lemma run_ok os : forall s, Inv s [] -> legal_run s os -> exists s', run V s os = Ok s' /\ Inv s' [].
  Proof.
    induction os as [|o os IH]; intros s HI HL; [eexists; split; [reflexivity|assumption]|].
    inversion HL as [|? ? ? H1 H2 H3]; subst. destruct (step_ok s o HI H1 H2) as (s1 & E & HI1 & _).
    cbn [run]. rewrite E. cbn [bind]. apply IH; auto.
  Qed.

  Lemma ensure_unique_unique s v j : Inv s [] -> (exists d, observe V s v = Data V d) ->
    exists s', step V s (OEnsureUnique V v j) = Ok s' /\ unique V s' v = true.
  Proof.
    intros HI (d & Hd). unfold observe in Hd. destruct (lookup (vars V s) v) as [[b|]|] eqn:Elv; try discriminate.
    destruct (heap V s b) as [d0|] eqn:Hb; [|discriminate].
    cbn [step]. rewrite Elv. destruct (use_count V s b =? 1) eqn:EU.
    { eexists; split; [reflexivity|]. unfold unique. now rewrite Elv, EU. }
    rewrite Hb. destruct (get V s (length d0) j) as [p s1] eqn:EG.
    destruct (inv_get s [] (length d0) j p s1 HI EG) as (H1 & H2 & H3 & H4 & H5 & (d' & H6 & H6') & H7).
    assert (Hbp : b <> p) by (intros ->; apply nrefs_in in Elv; lia).
    rewrite (H7 b Hbp), Hb, H6, H6', Nat.eqb_refl. cbn [negb].
    eexists; split; [reflexivity|].
    set (s2 := mkSt V (vars V s1) (upd_heap V (heap V s1) p (Some d0)) (next V s1) (store V s1) (use_store V s1)).
    assert (HI2 : Inv s2 [p]) by (eapply inv_set_heap; eauto).
    assert (Hl2 : lookup (vars V s2) v = Some (Some b)) by (cbn [vars s2]; rewrite H2; assumption).
    destruct (inv_release s2 [p] v (Some b) Hl2 ltac:(intros c Hc [He|[]]; congruence) HI2) as (HI3 & Hl3 & HO3).
    unfold unique. cbn [vars set_vars]. rewrite lookup_assign by congruence. rewrite Nat.eqb_refl, use_count_eq.
    cbn [vars set_vars store].
    pose proof (nrefs_assign (vars V (release V s2 v)) v None (Some p) p Hl3) as HA. cbn [hits] in HA. rewrite Nat.eqb_refl in HA.
    assert (Hv3 : vars V (release V s2 v) = assign (vars V s) v None).
    { unfold release. rewrite Hl2, vars_drop. cbn [vars set_vars s2]. now rewrite H2. }
    pose proof (nrefs_assign (vars V s) v (Some b) None p Elv) as HB. cbn [hits] in HB.
    rewrite Hv3 in HA.
    assert (Hns : nstore (store V (release V s2 v)) p = 0).
    { destruct (Nat.eq_dec (nstore (store V (release V s2 v)) p) 0); [assumption|]. exfalso.
      assert (Hin : In p (store V (release V s2 v))) by (apply nstore_pos; lia).
      destruct (i_disj _ _ HI3 p Hin) as [_ Hx]. apply Hx. cbn; auto. }
    rewrite Hv3, Hns. apply Nat.eqb_eq. destruct (b =? p) eqn:Eb; [apply Nat.eqb_eq in Eb; congruence|]. lia.
  Qed.
End P.

Section Q.
  Variable V : Type.
  (** States reached from program start by a legal history. *)
  Definition reachable (s : st V) : Prop := exists os, legal_run V (init V) os /\ run V (init V) os = Ok s.

  Lemma reachable_inv s : reachable s -> Inv V s [].
  Proof.
    intros (os & HL & HR). destruct (run_ok V os (init V) (inv_init V) HL) as (s' & E & HI). congruence.
  Qed.
  Lemma history_never_stuck os : legal_run V (init V) os -> exists s, run V (init V) os = Ok s.
  Proof. intros HL. destruct (run_ok V os (init V) (inv_init V) HL) as (s' & E & _). eauto. Qed.
  Lemma reachable_step s o : reachable s -> legal V (observe V s) o ->
    match o with OWrite _ v _ _ => unique V s v = true | _ => True end ->
    exists s', step V s o = Ok s' /\ effect V (observe V s) o (observe V s').
  Proof. intros HR HL HW. destruct (step_ok V s o (reachable_inv s HR) HL HW) as (s' & E & _ & HE). eauto. Qed.
  Lemma reachable_safe s : reachable s ->
    (forall v, observe V s v <> Dangling V) /\
    (forall b, In b (store V s) -> forall v, lookup (vars V s) v <> Some (Some b)) /\
    NoDup (store V s) /\
    (forall b, heap V s b <> None -> In b (store V s) \/ exists v, lookup (vars V s) v = Some (Some b)).
  Proof.
    intros HR. apply reachable_inv in HR. split; [|split; [|split]].
    - intros v. unfold observe. destruct (lookup (vars V s) v) as [[b|]|] eqn:El; try discriminate.
      destruct (heap_of_ref V s [] v b HR El) as (d & ->). discriminate.
    - intros b Hb v Hv. destruct (i_disj V s [] HR b Hb) as [H _]. apply nrefs_in in Hv. lia.
    - apply (i_store V s [] HR).
    - intros b Hb. destruct (i_live V s [] HR b Hb) as [H|[H|[]]]; auto. right. apply nrefs_pos; [apply (i_names V s [] HR)|assumption].
  Qed.
  (** ensureUnique then write: only [v] changes, whatever shares its block. *)
  Lemma cow s v j i x d : reachable s -> observe V s v = Data V d -> i < length d ->
    exists s1 s2, step V s (OEnsureUnique V v j) = Ok s1 /\ unique V s1 v = true /\ step V s1 (OWrite V v i x) = Ok s2 /\
      (forall w, w <> v -> observe V s2 w = observe V s w) /\
      exists d1 y d2, d = d1 ++ y :: d2 /\ length d1 = i /\ observe V s2 v = Data V (d1 ++ x :: d2).
  Proof.
    intros HR Hd Hi. pose proof (reachable_inv s HR) as HI.
    assert (HL : legal V (observe V s) (OEnsureUnique V v j)) by (cbn; unfold alive; congruence).
    destruct (step_ok V s _ HI HL I) as (s1 & E1 & HI1 & HE1).
    destruct (ensure_unique_unique V s v j HI (ex_intro _ d Hd)) as (s1' & E1' & HU). assert (s1' = s1) by congruence; subst s1'.
    cbn [effect] in HE1. assert (Hd1 : observe V s1 v = Data V d) by (rewrite HE1; [assumption|intros []]).
    assert (HL2 : legal V (observe V s1) (OWrite V v i x)) by (cbn; eauto).
    destruct (step_ok V s1 _ HI1 HL2 HU) as (s2 & E2 & _ & HE2). cbn [effect] in HE2.
    destruct HE2 as ((d1 & y & d2 & A1 & A2 & A3) & A4).
    exists s1, s2. repeat split; auto.
    - intros w Hw. rewrite A4; [apply HE1; intros []|]. intros [H|[]]. congruence.
    - exists d1, y, d2. repeat split; auto. congruence.
  Qed.
End Q.
