Require Import ZArith List Bool Ascii Lia Arith.
Require Import Verif.Base Verif.ExprModel Verif.FactoryModel Verif.FactorySpec Verif.FactoryProofs.
Import ListNotations.

(* ---------- colons ---------- *)
Lemma find_from_none s i : no_char colon s <-> find_from s i = None.
Proof.
  revert i. induction s as [|c r IH]; intros i; cbn [find_from]; [split; auto; intros _ []|].
  destruct (Ascii.eqb_spec c colon) as [->|N].
  - split; [|discriminate]. intros H. exfalso. apply H. now left.
  - rewrite <- IH. unfold no_char. cbn [In]. split; [tauto|]. intros H [E|E]; auto.
Qed.
Lemma find_from_at s v i : no_char colon s -> find_from (s ++ colon :: v) i = Some (i + List.length s).
Proof.
  revert i. induction s as [|c r IH]; intros i H; cbn [app find_from List.length].
  - rewrite Ascii.eqb_refl. f_equal. lia.
  - destruct (Ascii.eqb_spec c colon) as [->|N]; [exfalso; apply H; now left|].
    rewrite IH by (intros X; apply H; now right). f_equal. lia.
Qed.
Lemma find_colon_none s : no_char colon s -> find_colon s 0 = None.
Proof. unfold find_colon. cbn [skipn]. now apply find_from_none. Qed.
Lemma find_colon_at s v : no_char colon s -> find_colon (s ++ colon :: v) 0 = Some (List.length s).
Proof. unfold find_colon. cbn [skipn]. intros H. now rewrite find_from_at. Qed.
Lemma split_colon_none s : no_char colon s -> split_colon s = None.
Proof.
  induction s as [|c r IH]; intros H; cbn [split_colon]; [reflexivity|].
  destruct (Ascii.eqb_spec c colon) as [->|N]; [exfalso; apply H; now left|].
  rewrite IH; [reflexivity|]. intros X; apply H; now right.
Qed.
Lemma skipn_app_colon s v : skipn (List.length s + 1) (s ++ colon :: v) = v.
Proof. induction s as [|c s IH]; cbn [List.length Nat.add app skipn]; [reflexivity|exact IH]. Qed.

Section Tree.
Variable root : tree.

Lemma search_up_nearest n : forall p p' t, search_up root p n = Ok (p', t) <-> Nearest root n p p' t.
Proof.
  induction p as [|m p IH]; intros p' t; cbn [search_up].
  - destruct (set_text root [] n) as [u|] eqn:E; split; intros H.
    + injection H as <- <-. now constructor.
    + inversion H; subst; congruence.
    + discriminate.
    + inversion H; subst; congruence.
  - destruct (set_text root (m :: p) n) as [u|] eqn:E; split; intros H.
    + injection H as <- <-. now constructor.
    + inversion H; subst; congruence.
    + constructor; [exact E|now apply IH].
    + inversion H; subst; [congruence|now apply IH].
Qed.
Lemma search_up_noub n p : search_up root p n <> UB.
Proof. induction p as [|m p IH]; cbn [search_up]; destruct (set_text root _ n); congruence. Qed.

Lemma nearest_det n p p1 t1 : Nearest root n p p1 t1 -> forall p2 t2, Nearest root n p p2 t2 -> p1 = p2 /\ t1 = t2.
Proof.
  induction 1; intros p2 t2 H2; inversion H2; subst; try congruence; try (split; congruence). auto.
Qed.

Lemma colon_split_unique : forall s v s' v', no_char colon s -> no_char colon s' -> s ++ colon :: v = s' ++ colon :: v' -> s = s' /\ v = v'.
Proof.
  induction s as [|c s IH]; intros v [|c' s'] v' H H' E; cbn [app] in E.
  - injection E as <-. auto.
  - injection E as E _. exfalso. apply H'. now left.
  - injection E as E _. exfalso. apply H. now left.
  - injection E as <- E. destruct (IH v s' v') as [<- <-]; auto; intros X; [apply H|apply H']; now right.
Qed.
Lemma colon_in s v : ~ no_char colon (s ++ colon :: v).
Proof. intros H. apply H. apply in_or_app. right. now left. Qed.

Lemma head_colon s v v' : no_char colon s -> s ++ colon :: v = colon :: v' -> s = [].
Proof. destruct s as [|c s]; [auto|]. intros H E. injection E as -> _. exfalso. apply H. now left. Qed.
Ltac hc E := first [apply head_colon in E; [congruence|assumption] | symmetry in E; apply head_colon in E; [congruence|assumption]].

Lemma refers_loose_det p n p1 t1 p2 t2 : Refers_loose root p n p1 t1 -> Refers_loose root p n p2 t2 -> p1 = p2 /\ t1 = t2.
Proof.
  assert (SS : forall s v s' v', no_char colon s -> no_char colon s' -> s ++ colon :: v = s' ++ colon :: v' -> s = s' /\ v = v')
    by (intros; now apply colon_split_unique).
  assert (NC : no_char colon []) by (intros []).
  intros H1 H2. destruct H1 as [n p1 t1 H1|s v t1 Hs Cs Cv H1 H1'].
  - destruct H1 as [n p1 t1 Hn H1|v t1 Hv H1|s v t1 Hs Cs Cv H1].
    + inversion H2 as [n' p' t' H3|s v t' Hs Cs Cv H3 H3' E]; subst.
      * inversion H3; subst; [now apply (nearest_det n p)| |].
        -- exfalso. apply Hn. now left.
        -- exfalso. revert Hn. apply colon_in.
      * exfalso. revert Hn. apply colon_in.
    + inversion H2 as [n' p' t' H3|s v' t' Hs Cs Cv H3 H3' E]; subst.
      * inversion H3 as [? ? ? X|? ? X Y|? ? ? X Y Z W E]; subst; [exfalso; apply X; now left|split; congruence|].
        hc E.
      * hc E.
    + inversion H2 as [n' p' t' H3 E0|s' v' t' Hs' Cs' Cv' H3 H3' E]; subst.
      * inversion H3 as [? ? ? X|v0 ? X Y E|s0 v0 ? X Y Z W E]; subst; [exfalso; revert X; apply colon_in| |].
        -- hc E.
        -- apply SS in E; auto. destruct E as [<- <-]. split; congruence.
      * apply SS in E; auto. destruct E as [<- <-]. congruence.
  - inversion H2 as [n' p' t' H3 E0|s' v' t' Hs' Cs' Cv' H3 H3' E]; subst.
    + inversion H3 as [? ? ? X|v0 ? X Y E|s0 v0 ? X Y Z W E]; subst; [exfalso; revert X; apply colon_in| |].
      * hc E.
      * apply SS in E; auto. destruct E as [<- <-]. congruence.
    + apply SS in E; auto. destruct E as [<- <-]. split; congruence.
Qed.
Lemma refers_det p n p1 t1 p2 t2 : Refers root p n p1 t1 -> Refers root p n p2 t2 -> p1 = p2 /\ t1 = t2.
Proof. intros H1 H2. apply (refers_loose_det p n); now constructor. Qed.

(* findOption finds what the name refers to *)
Lemma findOption_at p s v : no_char colon s -> no_char colon v ->
  findOption root p (s ++ colon :: v) =
  match set_text root (match s with [] => [] | _ => [s] end) v with
  | Some t => Ok (match s with [] => [] | _ => [s] end, t) | None => Throw end.
Proof.
  intros Cs Cv. unfold findOption. rewrite find_colon_at by auto. cbn [sections].
  assert (SU : substr (s ++ colon :: v) 0 (List.length s) = s) by (unfold substr; cbn [skipn]; now rewrite firstn_app, Nat.sub_diag, firstn_all, firstn_O, app_nil_r).
  rewrite SU. assert (FN : find_colon (s ++ colon :: v) (List.length s + 1) = None).
  { unfold find_colon. rewrite skipn_app_colon. now apply find_from_none. }
  rewrite FN. destruct s as [|c s].
  - cbn [List.length Z.of_nat Z.ltb Z.compare]. change (0 <? 0)%Z with false. cbn [bind]. destruct (List.length ([] ++ colon :: v)) eqn:L; cbn [sections bind fst snd app Nat.add skipn]; destruct (set_text root [] v); reflexivity.
  - replace (0 <? Z.of_nat (List.length (c :: s)))%Z with true by (symmetry; apply Z.ltb_lt; cbn [List.length]; lia).
    cbn [getSection node]. destruct root as [l|t b] eqn:ER.
    + rewrite split_colon_none by auto. destruct (child (c :: s) l) as [q|] eqn:EC; cbn [bind].
      * replace (sections _ _ _ [c :: s] _ None) with (Ok ([c :: s], List.length (c :: s) + 1))
          by (destruct (List.length ((c :: s) ++ colon :: v)); reflexivity).
        cbn [bind fst snd]. rewrite skipn_app_colon. destruct (set_text (Sec l) [c :: s] v); reflexivity.
      * unfold set_text. cbn [node]. now rewrite EC.
    + cbn [bind]. unfold set_text. reflexivity.
Qed.

Lemma findOption_spec p n : plain_name n -> forall p' t, findOption root p n = Ok (p', t) <-> Refers root p n p' t.
Proof.
  intros [_ [Hn|[s [v [-> [Cs Cv]]]]]] p' t.
  - unfold findOption. rewrite find_colon_none by auto. rewrite search_up_nearest. split; intros H; [now constructor|].
    inversion H; subst; [auto|exfalso; apply Hn; now left|exfalso; revert Hn; apply colon_in].
  - rewrite findOption_at by auto. destruct s as [|c s].
    + cbn [app]. split; intros H.
      * destruct (set_text root [] v) eqn:E; [|discriminate]. injection H as <- <-. now apply at_root.
      * inversion H as [? ? ? X|? ? X Y|s0 v0 ? X Y Z W E]; [exfalso; subst; apply X; now left|subst; now rewrite Y|].
        hc E.
    + split; intros H.
      * destruct (set_text root [c :: s] v) eqn:E; [|discriminate]. injection H as <- <-. apply at_top; auto. discriminate.
      * inversion H as [? ? ? X|v0 ? X Y E|s0 v0 ? X Y Z W E]; [exfalso; revert X; apply colon_in| |].
        -- exfalso. apply Cs. left. congruence.
        -- apply (colon_split_unique s0 v0 (c :: s) v) in E; auto. destruct E as [-> ->]. now rewrite W.
Qed.
Lemma findOption_noub p n : plain_name n -> findOption root p n <> UB.
Proof.
  intros [_ [Hn|[s [v [-> [Cs Cv]]]]]].
  - unfold findOption. rewrite find_colon_none by auto. apply search_up_noub.
  - rewrite findOption_at by auto. destruct (set_text root _ v); discriminate.
Qed.

(* ---------- keys ---------- *)
Lemma full_nil p : Forall plain_section p -> full p = [] -> p = [].
Proof.
  destruct p as [|n p]; [auto|]. intros H. inversion H as [|? ? [N _] ?]; subst. cbn [full]. destruct (full p); [congruence|discriminate].
Qed.
Lemma full_nohash p : Forall plain_section p -> no_char hash (full p).
Proof.
  induction 1 as [|n p [Hn [Hc Hh]] H IH]; [intros []|]. cbn [full]. destruct (full p) as [|c f]; [auto|].
  intros X. apply in_app_or in X. destruct X as [X|[X|X]]; [now apply IH|discriminate|now apply Hh].
Qed.
Lemma last_colon_unique : forall v v' s s', no_char colon v -> no_char colon v' -> s ++ colon :: v = s' ++ colon :: v' -> s = s' /\ v = v'.
Proof.
  intros v v' s s' H H' E. assert (R : rev v ++ colon :: rev s = rev v' ++ colon :: rev s').
  { apply (f_equal (@rev ascii)) in E. rewrite !rev_app_distr in E. cbn [rev] in E. rewrite <- !app_assoc in E. exact E. }
  apply colon_split_unique in R.
  - destruct R as [A B]. split; [rewrite <- (rev_involutive s), B|rewrite <- (rev_involutive v), A]; apply rev_involutive.
  - intros X. apply H. now apply in_rev.
  - intros X. apply H'. now apply in_rev.
Qed.
Lemma full_inj : forall p q, Forall plain_section p -> Forall plain_section q -> full p = full q -> p = q.
Proof.
  induction p as [|n p IH]; intros q Hp Hq E.
  - symmetry. apply full_nil; auto.
  - destruct q as [|m q]; [now apply full_nil in E|].
    inversion Hp as [|? ? [N [C _]] Hp']; subst. inversion Hq as [|? ? [N' [C' _]] Hq']; subst. cbn [full] in E.
    destruct (full p) as [|a f] eqn:Ep, (full q) as [|b g] eqn:Eq.
    + apply full_nil in Ep; auto. apply full_nil in Eq; auto. congruence.
    + exfalso. rewrite E in C. revert C. apply colon_in.
    + exfalso. rewrite <- E in C'. revert C'. apply colon_in.
    + apply last_colon_unique in E; auto. destruct E as [E ->]. f_equal. apply IH; auto. now rewrite Eq.
Qed.
Lemma full_first p : Forall plain_section p -> forall r, full p <> colon :: r.
Proof.
  induction 1 as [|n p [Hn [Hc Hh]] H IH]; intros r; [discriminate|]. cbn [full]. destruct (full p) as [|c f].
  - intros ->. apply Hc. now left.
  - intros E. injection E as -> _. now apply (IH f).
Qed.

Definition rel_key (p : path) (n : str) : str := match full p with [] => n | f => f ++ colon :: n end.
Lemma key_plain p n : no_char colon n -> key_of p n = rel_key p n.
Proof. intros H. unfold key_of. now rewrite find_colon_none. Qed.
Lemma key_at p s v : no_char colon s -> key_of p (s ++ colon :: v) = s ++ colon :: v.
Proof. intros H. unfold key_of. now rewrite find_colon_at. Qed.
Lemma rel_key_inj p q n m : Forall plain_section p -> Forall plain_section q -> no_char colon n -> no_char colon m ->
  rel_key p n = rel_key q m -> p = q /\ n = m.
Proof.
  unfold rel_key. intros Hp Hq Hn Hm E. destruct (full p) as [|a f] eqn:Ep, (full q) as [|b g] eqn:Eq.
  - apply full_nil in Ep; auto. apply full_nil in Eq; auto. split; congruence.
  - exfalso. rewrite E in Hn. revert Hn. apply colon_in.
  - exfalso. rewrite <- E in Hm. revert Hm. apply colon_in.
  - apply last_colon_unique in E; auto. destruct E as [E ->]. split; [|auto]. apply full_inj; auto. congruence.
Qed.
(* the only section whose relative keys have one colon and a given first part *)
Lemma rel_key_at p n s v : Forall plain_section p -> no_char colon n -> no_char colon s -> no_char colon v ->
  rel_key p n = s ++ colon :: v -> p = [s] /\ n = v /\ s <> [].
Proof.
  unfold rel_key. intros Hp Hn Hs Hv E. destruct (full p) as [|a f] eqn:Ep.
  - exfalso. rewrite E in Hn. revert Hn. apply colon_in.
  - apply last_colon_unique in E; auto. destruct E as [E ->]. rewrite <- E. split; [|split; [auto|discriminate]].
    destruct p as [|m p]; [discriminate|]. inversion Hp as [|? ? [N [C _]] Hp']; subst. cbn [full] in Ep.
    destruct (full p) as [|b g] eqn:Eq.
    + apply full_nil in Eq; auto. subst. reflexivity.
    + exfalso. rewrite <- Ep in Hs. revert Hs. apply colon_in.
Qed.
Lemma key_loose p n q m : Forall plain_section p -> Forall plain_section q -> plain_name n -> plain_name m ->
  key_of p n = key_of q m -> forall p' t, Refers_loose root p n p' t -> Refers_loose root q m p' t.
Proof.
  assert (AB : forall p0 q0 s v p' t, no_char colon s -> Refers_loose root p0 (s ++ colon :: v) p' t -> Refers_loose root q0 (s ++ colon :: v) p' t).
  { intros p0 q0 s v p' t Cs H. inversion H as [n' p1 t1 H3 E0|s' v' t' Hs' Cs' Cv' H3 H3' E]; subst; [|rewrite <- ?E; now apply fallback].
    inversion H3 as [? ? ? X|v0 ? X Y E|s0 v0 ? X Y Z W E]; subst; [exfalso; revert X; apply colon_in| |].
    - rewrite <- ?E. apply loose. now apply at_root.
    - rewrite <- ?E. apply loose. now apply at_top. }
  intros Hp Hq [_ Hn] [_ Hm] E p' t H.
  destruct Hn as [Hn|[s [v [-> [Cs Cv]]]]], Hm as [Hm|[s' [v' [-> [Cs' Cv']]]]].
  - rewrite !key_plain in E by auto. apply rel_key_inj in E; auto. destruct E as [<- <-]. exact H.
  - rewrite (key_plain p n), key_at in E by auto. apply rel_key_at in E; auto. destruct E as [-> [-> Ns]].
    inversion H as [n' p1 t1 H3 E0|s v t' Hs0 Cs0 Cv0 H3 H3' E]; subst; [|exfalso; revert Hn; apply colon_in].
    inversion H3 as [? ? ? X Y|v0 ? X Y E|s0 v0 ? X Y Z W E]; subst; [|exfalso; apply Hn; now left|exfalso; revert Hn; apply colon_in].
    inversion Y as [? ? S|? ? ? ? S S']; subst; [apply loose; now apply at_top|]. inversion S'; subst. now apply fallback.
  - rewrite (key_plain q m), key_at in E by auto. symmetry in E. apply rel_key_at in E; auto. destruct E as [-> [-> Ns]].
    inversion H as [n' p1 t1 H3 E0|s' v' t' Hs0 Cs0 Cv0 H3 H3' E]; subst.
    + inversion H3 as [? ? ? X Y|v0 ? X Y E|s0 v0 ? X Y Z W E]; subst; [exfalso; revert X; apply colon_in| |].
      * hc E.
      * apply colon_split_unique in E; auto. destruct E as [-> ->]. constructor. constructor; auto. now constructor.
    + apply colon_split_unique in E; auto. destruct E as [-> ->]. constructor. constructor; auto. constructor; auto. now constructor.
  - rewrite !key_at in E by auto. rewrite <- E. eapply AB; [|exact H]. auto.
Qed.
Lemma key_nohash p n : Forall plain_section p -> plain_name n -> no_char hash (key_of p n).
Proof.
  intros Hp [Hh Hn]. unfold key_of. destruct (find_colon n 0); [auto|]. destruct (full p) as [|c f] eqn:E; [auto|].
  intros X. apply in_app_or in X. destruct X as [X|[X|X]]; [|discriminate|now apply Hh]. rewrite <- E in X. now apply full_nohash in X.
Qed.
Lemma hash_split_unique : forall s v s' v', no_char hash s -> no_char hash s' -> s ++ hash :: v = s' ++ hash :: v' -> s = s' /\ v = v'.
Proof.
  induction s as [|c s IH]; intros v [|c' s'] v' H H' E; cbn [app] in E.
  - injection E as <-. auto.
  - injection E as E _. exfalso. apply H'. now left.
  - injection E as E _. exfalso. apply H. now left.
  - injection E as <- E. destruct (IH v s' v') as [<- <-]; auto; intros X; [apply H|apply H']; now right.
Qed.
(* where a name can be found *)
Lemma nearest_path n p p' t : Nearest root n p p' t -> Forall plain_section p -> Forall plain_section p'.
Proof. induction 1; intros F; [auto|]. inversion F; auto. Qed.
Lemma nearest_set n p p' t : Nearest root n p p' t -> set_text root p' n = Some t.
Proof. induction 1; auto. Qed.
Lemma refers_path p n p' t : Forall plain_section p -> plain_name n -> Refers root p n p' t -> Forall plain_section p' /\ exists m, set_text root p' m = Some t.
Proof.
  intros Hp [Hh _] H. destruct H as [n p' t Hn H|v t Hv H|s v t Hs Cs Cv H].
  - split; [now apply (nearest_path n p p' t)|exists n; now apply (nearest_set n p)].
  - split; [constructor|eauto].
  - split; [|eauto]. constructor; [|constructor]. split; [auto|]. split; [auto|]. intros X. apply Hh. apply in_or_app. now left.
Qed.
End Tree.
