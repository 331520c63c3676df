Require Import ZArith List Bool Ascii Lia Arith.
Require Import Verif.Base Verif.ExprModel Verif.FactoryModel Verif.FactorySpec Verif.FactoryProofs Verif.FactoryProofs2.
Import ListNotations.

Section F.
Variable parse_text : str -> res expr.
Variable root : tree.
Hypothesis texts : forall p n t, set_text root p n = Some t -> plain_text parse_text t.

Notation strict := (Refers root).
Notation lax := (Refers_loose root).
Notation MeansS := (Means parse_text strict).
Notation MeansL := (Means parse_text lax).

(* the cache: what it says agrees with the strict meaning when there is one, and is a loose meaning *)
Definition valid (c : list (str * expr)) : Prop := forall k e, assoc k c = Some e ->
  (forall p n, Forall plain_section p -> plain_name n -> key_of p n = k ->
     (forall p' t e', strict p n p' t -> MeansS p' t e' -> e' = e) /\ (exists p' t, lax p n p' t /\ MeansL p' t e)) /\
  (forall p t, Forall plain_section p -> full p ++ hash :: t = k -> (forall e', MeansS p t e' -> e' = e) /\ MeansL p t e).

Lemma valid_nil : valid [].
Proof. intros k e H. discriminate. Qed.

Lemma valid_add_name c p n p' t e : valid c -> Forall plain_section p -> plain_name n -> strict p n p' t ->
  (forall e', MeansS p' t e' -> e' = e) -> MeansL p' t e -> valid ((key_of p n, e) :: c).
Proof.
  intros V Hp Hn R A L k e1 H. cbn [assoc] in H. destruct (str_eqb_spec k (key_of p n)) as [->|N]; [|now apply V].
  injection H as <-. split.
  - intros q m Hq Hm E. split.
    + intros q' u e' R' M'. assert (X : lax p n q' u) by (apply (key_loose root q m p n); auto; now constructor).
      destruct (refers_loose_det root p n p' t q' u (loose root p n p' t R) X) as [<- <-]. now apply A.
    + exists p', t. split; [|exact L]. apply (key_loose root p n q m); auto. now constructor.
  - intros q u Hq E. exfalso. assert (X : no_char hash (key_of p n)) by now apply key_nohash.
    rewrite <- E in X. apply X. apply in_or_app. right. now left.
Qed.
Lemma valid_add_text c p t e : valid c -> Forall plain_section p ->
  (forall e', MeansS p t e' -> e' = e) -> MeansL p t e -> valid ((full p ++ hash :: t, e) :: c).
Proof.
  intros V Hp A L k e1 H. cbn [assoc] in H. destruct (str_eqb_spec k (full p ++ hash :: t)) as [->|N]; [|now apply V].
  injection H as <-. split.
  - intros q m Hq Hm E. exfalso. assert (X : no_char hash (key_of q m)) by now apply key_nohash.
    rewrite E in X. apply X. apply in_or_app. right. now left.
  - intros q u Hq E. apply hash_split_unique in E; try now apply full_nohash. destruct E as [E ->]. apply full_inj in E; auto. subst. auto.
Qed.

(* a factory between calls, with the current section and the stack of keys being resolved *)
Definition at_ (p : path) (l : list str) (s : fstate) : Prop := valid (cache s) /\ options s = p /\ lookup s = l.

Definition name_ok (p : path) (n : str) (e : expr) : Prop :=
  (forall p' t e', strict p n p' t -> MeansS p' t e' -> e' = e) /\ exists p' t, lax p n p' t /\ MeansL p' t e.
Definition text_ok (p : path) (t : str) (e : expr) : Prop := (forall e', MeansS p t e' -> e' = e) /\ MeansL p t e.

Lemma means_of_names p t e0 e : parse_text t = Ok e0 -> Replaced (name_ok p) e0 e -> text_ok p t e.
Proof.
  intros E R. split.
  - intros e' [k M]. destruct k as [|k]; [destruct M|]. cbn [MeansN] in M. destruct M as [e1 [E1 R1]].
    rewrite E in E1. injection E1 as <-. symmetry. refine (proj1 (Replaced_agree _ _) _ _ R e' _ R1).
    intros n x y _ [Q _] [p' [t' [A B]]]. symmetry. apply (Q p' t'); [exact A|]. now exists k.
  - assert (R' : Replaced (fun n en => exists k, exists p' t', lax p n p' t' /\ MeansN parse_text lax k p' t' en) e0 e).
    { revert R. apply (proj1 (Replaced_mono _ _ (fun n en (H : name_ok p n en) =>
        match proj2 H with ex_intro _ p' (ex_intro _ t' (conj A (ex_intro _ k B))) => ex_intro _ k (ex_intro _ p' (ex_intro _ t' (conj A B))) end))). }
    apply (proj1 (Replaced_bound (fun k n en => exists p' t', lax p n p' t' /\ MeansN parse_text lax k p' t' en)
      (fun k k' n en L H => match H with ex_intro _ p' (ex_intro _ t' (conj A B)) =>
         ex_intro _ p' (ex_intro _ t' (conj A (MeansN_mono parse_text lax k k' p' t' en L B))) end))) in R'.
    destruct R' as [k R']. exists (S k). cbn [MeansN]. eauto.
Qed.

Lemma text_key_some p t : text_key (Some p) t = full p ++ hash :: t. Proof. reflexivity. Qed.

Section Step.
Variable rsv : str -> M expr.
Hypothesis step : forall p l n s s' e, Forall plain_section p -> plain_name n -> at_ p l s -> rsv n s = (s', Ok e) -> at_ p l s' /\ name_ok p n e.

Lemma parse_with_ok p q l t s s' e : Forall plain_section p -> plain_text parse_text t -> at_ q l s ->
  parse_with parse_text rsv t (Some p) s = (s', Ok e) -> at_ q l s' /\ text_ok p t e.
Proof.
  intros Hp Ht [V [O Lk]] H. unfold parse_with in H. rewrite text_key_some in H.
  destruct (assoc (full p ++ hash :: t) (cache s)) as [e1|] eqn:C.
  - injection H as <- <-. split; [exact (conj V (conj O Lk))|]. exact (proj2 (V _ _ C) p t Hp eq_refl).
  - destruct (parse_text t) as [e0| |] eqn:E; try discriminate.
    destruct (walk rsv e0 (with_options p s)) as [s2 [e1| |]] eqn:W; try discriminate. injection H as <- <-.
    assert (A0 : at_ p l (with_options p s)) by (exact (conj V (conj eq_refl Lk))).
    destruct (walk_inv rsv (at_ p l) (name_ok p) e0) with (s := with_options p s) (s' := s2) (e := e1) as [[V2 [O2 L2]] R]; auto.
    { intros n s0 s0' e2 Hn A B. apply (step p l n s0 s0' e2); auto. now apply (Ht e0). }
    pose proof (means_of_names p t e0 e1 E R) as T. split; [|exact T].
    split; [|split; [cbn; exact O|cbn; exact L2]]. cbn [with_options add_cache cache].
    apply valid_add_text; auto; [apply T|apply T].
Qed.
End Step.

Lemma resolve_ok fuel : forall p l n s s' e, Forall plain_section p -> plain_name n -> at_ p l s ->
  resolve parse_text root fuel n s = (s', Ok e) -> at_ p l s' /\ name_ok p n e.
Proof.
  induction fuel as [|fuel IH]; intros p l n s s' e Hp Hn [V [O Lk]] H; cbn [resolve] in H; [discriminate|]. rewrite O in H.
  destruct (assoc (key_of p n) (cache s)) as [e1|] eqn:C.
  - injection H as <- <-. split; [exact (conj V (conj O Lk))|]. exact (proj1 (V _ _ C) p n Hp Hn eq_refl).
  - destruct (existsb (str_eqb (key_of p n)) (lookup s)); [discriminate|].
    destruct (findOption root p n) as [[sec value]| |] eqn:F; try discriminate.
    destruct (parse_with parse_text (resolve parse_text root fuel) value (Some sec) (with_lookup (key_of p n :: lookup s) s)) as [s2 [e1| |]] eqn:W; try discriminate.
    injection H as <- <-. apply (findOption_spec root p n Hn) in F. destruct (refers_path root p n sec value Hp Hn F) as [Hsec [m Hm]].
    destruct (parse_with_ok (resolve parse_text root fuel) IH sec p (key_of p n :: l) value _ _ _ Hsec (texts _ _ _ Hm)
      (conj V (conj O (f_equal _ Lk)) : at_ p (key_of p n :: l) (with_lookup (key_of p n :: lookup s) s)) W) as [[V2 [O2 L2]] [T1 T2]].
    split.
    + split; [|split; [cbn; exact O2|cbn; now rewrite L2]]. cbn [with_lookup add_cache cache].
      apply (valid_add_name _ p n sec value); auto.
    + split; [|exists sec, value; split; [now constructor|exact T2]].
      intros p' t e' R M'. destruct (refers_det root p n p' t sec value R F) as [-> ->]. now apply T1.
Qed.

Lemma parse_ok fuel p q l t s s' e : Forall plain_section p -> plain_text parse_text t -> at_ q l s ->
  parse parse_text root fuel t (Some p) s = (s', Ok e) -> at_ q l s' /\ text_ok p t e.
Proof. apply parse_with_ok. exact (resolve_ok fuel). Qed.

(* ---------- a text with a strict meaning is parsed ---------- *)
(* every key being resolved belongs to a definition of larger rank *)
Definition above (k : nat) (l : list str) : Prop := forall key p n p' t m e, In key l -> Forall plain_section p -> plain_name n ->
  key_of p n = key -> strict p n p' t -> MeansN parse_text strict m p' t e -> k < m.
Lemma above_le j k l : j <= k -> above k l -> above j l.
Proof. intros L A key p n p' t m e H1 H2 H3 H4 H5 H6. pose proof (A key p n p' t m e H1 H2 H3 H4 H5 H6). lia. Qed.

Definition okb {A} (x : fstate * res A) : bool := match snd x with Ok _ => true | _ => false end.

Section Progress.
Variable rsv : str -> M expr.
Variable k : nat.
Hypothesis step : forall p l n s s' e, Forall plain_section p -> plain_name n -> at_ p l s -> rsv n s = (s', Ok e) -> at_ p l s' /\ name_ok p n e.
Hypothesis go : forall p l n s p' t e, Forall plain_section p -> plain_name n -> at_ p l s -> above k l -> strict p n p' t ->
  MeansN parse_text strict k p' t e -> okb (rsv n s) = true.
Lemma parse_with_progress p q l t s e : Forall plain_section p -> plain_text parse_text t -> at_ q l s -> above k l ->
  MeansN parse_text strict (S k) p t e -> okb (parse_with parse_text rsv t (Some p) s) = true.
Proof.
  intros Hp Ht [V [O Lk]] Ab M. unfold parse_with. rewrite text_key_some.
  destruct (assoc (full p ++ hash :: t) (cache s)) as [e1|] eqn:C; [reflexivity|].
  cbn [MeansN] in M. destruct M as [e0 [E R]]. rewrite E.
  assert (A0 : at_ p l (with_options p s)) by (exact (conj V (conj eq_refl Lk))).
  assert (W : good (at_ p l) (allow False False expr) (walk rsv e0 (with_options p s))).
  { apply walk_good; [|exact A0]. intros n s0 Hn A1. unfold good.
    destruct (proj1 (Replaced_name _) _ _ R n Hn) as [en [p' [t' [B1 B2]]]].
    assert (Pn : plain_name n) by now apply (Ht e0).
    pose proof (go p l n s0 p' t' en Hp Pn A1 Ab B1 B2) as K. unfold okb in K.
    destruct (rsv n s0) as [s1 [e1| |]] eqn:Q; cbn [fst snd] in *; try discriminate.
    now apply (step p l n s0 s1 e1). }
  unfold good in W. destruct (walk rsv e0 (with_options p s)) as [s2 [e1| |]]; cbn [fst snd] in W; [reflexivity|destruct W|destruct W].
Qed.
End Progress.

Lemma resolve_progress : forall k fuel p l n s p' t e, k <= fuel -> Forall plain_section p -> plain_name n -> at_ p l s -> above k l ->
  strict p n p' t -> MeansN parse_text strict k p' t e -> okb (resolve parse_text root fuel n s) = true.
Proof.
  induction k as [k IHk] using lt_wf_ind. intros fuel p l n s p' t e Lf Hp Hn A Ab R Mn.
  destruct (okb (resolve parse_text root fuel n s)) eqn:B; [reflexivity|]. exfalso.
  assert (NN : ~ ~ ((exists j, j < k /\ exists e2, MeansN parse_text strict j p' t e2) \/ ~ (exists j, j < k /\ exists e2, MeansN parse_text strict j p' t e2))) by tauto.
  apply NN. clear NN. intros [[j [Lj [e2 M2]]]|Min].
  - rewrite (IHk j Lj fuel p l n s p' t e2) in B; auto; [discriminate|lia|]. apply (above_le j k); auto. lia.
  - destruct k as [|k]; [destruct Mn|]. destruct fuel as [|fuel]; [lia|]. cbn [resolve] in B. destruct A as [V [O Lk]]. rewrite O in B.
    destruct (assoc (key_of p n) (cache s)) as [e1|] eqn:C; [discriminate|].
    destruct (existsb (str_eqb (key_of p n)) (lookup s)) eqn:X.
    + apply existsb_exists in X. destruct X as [key [X1 X2]]. destruct (str_eqb_spec (key_of p n) key) as [<-|]; [|discriminate].
      rewrite Lk in X1. pose proof (Ab (key_of p n) p n p' t (S k) e X1 Hp Hn eq_refl R Mn). lia.
    + rewrite (proj2 (findOption_spec root p n Hn p' t) R) in B.
      destruct (refers_path root p n p' t Hp Hn R) as [Hsec [m Hm]].
      assert (P : okb (parse_with parse_text (resolve parse_text root fuel) t (Some p') (with_lookup (key_of p n :: lookup s) s)) = true).
      { apply (parse_with_progress (resolve parse_text root fuel) k (resolve_ok fuel)) with (q := p) (l := key_of p n :: l) (e := e); auto.
        - intros q lq nq sq q' tq eq0 H1 H2 H3 H4 H5 H6. apply (IHk k ltac:(lia) fuel q lq nq sq q' tq eq0); auto. lia.
        - exact (texts _ _ _ Hm).
        - split; [exact V|]. split; [exact O|]. cbn. now rewrite Lk.
        - intros key q nq q' tq m' e' [<-|H1] H2 H3 H4 H5 H6.
          + assert (Y : lax p n q' tq) by (apply (key_loose root q nq p n); auto; now constructor).
            destruct (refers_loose_det root p n p' t q' tq (loose root p n p' t R) Y) as [<- <-].
            destruct (le_lt_dec m' k) as [Q|Q]; [|exact Q]. exfalso. apply Min. exists m'. split; [lia|eauto].
          + pose proof (Ab key q nq q' tq m' e' H1 H2 H3 H4 H5 H6). lia. }
      unfold okb in P, B. destruct (parse_with _ _ _ _ _) as [s2 [e1| |]]; cbn [snd] in *; discriminate.
Qed.

Lemma parse_progress k fuel p q t s e : k <= fuel -> Forall plain_section p -> plain_text parse_text t -> at_ q [] s ->
  MeansN parse_text strict (S k) p t e -> okb (parse parse_text root fuel t (Some p) s) = true.
Proof.
  intros Lf Hp Ht A Mn. unfold parse.
  apply (parse_with_progress (resolve parse_text root fuel) k (resolve_ok fuel)) with (q := q) (l := []) (e := e); auto.
  - intros. apply (resolve_progress k fuel p0 l n s0 p' t0 e0); auto.
  - intros ? ? ? ? ? ? ? [].
Qed.
End F.
