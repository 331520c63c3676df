Require Import ZArith List Bool Ascii Lia Arith.
Require Import Verif.Base Verif.ExprModel Verif.FactoryModel Verif.FactorySpec Verif.FactoryProofs Verif.FactoryProofs2 Verif.FactoryProofs3.
Import ListNotations.

(* ---------- the definitions of a tree are finitely many ---------- *)
Section TreeInd.
Variable P : tree -> Prop.
Hypothesis Hv : forall t b, P (Val t b).
Hypothesis Hs : forall l, Forall (fun x => P (snd x)) l -> P (Sec l).
Fixpoint tree_ind2 (t : tree) : P t :=
  match t with
  | Val t b => Hv t b
  | Sec l => Hs l ((fix go l : Forall (fun x => P (snd x)) l :=
               match l with [] => Forall_nil _ | x :: r => Forall_cons x (tree_ind2 (snd x)) (go r) end) l)
  end.
End TreeInd.

Lemma node_last root p n : node root (p ++ [n]) = match root with Sec l => match child n l with Some t => node t p | None => None end | _ => None end.
Proof.
  induction p as [|m p IH]; cbn [app node].
  - destruct root as [l|]; [|reflexivity]. destruct (child n l); reflexivity.
  - rewrite IH. destruct root as [l|]; [|reflexivity]. destruct (child n l); reflexivity.
Qed.
Lemma child_in n l t : child n l = Some t -> In (n, t) l.
Proof.
  induction l as [|[m u] l IH]; cbn [child]; [discriminate|]. destruct (str_eqb_spec n m) as [->|]; intros H.
  - injection H as ->. now left.
  - right. auto.
Qed.
Lemma set_text_last root p m n : set_text root (p ++ [m]) n = match root with Sec l => match child m l with Some t => set_text t p n | None => None end | _ => None end.
Proof. unfold set_text. rewrite node_last. destruct root as [l|]; [|reflexivity]. destruct (child m l); reflexivity. Qed.

Lemma finite_texts root : exists L : list (path * str), forall p n t, set_text root p n = Some t -> In (p, t) L.
Proof.
  induction root as [t b|l IH] using tree_ind2.
  - exists []. intros p. destruct p as [|m p _] using rev_ind; intros n u H; [discriminate|]. rewrite set_text_last in H. discriminate.
  - assert (S : exists L, forall m t, In (m, t) l -> forall p n u, set_text t p n = Some u -> In (p ++ [m], u) L).
    { clear -IH. induction l as [|[m t] l IHl].
      - exists []. intros m t [].
      - inversion IH as [|? ? [L0 H0] H1]; subst. destruct (IHl H1) as [L1 H2].
        exists (map (fun x => (fst x ++ [m], snd x)) L0 ++ L1). intros m' t' [E|I] p n u H.
        + injection E as <- <-. apply in_or_app. left. apply (in_map (fun x => (fst x ++ [m], snd x)) L0 (p, u)). eapply H0. exact H.
        + apply in_or_app. right. eapply H2; eauto. }
    destruct S as [L S]. exists (map (fun x => ([], match snd x with Val t _ => t | _ => [] end)) l ++ L).
    intros p. destruct p as [|m p _] using rev_ind; intros n u H.
    + apply in_or_app. left. unfold set_text in H. cbn [node] in H. destruct (child n l) as [[k|t b]|] eqn:E; try discriminate.
      destruct b; [|discriminate]. injection H as <-. apply child_in in E. apply (in_map (fun x => ([] : path, match snd x with Val t _ => t | _ => [] end))) in E. exact E.
    + apply in_or_app. right. rewrite set_text_last in H. destruct (child m l) as [t|] eqn:E; [|discriminate].
      apply child_in in E. eapply S; eauto.
Qed.

Section T.
Variable parse_text : str -> res expr.
Variable root : tree.
Hypothesis texts : forall p n t, set_text root p n = Some t -> plain_text parse_text t.
Hypothesis parse_total : forall t, parse_text t <> UB.

Definition name_list (t : str) : list str := match parse_text t with Ok e => names e | _ => [] end.
Definition keys (L : list (path * str)) : list str := flat_map (fun x => map (key_of (fst x)) (name_list (snd x))) L.

Section U.
Variable L : list (path * str).
Hypothesis HL : forall p n t, set_text root p n = Some t -> In (p, t) L.
Variable L0 : list (path * str).
Let K := keys (L0 ++ L).

Definition pos_ (p : path) (l : list str) (s : fstate) : Prop := options s = p /\ lookup s = l.

Lemma key_in p t e n : In (p, t) (L0 ++ L) -> parse_text t = Ok e -> In n (names e) -> In (key_of p n) K.
Proof.
  intros H E Hn. unfold K, keys. apply in_flat_map. exists (p, t). split; [exact H|]. cbn [fst snd]. apply in_map.
  unfold name_list. now rewrite E.
Qed.

Definition rgood (p : path) (l : list str) : fstate * res expr -> Prop := good (pos_ p l) (allow True False expr).

Lemma parse_term rsv p q l t s :
  (forall n s, plain_name n -> In (key_of p n) K -> pos_ p l s -> rgood p l (rsv n s)) ->
  plain_text parse_text t -> In (p, t) (L0 ++ L) -> pos_ q l s -> rgood q l (parse_with parse_text rsv t (Some p) s).
Proof.
  intros step Ht Hin [O Lk]. unfold parse_with, rgood, good. rewrite text_key_some.
  destruct (assoc (full p ++ hash :: t) (cache s)); [split; auto|].
  destruct (parse_text t) as [e0| |] eqn:E; [|exact I|now apply parse_total in E].
  assert (W : rgood p l (walk rsv e0 (with_options p s))).
  { apply walk_good; [|split; auto]. intros n s0 Hn P0. apply step; auto; [now apply (Ht e0)|]. eapply key_in; eauto. }
  unfold rgood, good in W. destruct (walk rsv e0 (with_options p s)) as [s2 [e1| |]]; cbn [fst snd] in *; auto.
  destruct W as [W1 W2]. split; [exact O|exact W2].
Qed.

Lemma resolve_term : forall fuel p l n s, Forall plain_section p -> plain_name n -> In (key_of p n) K -> NoDup l -> incl l K ->
  List.length K - List.length l < fuel -> pos_ p l s -> rgood p l (resolve parse_text root fuel n s).
Proof.
  induction fuel as [|fuel IH]; intros p l n s Hp Hn Hk Nd Inc Lf [O Lk]; [lia|]. unfold rgood, good. cbn [resolve]. rewrite O.
  destruct (assoc (key_of p n) (cache s)); [split; auto|].
  destruct (existsb (str_eqb (key_of p n)) (lookup s)) eqn:X; [exact I|].
  assert (Nk : ~ In (key_of p n) l).
  { intros H. rewrite <- Lk in H. assert (existsb (str_eqb (key_of p n)) (lookup s) = true); [|congruence].
    apply existsb_exists. exists (key_of p n). split; [exact H|apply str_eqb_refl]. }
  destruct (findOption root p n) as [[sec value]| |] eqn:F; [|exact I|now apply findOption_noub in F].
  apply (findOption_spec root p n Hn) in F. destruct (refers_path root p n sec value Hp Hn F) as [Hsec [m Hm]].
  assert (Nd' : NoDup (key_of p n :: l)) by now constructor.
  assert (Inc' : incl (key_of p n :: l) K) by (intros x [<-|Hx]; auto).
  pose proof (NoDup_incl_length Nd' Inc') as Len. cbn [List.length] in Len.
  assert (W : rgood p (key_of p n :: l) (parse_with parse_text (resolve parse_text root fuel) value (Some sec) (with_lookup (key_of p n :: lookup s) s))).
  { apply parse_term.
    - intros n0 s0 Hn0 Hk0 P0. apply IH; auto. cbn [List.length]. lia.
    - exact (texts _ _ _ Hm).
    - apply in_or_app. right. exact (HL _ _ _ Hm).
    - split; [exact O|]. cbn. now rewrite Lk. }
  unfold rgood, good in W. destruct (parse_with _ _ _ _ _) as [s2 [e1| |]]; cbn [fst snd] in *; auto.
  destruct W as [W1 W2]. split; [exact W1|]. cbn. now rewrite W2.
Qed.
End U.

Lemma parse_terminates p t : Forall plain_section p -> plain_text parse_text t ->
  exists N, forall fuel s, N <= fuel -> lookup s = [] -> snd (parse parse_text root fuel t (Some p) s) <> UB.
Proof.
  intros Hp Ht. destruct (finite_texts root) as [L HL]. exists (S (List.length (keys ([(p, t)] ++ L)))).
  intros fuel s Lf Lk. assert (W : rgood (options s) [] (parse parse_text root fuel t (Some p) s)).
  { apply (parse_term L [(p, t)]); auto; [|now left|now split]. intros n s0 Hn Hk P0.
    apply (resolve_term L HL [(p, t)]); auto; [constructor|intros x []|cbn [List.length]; lia]. }
  unfold rgood, good in W. destruct (parse parse_text root fuel t (Some p) s) as [s2 [e| |]]; cbn [fst snd] in *; [discriminate|discriminate|destruct W].
Qed.
End T.

(* ---------- cycles ---------- *)
Section C.
Variable parse_text : str -> res expr.
Variable root : tree.
Notation lax := (Refers_loose root).
Lemma uses_rank k a b e : uses parse_text root a b -> MeansN parse_text lax (S k) (fst a) (snd a) e -> exists e', MeansN parse_text lax k (fst b) (snd b) e'.
Proof.
  intros [e0 [n [E [Hn R]]]] [e1 [E1 R1]]. rewrite E in E1. injection E1 as <-.
  destruct (proj1 (Replaced_name _) _ _ R1 n Hn) as [en [p' [t' [A B]]]].
  destruct (refers_loose_det root _ _ _ _ _ _ R A) as [<- <-]. eauto.
Qed.
Lemma plus_rank a b : uses_plus parse_text root a b -> forall k e, MeansN parse_text lax k (fst a) (snd a) e ->
  exists j e', j < k /\ MeansN parse_text lax j (fst b) (snd b) e'.
Proof.
  induction 1 as [a b H|a b c H H2 IH]; intros [|k] e M; try (destruct M; fail).
  - destruct (uses_rank k a b e H M) as [e' M']. exists k, e'. split; [lia|exact M'].
  - destruct (uses_rank k a b e H M) as [e' M']. destruct (IH k e' M') as [j [e2 [L M2]]]. exists j, e2. split; [lia|exact M2].
Qed.
Lemma cycle_no_meaning a : uses_plus parse_text root a a -> forall k e, ~ MeansN parse_text lax k (fst a) (snd a) e.
Proof.
  intros H k. induction k as [k IH] using lt_wf_ind. intros e M. destruct (plus_rank a a H k e M) as [j [e' [L M']]]. exact (IH j L e' M').
Qed.
Lemma star_meaning a b : uses_star parse_text root a b -> forall k e, MeansN parse_text lax k (fst a) (snd a) e ->
  exists j e', MeansN parse_text lax j (fst b) (snd b) e'.
Proof.
  induction 1 as [a|a b c H H2 IH]; intros k e M; [eauto|]. destruct k as [|k]; [destruct M|].
  destruct (uses_rank k a b e H M) as [e' M']. exact (IH k e' M').
Qed.
End C.
