(** C54, C55: variables in expressions (FieldFactory). *)
Require Import ZArith List Bool Ascii String Lia Arith.
Require Import Verif.Base Verif.ExprModel Verif.FactoryModel Verif.FactorySpec Verif.FactoryProofs Verif.FactoryProofs2 Verif.FactoryProofs3 Verif.FactoryProofs4.
Import ListNotations.

Definition ordinary (parse_text : str -> res expr) (root : tree) : Prop :=
  (forall t, parse_text t <> UB) /\ forall p n t, set_text root p n = Some t -> plain_text parse_text t.

(** A name refers to the setting in the nearest enclosing section, or with one section separator to the variable of the named
    top level section. *)
Theorem C54_lookup : forall root p n, plain_name n ->
  (forall p' t, findOption root p n = Ok (p', t) <-> Refers root p n p' t) /\ findOption root p n <> UB.
Proof. intros root p n H. split; [now apply findOption_spec|now apply findOption_noub]. Qed.
Print Assumptions C54_lookup.

(** Parsing always ends. *)
Theorem C54_terminates : forall parse_text root p t, ordinary parse_text root -> Forall plain_section p -> plain_text parse_text t ->
  exists N, forall fuel s, N <= fuel -> lookup s = [] -> snd (parse parse_text root fuel t (Some p) s) <> UB.
Proof. intros pt root p t [H1 H2] Hp Ht. now apply parse_terminates. Qed.
Print Assumptions C54_terminates.

Lemma new_at pt root q : at_ pt root q [] (new_factory q).
Proof. split; [apply valid_nil|now split]. Qed.

(** If every name used, directly or not, refers to a definition and the definitions are not circular, then the result is the
    text with every name replaced by its definition, read in the section where it stands. *)
Theorem C54_defined : forall parse_text root p q t e, ordinary parse_text root -> Forall plain_section p -> plain_text parse_text t ->
  Means parse_text (Refers root) p t e ->
  exists N, forall fuel, N <= fuel -> snd (parse parse_text root fuel t (Some p) (new_factory q)) = Ok e.
Proof.
  intros pt root p q t e [H1 H2] Hp Ht [k M]. exists k. intros fuel Lf.
  destruct k as [|k]; [destruct M|].
  pose proof (parse_progress pt root H2 k fuel p q t (new_factory q) e ltac:(lia) Hp Ht (new_at pt root q) M) as P.
  unfold okb in P. destruct (parse pt root fuel t (Some p) (new_factory q)) as [s' [e1| |]] eqn:E; try discriminate. cbn [snd].
  destruct (parse_ok pt root H2 fuel p q [] t (new_factory q) s' e1 Hp Ht (new_at pt root q) E) as [_ [T _]].
  f_equal. symmetry. apply T. now exists (S k).
Qed.
Print Assumptions C54_defined.

(** Conversely a result is always that expression, up to the fallback of [s:v] to the root. *)
Theorem C54_sound : forall parse_text root p q t e fuel, ordinary parse_text root -> Forall plain_section p -> plain_text parse_text t ->
  snd (parse parse_text root fuel t (Some p) (new_factory q)) = Ok e -> Means parse_text (Refers_loose root) p t e.
Proof.
  intros pt root p q t e fuel [H1 H2] Hp Ht E.
  destruct (parse pt root fuel t (Some p) (new_factory q)) as [s' r] eqn:Q. cbn [snd] in E. subst r.
  destruct (parse_ok pt root H2 fuel p q [] t (new_factory q) s' e Hp Ht (new_at pt root q) Q) as [_ [_ T]]. exact T.
Qed.
Print Assumptions C54_sound.

(** Circular definitions are rejected, wherever the circle is. *)
Theorem C54_circular : forall parse_text root p q t a, ordinary parse_text root -> Forall plain_section p -> plain_text parse_text t ->
  uses_star parse_text root (p, t) a -> uses_plus parse_text root a a ->
  exists N, forall fuel, N <= fuel -> snd (parse parse_text root fuel t (Some p) (new_factory q)) = Throw.
Proof.
  intros pt root p q t a Ho Hp Ht U C. destruct (C54_terminates pt root p t Ho Hp Ht) as [N HN]. exists N. intros fuel Lf.
  specialize (HN fuel (new_factory q) Lf eq_refl). destruct (snd (parse pt root fuel t (Some p) (new_factory q))) as [e| |] eqn:E; [|reflexivity|congruence].
  destruct (C54_sound pt root p q t e fuel Ho Hp Ht E) as [k M].
  destruct (star_meaning pt root (p, t) a U k e M) as [j [e' M']]. exfalso. exact (cycle_no_meaning pt root a C j e' M').
Qed.
Print Assumptions C54_circular.

(** So are names that refer to nothing. *)
Theorem C54_undefined : forall parse_text root p q t a e n, ordinary parse_text root -> Forall plain_section p -> plain_text parse_text t ->
  uses_star parse_text root (p, t) a -> parse_text (snd a) = Ok e -> In n (names e) -> (forall p' u, ~ Refers_loose root (fst a) n p' u) ->
  exists N, forall fuel, N <= fuel -> snd (parse parse_text root fuel t (Some p) (new_factory q)) = Throw.
Proof.
  intros pt root p q t a e n Ho Hp Ht U Ea Hn Hno. destruct (C54_terminates pt root p t Ho Hp Ht) as [N HN]. exists N. intros fuel Lf.
  specialize (HN fuel (new_factory q) Lf eq_refl). destruct (snd (parse pt root fuel t (Some p) (new_factory q))) as [e1| |] eqn:E; [|reflexivity|congruence].
  destruct (C54_sound pt root p q t e1 fuel Ho Hp Ht E) as [k M].
  destruct (star_meaning pt root (p, t) a U k e1 M) as [j [e' M']]. exfalso. destruct j as [|j]; [destruct M'|]. cbn [MeansN] in M'.
  destruct M' as [e0 [E0 R]]. rewrite Ea in E0. injection E0 as <-. destruct (proj1 (Replaced_name _) _ _ R n Hn) as [en [p' [u [A _]]]].
  exact (Hno p' u A).
Qed.
Print Assumptions C54_undefined.

(* ---------- examples ---------- *)
Definition L0 : lang := mkLang std_prec (fun _ => None) (fun _ => Ok true).
Definition pt0 (t : str) : res expr := match parseString L0 100 t with UB => Throw | r => r end.
Definition v (s : string) : tree := Val (ch s) true.
Definition kv (n : string) (t : tree) : str * tree := (ch n, t).
Definition tree0 : tree := Sec [kv "n" (v "2"); kv "a" (Sec [kv "x" (v "n+1"); kv "y" (v "x*b:z")]); kv "b" (Sec [kv "z" (v "n")])].

Lemma plain_texts_ok root : forall L, (forall p n t, set_text root p n = Some t -> In (p, t) L) ->
  forallb (fun x => match pt0 (snd x) with Ok e => forallb (fun n => negb (existsb (Ascii.eqb hash) n) &&
     match split_colon n with None => true | Some (_, r) => match split_colon r with None => true | _ => false end end) (names e) | _ => true end) L = true ->
  ordinary pt0 root.
Proof.
  assert (SC : forall n, match split_colon n with None => no_char colon n | Some (s, r) => n = s ++ colon :: r /\ no_char colon s end).
  { induction n as [|c n IH]; cbn [split_colon]; [intros []|]. destruct (Ascii.eqb_spec c colon) as [->|N].
    - split; [reflexivity|intros []].
    - destruct (split_colon n) as [[s r]|].
      + destruct IH as [-> H]. split; [reflexivity|]. intros [X|X]; auto.
      + intros [X|X]; auto. }
  intros L HL F. split.
  - intros t. unfold pt0. destruct (parseString L0 100 t); discriminate.
  - intros p n t H e m E Hm. pose proof (proj1 (forallb_forall _ _) F _ (HL _ _ _ H)) as X. cbn [snd] in X. rewrite E in X.
    pose proof (proj1 (forallb_forall _ _) X _ Hm) as Y. apply andb_true_iff in Y. destruct Y as [Y1 Y2]. split.
    + intros Z. apply negb_true_iff in Y1. assert (existsb (Ascii.eqb hash) m = true); [|congruence].
      apply existsb_exists. exists hash. split; [exact Z|apply Ascii.eqb_refl].
    + pose proof (SC m) as S1. destruct (split_colon m) as [[s r]|]; [|now left]. right. exists s, r. destruct S1 as [-> S1].
      split; [reflexivity|]. split; [exact S1|]. pose proof (SC r) as S2. destruct (split_colon r); [discriminate|exact S2].
Qed.

(** y in section a: (n+1)*n with n = 2. *)
Example C54_case : ordinary pt0 tree0 /\ Means pt0 (Refers tree0) [ch "a"] (ch "y")
    (EBin "*" (EBin "+" (EVal (mkDec 2 0)) (EVal (mkDec 1 0))) (EVal (mkDec 2 0))) /\
  snd (parse pt0 tree0 10 (ch "y") (Some [ch "a"]) (new_factory [])) =
    Ok (EBin "*" (EBin "+" (EVal (mkDec 2 0)) (EVal (mkDec 1 0))) (EVal (mkDec 2 0))).
Proof.
  assert (NC : forall s, existsb (Ascii.eqb colon) s = false -> no_char colon s).
  { intros s H X. assert (existsb (Ascii.eqb colon) s = true); [|congruence]. apply existsb_exists. exists colon. split; [exact X|apply Ascii.eqb_refl]. }
  split; [|split].
  - destruct (finite_texts tree0) as [L _].
    apply (plain_texts_ok tree0 [([], ch "2"); ([ch "a"], ch "n+1"); ([ch "a"], ch "x*b:z"); ([ch "b"], ch "n")]); [|vm_compute; reflexivity].
    intros p. destruct p as [|m p _] using rev_ind; intros n t H.
    + unfold set_text in H. cbn [node tree0] in H. destruct (child n _) as [u|] eqn:E in H; [|discriminate]. apply child_in in E.
      destruct E as [E|[E|[E|[]]]]; injection E as <- <-; cbn in H; try discriminate. injection H as <-. now left.
    + rewrite set_text_last in H. cbn [tree0] in H. destruct (child m _) as [u|] eqn:E in H; [|discriminate]. apply child_in in E.
      destruct E as [E|[E|[E|[]]]]; injection E as <- <-.
      * destruct p as [|m' p _] using rev_ind; [discriminate|]. rewrite set_text_last in H. discriminate.
      * destruct p as [|m' p _] using rev_ind.
        -- unfold set_text in H. cbn [node] in H. destruct (child n _) as [u|] eqn:E in H; [|discriminate]. apply child_in in E.
           destruct E as [E|[E|[]]]; injection E as <- <-; cbn in H; injection H as <-; cbn [app In]; auto.
        -- rewrite set_text_last in H. destruct (child m' _) as [u|] eqn:E in H; [|discriminate]. apply child_in in E.
           destruct E as [E|[E|[]]]; injection E as <- <-; destruct p as [|m2 p _] using rev_ind; try discriminate; rewrite set_text_last in H; discriminate.
      * destruct p as [|m' p _] using rev_ind.
        -- unfold set_text in H. cbn [node] in H. destruct (child n _) as [u|] eqn:E in H; [|discriminate]. apply child_in in E.
           destruct E as [E|[]]; injection E as <- <-; cbn in H; injection H as <-; cbn [app In]; auto.
        -- rewrite set_text_last in H. destruct (child m' _) as [u|] eqn:E in H; [|discriminate]. apply child_in in E.
           destruct E as [E|[]]; injection E as <- <-; destruct p as [|m2 p _] using rev_ind; try discriminate; rewrite set_text_last in H; discriminate.
  - exists 4. eexists. split; [vm_compute; reflexivity|]. constructor. exists [ch "a"], (ch "x*b:z"). split.
    { apply plain; [apply NC; reflexivity|]. apply Here. reflexivity. }
    eexists. split; [vm_compute; reflexivity|]. constructor; constructor.
    + exists [ch "a"], (ch "n+1"). split; [apply plain; [apply NC; reflexivity|]; apply Here; reflexivity|].
      eexists. split; [vm_compute; reflexivity|]. constructor; constructor.
      exists [], (ch "2"). split; [apply plain; [apply NC; reflexivity|]; apply Outer; [reflexivity|]; apply Here; reflexivity|].
      eexists. split; [vm_compute; reflexivity|]. constructor.
    + exists [ch "b"], (ch "n"). split; [apply (at_top tree0 [ch "a"] (ch "b") (ch "z")); [discriminate|apply NC; reflexivity|apply NC; reflexivity|reflexivity]|].
      eexists. split; [vm_compute; reflexivity|]. constructor.
      exists [], (ch "2"). split; [apply plain; [apply NC; reflexivity|]; apply Outer; [reflexivity|]; apply Here; reflexivity|].
      eexists. split; [vm_compute; reflexivity|]. constructor.
  - vm_compute. reflexivity.
Qed.

(** A name with two sections is not the variable it spells: [a:b:vw] is found as vw of the section a:b:v when that exists, and
    otherwise not at all. *)
Theorem C54_two_sections_refuted :
  let r1 := Sec [kv "a" (Sec [kv "b" (Sec [kv "vw" (v "1")])])] in
  let r2 := Sec [kv "a" (Sec [kv "b" (Sec [kv "vw" (v "1"); kv "v" (Sec [kv "vw" (v "2")])])])] in
  set_text r1 [ch "b"; ch "a"] (ch "vw") = Some (ch "1") /\ findOption r1 [] (ch "a:b:vw") = Throw /\
  set_text r2 [ch "b"; ch "a"] (ch "vw") = Some (ch "1") /\ findOption r2 [] (ch "a:b:vw") = Ok ([ch "v"; ch "b"; ch "a"], ch "2").
Proof. vm_compute. auto. Qed.
Print Assumptions C54_two_sections_refuted.

(* ---------- C55: histories ---------- *)
(** A factory after a sequence of successful calls. *)
Inductive After (parse_text : str -> res expr) (root : tree) : fstate -> Prop :=
| fresh : After parse_text root (new_factory [])
| called : forall s s' fuel t p e, After parse_text root s -> Forall plain_section p -> plain_text parse_text t ->
    parse parse_text root fuel t (Some p) s = (s', Ok e) -> After parse_text root s'
| called_default : forall s s' fuel t e, After parse_text root s -> plain_text parse_text t ->
    parse parse_text root fuel t None s = (s', Ok e) -> After parse_text root s'.

Lemma parse_none pt root fuel t s : options s = [] -> parse pt root fuel t None s = parse pt root fuel t (Some []) s.
Proof. destruct s as [c l o]. cbn [options]. intros ->. reflexivity. Qed.

Lemma after_at pt root s : ordinary pt root -> After pt root s -> at_ pt root [] [] s.
Proof.
  intros [_ H2]. induction 1 as [|s s' fuel t p e A IH Hp Ht E|s s' fuel t e A IH Ht E].
  - apply new_at.
  - now destruct (parse_ok pt root H2 fuel p [] [] t s s' e Hp Ht IH E).
  - rewrite parse_none in E by apply IH. now destruct (parse_ok pt root H2 fuel [] [] [] t s s' e (Forall_nil _) Ht IH E).
Qed.

(** Whatever was parsed before, a text with a meaning gives that meaning; and a result is the one a new factory would give, if
    that gives one. *)
Theorem C55_history : forall parse_text root s p t, ordinary parse_text root -> After parse_text root s -> Forall plain_section p -> plain_text parse_text t ->
  (forall e, Means parse_text (Refers root) p t e -> exists N, forall fuel, N <= fuel -> snd (parse parse_text root fuel t (Some p) s) = Ok e) /\
  (forall fuel e, snd (parse parse_text root fuel t (Some p) s) = Ok e -> Means parse_text (Refers_loose root) p t e) /\
  (forall fuel fuel' q e e', snd (parse parse_text root fuel t (Some p) s) = Ok e ->
     snd (parse parse_text root fuel' t (Some p) (new_factory q)) = Ok e' -> e = e').
Proof.
  intros pt root s p t Ho A Hp Ht. pose proof (after_at pt root s Ho A) as At. pose proof Ho as [_ H2].
  assert (SO : forall fuel e, snd (parse pt root fuel t (Some p) s) = Ok e -> Means pt (Refers_loose root) p t e).
  { intros fuel e E. destruct (parse pt root fuel t (Some p) s) as [s' r] eqn:Q. cbn [snd] in E. subst r.
    now destruct (parse_ok pt root H2 fuel p [] [] t s s' e Hp Ht At Q) as [_ [_ T]]. }
  split; [|split; [exact SO|]].
  - intros e [k M]. exists k. intros fuel Lf. destruct k as [|k]; [destruct M|].
    pose proof (parse_progress pt root H2 k fuel p [] t s e ltac:(lia) Hp Ht At M) as P.
    unfold okb in P. destruct (parse pt root fuel t (Some p) s) as [s' [e1| |]] eqn:E; try discriminate. cbn [snd].
    destruct (parse_ok pt root H2 fuel p [] [] t s s' e1 Hp Ht At E) as [_ [T _]]. f_equal. symmetry. apply T. now exists (S k).
  - intros fuel fuel' q e e' E E'. destruct (SO fuel e E) as [k M]. destruct (C54_sound pt root p q t e' fuel' Ho Hp Ht E') as [j M'].
    exact (MeansN_det pt (Refers_loose root) (fun a b c d c' d' X Y => refers_loose_det root a b c d c' d' X Y) k j p t e e' M M').
Qed.
Print Assumptions C55_history.

Example C55_case : exists s, After pt0 tree0 s /\ List.length (cache s) = 5 /\ snd (parse pt0 tree0 10 (ch "a:x") None s) = Ok (EBin "+" (EVal (mkDec 2 0)) (EVal (mkDec 1 0))).
Proof.
  eexists. split.
  - eapply (called pt0 tree0 (new_factory []) _ 10 (ch "x*n") [ch "a"]).
    + constructor.
    + constructor; [|constructor]. split; [discriminate|]. split; intros [X|[]]; discriminate.
    + intros e n E Hn. vm_compute in E. injection E as <-. cbn in Hn. destruct Hn as [<-|[<-|[]]]; (split; [|left]); intros [X|[]]; discriminate.
    + vm_compute. reflexivity.
  - vm_compute. auto.
Qed.

(** After an exception it is different. The key being resolved stays on the stack: once y has been defined, x is still
    reported as an infinite recursion. *)
Theorem C55_exception_refuted :
  let r1 := Sec [kv "x" (v "y")] in let r2 := Sec [kv "x" (v "y"); kv "y" (v "1")] in
  let s1 := fst (parse pt0 r1 10 (ch "x") None (new_factory [])) in
  snd (parse pt0 r1 10 (ch "x") None (new_factory [])) = Throw /\
  snd (parse pt0 r2 10 (ch "x") None (new_factory [])) = Ok (EVal (mkDec 1 0)) /\
  snd (parse pt0 r2 10 (ch "x") None s1) = Throw.
Proof. vm_compute. auto. Qed.
Print Assumptions C55_exception_refuted.

(** And the section used by default is the one where the exception happened. *)
Theorem C55_section_refuted :
  let r := Sec [kv "n" (v "1"); kv "a" (Sec [kv "n" (v "2")])] in
  let s1 := fst (parse pt0 r 10 (ch "undefined") (Some [ch "a"]) (new_factory [])) in
  snd (parse pt0 r 10 (ch "n") None (new_factory [])) = Ok (EVal (mkDec 1 0)) /\ snd (parse pt0 r 10 (ch "n") None s1) = Ok (EVal (mkDec 2 0)).
Proof. vm_compute. auto. Qed.
Print Assumptions C55_section_refuted.

(** A changed option keeps its old value until cleanCache is called. *)
Theorem C55_changed_refuted :
  let r1 := Sec [kv "x" (v "1")] in let r2 := Sec [kv "x" (v "2")] in
  let s1 := fst (parse pt0 r1 10 (ch "x") None (new_factory [])) in
  snd (parse pt0 r2 10 (ch "x+1") None s1) = Ok (EBin "+" (EVal (mkDec 1 0)) (EVal (mkDec 1 0))).
Proof. vm_compute. auto. Qed.
Print Assumptions C55_changed_refuted.

(** A reference that a new factory rejects is accepted after the same key was cached for another section. *)
Theorem C55_rejected_refuted :
  let r := Sec [kv "x" (v "1"); kv "a" (Sec [])] in
  let s1 := fst (parse pt0 r 10 (ch "x") (Some [ch "a"]) (new_factory [])) in
  snd (parse pt0 r 10 (ch "a:x") None (new_factory [])) = Throw /\ snd (parse pt0 r 10 (ch "a:x") None s1) = Ok (EVal (mkDec 1 0)).
Proof. vm_compute. auto. Qed.
Print Assumptions C55_rejected_refuted.

(** A factory made for a section confuses texts parsed there by default with texts parsed in the root. *)
Theorem C55_default_section_refuted :
  let r := Sec [kv "x" (v "1"); kv "a" (Sec [kv "x" (v "2")])] in
  let s1 := fst (parse pt0 r 10 (ch "x") None (new_factory [ch "a"])) in
  snd (parse pt0 r 10 (ch "x") (Some []) (new_factory [ch "a"])) = Ok (EVal (mkDec 1 0)) /\ snd (parse pt0 r 10 (ch "x") (Some []) s1) = Ok (EVal (mkDec 2 0)).
Proof. vm_compute. auto. Qed.
Print Assumptions C55_default_section_refuted.
