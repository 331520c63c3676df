(* From the generic parser to parseString; printing a tree. *)
Require Import ZArith List Bool Ascii String Lia.
Require Import Verif.Base Verif.ExprModel Verif.ExprSpec Verif.ExprProofs Verif.ExprProofs2 Verif.ExprProofs3 Verif.ExprProofs4.
Import ListNotations.
Local Open Scope Z_scope.
Local Open Scope char_scope.

Section Q.
Variable L : lang.
Hypothesis WF : wf_lang L.
Notation LS := (tok * str)%type.
Notation lpath := (path LS lcur (lnext L)).
Definition enough (s : str) : nat := (8 * List.length s + 7)%nat.

Lemma lnext_ok st : lnext L st <> UB.
Proof. apply nextToken_good. Qed.
Lemma lnext_mu st st' : lnext L st = Ok st' -> lcur st <> TEnd -> (lmu st' < lmu st)%nat.
Proof. destruct st as [t s]. unfold lnext, lcur. cbn [fst snd]. intros H N. now apply (proj2 (nextToken_good L t s) _ H). Qed.

Lemma parse_terminates fuel s : (forall nm, resolves L nm <> UB) -> (enough s <= fuel)%nat -> parseString L fuel s <> UB.
Proof.
  intros R Hf. unfold parseString. destruct (nextToken_good L TEnd s) as [N1 N2].
  destruct (nextToken L TEnd s) as [st| |] eqn:E; [|discriminate|contradiction]. cbn [bind].
  specialize (N2 _ eq_refl) as [N2 _].
  pose proof (terminates L LS lcur (lnext L) lmu lnext_ok lnext_mu R fuel) as T.
  destruct T as (_ & _ & _ & _ & _ & _ & _ & T). destruct (T st) as [T1 _]; [unfold enough in Hf; lia|].
  destruct (pExpr L LS lcur (lnext L) fuel st) as [[e st']| |]; [|discriminate|contradiction]. cbn [bind fst snd].
  destruct (lcur st'); discriminate.
Qed.

Lemma parse_up n m s r : (n <= m)%nat -> parseString L n s = r -> r <> UB -> parseString L m s = r.
Proof.
  intros H E N. unfold parseString in *. destruct (nextToken L TEnd s) as [st| |]; cbn [bind] in *; auto.
  destruct (pExpr L LS lcur (lnext L) n st) as [v| |] eqn:P.
  - rewrite (pExpr_up _ _ _ _ n m _ _ H P) by discriminate. exact E.
  - rewrite (pExpr_up _ _ _ _ n m _ _ H P) by discriminate. exact E.
  - cbn [bind] in E. congruence.
Qed.
Lemma parse_fixed n m s e : (forall nm, resolves L nm <> UB) -> parseString L n s = Ok e -> (enough s <= m)%nat -> parseString L m s = Ok e.
Proof.
  intros R E H. destruct (Nat.le_ge_cases n m) as [C|C].
  - apply (parse_up n m s _ C E). discriminate.
  - rewrite <- E. symmetry. apply (parse_up m n s _ C eq_refl). now apply parse_terminates.
Qed.

Lemma path_lexes ts st st' : lpath st ts st' -> lcur st' = TEnd -> ~ In TEnd ts ->
  forall prev s, nextToken L prev s = Ok st -> lexes L prev s ts.
Proof.
  intros P C. induction P as [st|st st1 ts st' E P IH]; intros N prev s H.
  - destruct st as [t r]. cbn in C. subst t. eapply lx_end; eauto.
  - destruct st as [t r]. cbn [lcur fst] in *. apply (lx_tok L prev s t r); auto.
    { intros ->. apply N. now left. }
    apply IH; auto. intros X. apply N. now right.
Qed.
Lemma lexes_path prev s ts : lexes L prev s ts -> exists st st', nextToken L prev s = Ok st /\ lpath st ts st' /\ lcur st' = TEnd.
Proof.
  induction 1 as [prev s r E|prev s t r ts E N H IH].
  - exists (TEnd, r), (TEnd, r). repeat split; auto. constructor.
  - destruct IH as (st & st' & E1 & P & C). exists (t, r), st'. split; [exact E|]. split; [|exact C].
    change t with (lcur (t, r)) at 2. econstructor; [exact E1|exact P].
Qed.
Lemma lexes_no_end prev s ts : lexes L prev s ts -> ~ In TEnd ts.
Proof. induction 1; cbn; intuition. Qed.

Scheme G_mind := Induction for G Sort Prop
  with Ga_mind := Induction for Gargs Sort Prop
  with Gv_mind := Induction for Gvars Sort Prop.
Combined Scheme G_mutind from G_mind, Ga_mind, Gv_mind.

Lemma G_no_end : (forall p e ts nxt, G L p e ts nxt -> ~ In TEnd ts) /\ (forall es ts, Gargs L es ts -> ~ In TEnd ts) /\
  (forall vs ts, Gvars L vs ts -> ~ In TEnd ts).
Proof.
  apply (G_mutind L (fun p e ts nxt _ => ~ In TEnd ts) (fun es ts _ => ~ In TEnd ts) (fun vs ts _ => ~ In TEnd ts)); intros;
  cbn [In]; rewrite ?in_app_iff; cbn [In]; rewrite ?in_app_iff; cbn [In]; try (intuition discriminate).
  intros X. destruct o as [-> | ->]; intuition discriminate.
Qed.

Lemma parse_exact s e : (exists fuel, parseString L fuel s = Ok e) <-> exists ts, lexes L TEnd s ts /\ G L 0 e ts TEnd.
Proof.
  split.
  - intros (n & H). unfold parseString in H. apply bind_ok in H as (st & E & H). apply bind_ok in H as ([e' st'] & P & H). cbn [fst snd] in H.
    destruct (lcur st') eqn:C; try discriminate. injection H as ->.
    destruct (sound L LS lcur (lnext L) n) as (_ & _ & _ & _ & _ & _ & _ & S). destruct (S _ _ _ P) as (ts & P1 & Gt & _).
    rewrite C in Gt. exists ts. split; [|exact Gt]. apply (path_lexes ts st st' P1 C); [|exact E]. exact (proj1 G_no_end _ _ _ _ Gt).
  - intros (ts & Hl & Hg). destruct (lexes_path _ _ _ Hl) as (st & st' & E & P & C).
    destruct (level_expr L LS lcur (lnext L) e ts TEnd st st' (proj1 (accept L _ lcur (lnext L) WF) _ _ _ _ Hg) P C eq_refl) as [n Hn].
    exists n. unfold parseString. rewrite E. cbn [bind]. rewrite Hn. cbn [bind fst snd]. now rewrite C.
Qed.

Lemma written_not_end t x : written L t x -> t <> TEnd. Proof. destruct 1; discriminate. Qed.
Lemma spelled_no_end prev ts s : spelled L prev ts s -> ~ In TEnd ts.
Proof. induction 1; cbn [In]; [tauto| |]; [pose proof (written_not_end _ _ H0); intuition congruence|]. cbn [In] in IHspelled. intuition discriminate. Qed.
Lemma spelled_lexes prev ts s : spelled L prev ts s -> lexes L prev s ts.
Proof.
  intros H. destruct (lex_path L prev ts s WF H) as (st & st' & E & P & C). apply (path_lexes ts st st' P C); [|exact E]. now apply (spelled_no_end prev ts s).
Qed.
Lemma parse_complete ts s e : spelled L TEnd ts s -> D L 0 e ts -> exists fuel, parseString L fuel s = Ok e.
Proof.
  intros H HD. apply parse_exact. exists ts. split; [now apply spelled_lexes|]. apply (proj1 (D_in_G L WF)); auto. now left.
Qed.

(* ---------- the lexer is total and deterministic ---------- *)
Lemma lex_total : forall n prev s, prev = TEnd /\ (2 * List.length s + 2 < n)%nat \/ prev <> TEnd /\ (lmu (prev, s) < n)%nat ->
  (exists ts, lexes L prev s ts) \/ lex_throws L prev s.
Proof.
  induction n as [|n IH]; intros prev s H; [lia|]. destruct (nextToken_good L prev s) as [N1 N2].
  destruct (nextToken L prev s) as [[t r]| |] eqn:E; [|right; now apply lt_now|contradiction].
  assert (DT : t = TEnd \/ t <> TEnd) by (destruct t; ((left; reflexivity) || (right; discriminate))).
  destruct DT as [-> |Nt]; [left; exists []; eapply lx_end; eauto|].
  specialize (N2 _ eq_refl) as [B1 B2]. destruct (IH t r) as [(ts & Hts)|Ht].
  - right. split; [exact Nt|]. destruct H as [[-> H]|[Hp H]]; [lia|]. specialize (B2 Hp). lia.
  - left. exists (t :: ts). econstructor; eauto.
  - right. eapply lt_later; eauto.
Qed.
Lemma lex_det prev s ts : lexes L prev s ts -> forall ts', lexes L prev s ts' -> ts = ts'.
Proof.
  induction 1 as [prev s r E|prev s t r ts E N H IH]; intros ts' H'; inversion H' as [p1 s1 r1 E1|p1 s1 t1 r1 ts1 E1 N1 L1]; subst.
  - reflexivity.
  - congruence.
  - congruence.
  - rewrite E in E1. injection E1 as <- <-. f_equal. now apply IH.
Qed.
Lemma lex_excl prev s ts : lexes L prev s ts -> ~ lex_throws L prev s.
Proof.
  induction 1 as [prev s r E|prev s t r ts E N H IH]; intros H'; inversion H' as [p1 s1 E1|p1 s1 t1 r1 E1 N1 L1]; subst.
  - congruence.
  - congruence.
  - congruence.
  - rewrite E in E1. injection E1 as <- <-. now apply IH.
Qed.

(* ---------- str() ---------- *)
Fixpoint argtoks (l : list expr) : list tok :=
  match l with [] => [] | [a] => strtoks a | a :: l' => strtoks a ++ TCh "," :: argtoks l' end.
Fixpoint vartoks (l : list (str * expr)) : list tok :=
  match l with [] => [] | (s, a) :: l' => TId s :: TCh "=" :: strtoks a ++ TCh "," :: vartoks l' end.
Lemma strtoks_call name a l : strtoks (ECall name (a :: l)) = TId name :: TCh "(" :: argtoks (a :: l) ++ [TCh ")"].
Proof. reflexivity. Qed.
Lemma strtoks_ctx vs b : strtoks (ECtx vs b) = TCh "[" :: vartoks vs ++ TCh "]" :: TCh "(" :: strtoks b ++ [TCh ")"].
Proof. reflexivity. Qed.

Fixpoint esize (e : expr) : nat :=
  match e with
  | EVal _ | EParam _ | ERes _ => 1
  | EBin _ l r => S (esize l + esize r)
  | ECall _ l => S (list_sum (map esize l))
  | ECtx vs b => S (list_sum (map (fun v => esize (snd v)) vs) + esize b)
  | ESum _ c b => S (esize c + esize b)
  end.
Lemma in_list_sum {A} (f : A -> nat) l a : In a l -> (f a <= list_sum (map f l))%nat.
Proof. unfold list_sum. induction l as [|b l IH]; [contradiction|]. cbn [map fold_right]. intros [-> |H]; [lia|]. specialize (IH H). lia. Qed.

Lemma strtoks_D : forall n e, (esize e <= n)%nat -> known L e -> forall p, D L p e (strtoks e).
Proof.
  induction n as [|n IH]; intros e Hn K p; [destruct e; cbn [esize] in Hn; lia|].
  destruct K as [d|s|op l r Ho Kl Kr|name args ar N1 N2 N3 Ka|name N1 N2 N3|vs b Kv Kb|s c b Kc Kb].
  - constructor.
  - constructor.
  - cbn [strtoks]. destruct (prec L op) as [q|] eqn:E; [|contradiction]. destruct (WF _ _ E) as [Hq _]. cbn [esize] in Hn.
    apply D_brackets. apply (D_binary L 0 q); auto; apply IH; auto; lia.
  - destruct args as [|a args]; [econstructor; eauto|]. rewrite strtoks_call. eapply D_call; eauto. cbn [esize] in Hn.
    assert (X : forall x, In x (a :: args) -> D L 0 x (strtoks x)).
    { intros x Hx. apply IH; [|now apply Ka]. pose proof (in_list_sum esize _ _ Hx). lia. }
    clear -X. revert a X. induction args as [|a' args IHa]; intros a X.
    + constructor. apply X. now left.
    + change (argtoks (a :: a' :: args)) with (strtoks a ++ TCh "," :: argtoks (a' :: args)). constructor; [apply X; now left|].
      apply IHa. intros x Hx. apply X. now right.
  - now apply D_resolved.
  - rewrite strtoks_ctx. cbn [esize] in Hn. apply D_context; [|apply IH; auto; lia].
    assert (X : forall s x, In (s, x) vs -> D L 0 x (strtoks x)).
    { intros s x Hx. apply IH; [|now apply (Kv s)]. pose proof (in_list_sum (fun v => esize (snd v)) _ _ Hx). cbn [snd] in H. lia. }
    clear -X. induction vs as [|[s a] vs IHv]; [constructor|]. cbn [vartoks]. constructor; [apply (X s); now left|].
    apply IHv. intros s' x Hx. apply (X s'). now right.
  - cbn [strtoks]. cbn [esize] in Hn. apply D_sum; apply IH; auto; lia.
Qed.
End Q.

Lemma std_wf g r : wf_lang (std_lang g r).
Proof.
  intros c p. cbn [std_lang prec]. unfold std_prec.
  destruct (Ascii.eqb_spec c "+"); [subst; intros [= <-]; split; [lia|cbn; intuition discriminate]|].
  destruct (Ascii.eqb_spec c "-"); [subst; intros [= <-]; split; [lia|cbn; intuition discriminate]|].
  destruct (Ascii.eqb_spec c "*"); [subst; intros [= <-]; split; [lia|cbn; intuition discriminate]|].
  destruct (Ascii.eqb_spec c "/"); [subst; intros [= <-]; split; [lia|cbn; intuition discriminate]|].
  destruct (Ascii.eqb_spec c "^"); [subst; intros [= <-]; split; [lia|cbn; intuition discriminate]|]. discriminate.
Qed.
