(* The lexer. *)
Require Import ZArith List Bool Ascii String Lia.
Require Import Verif.Base Verif.ExprModel Verif.ExprSpec Verif.ExprProofs Verif.ExprProofs2 Verif.ExprProofs3.
Import ListNotations.
Local Open Scope Z_scope.
Local Open Scope char_scope.

(* ---------- every call ends and uses up input ---------- *)
Lemma num_loop_len s : forall gd ge, num_loop gd ge s <> UB /\
  forall r, num_loop gd ge s = Ok r -> (List.length (snd r) <= List.length s)%nat /\
    (forall c s', s = c :: s' -> isdigit c || Ascii.eqb c "." = true -> (List.length (snd r) < List.length s)%nat).
Proof.
  assert (X : forall n s, (List.length s <= n)%nat -> forall gd ge, num_loop gd ge s <> UB /\
    forall r, num_loop gd ge s = Ok r -> (List.length (snd r) <= List.length s)%nat /\
    (forall c s', s = c :: s' -> isdigit c || Ascii.eqb c "." = true -> (List.length (snd r) < List.length s)%nat)).
  { induction n as [|n IH]; intros t Hn gd ge.
    - destruct t; [|cbn in Hn; lia]. cbn [num_loop]. split; [discriminate|]. intros r [= <-]. split; [cbn; lia|discriminate].
    - destruct t as [|c t]; [cbn [num_loop]; split; [discriminate|]; intros r [= <-]; split; [cbn; lia|discriminate]|].
      cbn [num_loop]. cbn [List.length] in *.
      destruct (Ascii.eqb_spec c ".") as [->|Nd].
      { destruct (gd || ge); [split; discriminate|]. destruct (IH t ltac:(lia) true ge) as [A B].
        destruct (num_loop true ge t) as [r0| |]; cbn [bind]; [|split; discriminate|contradiction].
        split; [discriminate|]. intros r [= <-]. cbn [snd]. destruct (B _ eq_refl). split; [lia|]. intros; lia. }
      destruct (Ascii.eqb c "E" || Ascii.eqb c "e") eqn:Ee.
      { assert (isdigit c = false) as Dc.
        { apply orb_true_iff in Ee as [Ee|Ee]; apply Ascii.eqb_eq in Ee as ->; reflexivity. }
        destruct ge; [split; discriminate|]. destruct t as [|c2 t]; [split; discriminate|].
        destruct (_ || _ || _); [|split; discriminate]. destruct (IH t ltac:(cbn in Hn; lia) gd true) as [A B].
        destruct (num_loop gd true t) as [r0| |]; cbn [bind]; [|split; discriminate|contradiction].
        split; [discriminate|]. intros r [= <-]. cbn [snd List.length]. destruct (B _ eq_refl). split; [lia|]. intros; lia. }
      destruct (isdigit c) eqn:Dc.
      { destruct (IH t ltac:(lia) gd ge) as [A B].
        destruct (num_loop gd ge t) as [r0| |]; cbn [bind]; [|split; discriminate|contradiction].
        split; [discriminate|]. intros r [= <-]. cbn [snd]. destruct (B _ eq_refl). split; [lia|]. intros; lia. }
      split; [discriminate|]. intros r [= <-]. cbn [snd List.length]. split; [lia|].
      intros c' s' [= <- <-] H. rewrite Dc in H. apply Ascii.eqb_eq in H. contradiction. }
  intros gd ge. now apply (X (List.length s)).
Qed.

Lemma quoted_len close forbid s : quoted close forbid s <> UB /\
  forall r, quoted close forbid s = Ok r -> (List.length (snd r) < List.length s)%nat.
Proof.
  induction s as [|c s IH]; [split; discriminate|]. cbn [quoted]. destruct s as [|c2 s2]; [split; discriminate|].
  destruct (is_eof c2); [split; discriminate|]. destruct (forbid c2); [split; discriminate|].
  destruct (Ascii.eqb c2 close); [split; [discriminate|]; intros r [= <-]; cbn; lia|].
  destruct IH as [A B]. destruct (quoted close forbid (c2 :: s2)) as [r0| |]; cbn [bind]; [|split; discriminate|contradiction].
  split; [discriminate|]. intros r [= <-]. specialize (B _ eq_refl). cbn [snd List.length] in *. lia.
Qed.

Lemma ident_loop_len L n : forall s, (List.length s <= n)%nat -> s <> [] ->
  ident_loop L n s <> UB /\ forall r, ident_loop L n s = Ok r -> (List.length (snd r) < List.length s)%nat.
Proof.
  induction n as [|n IH]; intros s Hn Ne; [destruct s; [contradiction|cbn in Hn; lia]|].
  destruct s as [|c s']; [contradiction|]. cbn [ident_loop].
  set (piece := if Ascii.eqb c "\" then _ else _).
  assert (P : piece <> UB /\ forall r, piece = Ok r -> (List.length (snd r) <= List.length s')%nat).
  { subst piece. destruct (Ascii.eqb c "\").
    - destruct s' as [|c2 s2]; [split; discriminate|]. destruct (is_eof c2); [split; discriminate|].
      split; [discriminate|]. intros r [= <-]. cbn; lia.
    - destruct (Ascii.eqb c "`").
      + destruct (quoted_len "`" (fun _ => false) s') as [A B]. split; [exact A|]. intros r E. specialize (B r E). lia.
      + split; [discriminate|]. intros r [= <-]. cbn; lia. }
  destruct P as [P1 P2]. destruct piece as [pc| |]; cbn [bind]; [|split; discriminate|contradiction].
  specialize (P2 _ eq_refl). cbn [List.length] in *.
  destruct (ident_more L (snd pc)) eqn:M; [|split; [discriminate|]; intros r [= <-]; lia].
  destruct (IH (snd pc)) as [A B]; [lia|intros X; rewrite X in M; discriminate|].
  destruct (ident_loop L n (snd pc)) as [r0| |]; cbn [bind]; [|split; discriminate|contradiction].
  split; [discriminate|]. intros r [= <-]. specialize (B _ eq_refl). cbn [snd]. lia.
Qed.

Lemma skip_ws_len s : (List.length (skip_ws s) <= List.length s)%nat.
Proof. induction s as [|c s IH]; cbn [skip_ws]; [lia|]. destruct (isspace c); cbn [List.length]; lia. Qed.

Definition lmu (s : tok * str) : nat :=
  match fst s with TEnd => 0 | TNum _ => 2 * List.length (snd s) + 2 | _ => 2 * List.length (snd s) + 1 end.

Lemma nextToken_good L prev s : nextToken L prev s <> UB /\
  forall r, nextToken L prev s = Ok r -> (lmu r <= 2 * List.length s + 1)%nat /\ (prev <> TEnd -> (lmu r < lmu (prev, s))%nat).
Proof.
  unfold nextToken. pose proof (skip_ws_len s) as Ls. destruct (skip_ws s) as [|c s'].
  { split; [discriminate|]. intros r [= <-]. unfold lmu. cbn [fst snd]. split; [lia|]. intros N. destruct prev; try lia. contradiction. }
  cbn [List.length] in Ls.
  destruct (isdigit c || Ascii.eqb c ".") eqn:Dg.
  { destruct (num_loop_len (c :: s') false false) as [A B].
    destruct (num_loop false false (c :: s')) as [r0| |]; cbn [bind]; [|split; discriminate|contradiction].
    destruct (stod (fst r0)); [|split; discriminate]. split; [discriminate|]. intros r [= <-].
    destruct (B _ eq_refl) as [_ B2]. specialize (B2 _ _ eq_refl Dg). unfold lmu. cbn [fst snd List.length] in *.
    split; [lia|]. intros N. destruct prev; try lia. contradiction. }
  destruct (Ascii.eqb c "`" || negb (reserved L c)).
  { destruct (is_num prev) eqn:Np.
    - split; [discriminate|]. intros r [= <-]. unfold lmu. cbn [fst snd List.length]. split; [lia|]. intros N.
      destruct prev; try discriminate. lia.
    - destruct (ident_loop_len L (S (List.length s')) (c :: s') (le_n _) ltac:(discriminate)) as [A B].
      destruct (ident_loop L (S (List.length s')) (c :: s')) as [r0| |]; cbn [bind]; [|split; discriminate|contradiction].
      split; [discriminate|]. intros r [= <-]. specialize (B _ eq_refl). unfold lmu. cbn [fst snd List.length] in *.
      split; [lia|]. intros N. destruct prev; try lia. contradiction. }
  destruct (Ascii.eqb c "(" && is_num prev) eqn:Pn.
  { split; [discriminate|]. intros r [= <-]. unfold lmu. cbn [fst snd List.length]. split; [lia|]. intros N.
    apply andb_true_iff in Pn as [_ Pn]. destruct prev; try discriminate. lia. }
  destruct (Ascii.eqb c "{").
  { destruct (is_num prev) eqn:Np.
    - split; [discriminate|]. intros r [= <-]. unfold lmu. cbn [fst snd List.length]. split; [lia|]. intros N.
      destruct prev; try discriminate. lia.
    - destruct (quoted_len "}" (fun x => Ascii.eqb x "{") s') as [A B].
      destruct (quoted "}" (fun x => Ascii.eqb x "{") s') as [r0| |]; cbn [bind]; [|split; discriminate|contradiction].
      split; [discriminate|]. intros r [= <-]. specialize (B _ eq_refl). unfold lmu. cbn [fst snd List.length] in *.
      split; [lia|]. intros N. destruct prev; try lia. contradiction. }
  split; [discriminate|]. intros r [= <-]. unfold lmu. cbn [fst snd List.length]. split; [lia|]. intros N. destruct prev; try lia. contradiction.
Qed.

(* ---------- what is written is read ---------- *)
Lemma skip_spaces w s : spaces w -> skip_ws (w ++ s) = skip_ws s.
Proof.
  induction w as [|c w IH]; intros H; [reflexivity|]. cbn [app skip_ws]. rewrite (H c) by now left. apply IH. intros x Hx. apply H. now right.
Qed.
Lemma skip_ws_idem s : skip_ws (skip_ws s) = skip_ws s.
Proof. induction s as [|c s IH]; [reflexivity|]. cbn [skip_ws]. destruct (isspace c) eqn:E; [exact IH|]. cbn [skip_ws]. now rewrite E. Qed.
Lemma nextToken_skip L prev s : nextToken L prev (skip_ws s) = nextToken L prev s.
Proof. unfold nextToken. now rewrite skip_ws_idem. Qed.

Lemma digit_not c : isdigit c = true -> c <> "." /\ c <> "e" /\ c <> "E" /\ isspace c = false.
Proof.
  intros H. unfold isdigit in H. apply andb_true_iff in H as [H1 H2]. apply Z.leb_le in H1, H2.
  repeat split; try (intros ->; cbv in H1, H2; congruence).
  unfold isspace. destruct (Z.leb_spec 9 (code c)); destruct (Z.leb_spec (code c) 13); destruct (Z.eqb_spec (code c) 32); cbn; lia.
Qed.

Lemma num_digits ds : forall gd ge s, digits ds ->
  num_loop gd ge (ds ++ s) = do r <- num_loop gd ge s; Ok (ds ++ fst r, snd r).
Proof.
  induction ds as [|c ds IH]; intros gd ge s H.
  - cbn [app]. destruct (num_loop gd ge s) as [[a b]| |]; reflexivity.
  - cbn [app num_loop]. destruct (digit_not c (H c (or_introl eq_refl))) as (A & B & C & _).
    destruct (Ascii.eqb_spec c "."); [contradiction|]. destruct (Ascii.eqb_spec c "E"); [contradiction|].
    destruct (Ascii.eqb_spec c "e"); [contradiction|]. cbn [orb]. rewrite (H c (or_introl eq_refl)).
    rewrite IH by (intros x Hx; apply H; now right). destruct (num_loop gd ge s) as [[a b]| |]; reflexivity.
Qed.
Lemma num_stop d gd ge rest L : separate L (TNum d) rest -> num_loop gd ge rest = Ok ([], rest).
Proof.
  destruct rest as [|c rest]; [reflexivity|]. cbn [separate num_loop]. intros (A & B & C & D).
  destruct (Ascii.eqb_spec c "."); [contradiction|]. destruct (Ascii.eqb_spec c "E"); [contradiction|].
  destruct (Ascii.eqb_spec c "e"); [contradiction|]. cbn [orb]. now rewrite A.
Qed.

(* the exponent as the lexer normalises it *)
Definition norm_exp (x : str) : str := match x with _ :: x' => "e" :: x' | [] => [] end.
Lemma num_exp x e gd rest d L : exponent x e -> separate L (TNum d) rest ->
  num_loop gd false (x ++ rest) = Ok (norm_exp x, rest).
Proof.
  intros H Sp. destruct H as [|e' ds He Hn Hd|e' ds He Hn Hd|e' ds He Hn Hd].
  - exact (num_stop d gd false rest L Sp).
  - cbn [app num_loop]. assert (Ascii.eqb e' "." = false) as -> by (destruct He as [-> | ->]; reflexivity).
    assert (Ascii.eqb e' "E" || Ascii.eqb e' "e" = true) as -> by (destruct He as [-> | ->]; reflexivity).
    destruct ds as [|c ds]; [contradiction|]. cbn [app]. rewrite (Hd c (or_introl eq_refl)), orb_true_r.
    rewrite num_digits by (intros y Hy; apply Hd; now right). rewrite (num_stop d _ _ _ L Sp). cbn [bind fst snd]. rewrite app_nil_r. reflexivity.
  - cbn [app num_loop]. assert (Ascii.eqb e' "." = false) as -> by (destruct He as [-> | ->]; reflexivity).
    assert (Ascii.eqb e' "E" || Ascii.eqb e' "e" = true) as -> by (destruct He as [-> | ->]; reflexivity).
    change (Ascii.eqb "+" "+" || Ascii.eqb "+" "-" || isdigit "+") with true. cbv iota.
    rewrite num_digits by auto. rewrite (num_stop d _ _ _ L Sp). cbn [bind fst snd]. rewrite app_nil_r. reflexivity.
  - cbn [app num_loop]. assert (Ascii.eqb e' "." = false) as -> by (destruct He as [-> | ->]; reflexivity).
    assert (Ascii.eqb e' "E" || Ascii.eqb e' "e" = true) as -> by (destruct He as [-> | ->]; reflexivity).
    change (Ascii.eqb "-" "+" || Ascii.eqb "-" "-" || isdigit "-") with true. cbv iota.
    rewrite num_digits by auto. rewrite (num_stop d _ _ _ L Sp). cbn [bind fst snd]. rewrite app_nil_r. reflexivity.
Qed.

Lemma dvalue_digits_val s : forall acc, dvalue acc s = fold_left (fun a c => a * 10 + (code c - 48))%Z s acc.
Proof. induction s as [|c s IH]; intros acc; [reflexivity|]. cbn [dvalue fold_left]. rewrite IH. f_equal. lia. Qed.
Lemma dvalue_eq s : dvalue 0 s = digits_val s. Proof. apply dvalue_digits_val. Qed.

Lemma span_digits ds s : digits ds -> match s with c :: _ => isdigit c = false | [] => True end ->
  span isdigit (ds ++ s) = (ds, s).
Proof.
  induction ds as [|c ds IH]; intros H Hs.
  - cbn [app]. destruct s as [|c s]; [reflexivity|]. cbn [span]. now rewrite Hs.
  - cbn [app span]. rewrite (H c (or_introl eq_refl)). rewrite IH; [reflexivity|intros x Hx; apply H; now right|exact Hs].
Qed.
Lemma norm_exp_head x e : exponent x e -> match norm_exp x with c :: _ => isdigit c = false | [] => True end.
Proof. destruct 1; cbn [norm_exp]; auto. Qed.

Definition exp_val (r2 : str) : Z :=
  match r2 with
  | "e" :: "+" :: r3 => digits_val (fst (span isdigit r3))
  | "e" :: "-" :: r3 => (- digits_val (fst (span isdigit r3)))%Z
  | "e" :: r3 => digits_val (fst (span isdigit r3))
  | _ => 0%Z
  end.
Lemma exp_val_norm x e : exponent x e -> exp_val (norm_exp x) = e.
Proof.
  destruct 1 as [|e' ds He Hn Hd|e' ds He Hn Hd|e' ds He Hn Hd].
  - reflexivity.
  - assert (E : span isdigit ds = (ds, [])) by (rewrite <- (app_nil_r ds) at 1; apply span_digits; auto).
    destruct ds as [|c ds]; [contradiction|]. pose proof (Hd c (or_introl eq_refl)) as Dc.
    cbn [norm_exp exp_val]. rewrite dvalue_eq.
    assert (c <> "+" /\ c <> "-") as [N1 N2] by (split; intros ->; discriminate).
    transitivity (digits_val (fst (span isdigit (c :: ds)))); [|now rewrite E].
    destruct c as [[] [] [] [] [] [] [] []]; try reflexivity; try (exfalso; now apply N1); exfalso; now apply N2.
  - assert (E : span isdigit ds = (ds, [])) by (rewrite <- (app_nil_r ds) at 1; apply span_digits; auto).
    cbn [norm_exp exp_val]. rewrite E, dvalue_eq. reflexivity.
  - assert (E : span isdigit ds = (ds, [])) by (rewrite <- (app_nil_r ds) at 1; apply span_digits; auto).
    cbn [norm_exp exp_val]. rewrite E, dvalue_eq. reflexivity.
Qed.
Lemma stod_eq s : stod s =
  let (ip, r) := span isdigit s in
  let (fp, r2) := match r with "." :: r' => span isdigit r' | _ => ([], r) end in
  match ip ++ fp with [] => None | ds => Some (mkDec (digits_val ds) (exp_val r2 - Z.of_nat (List.length fp))) end.
Proof. reflexivity. Qed.

Lemma norm_exp_not_dot x e (A : Type) (a : str -> A) (b : A) : exponent x e ->
  match norm_exp x with "." :: r' => a r' | _ => b end = b.
Proof. now destruct 1. Qed.

Lemma lex_number x d L rest : number x d -> separate L (TNum d) rest ->
  (exists c x', x = c :: x' /\ isdigit c || Ascii.eqb c "." = true /\ isspace c = false) /\
  exists txt, num_loop false false (x ++ rest) = Ok (txt, rest) /\ stod txt = Some d.
Proof.
  intros H Sp. destruct H as [ip x e Hn Hi Hx|ip fp x e Hn Hi Hf Hx].
  - split.
    { destruct ip as [|c ip]; [contradiction|]. exists c, (ip ++ x). split; [reflexivity|].
      rewrite (Hi c (or_introl eq_refl)). split; [reflexivity|]. apply (digit_not c). apply Hi. now left. }
    exists (ip ++ norm_exp x). split.
    + rewrite <- app_assoc, num_digits by auto. rewrite (num_exp x e _ rest _ L Hx Sp). reflexivity.
    + rewrite stod_eq, span_digits by (auto; eapply norm_exp_head; eauto).
      rewrite (norm_exp_not_dot x e _ (fun r' => span isdigit r') _ Hx). rewrite app_nil_r.
      destruct ip as [|c ip]; [contradiction|]. rewrite (exp_val_norm x e Hx), dvalue_eq. cbn [List.length]. do 2 f_equal. lia.
  - split.
    { destruct ip as [|c ip]; [exists ".", (fp ++ x); repeat split; reflexivity|]. exists c, (ip ++ "." :: fp ++ x). split; [reflexivity|].
      rewrite (Hi c (or_introl eq_refl)). split; [reflexivity|]. apply (digit_not c). apply Hi. now left. }
    exists (ip ++ "." :: fp ++ norm_exp x). split.
    + rewrite <- app_assoc. cbn [app]. rewrite num_digits by auto. cbn [num_loop Ascii.eqb orb]. change (Ascii.eqb "." ".") with true. cbv iota.
      rewrite <- app_assoc, num_digits by auto. rewrite (num_exp x e _ rest _ L Hx Sp). reflexivity.
    + rewrite stod_eq, span_digits by (auto; reflexivity).
      rewrite span_digits by (auto; eapply norm_exp_head; eauto).
      rewrite (exp_val_norm x e Hx), dvalue_eq. destruct (ip ++ fp) as [|c l]; [contradiction|]. reflexivity.
Qed.

(* ---------- names ---------- *)
Lemma quoted_spec close forbid q rest : q <> [] ->
  (forall c, In c q -> c <> close /\ forbid c = false /\ is_eof c = false) -> forbid close = false -> is_eof close = false ->
  quoted close forbid (q ++ close :: rest) = Ok (q, rest).
Proof.
  intros Ne H Fc Ec. induction q as [|c q IH]; [contradiction|]. cbn [app quoted].
  destruct q as [|c2 q].
  - cbn [app]. rewrite Ec, Fc, Ascii.eqb_refl. reflexivity.
  - destruct (H c2 ltac:(right; now left)) as (A & B & C). cbn [app]. rewrite C, B.
    destruct (Ascii.eqb_spec c2 close); [contradiction|]. cbn [app] in IH. rewrite IH; [reflexivity|discriminate|]. intros x Hx. apply H. now right.
Qed.

Lemma ident_spec L s x rest : name_text L s x -> separate L (TId s) rest -> x <> [] -> forall n, (List.length x <= n)%nat ->
  ident_loop L n (x ++ rest) = Ok (s, rest).
Proof.
  intros H Sp. 
  assert (M0 : ident_more L rest = false).
  { destruct rest as [|c rest]; [reflexivity|]. cbn [separate ident_more] in *. destruct Sp as (A & B & C).
    destruct (Ascii.eqb_spec c "\"); [contradiction|]. destruct (Ascii.eqb_spec c "`"); [contradiction|].
    rewrite !orb_false_r. destruct A as [-> |[-> | ->]]; cbn [negb]; rewrite ?andb_false_r; reflexivity. }
  clear Sp.
  assert (M1 : forall s x, name_text L s x -> x <> [] -> ident_more L (x ++ rest) = true).
  { clear. intros s x H Ne. destruct H as [|c s x P H|c s x P H|q s x P Q H]; [contradiction| | | ]; cbn [app ident_more].
    - destruct P as (A & B & C & _). rewrite A, B, C. reflexivity.
    - change (Ascii.eqb "\" "\") with true. rewrite orb_true_r. reflexivity.
    - change (Ascii.eqb "`" "`") with true. rewrite orb_true_r. reflexivity. }
  assert (M2 : forall s x n, name_text L s x -> (x <> [] -> ident_loop L n (x ++ rest) = Ok (s, rest)) -> forall p,
     (if ident_more L (x ++ rest) then do r <- ident_loop L n (x ++ rest); Ok (p ++ fst r, snd r) else Ok (p, x ++ rest)) = Ok (p ++ s, rest)).
  { intros s0 x0 n H0 I p. destruct x0 as [|c x0].
    - cbn [app]. rewrite M0. assert (s0 = []) as -> by (clear - H0; inversion H0; reflexivity). now rewrite app_nil_r.
    - rewrite (M1 s0 (c :: x0) H0 ltac:(discriminate)). rewrite I by discriminate. reflexivity. }
  induction H as [|c s x P H IH|c s x P H IH|q s x P Q H IH]; intros Ne n Hn; [contradiction| | | ].
  - destruct n as [|n]; [cbn in Hn; lia|]. cbn [app ident_loop]. destruct P as (_ & _ & _ & A & B).
    destruct (Ascii.eqb_spec c "\"); [contradiction|]. destruct (Ascii.eqb_spec c "`"); [contradiction|]. cbn [bind fst snd].
    apply (M2 s x n H) with (p := [c]). intros Nx. apply IH; [exact Nx|cbn in Hn; lia].
  - destruct n as [|n]; [cbn in Hn; lia|]. cbn [app ident_loop]. change (Ascii.eqb "\" "\") with true. cbv iota. rewrite P. cbn [bind fst snd].
    apply (M2 s x n H) with (p := [c]). intros Nx. apply IH; [exact Nx|cbn in Hn; lia].
  - destruct n as [|n]; [cbn in Hn; lia|]. cbn [app ident_loop]. change (Ascii.eqb "`" "\") with false. change (Ascii.eqb "`" "`") with true. cbv iota.
    rewrite <- app_assoc. cbn [app]. rewrite quoted_spec; auto.
    + cbn [bind fst snd]. apply (M2 s x n H) with (p := q). intros Nx. apply IH; [exact Nx|]. cbn in Hn. rewrite app_length in Hn. cbn in Hn. lia.
    + intros c Hc. destruct (Q c Hc). auto.
Qed.

Lemma reserved_chars_spec L : wf_lang L -> reserved L "\" = false.
Proof.
  intros WF. unfold reserved. cbn. destruct (prec L "\") eqn:E; [|reflexivity].
  destruct (WF _ _ E) as [_ N]. exfalso. apply N. cbn. tauto.
Qed.

Lemma name_head L s c x : wf_lang L -> name_text L s (c :: x) -> isspace c = false /\ (Ascii.eqb c "`" || negb (reserved L c)) = true.
Proof.
  intros WF H. inversion H; subst.
  - destruct H3 as (A & B & _). rewrite A, B. now rewrite orb_true_r.
  - rewrite (reserved_chars_spec L WF). split; reflexivity.
  - split; reflexivity.
Qed.

Lemma next_written L prev t w x rest : wf_lang L -> spaces w -> written L t x -> separate L t rest ->
  (is_num prev = true -> factor_start t = false) -> nextToken L prev (w ++ x ++ rest) = Ok (t, rest).
Proof.
  intros WF Hw Hx Sp Hp. unfold nextToken. rewrite skip_spaces by auto.
  destruct Hx as [x d Hx|c s x Hx Hd Hn|s Ne Hs|c R1 R2 R3 R4 R5 R6].
  - destruct (lex_number x d L rest Hx Sp) as [(c & x' & -> & A & B) (txt & N & S)].
    cbn [app skip_ws]. rewrite B, A. cbn [app] in N. rewrite N. cbn [bind fst snd]. rewrite S. reflexivity.
  - destruct (name_head L s c x WF Hx) as [A B]. cbn [app skip_ws]. rewrite A, Hd.
    destruct (Ascii.eqb_spec c "."); [contradiction|]. cbn [orb]. rewrite B.
    destruct (is_num prev); [specialize (Hp eq_refl); discriminate|].
    change (c :: x ++ rest) with ((c :: x) ++ rest). rewrite (ident_spec L s (c :: x) rest Hx Sp ltac:(discriminate)); [reflexivity|].
    cbn [List.length]. rewrite app_length. lia.
  - cbn [app skip_ws]. change (isspace "{") with false. cbv iota. change (isdigit "{" || Ascii.eqb "{" ".") with false. cbv iota.
    assert (reserved L "{" = true) as -> by reflexivity. change (Ascii.eqb "{" "`" || negb true) with false. cbv iota.
    change (Ascii.eqb "{" "(" && is_num prev) with false. change (Ascii.eqb "{" "{") with true. cbv iota.
    destruct (is_num prev); [specialize (Hp eq_refl); discriminate|].
    rewrite <- app_assoc. cbn [app]. rewrite quoted_spec; auto. intros c Hc. destruct (Hs c Hc) as (A & B & C). repeat split; auto.
    now apply Ascii.eqb_neq.
  - cbn [app skip_ws]. rewrite R2, R3. destruct (Ascii.eqb_spec c "."); [contradiction|]. cbn [orb].
    destruct (Ascii.eqb_spec c "`"); [contradiction|]. rewrite R1. cbn [orb negb].
    destruct (Ascii.eqb c "(" && is_num prev) eqn:E.
    { apply andb_true_iff in E as [E1 E2]. specialize (Hp E2). cbn [factor_start] in Hp. congruence. }
    destruct (Ascii.eqb_spec c "{"); [contradiction|]. reflexivity.
Qed.

(* a '*' left out *)
Lemma next_times L d t ts s : wf_lang L -> factor_start t = true -> spelled L (TCh "*") (t :: ts) s ->
  nextToken L (TNum d) s = Ok (TCh "*", skip_ws s).
Proof.
  intros WF Ft H. inversion H as [|prev t' ts' w x rest Hw Hx Sp Hp Hr|]; subst. unfold nextToken. rewrite skip_spaces by auto.
  destruct Hx as [x d' Hx|c s x Hx Hd Hn|s Ne Hs|c R1 R2 R3 R4 R5 R6].
  - discriminate.
  - destruct (name_head L s c x WF Hx) as [A B]. cbn [app skip_ws]. rewrite A, Hd.
    destruct (Ascii.eqb_spec c "."); [contradiction|]. cbn [orb]. rewrite B. reflexivity.
  - cbn [app skip_ws]. change (isspace "{") with false. cbv iota. change (isdigit "{" || Ascii.eqb "{" ".") with false. cbv iota.
    assert (reserved L "{" = true) as -> by reflexivity. reflexivity.
  - cbn [factor_start] in Ft. apply Ascii.eqb_eq in Ft as ->. reflexivity.
Qed.

Lemma lex_path L prev ts s : wf_lang L -> spelled L prev ts s ->
  exists st st', nextToken L prev s = Ok st /\ path (tok * str) lcur (lnext L) st ts st' /\ lcur st' = TEnd.
Proof.
  intros WF H. induction H as [prev w Hw|prev t ts w x rest Hw Hx Sp Hp Hr IH|d t ts s Ft Hs IH].
  - exists (TEnd, []), (TEnd, []). split; [|split; [constructor|reflexivity]].
    unfold nextToken. rewrite <- (app_nil_r w), skip_spaces by auto. reflexivity.
  - rewrite (next_written L prev t w x rest WF Hw Hx Sp Hp). destruct IH as (st & st' & E & P & C).
    exists (t, rest), st'. split; [reflexivity|]. split; [|exact C].
    change t with (lcur (t, rest)) at 2. econstructor; [exact E|exact P].
  - rewrite (next_times L d t ts s WF Ft Hs). destruct IH as (st & st' & E & P & C).
    exists (TCh "*", skip_ws s), st'. split; [reflexivity|]. split; [|exact C].
    change (TCh "*") with (lcur (TCh "*", skip_ws s)) at 2. econstructor; [|exact P]. unfold lnext. cbn [fst snd]. now rewrite nextToken_skip.
Qed.
