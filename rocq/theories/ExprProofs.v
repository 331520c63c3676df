(* The parser over any source of tokens: fuel, acceptance of the grammar, soundness. *)
Require Import ZArith List Bool Ascii String Lia.
Require Import Verif.Base Verif.ExprModel Verif.ExprSpec.
Import ListNotations.
Local Open Scope Z_scope.
Local Open Scope char_scope.

Definition le_res {A} (a b : res A) : Prop := a = UB \/ a = b.
Lemma le_refl {A} (a : res A) : le_res a a. Proof. now right. Qed.
Lemma le_bind {A B} (m m' : res A) (f g : A -> res B) :
  le_res m m' -> (forall a, le_res (f a) (g a)) -> le_res (bind m f) (bind m' g).
Proof.
  intros [-> | ->] H; [left; reflexivity|]. destruct m' as [a| |]; cbn [bind]; [apply H| |]; now right.
Qed.

Section P.
Variable L : lang.
Variables (St : Type) (cur : St -> tok) (next : St -> res St).
Notation pPrimary := (pPrimary L St cur next).
Notation pIdent := (pIdent L St cur next).
Notation pArgs := (pArgs L St cur next).
Notation pParen := (pParen L St cur next).
Notation pContext := (pContext L St cur next).
Notation pVars := (pVars L St cur next).
Notation pBin := (pBin L St cur next).
Notation pExpr := (pExpr L St cur next).
Notation expect := (expect St cur next).

Lemma pPrimary_S n st : pPrimary (S n) st =
      match cur st with
      | TNum d =>
          do st' <- next st; Ok (EVal (match cur st' with TNum d' => d' | _ => d end), st')
      | TId name => pIdent n name st
      | TParam s => do st' <- next st; Ok (EParam s, st')
      | TCh c =>
          if Ascii.eqb c "-" then Ok (zero, st)
          else if Ascii.eqb c "(" then pParen n st
          else if Ascii.eqb c "[" then pContext n st
          else Throw
      | TEnd => Throw
      end.
Proof. reflexivity. Qed.
Lemma pIdent_S n name st : pIdent (S n) name st =
      do st1 <- next st;
      if list_eq_dec ascii_dec name (ch "sum") then
        do st2 <- expect "(" st1;
        match cur st2 with
        | TId sym | TParam sym =>
            do st3 <- next st2;
            do st4 <- expect "," st3;
            do c <- pExpr n st4;
            do st5 <- expect "," (snd c);
            do e <- pExpr n st5;
            do st6 <- expect ")" (snd e);
            Ok (ESum sym (fst c) (fst e), st6)
        | _ => Throw
        end
      else if is_ch (cur st1) "(" then
        match gens L name with
        | None => Throw
        | Some arity =>
            do st2 <- next st1;
            if is_ch (cur st2) ")" then
              do st3 <- next st2; if arity O then Ok (ECall name [], st3) else Throw
            else
              do a <- pArgs n st2;
              if arity (List.length (fst a)) then Ok (ECall name (fst a), snd a) else Throw
        end
      else
        match gens L name with
        | None => do b <- resolves L name; if b then Ok (ERes name, st1) else Throw
        | Some arity => if arity O then Ok (ECall name [], st1) else Throw
        end.
Proof. reflexivity. Qed.
Lemma pArgs_S n st : pArgs (S n) st =
      do e <- pExpr n st;
      if is_ch (cur (snd e)) ")" then do st' <- next (snd e); Ok ([fst e], st')
      else if is_ch (cur (snd e)) "," then
        do st' <- next (snd e);
        do r <- pArgs n st';
        Ok (fst e :: fst r, snd r)
      else Throw.
Proof. reflexivity. Qed.
Lemma pParen_S n st : pParen (S n) st =
      do st1 <- next st;
      do e <- pExpr n st1;
      if is_ch (cur (snd e)) ")" || is_ch (cur (snd e)) "]"
      then do st2 <- next (snd e); Ok (fst e, st2) else Throw.
Proof. reflexivity. Qed.
Lemma pContext_S n st : pContext (S n) st =
      do st1 <- next st;
      do v <- pVars n st1;
      do st2 <- next (snd v);
      if is_ch (cur st2) "(" then
        do e <- pParen n st2; Ok (ECtx (fst v) (fst e), snd e)
      else Throw.
Proof. reflexivity. Qed.
Lemma pVars_S n st : pVars (S n) st =
      if is_ch (cur st) "]" then Ok ([], st)
      else match cur st with
           | TId symbol =>
               do st1 <- next st;
               do st2 <- expect "=" st1;
               do e <- pExpr n st2;
               do st3 <- (if is_ch (cur (snd e)) "," then next (snd e) else Ok (snd e));
               do r <- pVars n st3;
               Ok ((symbol, fst e) :: fst r, snd r)
           | _ => Throw
           end.
Proof. reflexivity. Qed.
Lemma pBin_S n p lhs st : pBin (S n) p lhs st =
      if is_end (cur st) then Ok (lhs, st)
      else match op_of L (cur st) with
           | None => Throw
           | Some (op, tprec) =>
               if (tprec <? p)%Z then Ok (lhs, st)
               else
                 do st1 <- next st;
                 do rhs <- pPrimary n st1;
                 if is_end (cur (snd rhs)) then Ok (EBin op lhs (fst rhs), snd rhs)
                 else match op_of L (cur (snd rhs)) with
                      | None => Throw
                      | Some (_, nprec) =>
                          do rhs' <- (if (tprec <? nprec)%Z then pBin n (tprec + 1) (fst rhs) (snd rhs)
                                      else Ok rhs);
                          pBin n p (EBin op lhs (fst rhs')) (snd rhs')
                      end
           end.
Proof. reflexivity. Qed.
Lemma pExpr_S n st : pExpr (S n) st = do l <- pPrimary n st; pBin n 0 (fst l) (snd l).
Proof. reflexivity. Qed.

(* ---------- more fuel does not change an answer ---------- *)
Definition mono_at (n : nat) : Prop :=
  (forall st, le_res (pPrimary n st) (pPrimary (S n) st)) /\
  (forall nm st, le_res (pIdent n nm st) (pIdent (S n) nm st)) /\
  (forall st, le_res (pArgs n st) (pArgs (S n) st)) /\
  (forall st, le_res (pParen n st) (pParen (S n) st)) /\
  (forall st, le_res (pContext n st) (pContext (S n) st)) /\
  (forall st, le_res (pVars n st) (pVars (S n) st)) /\
  (forall p e st, le_res (pBin n p e st) (pBin (S n) p e st)) /\
  (forall st, le_res (pExpr n st) (pExpr (S n) st)).

Ltac lem := repeat first
  [ progress intros | apply le_refl | apply le_bind
  | match goal with
    | |- le_res (match ?x with _ => _ end) (match ?x with _ => _ end) => destruct x
    | H : forall st, le_res _ _ |- _ => apply H
    | H : forall nm st, le_res _ _ |- _ => apply H
    | H : forall p e st, le_res _ _ |- _ => apply H
    end ].

Lemma mono n : mono_at n.
Proof.
  induction n as [|n IH]; [repeat split; intros; left; reflexivity|].
  destruct IH as (H1 & H2 & H3 & H4 & H5 & H6 & H7 & H8).
  repeat split; intros.
  - rewrite (pPrimary_S n), (pPrimary_S (S n)). lem.
  - rewrite (pIdent_S n), (pIdent_S (S n)). lem.
  - rewrite (pArgs_S n), (pArgs_S (S n)). lem.
  - rewrite (pParen_S n), (pParen_S (S n)). lem.
  - rewrite (pContext_S n), (pContext_S (S n)). lem.
  - rewrite (pVars_S n), (pVars_S (S n)). lem.
  - rewrite (pBin_S n), (pBin_S (S n)). lem.
  - rewrite (pExpr_S n), (pExpr_S (S n)). lem.
Qed.

Lemma le_trans_up {A} (f : nat -> res A) : (forall n, le_res (f n) (f (S n))) ->
  forall n m, (n <= m)%nat -> le_res (f n) (f m).
Proof.
  intros H n m Hm. induction Hm as [|m Hm IH]; [apply le_refl|].
  destruct IH as [E|E]; [left; exact E|]. destruct (H m) as [E'|E']; [left; congruence|right; congruence].
Qed.
Lemma pPrimary_up n m st v : (n <= m)%nat -> pPrimary n st = Ok v -> pPrimary m st = Ok v.
Proof. intros H E. destruct (le_trans_up (fun n => pPrimary n st) (fun n => proj1 (mono n) st) n m H) as [X|X]; congruence. Qed.
Lemma pArgs_up n m st v : (n <= m)%nat -> pArgs n st = Ok v -> pArgs m st = Ok v.
Proof. intros H E. destruct (le_trans_up (fun n => pArgs n st) (fun n => proj1 (proj2 (proj2 (mono n))) st) n m H) as [X|X]; congruence. Qed.
Lemma pVars_up n m st v : (n <= m)%nat -> pVars n st = Ok v -> pVars m st = Ok v.
Proof. intros H E. destruct (le_trans_up (fun n => pVars n st) (fun n => proj1 (proj2 (proj2 (proj2 (proj2 (proj2 (mono n)))))) st) n m H) as [X|X]; congruence. Qed.
Lemma pBin_up n m p e st v : (n <= m)%nat -> pBin n p e st = Ok v -> pBin m p e st = Ok v.
Proof. intros H E. destruct (le_trans_up (fun n => pBin n p e st) (fun n => proj1 (proj2 (proj2 (proj2 (proj2 (proj2 (proj2 (mono n))))))) p e st) n m H) as [X|X]; congruence. Qed.
Lemma pExpr_up n m st r : (n <= m)%nat -> pExpr n st = r -> r <> UB -> pExpr m st = r.
Proof. intros H E N. destruct (le_trans_up (fun n => pExpr n st) (fun n => proj2 (proj2 (proj2 (proj2 (proj2 (proj2 (proj2 (mono n))))))) st) n m H) as [X|X]; congruence. Qed.

(* ---------- reading tokens ---------- *)
Inductive path : St -> list tok -> St -> Prop :=
| p_nil st : path st [] st
| p_cons st st1 ts st' : next st = Ok st1 -> path st1 ts st' -> path st (cur st :: ts) st'.

Lemma path_app st ts st1 : path st ts st1 -> forall ts' st', path st1 ts' st' -> path st (ts ++ ts') st'.
Proof. induction 1; intros; [auto|]. cbn [app]. econstructor; eauto. Qed.
Lemma path_cons_inv st t ts st' : path st (t :: ts) st' -> exists st1, cur st = t /\ next st = Ok st1 /\ path st1 ts st'.
Proof. inversion 1; subst. eauto. Qed.
Lemma path_nil_inv st st' : path st [] st' -> st = st'.
Proof. now inversion 1. Qed.
Lemma path_app_inv ts : forall ts' st st', path st (ts ++ ts') st' -> exists m, path st ts m /\ path m ts' st'.
Proof.
  induction ts as [|t ts IH]; intros ts' st st' H; cbn [app] in H.
  - exists st. split; [constructor|auto].
  - apply path_cons_inv in H as (s1 & <- & E & H). destruct (IH _ _ _ H) as (m & A & B). exists m. split; [|auto]. econstructor; eauto.
Qed.

Lemma is_ch_true t c : is_ch t c = true <-> t = TCh c.
Proof.
  unfold is_ch. destruct t as [| | | |d]; try (split; discriminate).
  destruct (Ascii.eqb_spec d c) as [->|N]; split; congruence.
Qed.
Lemma is_ch_refl c : is_ch (TCh c) c = true. Proof. now apply is_ch_true. Qed.
Lemma expect_ok c st st' : expect c st = Ok st' <-> cur st = TCh c /\ next st = Ok st'.
Proof.
  unfold ExprModel.expect. destruct (is_ch (cur st) c) eqn:E.
  - apply is_ch_true in E. tauto.
  - split; [discriminate|]. intros [H _]. apply is_ch_true in H. congruence.
Qed.

(* ---------- acceptance ---------- *)
(* What may follow an expression of level p. *)
Definition follow (p : Z) (t : tok) : Prop :=
  is_end t = true \/ exists c q, t = TCh c /\ prec L c = Some q /\ q <= p.

Definition reads_primary st v := exists n, pPrimary n st = Ok v.
Definition reads_bin p e st v := exists n, pBin n p e st = Ok v.
Definition reads_expr st v := exists n, pExpr n st = Ok v.
(* a primary, then operators of level p *)
Definition reads_level p st v := exists n u, pPrimary n st = Ok u /\ pBin n p (fst u) (snd u) = Ok v.

Lemma reads_level_intro p st u v : reads_primary st u -> reads_bin p (fst u) (snd u) v -> reads_level p st v.
Proof.
  intros [n Hn] [m Hm]. exists (Nat.max n m), u. split; [eapply pPrimary_up; [|exact Hn]; lia|eapply pBin_up; [|exact Hm]; lia].
Qed.
Lemma reads_expr_level st v : reads_level 0 st v -> reads_expr st v.
Proof. intros (n & u & H1 & H2). exists (S n). rewrite pExpr_S, H1. exact H2. Qed.

Lemma bin_stop p e st : is_end (cur st) = true \/ (exists c q, cur st = TCh c /\ prec L c = Some q /\ q < p) ->
  reads_bin p e st (e, st).
Proof.
  intros H. exists 1%nat. rewrite pBin_S. destruct (is_end (cur st)) eqn:E; [reflexivity|].
  destruct H as [H|(c & q & E1 & E2 & H)]; [congruence|]. rewrite E1. unfold op_of. rewrite E2.
  destruct (Z.ltb_spec q p); [reflexivity|lia].
Qed.

Hypothesis WF : wf_lang L.
Lemma op_not_end c q : prec L c = Some q -> is_end (TCh c) = false.
Proof.
  intros H. destruct (WF c q H) as [_ N]. unfold is_end.
  destruct (Ascii.eqb_spec c ")") as [->|]; [exfalso; apply N; cbn; tauto|].
  destruct (Ascii.eqb_spec c ",") as [->|]; [exfalso; apply N; cbn; tauto|].
  destruct (Ascii.eqb_spec c "]") as [->|]; [exfalso; apply N; cbn; tauto|]. reflexivity.
Qed.

(* one operator: read the operand at the next level, then go on *)
Lemma bin_step p q c e st st1 r st2 v :
  cur st = TCh c -> prec L c = Some q -> p <= q -> next st = Ok st1 ->
  reads_level (q + 1) st1 (r, st2) -> follow q (cur st2) ->
  reads_bin p (EBin c e r) st2 v -> reads_bin p e st v.
Proof.
  intros E1 E2 Hp En (n & u & P & B) F [m Hm].
  exists (S (Nat.max n m)). rewrite pBin_S, E1, (op_not_end c q E2). cbn [op_of]. rewrite E2.
  destruct (Z.ltb_spec q p); [lia|]. rewrite En. cbn [bind].
  rewrite (pPrimary_up n _ _ _ (Nat.le_max_l n m) P). cbn [bind].
  assert (B' : pBin (Nat.max n m) (q + 1) (fst u) (snd u) = Ok (r, st2)) by (eapply pBin_up; [|exact B]; lia).
  assert (Hm' : pBin (Nat.max n m) p (EBin c e r) st2 = Ok v) by (eapply pBin_up; [|exact Hm]; lia).
  destruct (Nat.max n m) as [|k]; [discriminate|].
  destruct (is_end (cur (snd u))) eqn:Eu.
  - rewrite pBin_S, Eu in B'. injection B' as <- <-. rewrite pBin_S, Eu in Hm'. injection Hm' as <-. reflexivity.
  - destruct (op_of L (cur (snd u))) as [[c2 q2]|] eqn:O.
    + destruct (Z.ltb_spec q q2) as [C|C].
      * rewrite B'. cbn [bind fst snd]. exact Hm'.
      * cbn [bind]. rewrite pBin_S, Eu, O in B'. destruct (Z.ltb_spec q2 (q + 1)); [|lia]. injection B' as <- <-. exact Hm'.
    + rewrite pBin_S, Eu, O in B'. discriminate.
Qed.

Lemma follow_not c t p : follow p t -> In c ["("; "{"; "}"; "="; "["] -> t <> TCh c.
Proof.
  intros F Hc ->. destruct F as [F|(d & q & [= <-] & E & _)].
  - cbn [In] in Hc. unfold is_end in F. decompose [or] Hc; subst; try discriminate; contradiction.
  - destruct (WF _ _ E) as [_ N]. apply N. cbn [In] in *. tauto.
Qed.
Lemma follow_not_num t p : follow p t -> is_num t = false.
Proof. intros [F|(c & q & -> & _)]; [|reflexivity]. destruct t; try reflexivity; discriminate. Qed.
Lemma follow_end t p : is_end t = true -> follow p t. Proof. now left. Qed.
Lemma follow_mono p p' t : p <= p' -> follow p t -> follow p' t.
Proof. intros H [F|(c & q & A & B & C)]; [now left|right; exists c, q; repeat split; auto; lia]. Qed.

Scheme G_mind := Induction for G Sort Prop
  with Ga_mind := Induction for Gargs Sort Prop
  with Gv_mind := Induction for Gvars Sort Prop.
Combined Scheme G_mutind from G_mind, Ga_mind, Gv_mind.

Definition PG p e ts nxt := 0 <= p -> follow p nxt -> forall st st', path st ts st' -> cur st' = nxt ->
  forall p' v, p' <= p -> reads_bin p' e st' v -> reads_level p' st v.
Definition PA es ts := forall st st' st'', path st ts st' -> cur st' = TCh ")" -> next st' = Ok st'' ->
  cur st <> TCh ")" /\ exists n, pArgs n st = Ok (es, st'').
Definition PV vs ts := forall st st', path st ts st' -> cur st' = TCh "]" -> exists n, pVars n st = Ok (vs, st').

Lemma level_expr e ts nxt st st' : PG 0 e ts nxt -> path st ts st' -> cur st' = nxt -> is_end nxt = true -> reads_expr st (e, st').
Proof.
  intros H P E N. apply reads_expr_level. apply (H ltac:(lia) ltac:(now left) st st' P E 0); [lia|].
  apply bin_stop. left. congruence.
Qed.

Lemma G_first p e ts nxt : G L p e ts nxt -> forall t ts', ts ++ [nxt] = t :: ts' -> is_end t = false.
Proof.
  induction 1; intros t0 ts' E; cbn [app] in E; try (injection E as <- <-; reflexivity).
  destruct tl as [|x tl]; cbn [app] in E.
  - injection E as <- _. now apply (IHG1 (TCh op) []).
  - injection E as <- _. now apply (IHG1 x (tl ++ [TCh op])).
Qed.

Lemma path_first st ts st' t ts' : path st ts st' -> ts ++ [cur st'] = t :: ts' -> cur st = t.
Proof.
  intros P E. inversion P; subst; cbn [app] in E; now injection E.
Qed.
Lemma G_not_close p e ts nxt st st' : G L p e ts nxt -> path st ts st' -> cur st' = nxt -> is_end (cur st) = false.
Proof.
  intros H P E. destruct (ts ++ [nxt]) as [|t ts'] eqn:X; [now apply app_eq_nil in X as [_ X]|].
  pose proof (G_first _ _ _ _ H t ts' X) as F. rewrite <- E in X. rewrite (path_first _ _ _ _ _ P X).
  exact F.
Qed.

Ltac pinv := repeat match goal with
  | H : path _ (_ :: _) _ |- _ => apply path_cons_inv in H as (? & ? & ? & H)
  | H : path _ (_ ++ _) _ |- _ => apply path_app_inv in H as (? & ? & H)
  | H : path ?a [] ?b |- _ => apply path_nil_inv in H; first [subst a | subst b]
  end.

Lemma level_of_primary p' e st st' v : reads_primary st (e, st') -> reads_bin p' e st' v -> reads_level p' st v.
Proof. intros A B. exact (reads_level_intro p' st (e, st') v A B). Qed.

Lemma accept_paren e ts c st st' : c = ")" \/ c = "]" -> PG 0 e ts (TCh c) ->
  path st (TCh "(" :: ts ++ [TCh c]) st' -> exists n, pParen n st = Ok (e, st').
Proof.
  intros Hc IH P. pinv.
  destruct (level_expr e ts (TCh c) _ _ IH ltac:(eassumption) ltac:(assumption)) as [n Hn].
  { destruct Hc as [->| ->]; reflexivity. }
  exists (S n). rewrite pParen_S. rewrite H0. cbn [bind]. rewrite Hn. cbn [bind fst snd]. rewrite H2.
  assert (is_ch (TCh c) ")" || is_ch (TCh c) "]" = true) as -> by (destruct Hc as [->| ->]; reflexivity).
  rewrite H3. reflexivity.
Qed.

Lemma accept : (forall p e ts nxt, G L p e ts nxt -> PG p e ts nxt) /\
  (forall es ts, Gargs L es ts -> PA es ts) /\ (forall vs ts, Gvars L vs ts -> PV vs ts).
Proof.
  apply (G_mutind L (fun p e ts nxt _ => PG p e ts nxt) (fun es ts _ => PA es ts) (fun vs ts _ => PV vs ts)); unfold PG.
  - (* number *) intros p d nxt _ F st st' P E p' v _. apply level_of_primary. pinv.
    exists 1%nat. rewrite pPrimary_S, H, H0. cbn [bind]. rewrite <- E in F. apply follow_not_num in F. destruct (cur st'); try reflexivity; discriminate.
  - (* zero *) intros p _ F st st' P E p' v _. apply level_of_primary. pinv.
    exists 1%nat. rewrite pPrimary_S, E. reflexivity.
  - (* param *) intros p s nxt _ F st st' P E p' v _. apply level_of_primary. pinv.
    exists 1%nat. rewrite pPrimary_S, H, H0. reflexivity.
  - (* name *) intros p name ar nxt Hs Hg Ha Hn _ F st st' P E p' v _. apply level_of_primary. pinv.
    exists 2%nat. rewrite pPrimary_S, H, pIdent_S, H0. cbn [bind].
    destruct (list_eq_dec ascii_dec name (ch "sum")); [contradiction|].
    destruct (is_ch (cur st') "(") eqn:I; [apply is_ch_true in I; congruence|]. rewrite Hg, Ha. reflexivity.
  - (* resolved *) intros p name nxt Hs Hg Hr Hn _ F st st' P E p' v _. apply level_of_primary. pinv.
    exists 2%nat. rewrite pPrimary_S, H, pIdent_S, H0. cbn [bind].
    destruct (list_eq_dec ascii_dec name (ch "sum")); [contradiction|].
    destruct (is_ch (cur st') "(") eqn:I; [apply is_ch_true in I; congruence|]. rewrite Hg, Hr. reflexivity.
  - (* call0 *) intros p name ar nxt Hs Hg Ha _ F st st' P E p' v _. apply level_of_primary. pinv.
    exists 2%nat. rewrite pPrimary_S, H, pIdent_S, H0. cbn [bind].
    destruct (list_eq_dec ascii_dec name (ch "sum")); [contradiction|].
    rewrite H1, is_ch_refl, Hg, H2. cbn [bind]. rewrite H3, is_ch_refl, H4. cbn [bind]. rewrite Ha. reflexivity.
  - (* call *) intros p name ar args ts nxt Hs Hg Ha _ IH _ F st st' P E p' v _. apply level_of_primary. pinv.
    destruct (IH _ _ _ ltac:(eassumption) ltac:(eassumption) ltac:(eassumption)) as [Nc [n Hn]].
    exists (S (S n)). rewrite pPrimary_S, H, pIdent_S, H0. cbn [bind].
    destruct (list_eq_dec ascii_dec name (ch "sum")); [contradiction|].
    rewrite H1, is_ch_refl, Hg, H2. cbn [bind].
    destruct (is_ch (cur x0) ")") eqn:I; [apply is_ch_true in I; contradiction|].
    rewrite Hn. cbn [bind fst snd]. rewrite Ha. reflexivity.
  - (* sum *) intros p t sym c e tc te nxt Ht _ IHc _ IHe _ F st st' P E p' v _. apply level_of_primary. pinv.
    destruct (level_expr c tc (TCh ",") _ _ IHc ltac:(eassumption) ltac:(assumption) eq_refl) as [n Hn].
    destruct (level_expr e te (TCh ")") _ _ IHe ltac:(eassumption) ltac:(assumption) eq_refl) as [k Hk].
    exists (S (S (Nat.max n k))). rewrite pPrimary_S, H, pIdent_S, H0. cbn [bind].
    destruct (list_eq_dec ascii_dec sumname (ch "sum")) as [_|N]; [|now elim N].
    rewrite (proj2 (expect_ok "(" x x0)) by auto. cbn [bind]. rewrite H3.
    assert (X : (do st3 <- next x0; do st4 <- expect "," st3; do c <- pExpr (Nat.max n k) st4;
       do st5 <- expect "," (snd c); do e <- pExpr (Nat.max n k) st5; do st6 <- expect ")" (snd e);
       Ok (ESum sym (fst c) (fst e), st6)) = Ok (ESum sym c e, st')).
    { rewrite H4. cbn [bind]. rewrite (proj2 (expect_ok "," x1 x2)) by auto. cbn [bind].
      rewrite (pExpr_up n _ _ _ (Nat.le_max_l n k) Hn) by discriminate. cbn [bind fst snd].
      rewrite (proj2 (expect_ok "," x3 x4)) by auto. cbn [bind].
      rewrite (pExpr_up k _ _ _ (Nat.le_max_r n k) Hk) by discriminate. cbn [bind fst snd].
      rewrite (proj2 (expect_ok ")" x5 st')) by auto. reflexivity. }
    destruct Ht as [->| ->]; exact X.
  - (* context *) intros p vs e tv te c nxt _ IHv Hc _ IHe _ F st st' P E p' v _. apply level_of_primary.
    apply path_cons_inv in P as (s1 & E1 & N1 & P). apply path_app_inv in P as (s2 & P1 & P).
    apply path_cons_inv in P as (s3 & E3 & N3 & P).
    destruct (IHv _ _ P1 E3) as [n Hn]. destruct (accept_paren e te c s3 st' Hc IHe P) as [k Hk].
    apply path_cons_inv in P as (s4 & E4 & _ & _).
    exists (S (S (Nat.max n k))). rewrite pPrimary_S, E1, pContext_S, N1. cbn [Ascii.eqb bool_rect]. cbn [bind].
    change (Ascii.eqb "[" "-") with false. change (Ascii.eqb "[" "(") with false. change (Ascii.eqb "[" "[") with true. cbv iota.
    rewrite (pVars_up n _ _ _ (Nat.le_max_l n k) Hn). cbn [bind fst snd]. rewrite N3. cbn [bind]. rewrite E4, is_ch_refl.
    assert (X : pParen (Nat.max n k) s3 = Ok (e, st')).
    { destruct (le_trans_up (fun n => pParen n s3) (fun n => proj1 (proj2 (proj2 (proj2 (mono n)))) s3) k (Nat.max n k) ltac:(lia)) as [Y|Y]; congruence. }
    rewrite X. reflexivity.
  - (* brackets *) intros p e ts c nxt Hc _ IH _ F st st' P E p' v _. apply level_of_primary.
    destruct (accept_paren e ts c st st' Hc IH P) as [n Hn]. apply path_cons_inv in P as (s1 & E1 & _ & _).
    exists (S n). rewrite pPrimary_S, E1. exact Hn.
  - (* binary *) intros p q op l r tl tr nxt Hq Hpq _ IHl _ IHr Hp F st st' P E p' v Hp' B.
    apply path_app_inv in P as (s1 & P1 & P). apply path_cons_inv in P as (s2 & E2 & N2 & P).
    apply (IHl ltac:(lia) ltac:(right; exists op, q; repeat split; auto; lia) st s1 P1 E2 p' v ltac:(lia)).
    apply (bin_step p' q op l s1 s2 r st' v E2 Hq ltac:(lia) N2); [|rewrite E; now apply (follow_mono p)|exact B].
    apply (IHr ltac:(lia) ltac:(apply (follow_mono p); [lia|auto]) s2 st' P E (q + 1) (r, st') ltac:(lia)).
    apply bin_stop. rewrite E. destruct F as [F|(c & q' & A1 & A2 & A3)]; [now left|right; exists c, q'; repeat split; auto; lia].
  - (* one arg *) intros e ts HG IH st st' st'' P E N. split.
    { pose proof (G_not_close _ _ _ _ _ _ HG P E). intros C. rewrite C in H. discriminate. }
    destruct (level_expr e ts (TCh ")") _ _ IH P E eq_refl) as [n Hn].
    exists (S n). rewrite pArgs_S, Hn. cbn [bind fst snd]. rewrite E, is_ch_refl, N. reflexivity.
  - (* more args *) intros e es ts ts' HG IH _ IHs st st' st'' P E N.
    apply path_app_inv in P as (s1 & P1 & P). apply path_cons_inv in P as (s2 & E2 & N2 & P). split.
    { pose proof (G_not_close _ _ _ _ _ _ HG P1 E2). intros C. rewrite C in H. discriminate. }
    destruct (level_expr e ts (TCh ",") _ _ IH P1 E2 eq_refl) as [n Hn].
    destruct (IHs _ _ _ P E N) as [_ [k Hk]].
    exists (S (Nat.max n k)). rewrite pArgs_S. rewrite (pExpr_up n _ _ _ (Nat.le_max_l n k) Hn) by discriminate. cbn [bind fst snd].
    rewrite E2. change (is_ch (TCh ",") ")") with false. rewrite is_ch_refl, N2. cbn [bind].
    rewrite (pArgs_up k _ _ _ (Nat.le_max_r n k) Hk). reflexivity.
  - intros st st' P E. pinv. exists 1%nat. rewrite pVars_S, E. reflexivity.
  - (* one var *) intros s e ts HG IH st st' P E. pinv.
    destruct (level_expr e ts (TCh "]") _ _ IH P E eq_refl) as [n Hn].
    exists (S (S n)). rewrite pVars_S, H. cbn [is_ch]. rewrite H0. cbn [bind]. rewrite (proj2 (expect_ok "=" x x0)) by auto. cbn [bind].
    rewrite (pExpr_up n _ _ _ (Nat.le_succ_diag_r n) Hn) by discriminate. cbn [bind fst snd]. rewrite E.
    change (is_ch (TCh "]") ",") with false. cbn [bind]. rewrite pVars_S, E. reflexivity.
  - (* more vars *) intros s e vs ts ts' HG IH _ IHs st st' P E. pinv.
    destruct (level_expr e ts (TCh ",") _ _ IH ltac:(eassumption) ltac:(assumption) eq_refl) as [n Hn].
    destruct (IHs _ _ P E) as [k Hk].
    exists (S (Nat.max n k)). rewrite pVars_S, H. cbn [is_ch]. rewrite H0. cbn [bind]. rewrite (proj2 (expect_ok "=" x x0)) by auto. cbn [bind].
    rewrite (pExpr_up n _ _ _ (Nat.le_max_l n k) Hn) by discriminate. cbn [bind fst snd]. rewrite H4, is_ch_refl, H5. cbn [bind].
    rewrite (pVars_up k _ _ _ (Nat.le_max_r n k) Hk). reflexivity.
Qed.
End P.
