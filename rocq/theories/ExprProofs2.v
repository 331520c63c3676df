(* The parser: soundness, termination, and the grammar D inside G. *)
Require Import ZArith List Bool Ascii String Lia.
Require Import Verif.Base Verif.ExprModel Verif.ExprSpec Verif.ExprProofs.
Import ListNotations.
Local Open Scope Z_scope.
Local Open Scope char_scope.

Lemma G_mono L p p' e ts nxt : G L p e ts nxt -> p' <= p -> G L p' e ts nxt.
Proof. intros H Hp. inversion H; subst; try (econstructor; eauto; fail). eapply G_binary; eauto. lia. Qed.

Lemma bind_ok {A B} (m : res A) (f : A -> res B) v : bind m f = Ok v -> exists a, m = Ok a /\ f a = Ok v.
Proof. destruct m; cbn [bind]; intros H; try discriminate. eauto. Qed.

Section S.
Variable L : lang.
Variables (St : Type) (cur : St -> tok) (next : St -> res St).
Notation pPrimary := (pPrimary L St cur next).
Notation pIdent := (pIdent L St cur next).
Notation pArgs := (pArgs L St cur next).
Notation pParen := (pParen L St cur next).
Notation pContext := (pContext L St cur next).
Notation pVars := (pVars L St cur next).
Notation pBin := (pBin L St cur next).
Notation pExpr := (pExpr L St cur next).
Notation path := (path St cur next).

Definition stops (p : Z) (t : tok) : Prop := is_end t = true \/ exists c q, t = TCh c /\ prec L c = Some q /\ q < p.

Definition S_primary n := forall st e st', pPrimary n st = Ok (e, st') -> is_num (cur st') = false ->
  exists ts, path st ts st' /\ forall p, G L p e ts (cur st').
Definition S_ident n := forall name st e st', pIdent n name st = Ok (e, st') -> cur st = TId name ->
  exists ts, path st ts st' /\ forall p, G L p e ts (cur st').
Definition S_args n := forall st es st'', pArgs n st = Ok (es, st'') ->
  exists ts st', path st ts st' /\ cur st' = TCh ")" /\ next st' = Ok st'' /\ Gargs L es ts.
Definition S_paren n := forall st e st', pParen n st = Ok (e, st') -> cur st = TCh "(" ->
  exists ts c, (c = ")" \/ c = "]") /\ path st (TCh "(" :: ts ++ [TCh c]) st' /\ G L 0 e ts (TCh c).
Definition S_context n := forall st e st', pContext n st = Ok (e, st') -> cur st = TCh "[" ->
  exists ts, path st ts st' /\ forall p, G L p e ts (cur st').
Definition S_vars n := forall st vs st', pVars n st = Ok (vs, st') ->
  exists ts, path st ts st' /\ cur st' = TCh "]" /\ Gvars L vs ts.
Definition S_bin n := forall p m lhs st0 tl st e st', pBin n p lhs st = Ok (e, st') ->
  path st0 tl st -> G L m lhs tl (cur st) -> p <= m ->
  (is_end (cur st) = false -> forall c q, cur st = TCh c -> prec L c = Some q -> q <= m) ->
  exists ts, path st0 ts st' /\ G L p e ts (cur st') /\ stops p (cur st').
Definition S_expr n := forall st e st', pExpr n st = Ok (e, st') ->
  exists ts, path st ts st' /\ G L 0 e ts (cur st') /\ stops 0 (cur st').

Ltac ok := repeat match goal with
  | H : bind _ _ = Ok _ |- _ => let a := fresh "a" in let E := fresh "E" in apply bind_ok in H as (a & E & H)
  | H : expect _ _ _ _ _ = Ok _ |- _ => apply expect_ok in H as [? H]
  | H : Ok _ = Ok _ |- _ => injection H; clear H; intros; subst
  | a : _ * _ |- _ => destruct a; cbn [fst snd] in *
  end.

Lemma pcons st t ts st1 st' : cur st = t -> next st = Ok st1 -> path st1 ts st' -> path st (t :: ts) st'.
Proof. intros <-. apply p_cons. Qed.
Lemma pone st t st1 : cur st = t -> next st = Ok st1 -> path st [t] st1.
Proof. intros. eapply pcons; eauto. constructor. Qed.

Lemma not_num_end t : is_end t = true -> is_num t = false. Proof. now destruct t. Qed.
Lemma op_ch t c q : op_of L t = Some (c, q) -> t = TCh c /\ prec L c = Some q.
Proof. destruct t; try discriminate. cbn [op_of]. destruct (prec L c0) eqn:E; [|discriminate]. intros [= <- <-]. auto. Qed.

Lemma pBin_not_num n p e s v : pBin n p e s = Ok v -> is_num (cur s) = false.
Proof.
  destruct n; [discriminate|]. rewrite pBin_S. destruct (is_end (cur s)) eqn:E; [intros _; now apply not_num_end|].
  destruct (op_of L (cur s)) as [[c q]|] eqn:O; [|discriminate]. apply op_ch in O as [-> _]. reflexivity.
Qed.

Lemma sound n : S_primary n /\ S_ident n /\ S_args n /\ S_paren n /\ S_context n /\ S_vars n /\ S_bin n /\ S_expr n.
Proof.
  induction n as [|n IH]; [repeat split; red; intros; discriminate|].
  destruct IH as (H1 & H2 & H3 & H4 & H5 & H6 & H7 & H8).
  repeat split.
  - intros st e st' H N. rewrite pPrimary_S in H. destruct (cur st) as [|d|name|s|c] eqn:C.
    + discriminate.
    + ok. exists [TNum d]. split; [now apply pone|]. intros p. destruct (cur st'); try constructor. discriminate.
    + now apply (H2 name st).
    + ok. exists [TParam s]. split; [now apply pone|]. constructor.
    + destruct (Ascii.eqb_spec c "-") as [->|_].
      { ok. exists []. split; [constructor|]. intros p. rewrite C. constructor. }
      destruct (Ascii.eqb_spec c "(") as [->|_].
      { destruct (H4 st e st' H C) as (ts & c & Hc & P & HG). eexists. split; [exact P|]. intros p. now constructor. }
      destruct (Ascii.eqb_spec c "[") as [->|_]; [|discriminate]. now apply (H5 st).
  - intros name st e st' H C. rewrite pIdent_S in H. ok.
    destruct (list_eq_dec ascii_dec name (ch "sum")) as [->|Ns].
    + ok. assert (X : exists sym, (cur a0 = TId sym \/ cur a0 = TParam sym) /\
         (do st3 <- next a0; do st4 <- expect St cur next "," st3; do c <- pExpr n st4;
          do st5 <- expect St cur next "," (snd c); do e0 <- pExpr n st5; do st6 <- expect St cur next ")" (snd e0);
          Ok (ESum sym (fst c) (fst e0), st6)) = Ok (e, st')).
      { destruct (cur a0) eqn:Ca; try discriminate; eauto. }
      destruct X as (sym & Hs & X). clear H. ok.
      destruct (H8 _ _ _ E3) as (tc & Pc & Gc & _). destruct (H8 _ _ _ E5) as (te & Pe & Ge & _).
      exists (TId sumname :: TCh "(" :: cur a0 :: TCh "," :: tc ++ TCh "," :: te ++ [TCh ")"]). split.
      * eapply pcons; [exact C|eassumption|]. eapply pcons; [eassumption|eassumption|]. eapply pcons; [reflexivity|eassumption|].
        eapply pcons; [eassumption|eassumption|]. eapply path_app; [eassumption|]. eapply pcons; [eassumption|eassumption|].
        eapply path_app; [eassumption|]. now apply pone.
      * intros p. apply G_sum; auto; congruence.
    + destruct (is_ch (cur a) "(") eqn:I.
      * apply is_ch_true in I. destruct (gens L name) as [ar|] eqn:Hg; [|discriminate]. ok.
        destruct (is_ch (cur a0) ")") eqn:I2.
        -- apply is_ch_true in I2. ok. destruct (ar O) eqn:Ha; [|discriminate]. ok.
           exists [TId name; TCh "("; TCh ")"]. split; [|intros p; econstructor; eauto].
           eapply pcons; [exact C|eassumption|]. eapply pcons; [eassumption|eassumption|]. now apply pone.
        -- ok. destruct (ar _) eqn:Ha in H; [|discriminate]. ok.
           destruct (H3 _ _ _ E1) as (ts & s' & P & Cs & N & GA).
           exists (TId name :: TCh "(" :: ts ++ [TCh ")"]). split; [|intros p; econstructor; eauto].
           eapply pcons; [exact C|eassumption|]. eapply pcons; [eassumption|eassumption|]. eapply path_app; [eassumption|]. now apply pone.
      * assert (Nx : cur a <> TCh "(") by (intros X; apply is_ch_true in X; congruence).
        destruct (gens L name) as [ar|] eqn:Hg.
        -- destruct (ar O) eqn:Ha; [|discriminate]. ok. exists [TId name]. split; [now apply pone|]. intros p; econstructor; eauto.
        -- ok. match goal with H : (if ?b then _ else _) = _ |- _ => destruct b; [|discriminate] end. ok. exists [TId name]. split; [now apply pone|]. intros p; econstructor; eauto.
  - intros st es st'' H. rewrite pArgs_S in H. ok. destruct (H8 _ _ _ E) as (ts & P & HG & _).
    destruct (is_ch (cur s) ")") eqn:I.
    + apply is_ch_true in I. ok. exists ts, s. repeat split; auto. constructor. now rewrite <- I.
    + destruct (is_ch (cur s) ",") eqn:I2; [|discriminate]. apply is_ch_true in I2. ok.
      destruct (H3 _ _ _ E1) as (ts' & s' & P' & C' & N' & GA).
      exists (ts ++ TCh "," :: ts'), s'. repeat split; auto.
      * eapply path_app; [eassumption|]. eapply pcons; eauto.
      * constructor; auto. now rewrite <- I2.
  - intros st e st' H C. rewrite pParen_S in H. ok. destruct (H8 _ _ _ E0) as (ts & P & HG & _).
    destruct (is_ch (cur s) ")" || is_ch (cur s) "]") eqn:I; [|discriminate]. ok.
    apply orb_true_iff in I as [I|I]; apply is_ch_true in I.
    + exists ts, ")". split; [auto|]. split; [|now rewrite <- I]. eapply pcons; eauto. eapply path_app; eauto. now apply pone.
    + exists ts, "]". split; [auto|]. split; [|now rewrite <- I]. eapply pcons; eauto. eapply path_app; eauto. now apply pone.
  - intros st e st' H C. rewrite pContext_S in H. ok. destruct (H6 _ _ _ E0) as (tv & Pv & Cv & GV).
    destruct (is_ch (cur a1) "(") eqn:I; [|discriminate]. apply is_ch_true in I. ok.
    destruct (H4 _ _ _ E2 I) as (te & c & Hc & P & HG).
    exists (TCh "[" :: tv ++ TCh "]" :: TCh "(" :: te ++ [TCh c]). split.
    + eapply pcons; eauto. eapply path_app; eauto. eapply pcons; eauto.
    + intros p. now constructor.
  - intros st vs st' H. rewrite pVars_S in H. destruct (is_ch (cur st) "]") eqn:I.
    + apply is_ch_true in I. ok. exists []. repeat split; auto; constructor.
    + destruct (cur st) as [| |symbol| |] eqn:C; try discriminate. ok.
      destruct (H8 _ _ _ E1) as (ts & P & HG & Sx). destruct (H6 _ _ _ E3) as (tr & Pr & Cr & GV).
      revert E2; destruct (is_ch (cur s0) ",") eqn:I2; intros E2.
      * apply is_ch_true in I2. exists (TId symbol :: TCh "=" :: ts ++ TCh "," :: tr). repeat split; auto.
        -- eapply pcons; eauto. eapply pcons; eauto. eapply path_app; eauto. eapply pcons; eauto.
        -- constructor; auto. now rewrite <- I2.
      * injection E2 as <-.
        destruct n as [|n]; [discriminate E3|]. rewrite pVars_S in E3. destruct (is_ch (cur s0) "]") eqn:I3.
        -- apply is_ch_true in I3. ok. exists (TId symbol :: TCh "=" :: ts). repeat split; auto.
           ++ eapply pcons; eauto. eapply pcons; eauto.
           ++ constructor. now rewrite <- I3.
        -- exfalso. destruct (cur s0) eqn:Cs; try discriminate. destruct Sx as [Sx|(c & q & X & _)]; [discriminate|discriminate].
  - intros p m lhs st0 tl st e st' H P HG Hm Hq. rewrite pBin_S in H.
    destruct (is_end (cur st)) eqn:Ee.
    { ok. exists tl. repeat split; auto; [now apply (G_mono L m)|now left]. }
    destruct (op_of L (cur st)) as [[op tp]|] eqn:O; [|discriminate]. apply op_ch in O as [C O].
    destruct (Z.ltb_spec tp p) as [Lt|Ge].
    { ok. exists tl. repeat split; auto; [now apply (G_mono L m)|]. right. eauto. }
    pose proof (Hq eq_refl _ _ C O) as Hqm. rewrite C in HG. apply (G_mono L m tp) in HG; [|lia].
    ok. destruct (is_end (cur s)) eqn:Es.
    { ok. destruct (H1 _ _ _ E0 (not_num_end _ Es)) as (tr & Pr & Gr).
      exists (tl ++ TCh op :: tr). repeat split; [|econstructor; eauto|now left].
      eapply path_app; eauto. eapply pcons; eauto. }
    destruct (op_of L (cur s)) as [[op2 np]|] eqn:O2; [|discriminate].
    pose proof (op_ch _ _ _ O2) as [C2 O2'].
    destruct (H1 _ _ _ E0) as (tr & Pr & Gr); [now rewrite C2|].
    assert (X : exists e2 s2, (if (tp <? np)%Z then pBin n (tp + 1) e0 s else Ok (e0, s)) = Ok (e2, s2) /\
       pBin n p (EBin op lhs e2) s2 = Ok (e, st')) by (ok; eauto). clear H. destruct X as (e2 & s2 & X & Y).
    assert (Z : exists t2, path a t2 s2 /\ G L (tp + 1) e2 t2 (cur s2) /\ stops (tp + 1) (cur s2)).
    { destruct (Z.ltb_spec tp np) as [Lt|Le].
      - apply (H7 (tp + 1) np e0 a tr s e2 s2 X Pr (Gr _)); [lia|]. intros _ c q Cc Qc. rewrite C2 in Cc. injection Cc as <-. rewrite O2' in Qc. injection Qc as <-. lia.
      - ok. exists tr. repeat split; auto. right. exists op2, np. repeat split; auto. lia. }
    destruct Z as (t2 & P2 & G2 & S2).
    apply (H7 p tp (EBin op lhs e2) st0 (tl ++ TCh op :: t2) s2 e st' Y); auto.
    + eapply path_app; eauto. eapply pcons; eauto.
    + eapply G_binary; eauto. lia.
    + intros Ne c q Cc Qc. destruct S2 as [S2|(c' & q' & Cc' & Qc' & Lq)].
      * congruence.
      * rewrite Cc in Cc'. injection Cc' as <-. rewrite Qc in Qc'. injection Qc' as <-. lia.
  - intros st e st' H. rewrite pExpr_S in H. ok.
    destruct (H1 _ _ _ E (pBin_not_num _ _ _ _ _ H)) as (ts & P & HG).
    set (m := match cur s with TCh c => match prec L c with Some q => Z.max 0 q | None => 0 end | _ => 0 end).
    apply (H7 0 m e0 st ts s e st' H P (HG m)).
    + subst m. destruct (cur s); try lia. destruct (prec L c); lia.
    + intros _ c q Cc Qc. subst m. rewrite Cc, Qc. lia.
Qed.
End S.
