(* The grammar D inside G; termination of the parser; a list of tokens as a source. *)
Require Import ZArith List Bool Ascii String Lia.
Require Import Verif.Base Verif.ExprModel Verif.ExprSpec Verif.ExprProofs Verif.ExprProofs2.
Import ListNotations.
Local Open Scope Z_scope.
Local Open Scope char_scope.

Scheme D_mind := Induction for D Sort Prop
  with Da_mind := Induction for Dargs Sort Prop
  with Dv_mind := Induction for Dvars Sort Prop.
Combined Scheme D_mutind from D_mind, Da_mind, Dv_mind.

Lemma D_in_G L : wf_lang L ->
  (forall p e ts, D L p e ts -> forall nxt, follow L p nxt -> G L p e ts nxt) /\
  (forall es ts, Dargs L es ts -> Gargs L es ts) /\ (forall vs ts, Dvars L vs ts -> Gvars L vs ts).
Proof.
  intros WF.
  apply (D_mutind L (fun p e ts _ => forall nxt, follow L p nxt -> G L p e ts nxt) (fun es ts _ => Gargs L es ts) (fun vs ts _ => Gvars L vs ts)); intros.
  - constructor.
  - constructor.
  - econstructor; eauto. eapply follow_not; eauto. cbn; tauto.
  - econstructor; eauto. eapply follow_not; eauto. cbn; tauto.
  - econstructor; eauto.
  - econstructor; eauto.
  - eapply (G_sum L p (TId sym)); auto.
    + apply H. now left.
    + apply H0. now left.
  - eapply G_context; auto. apply H0. now left.
  - eapply G_brackets; [left; reflexivity|]. apply H. now left.
  - eapply G_binary; eauto.
    + apply H. right. exists op, q. repeat split; auto. lia.
    + apply H0. apply (follow_mono L p); [lia|auto].
  - change (TCh "-" :: ts) with ([] ++ TCh "-" :: ts). eapply G_binary; eauto.
    + constructor.
    + apply H. apply (follow_mono L p); [lia|auto].
  - constructor. apply H. now left.
  - constructor; auto. apply H. now left.
  - constructor.
  - constructor. apply H. now left.
  - constructor; auto. apply H. now left.
Qed.

(* ---------- termination ---------- *)
Section T.
Variable L : lang.
Variables (St : Type) (cur : St -> tok) (next : St -> res St).
Variable mu : St -> nat.
Hypothesis next_ok : forall st, next st <> UB.
Hypothesis next_mu : forall st st', next st = Ok st' -> cur st <> TEnd -> (mu st' < mu st)%nat.
Hypothesis res_ok : forall s, resolves L s <> UB.
Notation pPrimary := (pPrimary L St cur next).
Notation pIdent := (pIdent L St cur next).
Notation pArgs := (pArgs L St cur next).
Notation pParen := (pParen L St cur next).
Notation pContext := (pContext L St cur next).
Notation pVars := (pVars L St cur next).
Notation pBin := (pBin L St cur next).
Notation pExpr := (pExpr L St cur next).

(* not out of fuel, and no token put back *)
Definition good {A} (k : nat) (r : res (A * St)) : Prop :=
  r <> UB /\ forall v, r = Ok v -> (mu (snd v) <= k)%nat.

Lemma good_bind {A B} k (m : res A) (f : A -> res (B * St)) :
  m <> UB -> (forall a, m = Ok a -> good k (f a)) -> good k (bind m f).
Proof.
  intros H1 H2. destruct m as [a| |]; cbn [bind]; [now apply H2| |contradiction]. split; [discriminate|discriminate].
Qed.
Lemma good_throw {A} k : good k (@Throw (A * St)). Proof. split; discriminate. Qed.
Lemma good_ok {A} k (a : A) st : (mu st <= k)%nat -> good k (Ok (a, st)).
Proof. intros H. split; [discriminate|]. intros v [= <-]. exact H. Qed.

Lemma good_next {B} k st (f : St -> res (B * St)) : cur st <> TEnd ->
  (forall st', next st = Ok st' -> (mu st' < mu st)%nat -> good k (f st')) -> good k (do st' <- next st; f st').
Proof. intros N H. apply good_bind; [apply next_ok|]. intros a E. apply H; auto. Qed.
Lemma good_expect {B} k c st (f : St -> res (B * St)) :
  (forall st', (mu st' < mu st)%nat -> good k (f st')) -> good k (do st' <- expect St cur next c st; f st').
Proof.
  intros H. apply good_bind.
  - unfold expect. destruct (is_ch _ _); [apply next_ok|discriminate].
  - intros a E. apply expect_ok in E as [C E]. apply H. apply next_mu; auto. congruence.
Qed.
Lemma good_sub {A B} k j (m : res (A * St)) (f : A * St -> res (B * St)) : good j m ->
  (forall a st, (mu st <= j)%nat -> good k (f (a, st))) -> good k (bind m f).
Proof.
  intros [H1 H2] H. apply good_bind; [exact H1|]. intros [a st] E. apply H. apply (H2 _ E).
Qed.

Definition T_at n :=
  (forall st, (4 * mu st + 2 <= n)%nat -> good (mu st) (pPrimary n st)) /\
  (forall nm st, cur st <> TEnd -> (4 * mu st + 1 <= n)%nat -> good (mu st) (pIdent n nm st)) /\
  (forall st, (4 * mu st + 4 <= n)%nat -> good (mu st) (pArgs n st)) /\
  (forall st, cur st <> TEnd -> (4 * mu st + 1 <= n)%nat -> good (mu st) (pParen n st)) /\
  (forall st, cur st <> TEnd -> (4 * mu st + 1 <= n)%nat -> good (mu st) (pContext n st)) /\
  (forall st, (4 * mu st + 1 <= n)%nat -> good (mu st) (pVars n st) /\ forall v, pVars n st = Ok v -> cur (snd v) = TCh "]") /\
  (forall p e st, (4 * mu st + 1 <= n)%nat -> good (mu st) (pBin n p e st)) /\
  (forall st, (4 * mu st + 3 <= n)%nat -> good (mu st) (pExpr n st)).

Lemma good_le {A} k j (r : res (A * St)) : (k <= j)%nat -> good k r -> good j r.
Proof. intros H [A1 A2]. split; [exact A1|]. intros v E. specialize (A2 v E). lia. Qed.

Lemma op_ne_end st c q : op_of L (cur st) = Some (c, q) -> cur st <> TEnd.
Proof. intros E X. rewrite X in E. discriminate. Qed.
Lemma is_ch_ne st c : is_ch (cur st) c = true -> cur st <> TEnd.
Proof. intros E X. rewrite X in E. discriminate. Qed.

Lemma terminates n : T_at n.
Proof.
  induction n as [|n IH]; [repeat split; intros; lia|].
  destruct IH as (H1 & H2 & H3 & H4 & H5 & H6 & H7 & H8).
  split; [|split; [|split; [|split; [|split; [|split; [|split]]]]]].
  - intros st Hn. rewrite pPrimary_S. destruct (cur st) as [|d|name|s|c] eqn:C.
    + apply good_throw.
    + apply good_next; [congruence|]. intros. apply good_ok; cbn [fst snd]; lia.
    + apply H2; [congruence|lia].
    + apply good_next; [congruence|]. intros. apply good_ok; cbn [fst snd]; lia.
    + destruct (Ascii.eqb c "-"); [apply good_ok; cbn [fst snd]; lia|]. destruct (Ascii.eqb c "("); [apply H4; [congruence|lia]|].
      destruct (Ascii.eqb c "["); [apply H5; [congruence|lia]|apply good_throw].
  - intros nm st N Hn. rewrite pIdent_S. apply good_next; [exact N|]. intros st1 _ M1.
    destruct (list_eq_dec ascii_dec nm (ch "sum")).
    + apply good_expect. intros st2 M2.
      assert (X : forall sym, cur st2 <> TEnd -> good (mu st) (do st3 <- next st2; do st4 <- expect St cur next "," st3; do c <- pExpr n st4;
          do st5 <- expect St cur next "," (snd c); do e0 <- pExpr n st5; do st6 <- expect St cur next ")" (snd e0);
          Ok (ESum sym (fst c) (fst e0), st6))).
      { intros sym N2. apply good_next; [exact N2|]. intros st3 _ M3. apply good_expect. intros st4 M4.
        apply (good_sub _ (mu st4)); [apply H8; lia|]. intros a s Ms. cbn [fst snd]. apply good_expect. intros st5 M5.
        apply (good_sub _ (mu st5)); [apply H8; lia|]. intros a2 s2 Ms2. cbn [fst snd]. apply good_expect. intros st6 M6. apply good_ok; cbn [fst snd]; lia. }
      destruct (cur st2) eqn:C2; try apply good_throw; apply X; discriminate.
    + destruct (is_ch (cur st1) "(") eqn:I.
      * destruct (gens L nm) as [ar|]; [|apply good_throw]. apply good_next; [now apply is_ch_ne with "("|]. intros st2 _ M2.
        destruct (is_ch (cur st2) ")") eqn:I2.
        -- apply good_next; [now apply is_ch_ne with ")"|]. intros st3 _ M3. destruct (ar O); [apply good_ok; cbn [fst snd]; lia|apply good_throw].
        -- apply (good_sub _ (mu st2)); [apply H3; lia|]. intros a s Ms. cbn [fst snd]. destruct (ar _); [apply good_ok; cbn [fst snd]; lia|apply good_throw].
      * destruct (gens L nm) as [ar|]; [destruct (ar O); [apply good_ok; cbn [fst snd]; lia|apply good_throw]|].
        apply good_bind; [apply res_ok|]. intros [|] _; [apply good_ok; cbn [fst snd]; lia|apply good_throw].
  - intros st Hn. rewrite pArgs_S. apply (good_sub _ (mu st)); [apply H8; lia|]. intros e s Ms. cbn [fst snd].
    destruct (is_ch (cur s) ")") eqn:I; [apply good_next; [now apply is_ch_ne with ")"|]; intros; apply good_ok; cbn [fst snd]; lia|].
    destruct (is_ch (cur s) ",") eqn:I2; [|apply good_throw].
    apply good_next; [now apply is_ch_ne with ","|]. intros s1 _ M1. apply (good_sub _ (mu s1)); [apply H3; lia|].
    intros a s2 Ms2. apply good_ok; cbn [fst snd]; lia.
  - intros st N Hn. rewrite pParen_S. apply good_next; [exact N|]. intros s1 _ M1. apply (good_sub _ (mu s1)); [apply H8; lia|].
    intros e s Ms. cbn [fst snd]. destruct (is_ch (cur s) ")" || is_ch (cur s) "]") eqn:I; [|apply good_throw].
    apply good_next; [apply orb_true_iff in I as [I|I]; now apply is_ch_ne in I|]. intros. apply good_ok; cbn [fst snd]; lia.
  - intros st N Hn. rewrite pContext_S. apply good_next; [exact N|]. intros s1 _ M1.
    destruct (H6 s1 ltac:(lia)) as [[V1 V2] V3]. apply good_bind; [exact V1|]. intros [vs s2] E. specialize (V2 _ E). specialize (V3 _ E). cbn [fst snd] in *.
    apply good_next; [congruence|]. intros s3 _ M3. destruct (is_ch (cur s3) "(") eqn:I; [|apply good_throw].
    apply (good_sub _ (mu s3)); [apply H4; [now apply is_ch_ne with "("|lia]|]. intros e s4 M4. apply good_ok; cbn [fst snd]; lia.
  - intros st Hn. rewrite pVars_S. destruct (is_ch (cur st) "]") eqn:I.
    { split; [apply good_ok; cbn [fst snd]; lia|]. intros v [= <-]. now apply is_ch_true. }
    destruct (cur st) as [| |sym| |] eqn:C; try (split; [apply good_throw|discriminate]).
    split.
    + apply good_next; [congruence|]. intros s1 _ M1. apply good_expect. intros s2 M2. apply (good_sub _ (mu s2)); [apply H8; lia|].
      intros e s Ms. cbn [fst snd]. apply good_bind.
      * destruct (is_ch (cur s) ","); [apply next_ok|discriminate].
      * intros s3 E3. assert (mu s3 <= mu s)%nat.
        { destruct (is_ch (cur s) ",") eqn:I2; [|injection E3 as <-; lia]. apply next_mu in E3; [lia|]. now apply is_ch_ne with ",". }
        destruct (H6 s3 ltac:(lia)) as [V _]. apply (good_sub _ (mu s3)); [exact V|]. intros vs s4 M4. apply good_ok; cbn [fst snd]; lia.
    + intros v E. apply bind_ok in E as (s1 & E1 & E). apply next_mu in E1; [|congruence]. apply bind_ok in E as (s2 & E2 & E).
      apply expect_ok in E2 as [C2 E2]. apply next_mu in E2; [|congruence]. apply bind_ok in E as ([e s] & Ee & E). cbn [fst snd] in *.
      destruct (H8 s2 ltac:(lia)) as [_ G8]. specialize (G8 _ Ee). cbn [snd] in G8.
      apply bind_ok in E as (s3 & E3 & E). apply bind_ok in E as ([vs s4] & E4 & E). injection E as <-. cbn [snd].
      assert (mu s3 <= mu s)%nat.
      { destruct (is_ch (cur s) ",") eqn:I2; [|injection E3 as <-; lia]. apply next_mu in E3; [lia|]. now apply is_ch_ne with ",". }
      destruct (H6 s3 ltac:(lia)) as [_ V]. apply (V _ E4).
  - intros p e st Hn. rewrite pBin_S. destruct (is_end (cur st)); [apply good_ok; cbn [fst snd]; lia|].
    destruct (op_of L (cur st)) as [[op tp]|] eqn:O; [|apply good_throw]. destruct (tp <? p)%Z; [apply good_ok; cbn [fst snd]; lia|].
    apply good_next; [now apply op_ne_end with op tp|]. intros s1 _ M1. apply (good_sub _ (mu s1)); [apply H1; lia|].
    intros r s Ms. cbn [fst snd]. destruct (is_end (cur s)); [apply good_ok; cbn [fst snd]; lia|].
    destruct (op_of L (cur s)) as [[op2 np]|] eqn:O2; [|apply good_throw].
    apply (good_sub _ (mu s)).
    + destruct (tp <? np)%Z; [apply H7; lia|apply good_ok; cbn [fst snd]; lia].
    + intros r2 s2 M2. cbn [fst snd]. apply (good_le (mu s2)); [lia|]. apply H7. lia.
  - intros st Hn. rewrite pExpr_S. apply (good_sub _ (mu st)); [apply H1; lia|]. intros e s Ms. cbn [fst snd].
    apply (good_le (mu s)); [lia|]. apply H7. lia.
Qed.
End T.

(* ---------- a list of tokens as a source ---------- *)
Definition tcur (l : list tok) : tok := hd TEnd l.
Definition tnext (l : list tok) : res (list tok) := Ok (tl l).
Lemma list_path ts rest : path (list tok) tcur tnext (ts ++ rest) ts rest.
Proof. induction ts as [|t ts IH]; [constructor|]. change t with (tcur ((t :: ts) ++ rest)) at 2. econstructor; [reflexivity|exact IH]. Qed.

Lemma unambiguous L e e' ts t : wf_lang L -> is_end t = true -> G L 0 e ts t -> G L 0 e' ts t -> e = e'.
Proof.
  intros WF Ht H H'.
  destruct (level_expr L (list tok) tcur tnext e ts t (ts ++ [t]) [t] (proj1 (accept L _ tcur tnext WF) _ _ _ _ H) (list_path ts [t]) eq_refl Ht) as [n Hn].
  destruct (level_expr L (list tok) tcur tnext e' ts t (ts ++ [t]) [t] (proj1 (accept L _ tcur tnext WF) _ _ _ _ H') (list_path ts [t]) eq_refl Ht) as [k Hk].
  pose proof (pExpr_up _ _ _ _ n (Nat.max n k) _ _ (Nat.le_max_l n k) Hn ltac:(discriminate)) as A.
  pose proof (pExpr_up _ _ _ _ k (Nat.max n k) _ _ (Nat.le_max_r n k) Hk ltac:(discriminate)) as B. congruence.
Qed.

Lemma show_D L : wf_lang L -> forall e, arith L e -> forall p, D L p e (show L p e).
Proof.
  intros WF. induction e as [d|s|op l IHl r IHr|name args| | | ]; intros H p; cbn [arith] in H; try contradiction.
  - constructor.
  - constructor.
  - destruct H as (Hp & Hl & Hr). cbn [show]. destruct (prec L op) as [q|] eqn:E; [|contradiction].
    destruct (WF _ _ E) as [Hq _]. destruct (Z.leb_spec p q).
    + econstructor; eauto.
    + constructor. econstructor; eauto.
  - destruct args; [|contradiction]. destruct H as (N & ar & A & B). econstructor; eauto.
Qed.
