Require Import ZArith List Bool Ascii Lia Arith.
Require Import Verif.Base Verif.ExprModel Verif.FactoryModel Verif.FactorySpec.
Import ListNotations.

Scheme Replaced_mut := Induction for Replaced Sort Prop with ReplacedL_mut := Induction for ReplacedL Sort Prop.
Combined Scheme Replaced_both from Replaced_mut, ReplacedL_mut.

Section ExprInd.
Variable P : expr -> Prop.
Hypothesis Hval : forall d, P (EVal d).
Hypothesis Hparam : forall s, P (EParam s).
Hypothesis Hbin : forall o l r, P l -> P r -> P (EBin o l r).
Hypothesis Hcall : forall f a, Forall P a -> P (ECall f a).
Hypothesis Hres : forall n, P (ERes n).
Hypothesis Hctx : forall v b, Forall (fun x => P (snd x)) v -> P b -> P (ECtx v b).
Hypothesis Hsum : forall s c b, P c -> P b -> P (ESum s c b).
Fixpoint expr_ind2 (e : expr) : P e :=
  match e with
  | EVal d => Hval d
  | EParam s => Hparam s
  | EBin o l r => Hbin o l r (expr_ind2 l) (expr_ind2 r)
  | ECall f a => Hcall f a ((fix go l : Forall P l := match l with [] => Forall_nil _ | x :: t => Forall_cons x (expr_ind2 x) (go t) end) a)
  | ERes n => Hres n
  | ECtx v b => Hctx v b ((fix go l : Forall (fun x => P (snd x)) l :=
                  match l with [] => Forall_nil _ | x :: t => Forall_cons x (expr_ind2 (snd x)) (go t) end) v) (expr_ind2 b)
  | ESum s c b => Hsum s c b (expr_ind2 c) (expr_ind2 b)
  end.
End ExprInd.

Lemma str_eqb_spec a b : reflect (a = b) (str_eqb a b).
Proof. unfold str_eqb. destruct (list_eq_dec ascii_dec a b); constructor; auto. Qed.
Lemma str_eqb_refl a : str_eqb a a = true.
Proof. destruct (str_eqb_spec a a); congruence. Qed.

(* ---------- walk ---------- *)
Lemma mbind_ok {A B} (m : M A) (f : A -> M B) s s' b : mbind m f s = (s', Ok b) ->
  exists s1 a, m s = (s1, Ok a) /\ f a s1 = (s', Ok b).
Proof. unfold mbind. destruct (m s) as [s1 [a| |]] eqn:E; intros H; try discriminate. eauto. Qed.

Lemma walk_inv (rsv : str -> M expr) (I : fstate -> Prop) (Q : str -> expr -> Prop) : forall e0,
  (forall n s s' e, In n (names e0) -> I s -> rsv n s = (s', Ok e) -> I s' /\ Q n e) ->
  forall s s' e, I s -> walk rsv e0 s = (s', Ok e) -> I s' /\ Replaced Q e0 e.
Proof.
  induction e0 as [d|s0|o l r IHl IHr|f a IHa|n|v b IHv IHb|s0 c b IHc IHb] using expr_ind2; intros H s s' e Is W; cbn [walk names] in *.
  - injection W as <- <-. split; [auto|constructor].
  - injection W as <- <-. split; [auto|constructor].
  - apply mbind_ok in W. destruct W as [s1 [l' [W1 W]]]. apply mbind_ok in W. destruct W as [s2 [r' [W2 W]]].
    injection W as <- <-.
    destruct (IHl (fun n s s' e Hn => H n s s' e (in_or_app _ _ _ (or_introl Hn))) _ _ _ Is W1) as [I1 R1].
    destruct (IHr (fun n s s' e Hn => H n s s' e (in_or_app _ _ _ (or_intror Hn))) _ _ _ I1 W2) as [I2 R2].
    split; [auto|now constructor].
  - apply mbind_ok in W. destruct W as [s1 [a' [W1 W]]]. injection W as <- <-.
    enough (I s1 /\ ReplacedL Q a a') as [? ?] by (split; [auto|now constructor]).
    revert s a' Is W1. induction a as [|x a IH]; intros s a' Is W1.
    + injection W1 as <- <-. split; [auto|constructor].
    + inversion IHa as [|? ? Px Pa]; subst. apply mbind_ok in W1. destruct W1 as [s2 [x' [Wx W1]]].
      apply mbind_ok in W1. destruct W1 as [s3 [r [Wr W1]]]. injection W1 as <- <-.
      cbn [flat_map] in H.
      destruct (Px (fun n s s' e Hn => H n s s' e (in_or_app _ _ _ (or_introl Hn))) _ _ _ Is Wx) as [I1 R1].
      destruct (IH Pa (fun n s s' e Hn => H n s s' e (in_or_app _ _ _ (or_intror Hn))) _ _ I1 Wr) as [I2 R2].
      split; [auto|now constructor].
  - destruct (H n s s' e (or_introl eq_refl) Is W). split; [auto|now constructor].
  - apply mbind_ok in W. destruct W as [s1 [v' [W1 W]]]. apply mbind_ok in W. destruct W as [s2 [b' [W2 W]]]. injection W as <- <-.
    assert (A : I s1 /\ map fst v = map fst v' /\ ReplacedL Q (map snd v) (map snd v')).
    { assert (Hv : forall n s s' e, In n (flat_map (fun x => names (snd x)) v) -> I s -> rsv n s = (s', Ok e) -> I s' /\ Q n e)
        by (intros n s0 s' e Hn; apply (H n s0 s' e (in_or_app _ _ _ (or_introl Hn)))).
      clear H W2 IHb. revert s v' Is W1. induction v as [|[m x] v IH]; intros s v' Is W1.
      - injection W1 as <- <-. split; [auto|]. split; [reflexivity|constructor].
      - inversion IHv as [|? ? Px Pv]; subst. apply mbind_ok in W1. destruct W1 as [s3 [x' [Wx W1]]].
        apply mbind_ok in W1. destruct W1 as [s4 [r [Wr W1]]]. injection W1 as <- <-. cbn [flat_map snd] in Hv, Px.
        destruct (Px (fun n s s' e Hn => Hv n s s' e (in_or_app _ _ _ (or_introl Hn))) _ _ _ Is Wx) as [I1 R1].
        destruct (IH Pv (fun n s s' e Hn => Hv n s s' e (in_or_app _ _ _ (or_intror Hn))) _ _ I1 Wr) as [I2 [E2 R2]].
        split; [auto|]. split; [cbn [map fst]; now f_equal|]. cbn [map snd]. now constructor. }
    destruct A as [I1 [E1 R1]].
    destruct (IHb (fun n s s' e Hn => H n s s' e (in_or_app _ _ _ (or_intror Hn))) _ _ _ I1 W2) as [I2 R2].
    split; [auto|now constructor].
  - apply mbind_ok in W. destruct W as [s1 [l' [W1 W]]]. apply mbind_ok in W. destruct W as [s2 [r' [W2 W]]].
    injection W as <- <-.
    destruct (IHc (fun n s s' e Hn => H n s s' e (in_or_app _ _ _ (or_introl Hn))) _ _ _ Is W1) as [I1 R1].
    destruct (IHb (fun n s s' e Hn => H n s s' e (in_or_app _ _ _ (or_intror Hn))) _ _ _ I1 W2) as [I2 R2].
    split; [auto|now constructor].
Qed.

(* outcomes other than Ok: [G] describes them *)
Definition good {A} (I : fstate -> Prop) (G : res A -> Prop) (x : fstate * res A) : Prop :=
  match snd x with Ok _ => I (fst x) | r => G r end.
Lemma mbind_good {A B} I (G : forall C, res C -> Prop) (m : M A) (f : A -> M B) s :
  (G A Throw -> G B Throw) -> (G A UB -> G B UB) ->
  good I (G A) (m s) -> (forall s' a, m s = (s', Ok a) -> I s' -> good I (G B) (f a s')) -> good I (G B) (mbind m f s).
Proof. unfold good, mbind. destruct (m s) as [s1 [a| |]]; cbn [fst snd]; intros T0 U0 H1 H2; [|auto|auto]. now apply H2. Qed.

(* [G] says which exceptional outcomes are allowed: by two propositions *)
Definition allow (T U : Prop) C (r : res C) : Prop := match r with Ok _ => True | Throw => T | UB => U end.
Lemma walk_good (rsv : str -> M expr) (I : fstate -> Prop) T U : forall e0,
  (forall n s, In n (names e0) -> I s -> good I (allow T U expr) (rsv n s)) ->
  forall s, I s -> good I (allow T U expr) (walk rsv e0 s).
Proof.
  assert (MB : forall A B (m : M A) (f : A -> M B) s, good I (allow T U A) (m s) ->
    (forall s' a, m s = (s', Ok a) -> I s' -> good I (allow T U B) (f a s')) -> good I (allow T U B) (mbind m f s)).
  { intros A B m f s H1 H2. apply (mbind_good I (allow T U)); auto. }
  induction e0 as [d|s0|o l r IHl IHr|f a IHa|n|v b IHv IHb|s0 c b IHc IHb] using expr_ind2; intros H s Is; cbn [walk names] in *.
  - exact Is.
  - exact Is.
  - apply MB; [apply IHl; auto; intros; apply H; auto; apply in_or_app; now left|]. intros s1 l' _ I1.
    apply MB; [apply IHr; auto; intros; apply H; auto; apply in_or_app; now right|]. intros s2 r' _ I2. exact I2.
  - apply MB; [|intros s1 a' _ I1; exact I1].
    revert s Is. induction a as [|x a IH]; intros s Is; [exact Is|].
    inversion IHa as [|? ? Px Pa]; subst. cbn [flat_map] in H.
    apply MB; [apply Px; auto; intros; apply H; auto; apply in_or_app; now left|]. intros s1 x' _ I1.
    apply MB; [apply IH; auto; intros; apply H; auto; apply in_or_app; now right|]. intros s2 r' _ I2. exact I2.
  - apply H; auto. now left.
  - apply MB.
    + assert (Hv : forall n s, In n (flat_map (fun x => names (snd x)) v) -> I s -> good I (allow T U expr) (rsv n s))
        by (intros; apply H; auto; apply in_or_app; now left).
      clear H IHb. revert s Is. induction v as [|[m x] v IH]; intros s Is; [exact Is|].
      inversion IHv as [|? ? Px Pv]; subst. cbn [flat_map snd] in Hv, Px.
      apply MB; [apply Px; auto; intros; apply Hv; auto; apply in_or_app; now left|]. intros s1 x' _ I1.
      apply MB; [apply IH; auto; intros; apply Hv; auto; apply in_or_app; now right|]. intros s2 r' _ I2. exact I2.
    + intros s1 v' _ I1. apply MB; [apply IHb; auto; intros; apply H; auto; apply in_or_app; now right|]. intros s2 b' _ I2. exact I2.
  - apply MB; [apply IHc; auto; intros; apply H; auto; apply in_or_app; now left|]. intros s1 l' _ I1.
    apply MB; [apply IHb; auto; intros; apply H; auto; apply in_or_app; now right|]. intros s2 r' _ I2. exact I2.
Qed.

(* ---------- Replaced ---------- *)
Lemma Replaced_mono (R R' : str -> expr -> Prop) : (forall n e, R n e -> R' n e) ->
  (forall a b, Replaced R a b -> Replaced R' a b) /\ (forall a b, ReplacedL R a b -> ReplacedL R' a b).
Proof.
  intros H. apply (Replaced_both R (fun a b _ => Replaced R' a b) (fun a b _ => ReplacedL R' a b)); intros; constructor; auto.
Qed.

Lemma names_ctx v : flat_map (fun x : str * expr => names (snd x)) v = flat_map names (map snd v).
Proof. induction v as [|x v IH]; [reflexivity|]. cbn [flat_map map]. now rewrite IH. Qed.

(* every name is related to something *)
Lemma Replaced_name (R : str -> expr -> Prop) :
  (forall a b, Replaced R a b -> forall n, In n (names a) -> exists e, R n e) /\
  (forall a b, ReplacedL R a b -> forall n, In n (flat_map names a) -> exists e, R n e).
Proof.
  apply (Replaced_both R (fun a b _ => forall n, In n (names a) -> exists e, R n e)
    (fun a b _ => forall n, In n (flat_map names a) -> exists e, R n e)); cbn [names flat_map]; intros;
    repeat match goal with H : In _ (_ ++ _) |- _ => apply in_app_or in H; destruct H end; auto; try contradiction.
  - destruct H as [<-|[]]. eauto.
  - rewrite names_ctx in H1. auto.
Qed.

Lemma Replaced_agree (Q R : str -> expr -> Prop) :
  (forall a b, Replaced Q a b -> forall c, (forall n x y, In n (names a) -> Q n x -> R n y -> x = y) -> Replaced R a c -> b = c) /\
  (forall a b, ReplacedL Q a b -> forall c, (forall n x y, In n (flat_map names a) -> Q n x -> R n y -> x = y) -> ReplacedL R a c -> b = c).
Proof.
  apply (Replaced_both Q (fun a b _ => forall c, (forall n x y, In n (names a) -> Q n x -> R n y -> x = y) -> Replaced R a c -> b = c)
   (fun a b _ => forall c, (forall n x y, In n (flat_map names a) -> Q n x -> R n y -> x = y) -> ReplacedL R a c -> b = c));
   cbn [names flat_map]; intros.
  - inversion H0; subst. apply (H n); auto. now left.
  - now inversion H0.
  - now inversion H0.
  - inversion H2; subst. f_equal; [apply H|apply H0]; auto; intros; apply (H1 n); auto; apply in_or_app; auto.
  - inversion H1; subst. f_equal. now apply H.
  - inversion H2; subst. rewrite names_ctx in H1.
    assert (E1 : map snd v' = map snd v'0) by (apply H; auto; intros; apply (H1 n); auto; apply in_or_app; auto).
    assert (E2 : b' = b'0) by (apply H0; auto; intros; apply (H1 n); auto; apply in_or_app; auto).
    subst. f_equal. assert (E3 : map fst v' = map fst v'0) by congruence.
    clear -E1 E3. revert v'0 E1 E3. induction v' as [|[a b] v' IH]; intros [|[c d] w] E1 E3; try discriminate; [reflexivity|].
    injection E1 as -> E1. injection E3 as -> E3. f_equal. auto.
  - inversion H2; subst. f_equal; [apply H|apply H0]; auto; intros; apply (H1 n); auto; apply in_or_app; auto.
  - now inversion H0.
  - inversion H2; subst. f_equal; [apply H|apply H0]; auto; intros; apply (H1 n); auto; apply in_or_app; auto.
Qed.

(* a bound for all names *)
Lemma Replaced_bound (P : nat -> str -> expr -> Prop) : (forall k k' n e, k <= k' -> P k n e -> P k' n e) ->
  (forall a b, Replaced (fun n e => exists k, P k n e) a b -> exists k, Replaced (P k) a b) /\
  (forall a b, ReplacedL (fun n e => exists k, P k n e) a b -> exists k, ReplacedL (P k) a b).
Proof.
  intros Hm.
  assert (U : forall k k', k <= k' -> (forall a b, Replaced (P k) a b -> Replaced (P k') a b) /\ (forall a b, ReplacedL (P k) a b -> ReplacedL (P k') a b)).
  { intros k k' L. apply Replaced_mono. intros n e. now apply Hm. }
  apply (Replaced_both (fun n e => exists k, P k n e) (fun a b _ => exists k, Replaced (P k) a b) (fun a b _ => exists k, ReplacedL (P k) a b)); intros;
   repeat match goal with H : exists _, _ |- _ => destruct H as [? H] end.
  - match goal with H : P ?k _ _ |- _ => exists k end. now constructor.
  - exists 0. constructor.
  - exists 0. constructor.
  - exists (Nat.max x x0). constructor; (eapply U; [|eassumption]); lia.
  - exists x. now constructor.
  - exists (Nat.max x x0). constructor; [auto| |]; (eapply U; [|eassumption]); lia.
  - exists (Nat.max x x0). constructor; (eapply U; [|eassumption]); lia.
  - exists 0. constructor.
  - exists (Nat.max x0 x1). constructor; (eapply U; [|eassumption]); lia.
Qed.

Lemma MeansN_mono pt rf : forall k k' p t e, k <= k' -> MeansN pt rf k p t e -> MeansN pt rf k' p t e.
Proof.
  induction k as [|k IH]; intros k' p t e L H; [destruct H|]. destruct k' as [|k']; [lia|]. cbn [MeansN] in *.
  destruct H as [e0 [E R]]. exists e0. split; [exact E|]. revert R. apply Replaced_mono.
  intros n en [p' [t' [A B]]]. exists p', t'. split; [exact A|]. apply (IH k'); [lia|exact B].
Qed.
Lemma MeansN_refers pt (rf rf' : path -> str -> path -> str -> Prop) : (forall p n p' t, rf p n p' t -> rf' p n p' t) ->
  forall k p t e, MeansN pt rf k p t e -> MeansN pt rf' k p t e.
Proof.
  intros HR. induction k as [|k IH]; intros p t e H; [destruct H|]. cbn [MeansN] in *.
  destruct H as [e0 [E R]]. exists e0. split; [exact E|]. revert R. apply Replaced_mono.
  intros n en [p' [t' [A B]]]. exists p', t'. auto.
Qed.
Lemma MeansN_det pt (rf : path -> str -> path -> str -> Prop) :
  (forall p n p' t p2 t2, rf p n p' t -> rf p n p2 t2 -> p' = p2 /\ t = t2) ->
  forall k j p t e e', MeansN pt rf k p t e -> MeansN pt rf j p t e' -> e = e'.
Proof.
  intros HR. induction k as [|k IH]; intros j p t e e' H H'; [destruct H|]. destruct j as [|j]; [destruct H'|]. cbn [MeansN] in *.
  destruct H as [e0 [E R]]. destruct H' as [e1 [E' R']]. rewrite E in E'. injection E' as <-.
  refine (proj1 (Replaced_agree _ _) _ _ R e' _ R').
  intros n x y _ [p1 [t1 [A1 B1]]] [p2 [t2 [A2 B2]]]. destruct (HR _ _ _ _ _ _ A1 A2) as [<- <-]. exact (IH j _ _ _ _ B1 B2).
Qed.
