From Coq Require Import Ascii String List Arith Bool Lia.
From Verif Require Import Base StringsModel StringsSpec.
Import ListNotations.

(** * Edit distance *)
Section Edit.
  Context {A : Type}.
  Inductive alend : list A -> list A -> nat -> Prop :=
  | ae_nil : alend [] [] 0
  | ae_keep x a b n : alend a b n -> alend (a ++ [x]) (b ++ [x]) n
  | ae_subst x y a b n : alend a b n -> alend (a ++ [x]) (b ++ [y]) (S n)
  | ae_delete x a b n : alend a b n -> alend (a ++ [x]) b (S n)
  | ae_insert y a b n : alend a b n -> alend a (b ++ [y]) (S n)
  | ae_swap x y a b n : alend a b n -> alend (a ++ [x; y]) (b ++ [y; x]) (S n).

  Lemma align_app (a b : list A) n : align a b n -> forall a' b' m, align a' b' m -> align (a ++ a') (b ++ b') (n + m).
  Proof. induction 1; intros a' b' m Hm; cbn; [assumption|apply al_keep|apply al_subst|apply al_delete|apply al_insert|apply al_swap]; auto. Qed.

  Lemma alend_cons a b n : alend a b n ->
    (forall x, alend (x :: a) (x :: b) n) /\ (forall x y, alend (x :: a) (y :: b) (S n)) /\
    (forall x, alend (x :: a) b (S n)) /\ (forall y, alend a (y :: b) (S n)) /\
    (forall x y, alend (x :: y :: a) (y :: x :: b) (S n)).
  Proof.
    induction 1 as [|x a b n H IH|x y a b n H IH|x a b n H IH|y a b n H IH|x y a b n H IH].
    - repeat split; intros.
      + apply (ae_keep x [] []). constructor.
      + apply (ae_subst x y [] []). constructor.
      + apply (ae_delete x [] []). constructor.
      + apply (ae_insert y [] []). constructor.
      + apply (ae_swap x y [] []). constructor.
    - destruct IH as (I1 & I2 & I3 & I4 & I5). repeat split; intros.
      + apply (ae_keep x (x0 :: a) (x0 :: b)). auto.
      + apply (ae_keep x (x0 :: a) (y :: b)). auto.
      + apply (ae_keep x (x0 :: a) b). auto.
      + apply (ae_keep x a (y :: b)). auto.
      + apply (ae_keep x (x0 :: y :: a) (y :: x0 :: b)). auto.
    - destruct IH as (I1 & I2 & I3 & I4 & I5). repeat split; intros.
      + apply (ae_subst x y (x0 :: a) (x0 :: b)). auto.
      + apply (ae_subst x y (x0 :: a) (y0 :: b)). auto.
      + apply (ae_subst x y (x0 :: a) b). auto.
      + apply (ae_subst x y a (y0 :: b)). auto.
      + apply (ae_subst x y (x0 :: y0 :: a) (y0 :: x0 :: b)). auto.
    - destruct IH as (I1 & I2 & I3 & I4 & I5). repeat split; intros.
      + apply (ae_delete x (x0 :: a) (x0 :: b)). auto.
      + apply (ae_delete x (x0 :: a) (y :: b)). auto.
      + apply (ae_delete x (x0 :: a) b). auto.
      + apply (ae_delete x a (y :: b)). auto.
      + apply (ae_delete x (x0 :: y :: a) (y :: x0 :: b)). auto.
    - destruct IH as (I1 & I2 & I3 & I4 & I5). repeat split; intros.
      + apply (ae_insert y (x :: a) (x :: b)). auto.
      + apply (ae_insert y (x :: a) (y0 :: b)). auto.
      + apply (ae_insert y (x :: a) b). auto.
      + apply (ae_insert y a (y0 :: b)). auto.
      + apply (ae_insert y (x :: y0 :: a) (y0 :: x :: b)). auto.
    - destruct IH as (I1 & I2 & I3 & I4 & I5). repeat split; intros.
      + apply (ae_swap x y (x0 :: a) (x0 :: b)). auto.
      + apply (ae_swap x y (x0 :: a) (y0 :: b)). auto.
      + apply (ae_swap x y (x0 :: a) b). auto.
      + apply (ae_swap x y a (y0 :: b)). auto.
      + apply (ae_swap x y (x0 :: y0 :: a) (y0 :: x0 :: b)). auto.
  Qed.
  Lemma align_alend (a b : list A) n : align a b n -> alend a b n.
  Proof. induction 1 as [|x a b n H IH|x y a b n H IH|x a b n H IH|y a b n H IH|x y a b n H IH]; [constructor|..]; apply alend_cons in IH; tauto || (destruct IH as (I1 & I2 & I3 & I4 & I5); auto). Qed.
  Lemma alend_align (a b : list A) n : alend a b n -> align a b n.
  Proof.
    induction 1 as [|x a b n H IH|x y a b n H IH|x a b n H IH|y a b n H IH|x y a b n H IH]; [constructor|..].
    - rewrite <- (Nat.add_0_r n). apply align_app; [assumption|]. repeat constructor.
    - rewrite <- Nat.add_1_r. apply align_app; [assumption|]. repeat constructor.
    - rewrite <- Nat.add_1_r. rewrite <- (app_nil_r b). apply align_app; [assumption|]. repeat constructor.
    - rewrite <- Nat.add_1_r. rewrite <- (app_nil_r a). apply align_app; [assumption|]. repeat constructor.
    - rewrite <- Nat.add_1_r. apply align_app; [assumption|]. apply al_swap, al_nil.
  Qed.

  Lemma align_nil_l (b : list A) n : align [] b n -> n = length b.
  Proof. intros H. remember [] as a eqn:E. induction H; try discriminate; [reflexivity|]. cbn. f_equal; auto. Qed.
  Lemma align_nil_r (a : list A) n : align a [] n -> n = length a.
  Proof. intros H. remember [] as b eqn:E. induction H; try discriminate; [reflexivity|]. cbn. f_equal; auto. Qed.
  Lemma align_ins_all (b : list A) : align [] b (length b).
  Proof. induction b; cbn; constructor; assumption. Qed.
  Lemma align_del_all (a : list A) : align a [] (length a).
  Proof. induction a; cbn; constructor; assumption. Qed.
  Lemma least_nil_l (b : list A) : least_edits [] b (length b).
  Proof. split; [apply align_ins_all|]. intros m Hm. apply align_nil_l in Hm. lia. Qed.
  Lemma least_nil_r (a : list A) : least_edits a [] (length a).
  Proof. split; [apply align_del_all|]. intros m Hm. apply align_nil_r in Hm. lia. Qed.

  Lemma snoc_inj (a b : list A) x y : a ++ [x] = b ++ [y] -> a = b /\ x = y.
  Proof. apply app_inj_tail. Qed.
  Lemma snoc2 (a b : list A) x y z : a ++ [x; y] = b ++ [z] -> b = a ++ [x] /\ y = z.
  Proof. intros H. change (a ++ [x; y]) with (a ++ [x] ++ [y]) in H. rewrite app_assoc in H. apply app_inj_tail in H. destruct H; auto. Qed.

  (** The recurrence of the dynamic programme. *)
  Lemma least_step a b (x y : A) n1 n2 n3 (cost : nat) :
    least_edits a (b ++ [y]) n1 -> least_edits (a ++ [x]) b n2 -> least_edits a b n3 ->
    (x = y -> cost = 0) -> (x <> y -> cost = 1) -> (cost <= 1) ->
    (forall a' x' b' y', a = a' ++ [x'] -> b = b' ++ [y'] -> x = y' -> x' = y -> False) ->
    x = y \/ x <> y ->
    least_edits (a ++ [x]) (b ++ [y]) (Nat.min (Nat.min (n1 + 1) (n2 + 1)) (n3 + cost)).
  Proof.
    intros [H1 M1] [H2 M2] [H3 M3] C0 C1 C2 HS Hdec. split.
    - assert (G1 : align (a ++ [x]) (b ++ [y]) (n1 + 1)).
      { apply alend_align. rewrite Nat.add_1_r. apply ae_delete. now apply align_alend. }
      assert (G2 : align (a ++ [x]) (b ++ [y]) (n2 + 1)).
      { apply alend_align. rewrite Nat.add_1_r. apply ae_insert. now apply align_alend. }
      assert (G3 : align (a ++ [x]) (b ++ [y]) (n3 + cost)).
      { apply alend_align. destruct Hdec as [E|E].
        - rewrite (C0 E), Nat.add_0_r, E. apply ae_keep. now apply align_alend.
        - rewrite (C1 E), Nat.add_1_r. apply ae_subst. now apply align_alend. }
      destruct (Nat.min_spec (Nat.min (n1 + 1) (n2 + 1)) (n3 + cost)) as [[_ ->]|[_ ->]]; [|assumption].
      destruct (Nat.min_spec (n1 + 1) (n2 + 1)) as [[_ ->]|[_ ->]]; assumption.
    - intros m Hm. apply align_alend in Hm. inversion Hm as [E1 E2|u a' b' n H E1 E2|u v a' b' n H E1 E2|u a' b' n H E1 E2|v a' b' n H E1 E2|u v a' b' n H E1 E2]; subst.
      + destruct a; discriminate.
      + apply snoc_inj in E1, E2. destruct E1 as [-> ->], E2 as [-> E2]. apply alend_align in H. specialize (M3 _ H). rewrite (C0 E2). lia.
      + apply snoc_inj in E1, E2. destruct E1 as [-> ->], E2 as [-> ->]. apply alend_align in H. specialize (M3 _ H). lia.
      + apply snoc_inj in E1. destruct E1 as [-> ->]. apply alend_align in H. specialize (M1 _ H). lia.
      + apply snoc_inj in E2. destruct E2 as [-> ->]. apply alend_align in H. specialize (M2 _ H). lia.
      + apply snoc2 in E1, E2. destruct E1 as [-> ->], E2 as [-> ->]. exfalso. eapply HS; eauto.
  Qed.

  Lemma least_step_swap a b (x y : A) n1 n2 n3 n4 (cost : nat) :
    least_edits (a ++ [x]) (b ++ [y; x]) n1 -> least_edits (a ++ [x; y]) (b ++ [y]) n2 -> least_edits (a ++ [x]) (b ++ [y]) n3 ->
    least_edits a b n4 ->
    (x = y -> cost = 0) -> (x <> y -> cost = 1) -> cost <= 1 -> x = y \/ x <> y ->
    least_edits (a ++ [x; y]) (b ++ [y; x]) (Nat.min (Nat.min (Nat.min (n1 + 1) (n2 + 1)) (n3 + cost)) (n4 + 1)).
  Proof.
    intros [H1 M1] [H2 M2] [H3 M3] [H4 M4] C0 C1 C2 Hdec.
    assert (EA : forall l (u v : A), l ++ [u; v] = (l ++ [u]) ++ [v]) by (intros; rewrite <- app_assoc; reflexivity).
    split.
    - assert (G1 : align (a ++ [x; y]) (b ++ [y; x]) (n1 + 1)).
      { apply alend_align. rewrite Nat.add_1_r. rewrite (EA a). apply ae_delete. now apply align_alend. }
      assert (G2 : align (a ++ [x; y]) (b ++ [y; x]) (n2 + 1)).
      { apply alend_align. rewrite Nat.add_1_r. rewrite (EA b). apply ae_insert. now apply align_alend. }
      assert (G3 : align (a ++ [x; y]) (b ++ [y; x]) (n3 + cost)).
      { apply alend_align. destruct Hdec as [E|E].
        - rewrite (C0 E), Nat.add_0_r, (EA a), (EA b). subst y. apply ae_keep. now apply align_alend.
        - rewrite (C1 E), Nat.add_1_r, (EA a), (EA b). apply ae_subst. now apply align_alend. }
      assert (G4 : align (a ++ [x; y]) (b ++ [y; x]) (n4 + 1)).
      { apply alend_align. rewrite Nat.add_1_r. apply ae_swap. now apply align_alend. }
      repeat match goal with |- context [Nat.min ?p ?q] =>
        destruct (Nat.min_spec p q) as [[_ ->]|[_ ->]] end; assumption.
    - intros m Hm. apply align_alend in Hm. rewrite (EA a), (EA b) in Hm.
      inversion Hm as [E1 E2|u a' b' n H E1 E2|u v a' b' n H E1 E2|u a' b' n H E1 E2|v a' b' n H E1 E2|u v a' b' n H E1 E2]; subst.
      + destruct a; discriminate.
      + apply snoc_inj in E1, E2. destruct E1 as [-> ->], E2 as [-> E2]. apply alend_align in H. specialize (M3 _ H). rewrite (C0 (eq_sym E2)). lia.
      + apply snoc_inj in E1, E2. destruct E1 as [-> ->], E2 as [-> ->]. apply alend_align in H. specialize (M3 _ H). lia.
      + apply snoc_inj in E1. destruct E1 as [-> ->]. apply alend_align in H. rewrite <- EA in H. specialize (M1 _ H). lia.
      + apply snoc_inj in E2. destruct E2 as [-> ->]. apply alend_align in H. rewrite <- EA in H. specialize (M2 _ H). lia.
      + apply snoc2 in E1, E2. destruct E1 as [E1 EE1], E2 as [E2 EE2]. apply snoc_inj in E1, E2. destruct E1 as [E1 EE3], E2 as [E2 EE4]. subst.
        apply alend_align in H. specialize (M4 _ H). lia.
  Qed.

  Lemma align_sym (a b : list A) n : align a b n -> align b a n.
  Proof. induction 1; [apply al_nil|apply al_keep|apply al_subst|apply al_insert|apply al_delete|apply al_swap]; assumption. Qed.
  Lemma align_zero (a b : list A) : align a b 0 <-> a = b.
  Proof.
    split.
    - intros H. remember 0 as n eqn:E. induction H; try discriminate; [reflexivity|]. f_equal; auto.
    - intros ->. induction b; constructor; assumption.
  Qed.
  Lemma align_max (a b : list A) : exists n, align a b n /\ n <= Nat.max (length a) (length b).
  Proof.
    revert b. induction a as [|x a IH]; intros b.
    - exists (length b). split; [apply align_ins_all|]. cbn. lia.
    - destruct b as [|y b].
      + exists (length (x :: a)). split; [apply align_del_all|]. cbn. lia.
      + destruct (IH b) as (n & H & Hn). exists (S n). split; [constructor; assumption|]. cbn. lia.
  Qed.
End Edit.

Section DP.
  Variables s t : str.
  Definition good (d : mat) i j := least_edits (firstn i s) (firstn j t) (d i j).

  Lemma firstn_snoc {A} (l : list A) i x : nth_error l i = Some x -> firstn (S i) l = firstn i l ++ [x].
  Proof.
    revert i. induction l as [|a l IH]; intros i H; destruct i; cbn in *; try discriminate.
    - now injection H as ->.
    - f_equal. now apply IH.
  Qed.

  Lemma mset_same d i j v : mset d i j v i j = v.
  Proof. unfold mset. now rewrite !Nat.eqb_refl. Qed.
  Lemma mset_other d i j v a b : (a <> i \/ b <> j) -> mset d i j v a b = d a b.
  Proof. unfold mset. intros H. destruct (a =? i) eqn:E1; cbn; [|reflexivity]. destruct (b =? j) eqn:E2; [|reflexivity].
         apply Nat.eqb_eq in E1, E2. lia. Qed.

  Lemma cell_other i d j a b : (a <> i \/ b <> j) -> cell s t i d j a b = d a b.
  Proof. intros H. unfold cell. destruct (_ && _ && _ && _); rewrite ?mset_other by assumption; reflexivity. Qed.

  Lemma chr_eq_spec i j x y : nth_error s i = Some x -> nth_error t j = Some y -> chr_eq s i t j = Ascii.eqb x y.
  Proof. intros H1 H2. unfold chr_eq. now rewrite H1, H2. Qed.

  Lemma cell_good d i j : i < length s -> j < length t ->
    good d i (S j) -> good d (S i) j -> good d i j ->
    (1 <= i -> 1 <= j -> good d (i - 1) (j - 1)) ->
    good (cell s t (S i) d (S j)) (S i) (S j).
  Proof.
    intros Hi Hj G1 G2 G3 G4.
    destruct (nth_error s i) as [x|] eqn:Ex; [|apply nth_error_None in Ex; lia].
    destruct (nth_error t j) as [y|] eqn:Ey; [|apply nth_error_None in Ey; lia].
    unfold good in *. rewrite (firstn_snoc s i x Ex), (firstn_snoc t j y Ey) in *.
    unfold cell. replace (S i - 1) with i by lia. replace (S j - 1) with j by lia.
    rewrite (chr_eq_spec i j x y Ex Ey).
    set (cost := if Ascii.eqb x y then 0 else 1).
    assert (C0 : x = y -> cost = 0) by (intros ->; unfold cost; now rewrite Ascii.eqb_refl).
    assert (C1 : x <> y -> cost = 1) by (intros H; unfold cost; apply Ascii.eqb_neq in H; now rewrite H).
    assert (C2 : cost <= 1) by (unfold cost; destruct (Ascii.eqb x y); lia).
    assert (Hdec : x = y \/ x <> y) by (destruct (ascii_dec x y); auto).
    destruct ((1 <? S i) && (1 <? S j) && chr_eq s i t (S j - 2) && chr_eq s (S i - 2) t j) eqn:ES.
    - apply andb_true_iff in ES. destruct ES as [ES E4]. apply andb_true_iff in ES. destruct ES as [ES E3].
      apply andb_true_iff in ES. destruct ES as [E1 E2]. apply Nat.ltb_lt in E1, E2.
      destruct i as [|i]; [lia|]. destruct j as [|j]; [lia|].
      replace (S (S i) - 2) with i in * by lia. replace (S (S j) - 2) with j in * by lia.
      replace (S i - 1) with i in * by lia. replace (S j - 1) with j in * by lia.
      specialize (G4 ltac:(lia) ltac:(lia)).
      destruct (nth_error s i) as [x'|] eqn:Ex'; [|apply nth_error_None in Ex'; lia].
      destruct (nth_error t j) as [y'|] eqn:Ey'; [|apply nth_error_None in Ey'; lia].
      rewrite (chr_eq_spec (S i) j x y' Ex Ey') in E3. rewrite (chr_eq_spec i (S j) x' y Ex' Ey) in E4.
      apply Ascii.eqb_eq in E3, E4. subst y' x'.
      rewrite mset_same, mset_same. rewrite mset_other by lia.
      rewrite (firstn_snoc s i y Ex'), (firstn_snoc t j x Ey') in *. rewrite <- !app_assoc in *. cbn [app] in *.
      apply least_step_swap; auto. destruct Hdec; auto.
    - rewrite mset_same. apply least_step; auto.
      intros a' x' b' y' Ea Eb Hx Hy. subst y' x'.
      destruct i as [|i]; [destruct a'; discriminate|]. destruct j as [|j]; [destruct b'; discriminate|].
      replace (S (S i) - 2) with i in * by lia. replace (S (S j) - 2) with j in * by lia.
      destruct (nth_error s i) as [x'|] eqn:Ex'; [|apply nth_error_None in Ex'; lia].
      destruct (nth_error t j) as [y'|] eqn:Ey'; [|apply nth_error_None in Ey'; lia].
      rewrite (firstn_snoc s i x' Ex') in Ea. rewrite (firstn_snoc t j y' Ey') in Eb.
      apply app_inj_tail in Ea, Eb. destruct Ea as [_ ->], Eb as [_ ->].
      rewrite (chr_eq_spec (S i) j x x Ex Ey'), (chr_eq_spec i (S j) y y Ex' Ey), !Ascii.eqb_refl in ES. discriminate.
  Qed.

  Definition rows_done (d : mat) i := forall a b, a < i -> b <= length t -> good d a b.

  Lemma row_loop i : i < length s -> forall n j d, rows_done d (S i) -> (forall b, b <= j -> good d (S i) b) ->
    j + n = length t -> let d' := fold_left (cell s t (S i)) (seq (S j) n) d in
    rows_done d' (S (S i)) /\ (forall a b, a > S i -> d' a b = d a b).
  Proof.
    intros Hi. induction n as [|n IH]; intros j d HR HJ Hn; cbn [seq fold_left].
    - split; [|reflexivity]. intros a b Ha Hb. destruct (Nat.eq_dec a (S i)) as [->|]; [apply HJ; lia|apply HR; lia].
    - assert (HG : good (cell s t (S i) d (S j)) (S i) (S j)).
      { apply cell_good; try lia; try (apply HR; lia); [apply HJ; lia|]. intros. apply HR; lia. }
      destruct (IH (S j) (cell s t (S i) d (S j))) as [R1 R2].
      + intros a b Ha Hb. unfold good. rewrite cell_other by lia. apply HR; lia.
      + intros b Hb. destruct (Nat.eq_dec b (S j)) as [->|]; [exact HG|]. unfold good. rewrite cell_other by lia. apply HJ; lia.
      + lia.
      + split; [exact R1|]. intros a b Ha. rewrite R2 by assumption. apply cell_other. lia.
  Qed.

  Lemma all_rows : forall n i d, rows_done d (S i) -> (forall a, i < a <= length s -> d a 0 = a) -> i + n = length s ->
    rows_done (fold_left (fun d i => fold_left (cell s t i) (seq 1 (length t)) d) (seq (S i) n) d) (S (length s)).
  Proof.
    induction n as [|n IH]; intros i d HR H0 Hn; cbn [seq fold_left].
    - replace (length s) with i by lia. exact HR.
    - destruct (row_loop i ltac:(lia) (length t) 0 d HR) as [R1 R2].
      + intros b Hb. replace b with 0 by lia. unfold good. rewrite H0 by lia. cbn [firstn].
        assert (E : length (firstn (S i) s) = S i) by (apply firstn_length_le; lia).
        pose proof (least_nil_r (firstn (S i) s)) as HL; rewrite E in HL; exact HL.
      + reflexivity.
      + apply IH; [exact R1| |lia]. intros a Ha. rewrite R2 by lia. apply H0. lia.
  Qed.

  Lemma init_col n : forall k d a b, fold_left (fun d i => mset d i 0 i) (seq k n) d a b =
    if (b =? 0) && (k <=? a) && (a <? k + n) then a else d a b.
  Proof.
    induction n as [|n IH]; intros k d a b; cbn [seq fold_left].
    - destruct (b =? 0); cbn [andb]; [|reflexivity]. destruct (k <=? a) eqn:E; cbn [andb]; [|reflexivity].
      apply Nat.leb_le in E. destruct (a <? k + 0) eqn:E2; [apply Nat.ltb_lt in E2; lia|reflexivity].
    - rewrite IH. unfold mset. destruct (b =? 0) eqn:Eb; cbn [andb]; rewrite ?andb_false_r; [|reflexivity].
      rewrite andb_true_r. destruct (a =? k) eqn:Ea.
      + apply Nat.eqb_eq in Ea; subst. replace (k <=? k) with true by (symmetry; apply Nat.leb_refl).
        replace (k <? k + S n) with true by (symmetry; apply Nat.ltb_lt; lia).
        replace (S k <=? k) with false by (symmetry; apply Nat.leb_gt; lia). reflexivity.
      + apply Nat.eqb_neq in Ea. replace (S k + n) with (k + S n) by lia.
        destruct (k <=? a) eqn:E1, (S k <=? a) eqn:E2; try reflexivity.
        * apply Nat.leb_le in E1. apply Nat.leb_gt in E2. lia.
        * apply Nat.leb_gt in E1. apply Nat.leb_le in E2. lia.
  Qed.
  Lemma init_row n : forall k d a b, fold_left (fun d j => mset d 0 j j) (seq k n) d a b =
    if (a =? 0) && (k <=? b) && (b <? k + n) then b else d a b.
  Proof.
    induction n as [|n IH]; intros k d a b; cbn [seq fold_left].
    - destruct (a =? 0); cbn [andb]; [|reflexivity]. destruct (k <=? b) eqn:E; cbn [andb]; [|reflexivity].
      apply Nat.leb_le in E. destruct (b <? k + 0) eqn:E2; [apply Nat.ltb_lt in E2; lia|reflexivity].
    - rewrite IH. unfold mset. destruct (a =? 0) eqn:Eb; cbn [andb]; [|reflexivity].
      destruct (b =? k) eqn:Ea.
      + apply Nat.eqb_eq in Ea; subst. replace (k <=? k) with true by (symmetry; apply Nat.leb_refl).
        replace (k <? k + S n) with true by (symmetry; apply Nat.ltb_lt; lia).
        replace (S k <=? k) with false by (symmetry; apply Nat.leb_gt; lia). reflexivity.
      + apply Nat.eqb_neq in Ea. replace (S k + n) with (k + S n) by lia.
        destruct (k <=? b) eqn:E1, (S k <=? b) eqn:E2; try reflexivity.
        * apply Nat.leb_le in E1. apply Nat.leb_gt in E2. lia.
        * apply Nat.leb_gt in E1. apply Nat.leb_le in E2. lia.
  Qed.

  Lemma editDistance_least d0 : least_edits s t (editDistance d0 s t).
  Proof.
    unfold editDistance. replace (length s + 1 - 1) with (length s) by lia. replace (length t + 1 - 1) with (length t) by lia.
    set (d1 := fold_left (fun d i => mset d i 0 i) _ d0). set (d2 := fold_left (fun d j => mset d 0 j j) _ d1).
    assert (HR : rows_done d2 1).
    { intros a b Ha Hb. replace a with 0 by lia. unfold good. cbn [firstn]. unfold d2. rewrite init_row.
      replace ((0 =? 0) && (0 <=? b) && (b <? 0 + (length t + 1))) with true
        by (symmetry; cbn; apply Nat.ltb_lt; lia).
      assert (E : length (firstn b t) = b) by (apply firstn_length_le; lia).
      pose proof (least_nil_l (firstn b t)) as HL; rewrite E in HL; exact HL. }
    assert (H0 : forall a, 0 < a <= length s -> d2 a 0 = a).
    { intros a Ha. unfold d2. rewrite init_row. replace (a =? 0) with false by (symmetry; apply Nat.eqb_neq; lia). cbn [andb].
      unfold d1. rewrite init_col. replace ((0 =? 0) && (0 <=? a) && (a <? 0 + (length s + 1))) with true
        by (symmetry; cbn; apply Nat.ltb_lt; lia). reflexivity. }
    pose proof (all_rows (length s) 0 d2 HR H0 ltac:(lia)) as HF.
    specialize (HF (length s) (length t) ltac:(lia) ltac:(lia)). unfold good in HF. now rewrite !firstn_all in HF.
  Qed.
End DP.

Lemma least_unique {A} (a b : list A) n m : least_edits a b n -> least_edits a b m -> n = m.
Proof. intros [H1 M1] [H2 M2]. specialize (M1 _ H2). specialize (M2 _ H1). lia. Qed.

Lemma editDistance_facts d0 d1 s t :
  (editDistance d0 s t = 0 <-> s = t) /\ editDistance d0 s t = editDistance d1 t s /\
  editDistance d0 s t <= Nat.max (length s) (length t).
Proof.
  destruct (editDistance_least s t d0) as [H M]. split; [|split].
  - split; intros E; [rewrite E in H; now apply align_zero|]. apply align_zero in E. specialize (M _ E). lia.
  - apply (least_unique s t); [split; assumption|]. destruct (editDistance_least t s d1) as [H2 M2].
    split; [now apply align_sym|]. intros m Hm. apply M2. now apply align_sym.
  - destruct (align_max s t) as (n & Hn & Hle). specialize (M _ Hn). lia.
Qed.

(** * Trimming *)
Lemma find_first_spec p : forall s k, match find_first p s k with
  | Some m => exists pre c post, s = pre ++ c :: post /\ m = k + length pre /\ p c = true /\ Forall (fun x => p x = false) pre
  | None => Forall (fun x => p x = false) s end.
Proof.
  induction s as [|c s IH]; intros k; cbn; [constructor|]. destruct (p c) eqn:E.
  - exists [], c, s. cbn. repeat split; auto.
  - specialize (IH (S k)). destruct (find_first p s (S k)) as [m|].
    + destruct IH as (pre & c' & post & -> & -> & Hp & HF). exists (c :: pre), c', post. cbn. repeat split; auto.
    + constructor; assumption.
Qed.
Lemma find_last_spec p : forall s k acc, match find_last p s k acc with
  | Some m => (exists pre c post, s = pre ++ c :: post /\ m = k + length pre /\ p c = true /\ Forall (fun x => p x = false) post)
      \/ (acc = Some m /\ Forall (fun x => p x = false) s)
  | None => acc = None /\ Forall (fun x => p x = false) s end.
Proof.
  induction s as [|c s IH]; intros k acc; cbn.
  - destruct acc; auto.
  - specialize (IH (S k) (if p c then Some k else acc)).
    destruct (find_last p s (S k) (if p c then Some k else acc)) as [m|].
    + destruct IH as [(pre & c' & post & -> & -> & Hp & HF)|[E HF]].
      * left. exists (c :: pre), c', post. cbn. repeat split; auto.
      * destruct (p c) eqn:Ec; [|right; auto]. injection E as <-. left. exists [], c, s. cbn. repeat split; auto.
    + destruct IH as [E HF]. destruct (p c) eqn:Ec; [discriminate|]. auto.
Qed.

Lemma inset_spec c cs : inset c cs = true <-> In c cs.
Proof.
  unfold inset. rewrite existsb_exists. split.
  - intros (x & Hx & E). apply Ascii.eqb_eq in E. now subst.
  - intros H. exists c. split; [assumption|apply Ascii.eqb_refl].
Qed.
Lemma inset_false c cs : inset c cs = false <-> ~ In c cs.
Proof. rewrite <- inset_spec. destruct (inset c cs); split; congruence. Qed.

Lemma trimLeft_spec s cs : exists pre, s = pre ++ trimLeft s cs /\ Forall (fun c => In c cs) pre /\ begins_outside cs (trimLeft s cs).
Proof.
  unfold trimLeft, find_first_not_of. pose proof (find_first_spec (fun c => negb (inset c cs)) s 0) as H.
  assert (HC : forall l, Forall (fun x => negb (inset x cs) = false) l -> Forall (fun c => In c cs) l).
  { intros l Hl. eapply Forall_impl; [|exact Hl]. intros x Hx. apply inset_spec. now apply negb_false_iff. }
  destruct (find_first _ s 0) as [m|].
  - destruct H as (pre & c & post & -> & -> & Hp & HF). exists pre. cbn [Nat.add].
    rewrite skipn_app, skipn_all, Nat.sub_diag. cbn [skipn app]. repeat split; auto. cbn.
    apply inset_false. now apply negb_true_iff.
  - exists s. rewrite app_nil_r. repeat split; auto.
Qed.
Lemma trimRight_spec s cs : exists post, s = trimRight s cs ++ post /\ Forall (fun c => In c cs) post /\ ends_outside cs (trimRight s cs).
Proof.
  unfold trimRight, find_last_not_of. pose proof (find_last_spec (fun c => negb (inset c cs)) s 0 None) as H.
  assert (HC : forall l, Forall (fun x => negb (inset x cs) = false) l -> Forall (fun c => In c cs) l).
  { intros l Hl. eapply Forall_impl; [|exact Hl]. intros x Hx. apply inset_spec. now apply negb_false_iff. }
  destruct (find_last _ s 0 None) as [m|].
  - destruct H as [(pre & c & post & -> & -> & Hp & HF)|[E _]]; [|discriminate]. exists post. cbn [Nat.add].
    replace (pre ++ c :: post) with ((pre ++ [c]) ++ post) by (rewrite <- app_assoc; reflexivity).
    replace (length pre + 1) with (length (pre ++ [c])) by (rewrite app_length; reflexivity).
    rewrite firstn_app, firstn_all, Nat.sub_diag. cbn [firstn]. rewrite app_nil_r. repeat split; auto.
    right. exists pre, c. split; [reflexivity|]. apply inset_false. now apply negb_true_iff.
  - destruct H as [_ HF]. exists s. repeat split; auto. left; reflexivity.
Qed.
Lemma trim_spec s cs : exists pre post, s = pre ++ trim s cs ++ post /\ Forall (fun c => In c cs) pre /\ Forall (fun c => In c cs) post /\
  begins_outside cs (trim s cs) /\ ends_outside cs (trim s cs).
Proof.
  unfold trim. destruct (trimRight_spec s cs) as (post & E1 & F1 & G1). destruct (trimLeft_spec (trimRight s cs) cs) as (pre & E2 & F2 & G2).
  exists pre, post. split; [rewrite app_assoc, <- E2; exact E1|]. repeat split; auto.
  destruct G1 as [G1|(p & c & G1 & Hc)].
  - left. rewrite G1. reflexivity.
  - destruct (trimLeft (trimRight s cs) cs) as [|a l] eqn:El; [left; reflexivity|]. right. rewrite G1 in E2.
    destruct (exists_last (l := a :: l)) as (q & d & Eq); [discriminate|]. rewrite Eq in *. rewrite app_assoc in E2.
    apply app_inj_tail in E2. destruct E2 as [_ ->]. exists q, d. auto.
Qed.
Lemma trimComments_spec s cs : exists rest, s = trimComments s cs ++ rest /\ Forall (fun c => ~ In c cs) (trimComments s cs) /\
  match rest with [] => True | c :: _ => In c cs end.
Proof.
  unfold trimComments, find_first_of. pose proof (find_first_spec (fun c => inset c cs) s 0) as H.
  assert (HC : forall l, Forall (fun x => inset x cs = false) l -> Forall (fun c => ~ In c cs) l).
  { intros l Hl. eapply Forall_impl; [|exact Hl]. intros x Hx. now apply inset_false. }
  destruct (find_first _ s 0) as [m|].
  - destruct H as (pre & c & post & -> & -> & Hp & HF). exists (c :: post). cbn [Nat.add].
    rewrite firstn_app, firstn_all, Nat.sub_diag. cbn [firstn]. rewrite app_nil_r. repeat split; auto. now apply inset_spec.
  - exists []. rewrite app_nil_r. repeat split; auto.
Qed.

(** * Splitting *)
Lemma getline_spec s d : let (item, rest) := getline s d in ~ In d item /\ (s = item /\ rest = [] \/ s = item ++ d :: rest).
Proof.
  induction s as [|c s IH]; cbn; [auto|]. destruct (Ascii.eqb c d) eqn:E.
  - apply Ascii.eqb_eq in E; subst. cbn; auto.
  - apply Ascii.eqb_neq in E. destruct (getline s d) as [a b]. destruct IH as [H1 [[H2 H3]|H2]].
    + split; [intros [H|H]; auto|]. left. split; [congruence|assumption].
    + split; [intros [H|H]; auto|]. right. cbn. congruence.
Qed.
Lemma strsplit_loop_spec d : forall fuel s, length s <= fuel ->
  Forall (fun p => ~ In d p) (strsplit_loop fuel s d) /\
  (s = join d (strsplit_loop fuel s d) \/ s = join d (strsplit_loop fuel s d) ++ [d]) /\
  (strsplit_loop fuel s d = [] <-> s = []) /\
  ((exists p, s = p ++ [d]) <-> s = join d (strsplit_loop fuel s d) ++ [d]).
Proof.
  induction fuel as [|fuel IH]; intros s Hl.
  - destruct s; [|cbn in Hl; lia]. cbn. split; [constructor|]. split; [auto|]. split; [tauto|].
    split; [intros (p & E); destruct p; discriminate|discriminate].
  - destruct s as [|c s'].
    + cbn. split; [constructor|]. split; [auto|]. split; [tauto|]. split; [intros (p & E); destruct p; discriminate|discriminate].
    + set (s := c :: s') in *. assert (EU : strsplit_loop (S fuel) s d = (let (item, rest) := getline s d in item :: strsplit_loop fuel rest d)) by reflexivity. rewrite EU. clear EU.
      pose proof (getline_spec s d) as HG. destruct (getline s d) as [item rest]. destruct HG as [G1 G2].
      assert (Hr : length rest <= fuel).
      { destruct G2 as [[_ ->]|G2]; [cbn; lia|]. apply (f_equal (@length ascii)) in G2. rewrite app_length in G2. unfold s in G2. cbn in *. lia. }
      destruct (IH rest Hr) as (I1 & I2 & I3 & I4). split; [constructor; assumption|].
      assert (HJ : join d (item :: strsplit_loop fuel rest d) = match strsplit_loop fuel rest d with [] => item | _ => item ++ d :: join d (strsplit_loop fuel rest d) end) by reflexivity.
      rewrite HJ.
      destruct G2 as [[G2 ->]|G2].
      * assert (E0 : strsplit_loop fuel [] d = []) by (apply I3; reflexivity). rewrite E0.
        split; [left; assumption|]. split; [split; [discriminate|intros E; unfold s in E; discriminate]|].
        split; [|intros E; exists item; exact E].
        intros (p & E). exfalso. apply G1. rewrite <- G2, E. apply in_or_app. cbn; auto.
      * destruct (strsplit_loop fuel rest d) as [|q ql] eqn:EL.
        -- assert (rest = []) by (apply I3; reflexivity). subst rest.
           split; [right; exact G2|]. split; [split; [discriminate|intros E; unfold s in E; discriminate]|].
           split; [intros _; exact G2|intros E; exists item; exact E].
        -- assert (Hne : rest <> []) by (intros E; apply I3 in E; discriminate).
           split; [|split].
           ++ destruct I2 as [I2|I2]; [left; rewrite <- I2; exact G2|right]. rewrite <- app_assoc. cbn [app]. rewrite <- I2. exact G2.
           ++ split; [discriminate|intros E; unfold s in E; discriminate].
           ++ rewrite <- app_assoc. cbn [app].
              split.
              ** intros (p & E). rewrite G2. f_equal. f_equal. apply I4.
                 destruct (exists_last Hne) as (r & e & Er). subst rest. exists r. rewrite G2 in E.
                 replace (item ++ d :: r ++ [e]) with ((item ++ d :: r) ++ [e]) in E by (rewrite <- app_assoc; reflexivity).
                 apply app_inj_tail in E. destruct E as [_ ->]. reflexivity.
              ** intros E. rewrite E. exists (item ++ d :: join d (q :: ql)). rewrite <- app_assoc. reflexivity.
Qed.
Lemma strsplit_spec s d :
  Forall (fun p => ~ In d p) (strsplit s d) /\
  ((exists p, s = p ++ [d]) -> s = join d (strsplit s d) ++ [d]) /\
  (~ (exists p, s = p ++ [d]) -> s = join d (strsplit s d)).
Proof.
  destruct (strsplit_loop_spec d (length s) s (le_n _)) as (H1 & H2 & H3 & H4). fold (strsplit s d) in *.
  split; [assumption|]. split; [apply H4|]. intros Hn. destruct H2 as [H2|H2]; [assumption|]. exfalso. apply Hn. apply H4. exact H2.
Qed.

(** * Lower case *)
Lemma tolower_idem c : tolower (tolower c) = tolower c.
Proof. destruct c as [b0 b1 b2 b3 b4 b5 b6 b7]; destruct b0, b1, b2, b3, b4, b5, b6, b7; reflexivity. Qed.
Lemma lowercase_idem s : lowercase (lowercase s) = lowercase s.
Proof. unfold lowercase. rewrite map_map. apply map_ext. apply tolower_idem. Qed.

Definition plain (p : str) : Prop := ~ In "'"%char p /\ ~ In """"%char p.
Lemma lq_plain : forall p q dq s, plain p -> lowercasequote_loop q dq (p ++ s) = (if q || dq then p else lowercase p) ++ lowercasequote_loop q dq s.
Proof.
  induction p as [|c p IH]; intros q dq s [H1 H2]; [destruct q, dq; reflexivity|].
  assert (HP : plain p) by (split; intros H; [apply H1|apply H2]; now right).
  cbn [app lowercasequote_loop].
  destruct (Ascii.eqb c "'") eqn:E1; [apply Ascii.eqb_eq in E1; subst; exfalso; apply H1; now left|].
  destruct (Ascii.eqb c """") eqn:E2; [apply Ascii.eqb_eq in E2; subst; exfalso; apply H2; now left|].
  rewrite IH by assumption. destruct q, dq; reflexivity.
Qed.
Lemma lowercasequote_plain p s : plain p -> lowercasequote (p ++ s) = lowercase p ++ lowercasequote s.
Proof. intros H. unfold lowercasequote. now rewrite lq_plain. Qed.
Lemma lowercasequote_quoted (k : ascii) p s : k = "'"%char \/ k = """"%char -> plain p ->
  lowercasequote (k :: p ++ k :: s) = k :: p ++ k :: lowercasequote s.
Proof.
  intros [-> | ->] H; unfold lowercasequote; cbn [lowercasequote_loop Ascii.eqb Bool.eqb xorb];
    rewrite (lq_plain p) by assumption; cbn [orb app]; reflexivity.
Qed.

Lemma tolower_alpha : forall c,
  (forall i, nth_error capitals i = Some c -> Some (tolower c) = nth_error smalls i) /\
  (~ In c capitals -> tolower c = c).
Proof.
  intros c. split.
  - intros i H. do 26 (destruct i as [|i]; [cbn in H; injection H as <-; reflexivity|]). destruct i; discriminate H.
  - destruct c as [[] [] [] [] [] [] [] []]; intros H; try reflexivity; exfalso; apply H;
      unfold capitals; cbn [list_ascii_of_string In]; tauto.
Qed.
Lemma lowercase_letters : forall s,
  List.length (lowercase s) = List.length s /\
  forall k c, nth_error s k = Some c ->
    (forall i, nth_error capitals i = Some c -> nth_error (lowercase s) k = nth_error smalls i) /\
    (~ In c capitals -> nth_error (lowercase s) k = Some c).
Proof.
  intros s. split; [apply map_length|]. intros k c H. unfold lowercase.
  rewrite (map_nth_error tolower k s H). destruct (tolower_alpha c) as [A B]. split; [exact A|].
  intros N. now rewrite B.
Qed.
