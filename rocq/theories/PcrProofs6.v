(** Elimination of the boundary rows. *)
From Coq Require Import List Arith Bool Lia ZArith Field.
From Verif Require Import MpiModel PcrModel SptSpec PcrProofs PcrProofs2.
Import ListNotations.

Section S.
Variable F : Type.
Variables (f0 f1 : F) (fadd fmul fsub fdiv : F -> F -> F) (fopp finv : F -> F).
Hypothesis FT : field_theory f0 f1 fadd fmul fsub fopp fdiv finv (@eq F).
Add Field FF6 : FT.
Local Infix "+!" := fadd (at level 50, left associativity).
Local Infix "-!" := fsub (at level 50, left associativity).
Local Infix "*!" := fmul (at level 40, left associativity).
Local Infix "/!" := fdiv (at level 40, left associativity).
Variable is_zero : F -> bool.
Hypothesis is_zero_spec : forall x, is_zero x = true <-> x = f0.
Variable nsys : nat.
Notation cell := (cell F).
Notation matrix := (matrix F).
Notation vector := (vector F).

(** One row of the elimination at the inner and at the outer boundary. *)
Definition step_in (lo row : cell) : cell :=
  mkCell F f0 (cb F row -! cc F lo *! ca F row /! cb F lo) (cc F row) (cr F row -! cr F lo *! ca F row /! cb F lo).
Definition step_out (row hi : cell) : cell :=
  mkCell F (ca F row) (cb F row -! cc F row *! ca F hi /! cb F hi) f0 (cr F row -! cc F row *! cr F hi /! cb F hi).
Fixpoint el (G : nat -> cell) (i : nat) : cell := match i with O => G 0 | S h => step_in (el G h) (G (S h)) end.
Fixpoint eo (G : nat -> cell) (t j : nat) : cell := match j with O => G t | S h => step_out (G (t - S h)) (eo G t h) end.
Definition after_in (G : nat -> cell) (m : nat) : nat -> cell := fun g => if g <=? m then el G g else G g.
Definition after_out (G : nat -> cell) (t m : nat) : nat -> cell := fun g => if (t - m <=? g) && (g <=? t) then eo G t (t - g) else G g.

Lemma el_ext G H m : (forall g, g <= m -> G g = H g) -> el G m = el H m.
Proof. induction m as [|m IH]; intros E; cbn [el]; [apply E; lia|]. rewrite IH by (intros; apply E; lia). rewrite E by lia. reflexivity. Qed.
Lemma eo_ext G H t u m : (forall j, j <= m -> G (t - j) = H (u - j)) -> eo G t m = eo H u m.
Proof.
  induction m as [|m IH]; intros E; cbn [eo]; [specialize (E 0 (le_n 0)); rewrite !Nat.sub_0_r in E; exact E|].
  rewrite IH by (intros; apply E; lia). rewrite E by lia. reflexivity.
Qed.

(** The programs. *)
Lemma elim_in_ok (d0 : matrix) m : forall i (d : matrix), (forall kz k, d kz k = after_in (d0 kz) i k) ->
  (forall kz k, kz < nsys -> k < i + m -> cb F (el (d0 kz) k) <> f0) ->
  exists d', elim_in F f0 fmul fsub fdiv is_zero nsys m (S i) d = Ret d' /\ forall kz k, d' kz k = after_in (d0 kz) (i + m) k.
Proof.
  induction m as [|m IH]; intros i d HD HP.
  - exists d. split; [reflexivity|]. rewrite Nat.add_0_r. exact HD.
  - cbn [elim_in]. rewrite (nonzero_ok F f0 is_zero is_zero_spec).
    2:{ intros kz Hk. rewrite HD. unfold after_in. replace (S i - 1) with i by lia. rewrite Nat.leb_refl. apply HP; [exact Hk|lia]. }
    cbn [must bind]. replace (i + S m) with (S i + m) by lia. apply IH.
    + intros kz k. unfold set_row. replace (S i - 1) with i by lia. rewrite !HD. unfold after_in. destruct (Nat.eqb_spec k (S i)) as [->|NE].
      * rewrite !Nat.leb_refl. destruct (Nat.leb_spec (S i) i); [lia|]. reflexivity.
      * destruct (Nat.leb_spec k i), (Nat.leb_spec k (S i)); try reflexivity; lia.
    + intros kz k Hk Hm. apply HP; [exact Hk|lia].
Qed.
Lemma elim_out_ok (d0 : matrix) t m : forall i (d : matrix), (forall kz k, d kz k = after_out (d0 kz) t i k) -> i + m <= t ->
  (forall kz k, kz < nsys -> k < i + m -> cb F (eo (d0 kz) t k) <> f0) ->
  exists d', elim_out F f0 fmul fsub fdiv is_zero nsys m (t - S i) d = Ret d' /\ forall kz k, d' kz k = after_out (d0 kz) t (i + m) k.
Proof.
  induction m as [|m IH]; intros i d HD HT HP.
  - exists d. split; [reflexivity|]. rewrite Nat.add_0_r. exact HD.
  - cbn [elim_out]. assert (UP : forall kz, d kz (t - S i + 1) = eo (d0 kz) t i).
    { intros kz. rewrite HD. unfold after_out. replace (t - S i + 1) with (t - i) by lia. rewrite Nat.leb_refl. destruct (Nat.leb_spec (t - i) t); [|lia]. cbn [andb]. f_equal. lia. }
    rewrite (nonzero_ok F f0 is_zero is_zero_spec).
    2:{ intros kz Hk. rewrite UP. apply HP; [exact Hk|lia]. }
    cbn [must bind]. replace (i + S m) with (S i + m) by lia. replace (t - S i - 1) with (t - S (S i)) by lia. apply IH; [|lia|].
    + intros kz k. unfold set_row. rewrite UP. rewrite !HD. unfold after_out. destruct (Nat.eqb_spec k (t - S i)) as [->|NE].
      * rewrite Nat.leb_refl. destruct (Nat.leb_spec (t - S i) t); [|lia]. cbn [andb]. replace (t - (t - S i)) with (S i) by lia. destruct (Nat.leb_spec (t - i) (t - S i)); [lia|]. cbn [andb]. reflexivity.
      * destruct (Nat.leb_spec (t - i) k), (Nat.leb_spec k t), (Nat.leb_spec (t - S i) k); cbn [andb]; try reflexivity; lia.
    + intros kz k Hk Hm. apply HP; [exact Hk|lia].
Qed.

(** The system is equivalent to the eliminated one. *)
Section System.
Variables (nx : nat) (x : nat -> F).
Notation solves G := (tri_solution F f0 fadd fmul nx (fun g => ca F (G g)) (fun g => cb F (G g)) (fun g => cc F (G g)) (fun g => cr F (G g)) x).
Definition lhs (G : nat -> cell) (g : nat) : F :=
  (match g with O => f0 | S h => ca F (G g) *! x h end +! cb F (G g) *! x g) +! (if S g <? nx then cc F (G g) *! x (S g) else f0).
Lemma solves_lhs G : solves G <-> forall g, g < nx -> lhs G g = cr F (G g).
Proof. reflexivity. Qed.
Lemma lhs_ext G H g : G g = H g -> lhs G g = lhs H g.
Proof. intros E. unfold lhs. destruct g; rewrite E; reflexivity. Qed.
Lemma one_in G H m : S m < nx -> (forall g, g <> S m -> G g = H g) -> H (S m) = step_in (G m) (G (S m)) -> (m = 0 \/ ca F (G m) = f0) -> cb F (G m) <> f0 -> (solves G <-> solves H).
Proof.
  intros Hm E1 E2 A0 P. rewrite !solves_lhs.
  assert (R0 : lhs G m = cb F (G m) *! x m +! cc F (G m) *! x (S m)).
  { unfold lhs. destruct (Nat.ltb_spec (S m) nx); [|lia]. destruct m as [|h]; [ring|]. destruct A0 as [A0|A0]; [discriminate|]. rewrite A0. ring. }
  assert (R1 : lhs G (S m) = ca F (G (S m)) *! x m +! cb F (G (S m)) *! x (S m) +! (if S (S m) <? nx then cc F (G (S m)) *! x (S (S m)) else f0)) by reflexivity.
  assert (R2 : lhs H (S m) = (cb F (G (S m)) -! cc F (G m) *! ca F (G (S m)) /! cb F (G m)) *! x (S m) +! (if S (S m) <? nx then cc F (G (S m)) *! x (S (S m)) else f0)).
  { unfold lhs. rewrite E2. unfold step_in. cbn [ca cb cc]. ring. }
  assert (R3 : lhs H (S m) -! cr F (H (S m)) = (lhs G (S m) -! cr F (G (S m))) -! ca F (G (S m)) /! cb F (G m) *! (lhs G m -! cr F (G m))).
  { rewrite R0, R1, R2, E2. unfold step_in. cbn [cr]. field. exact P. }
  split; intros HS g Hg.
  - destruct (Nat.eq_dec g (S m)) as [->|NE]; [|rewrite <- (lhs_ext G H g (E1 g NE)), <- (E1 g NE); apply HS; exact Hg].
    assert (Z : lhs H (S m) -! cr F (H (S m)) = f0) by (rewrite R3, (HS (S m) Hm), (HS m ltac:(lia)); ring).
    transitivity ((lhs H (S m) -! cr F (H (S m))) +! cr F (H (S m))); [ring|rewrite Z; ring].
  - destruct (Nat.eq_dec g (S m)) as [->|NE]; [|rewrite (lhs_ext G H g (E1 g NE)), (E1 g NE); apply HS; exact Hg].
    assert (GM : lhs G m = cr F (G m)) by (rewrite (lhs_ext G H m (E1 m ltac:(lia))), (E1 m ltac:(lia)); apply HS; lia).
    rewrite GM, (HS (S m) Hm) in R3. transitivity (cr F (G (S m)) +! (lhs G (S m) -! cr F (G (S m)) -! ca F (G (S m)) /! cb F (G m) *! (cr F (G m) -! cr F (G m)))); [field; exact P|]. rewrite <- R3. ring.
Qed.
Lemma one_out G H m : S m < nx -> (forall g, g <> m -> G g = H g) -> H m = step_out (G m) (G (S m)) -> (S m = nx - 1 \/ cc F (G (S m)) = f0) -> cb F (G (S m)) <> f0 -> (solves G <-> solves H).
Proof.
  intros Hm E1 E2 C0 P. rewrite !solves_lhs.
  assert (R0 : lhs G (S m) = ca F (G (S m)) *! x m +! cb F (G (S m)) *! x (S m)).
  { unfold lhs. destruct (Nat.ltb_spec (S (S m)) nx); [|ring]. destruct C0 as [C0|C0]; [lia|]. rewrite C0. ring. }
  assert (R1 : lhs G m = (match m with O => f0 | S h => ca F (G m) *! x h end +! cb F (G m) *! x m) +! cc F (G m) *! x (S m)). { unfold lhs. destruct (Nat.ltb_spec (S m) nx); [reflexivity|lia]. }
  assert (R2 : lhs H m = match m with O => f0 | S h => ca F (G m) *! x h end +! (cb F (G m) -! cc F (G m) *! ca F (G (S m)) /! cb F (G (S m))) *! x m).
  { unfold lhs. destruct (Nat.ltb_spec (S m) nx); [|lia]. destruct m; rewrite E2; unfold step_out; cbn [ca cb cc]; ring. }
  assert (R3 : lhs H m -! cr F (H m) = (lhs G m -! cr F (G m)) -! cc F (G m) /! cb F (G (S m)) *! (lhs G (S m) -! cr F (G (S m)))).
  { rewrite R0, R1, R2, E2. unfold step_out. cbn [cr]. field. exact P. }
  split; intros HS g Hg.
  - destruct (Nat.eq_dec g m) as [->|NE]; [|rewrite <- (lhs_ext G H g (E1 g NE)), <- (E1 g NE); apply HS; exact Hg].
    assert (Z : lhs H m -! cr F (H m) = f0) by (rewrite R3, (HS (S m) Hm), (HS m ltac:(lia)); ring).
    transitivity ((lhs H m -! cr F (H m)) +! cr F (H m)); [ring|rewrite Z; ring].
  - destruct (Nat.eq_dec g m) as [->|NE]; [|rewrite (lhs_ext G H g (E1 g NE)), (E1 g NE); apply HS; exact Hg].
    assert (GM : lhs G (S m) = cr F (G (S m))) by (rewrite (lhs_ext G H (S m) (E1 (S m) ltac:(lia))), (E1 (S m) ltac:(lia)); apply HS; lia).
    rewrite GM, (HS m ltac:(lia)) in R3. transitivity (cr F (G m) +! (lhs G m -! cr F (G m) -! cc F (G m) /! cb F (G (S m)) *! (cr F (G (S m)) -! cr F (G (S m))))); [field; exact P|]. rewrite <- R3. ring.
Qed.
Lemma tri_ext G H : (forall g, g < nx -> G g = H g) -> (solves G <-> solves H).
Proof. intros E. rewrite !solves_lhs. split; intros HS g Hg; [rewrite <- (lhs_ext G H g (E g Hg)), <- (E g Hg)|rewrite (lhs_ext G H g (E g Hg)), (E g Hg)]; apply HS; exact Hg. Qed.
Lemma in_equiv G m : m < nx -> (forall k, k < m -> cb F (el G k) <> f0) -> (solves G <-> solves (after_in G m)).
Proof.
  induction m as [|m IH]; intros Hm HP.
  - apply tri_ext. intros g _. unfold after_in. destruct (Nat.leb_spec g 0); [|reflexivity]. replace g with 0 by lia. reflexivity.
  - rewrite IH by (intros; try apply HP; lia). apply (one_in _ _ m Hm).
    + intros g NE. unfold after_in. destruct (Nat.leb_spec g m), (Nat.leb_spec g (S m)); try reflexivity; lia.
    + unfold after_in. rewrite !Nat.leb_refl. destruct (Nat.leb_spec (S m) m); [lia|]. reflexivity.
    + destruct m as [|h]; [left; reflexivity|right]. unfold after_in. rewrite Nat.leb_refl. reflexivity.
    + unfold after_in. rewrite Nat.leb_refl. apply HP. lia.
Qed.
Lemma out_equiv G m : m < nx -> (forall k, k < m -> cb F (eo G (nx - 1) k) <> f0) -> (solves G <-> solves (after_out G (nx - 1) m)).
Proof.
  induction m as [|m IH]; intros Hm HP.
  - apply tri_ext. intros g Hg. unfold after_out. destruct (Nat.leb_spec (nx - 1 - 0) g); [|reflexivity]. replace g with (nx - 1) by lia. rewrite Nat.leb_refl, Nat.sub_diag. reflexivity.
  - rewrite IH by (intros; try apply HP; lia). apply (one_out _ _ (nx - 1 - S m) ltac:(lia)).
    + intros g NE. unfold after_out. destruct (Nat.leb_spec (nx - 1 - m) g), (Nat.leb_spec (nx - 1 - S m) g); cbn [andb]; try reflexivity; lia.
    + unfold after_out. destruct (Nat.leb_spec (nx - 1 - m) (nx - 1 - S m)), (Nat.leb_spec (nx - 1 - S m) (nx - 1 - S m)), (Nat.leb_spec (nx - 1 - S m) (nx - 1)), (Nat.leb_spec (nx - 1 - m) (S (nx - 1 - S m))), (Nat.leb_spec (S (nx - 1 - S m)) (nx - 1)); try lia.
      cbn [andb]. replace (nx - 1 - (nx - 1 - S m)) with (S m) by lia. replace (nx - 1 - S (nx - 1 - S m)) with m by lia. reflexivity.
    + destruct m as [|h]; [left; lia|right]. unfold after_out. destruct (Nat.leb_spec (nx - 1 - S h) (S (nx - 1 - S (S h)))), (Nat.leb_spec (S (nx - 1 - S (S h))) (nx - 1)); try lia. cbn [andb].
      replace (nx - 1 - S (nx - 1 - S (S h))) with (S h) by lia. reflexivity.
    + unfold after_out. destruct (Nat.leb_spec (nx - 1 - m) (S (nx - 1 - S m))), (Nat.leb_spec (S (nx - 1 - S m)) (nx - 1)); try lia. cbn [andb].
      replace (nx - 1 - S (nx - 1 - S m)) with m by lia. apply HP. lia.
Qed.
End System.
End S.
