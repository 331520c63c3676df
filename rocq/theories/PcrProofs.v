(** Cyclic reduction of a tridiagonal system, on all rows at once (without processors). *)
From Coq Require Import List Arith Bool Lia ZArith Field.
From Verif Require Import MpiModel PcrModel.
Import ListNotations.

Section S.
Variable F : Type.
Variables (f0 f1 : F) (fadd fmul fsub fdiv : F -> F -> F) (fopp finv : F -> F).
Hypothesis FT : field_theory f0 f1 fadd fmul fsub fopp fdiv finv (@eq F).
Add Field FF : FT.
Local Infix "+!" := fadd (at level 50, left associativity).
Local Infix "-!" := fsub (at level 50, left associativity).
Local Infix "*!" := fmul (at level 40, left associativity).
Local Infix "/!" := fdiv (at level 40, left associativity).
Notation cell := (cell F).
Notation reduce_row := (reduce_row F fadd fmul).
Notation unit_row := (unit_row F f0 f1).

Lemma div0 x : f0 /! x = f0.
Proof. rewrite (Fdiv_def FT). ring. Qed.
Lemma opp0 : fopp f0 = f0. Proof. ring. Qed.

Variable T : Z.
Variable base : Z -> cell.
Hypothesis outside : forall g, (g < 1 \/ T < g)%Z -> base g = unit_row.
Hypothesis first_row : ca F (base 1) = f0.
Hypothesis last_row : cc F (base T) = f0.

Definition dist (l : nat) : Z := (2 ^ Z.of_nat l)%Z.
Lemma dist_S l : dist (S l) = (2 * dist l)%Z.
Proof. unfold dist. rewrite Nat2Z.inj_succ, Z.pow_succ_r by lia. reflexivity. Qed.
Lemma dist_pos l : (1 <= dist l)%Z.
Proof. induction l as [|l IH]; [unfold dist; cbn; lia|rewrite dist_S; lia]. Qed.
Fixpoint red (l : nat) (g : Z) : cell :=
  match l with
  | O => base g
  | S l' => let lo := red l' (g - dist l') in let mid := red l' g in let hi := red l' (g + dist l') in
    reduce_row (fopp (ca F mid) /! cb F lo) (fopp (cc F mid) /! cb F hi) lo mid hi
  end.
Lemma red_outside l g : (g < 1 \/ T < g)%Z -> red l g = unit_row.
Proof.
  revert g. induction l as [|l IH]; intros g H; [apply outside; exact H|]. cbn [red]. rewrite (IH g H). unfold PcrModel.unit_row. unfold PcrModel.reduce_row. cbn [ca cb cc cr].
  rewrite opp0, !div0. f_equal; ring.
Qed.
Lemma red_a0 l g : (g <= dist l)%Z -> ca F (red l g) = f0.
Proof.
  revert g. induction l as [|l IH]; intros g H.
  - unfold dist in H. cbn in H. destruct (Z.eq_dec g 1) as [->|N]; [exact first_row|]. cbn [red]. rewrite outside by lia. reflexivity.
  - cbn [red]. unfold PcrModel.reduce_row. cbn [ca]. rewrite dist_S in H. rewrite (IH (g - dist l)%Z) by lia. ring.
Qed.
Lemma red_c0 l g : (T < g + dist l)%Z -> cc F (red l g) = f0.
Proof.
  revert g. induction l as [|l IH]; intros g H.
  - unfold dist in H. cbn in H. destruct (Z.eq_dec g T) as [->|N]; [exact last_row|]. cbn [red]. rewrite outside by lia. reflexivity.
  - cbn [red]. unfold PcrModel.reduce_row. cbn [cc]. rewrite dist_S in H. rewrite (IH (g + dist l)%Z) by lia. ring.
Qed.

(** The equation of row [g] after [l] reductions. *)
Definition eqn (l : nat) (x : Z -> F) (g : Z) : F :=
  ca F (red l g) *! x (g - dist l)%Z +! cb F (red l g) *! x g +! cc F (red l g) *! x (g + dist l)%Z -! cr F (red l g).
Lemma eqn_S l x g : cb F (red l (g - dist l)) <> f0 -> cb F (red l (g + dist l)) <> f0 ->
  eqn (S l) x g = eqn l x g +! (fopp (ca F (red l g)) /! cb F (red l (g - dist l))) *! eqn l x (g - dist l)%Z
                            +! (fopp (cc F (red l g)) /! cb F (red l (g + dist l))) *! eqn l x (g + dist l)%Z.
Proof.
  intros H1 H2. unfold eqn. rewrite dist_S. cbn [red]. unfold PcrModel.reduce_row. cbn [ca cb cc cr].
  replace (g - dist l - dist l)%Z with (g - 2 * dist l)%Z by lia. replace (g + dist l + dist l)%Z with (g + 2 * dist l)%Z by lia.
  replace (g - dist l + dist l)%Z with g by lia. replace (g + dist l - dist l)%Z with g by lia.
  field. split; assumption.
Qed.
Variable L : nat.
Hypothesis pivots : forall l g, l <= L -> cb F (red l g) <> f0.
Definition solution (x : Z -> F) : Prop := forall g, (1 <= g <= T)%Z -> eqn 0 x g = f0.
Definition zero_outside (x : Z -> F) : Prop := forall g, (g < 1 \/ T < g)%Z -> x g = f0.
Lemma eqn_outside l x g : zero_outside x -> (g < 1 \/ T < g)%Z -> eqn l x g = f0.
Proof. intros Z0 H. unfold eqn. rewrite red_outside by exact H. unfold PcrModel.unit_row. cbn [ca cb cc cr]. rewrite (Z0 g H). ring. Qed.
Lemma eqn_all l x : zero_outside x -> solution x -> l <= S L -> forall g, eqn l x g = f0.
Proof.
  intros Z0 S0. induction l as [|l IH]; intros Hl g.
  - destruct (Z_lt_dec g 1); [apply eqn_outside; [exact Z0|lia]|]. destruct (Z_lt_dec T g); [apply eqn_outside; [exact Z0|lia]|]. apply S0. lia.
  - rewrite eqn_S by (apply pivots; lia). rewrite !IH by lia. ring.
Qed.

(** A solution exists: solve for the multiples of 2^l first. *)
Hypothesis TL : T = dist L.
Lemma exists_level k : k <= L -> exists x, zero_outside x /\ forall g, (exists j, g = (j * dist (L - k))%Z) -> eqn (L - k) x g = f0.
Proof.
  induction k as [|k IH]; intros Hk.
  - rewrite Nat.sub_0_r. exists (fun g => if Z.eqb g T then cr F (red L T) /! cb F (red L T) else f0). assert (HZ : zero_outside (fun g => if Z.eqb g T then cr F (red L T) /! cb F (red L T) else f0)).
    { intros g Hg. destruct (Z.eqb_spec g T) as [->|]; [|reflexivity]. pose proof (dist_pos L). lia. }
    split; [exact HZ|]. intros g [j E]. destruct (Z.eq_dec g T) as [->|N].
    + unfold eqn. rewrite red_a0 by lia. rewrite red_c0 by (pose proof (dist_pos L); lia). rewrite Z.eqb_refl. field. apply pivots. lia.
    + apply eqn_outside; [exact HZ|]. pose proof (dist_pos L). assert (J : (j <= 0 \/ 2 <= j)%Z). { destruct (Z.eq_dec j 1) as [->|]; [|lia]. exfalso. apply N. lia. }
      rewrite E. destruct J; [left|right]; nia.
  - destruct IH as (x & X0 & X); [lia|]. set (l := L - S k). replace (L - k) with (S l) in X by (unfold l; lia).
    set (x' := fun g => if Z.eqb (g mod dist (S l)) 0 then x g else (cr F (red l g) -! ca F (red l g) *! x (g - dist l)%Z -! cc F (red l g) *! x (g + dist l)%Z) /! cb F (red l g)).
    assert (HZ : zero_outside x').
    { intros g Hg. unfold x'. destruct (Z.eqb _ 0); [apply X0; exact Hg|]. rewrite red_outside by exact Hg. unfold PcrModel.unit_row. cbn [ca cb cc cr].
      match goal with |- ?t /! f1 = f0 => replace t with f0 by ring end. apply div0. }
    exists x'. split; [exact HZ|].
    assert (DP := dist_pos l). assert (DS := dist_S l).
    assert (ODD : forall i, eqn l x' ((2 * i + 1) * dist l)%Z = f0).
    { intros i. set (g := ((2 * i + 1) * dist l)%Z). unfold eqn.
      assert (E1 : x' (g - dist l)%Z = x (g - dist l)%Z). { unfold x'. replace (g - dist l)%Z with (i * dist (S l))%Z by (rewrite DS; unfold g; lia). rewrite Z.mod_mul by lia. reflexivity. }
      assert (E2 : x' (g + dist l)%Z = x (g + dist l)%Z). { unfold x'. replace (g + dist l)%Z with ((i + 1) * dist (S l))%Z by (rewrite DS; unfold g; lia). rewrite Z.mod_mul by lia. reflexivity. }
      assert (E3 : x' g = (cr F (red l g) -! ca F (red l g) *! x (g - dist l)%Z -! cc F (red l g) *! x (g + dist l)%Z) /! cb F (red l g)).
      { unfold x'. replace (g mod dist (S l))%Z with (dist l); [destruct (Z.eqb_spec (dist l) 0); [lia|reflexivity]|].
        symmetry. replace g with (dist l + i * dist (S l))%Z by (rewrite DS; unfold g; lia). rewrite Z.mod_add by lia. apply Z.mod_small. lia. }
      rewrite E1, E2, E3. field. apply pivots. unfold l. lia. }
    assert (EVEN : forall i, eqn (S l) x' (i * dist (S l))%Z = f0).
    { intros i. transitivity (eqn (S l) x (i * dist (S l))%Z); [|apply X; exists i; reflexivity]. unfold eqn.
      assert (E : forall j, x' (j * dist (S l))%Z = x (j * dist (S l))%Z). { intros j. unfold x'. rewrite Z.mod_mul by lia. reflexivity. }
      replace (i * dist (S l) - dist (S l))%Z with ((i - 1) * dist (S l))%Z by lia. replace (i * dist (S l) + dist (S l))%Z with ((i + 1) * dist (S l))%Z by lia. rewrite !E. reflexivity. }
    intros g [j E]. destruct (Z.Even_or_Odd j) as [[i Hi]|[i Hi]].
    + specialize (EVEN i). rewrite eqn_S in EVEN by (apply pivots; unfold l; lia).
      replace (i * dist (S l))%Z with g in EVEN by (rewrite DS; unfold l in *; lia).
      replace (g - dist l)%Z with ((2 * (i - 1) + 1) * dist l)%Z in EVEN by (unfold l in *; lia). replace (g + dist l)%Z with ((2 * i + 1) * dist l)%Z in EVEN by (unfold l in *; lia).
      rewrite !ODD in EVEN. rewrite <- EVEN. ring.
    + replace g with ((2 * i + 1) * dist l)%Z by (unfold l in *; lia). apply ODD.
Qed.
Lemma exists_solution : exists x, zero_outside x /\ solution x.
Proof.
  destruct (exists_level L (le_n L)) as (x & X0 & X). exists x. split; [exact X0|]. intros g _. rewrite Nat.sub_diag in X. apply X. exists g. unfold dist. cbn. lia.
Qed.
Lemma pair_det l g : S l = L -> (g <= dist l)%Z -> (T < g + dist l + dist l)%Z ->
  cb F (red l g) *! cb F (red l (g + dist l)) -! cc F (red l g) *! ca F (red l (g + dist l)) <> f0.
Proof.
  intros HL H1 H2. pose proof (pivots (S l) g ltac:(lia)) as P. intros E. apply P. cbn [red]. unfold PcrModel.reduce_row. cbn [cb]. rewrite (red_a0 l g H1).
  assert (P2 := pivots l (g + dist l)%Z ltac:(lia)). assert (P3 := pivots l (g - dist l)%Z ltac:(lia)).
  transitivity ((cb F (red l g) *! cb F (red l (g + dist l)) -! cc F (red l g) *! ca F (red l (g + dist l))) /! cb F (red l (g + dist l))); [field; split; assumption|].
  rewrite E. apply div0.
Qed.
End S.
