(** Diagonally dominant systems: no zero pivots. *)
From Coq Require Import List Arith Bool Lia ZArith Field Reals Lra.
From Verif Require Import MpiModel PcrModel PcrProofs PcrProofs6.
Import ListNotations.
Open Scope R_scope.

Section S.
Variable F : Type.
Variables (f0 f1 : F) (fadd fmul fsub fdiv : F -> F -> F) (fopp finv : F -> F).
Hypothesis FT : field_theory f0 f1 fadd fmul fsub fopp fdiv finv (@eq F).
Add Field FF7 : FT.
Variable nrm : F -> R.
Hypothesis nrm_nonneg : forall x, 0 <= nrm x.
Hypothesis nrm_mul : forall x y, nrm (fmul x y) = nrm x * nrm y.
Hypothesis nrm_add : forall x y, nrm (fadd x y) <= nrm x + nrm y.
Hypothesis nrm_opp : forall x, nrm (fopp x) = nrm x.
Hypothesis nrm_0 : nrm f0 = 0.
Hypothesis nrm_1 : nrm f1 = 1.
Notation cell := (cell F).
Notation na t := (nrm (ca F t)).
Notation nb t := (nrm (cb F t)).
Notation nc t := (nrm (cc F t)).

Lemma pos_nz x : 0 < nrm x -> x <> f0.
Proof. intros H ->. rewrite nrm_0 in H. lra. Qed.
Lemma nrm_div x y : 0 < nrm y -> nrm (fdiv x y) = nrm x / nrm y.
Proof.
  intros H. assert (E : nrm (fdiv x y) * nrm y = nrm x). { rewrite <- nrm_mul. f_equal. field. apply pos_nz. exact H. }
  rewrite <- E. field. lra.
Qed.
Lemma nrm_sub x y : nrm x - nrm y <= nrm (fsub x y).
Proof. pose proof (nrm_add (fsub x y) y) as H. replace (fadd (fsub x y) y) with x in H by ring. lra. Qed.
Lemma nrm_add_lo x y : nrm x - nrm y <= nrm (fadd x y).
Proof. pose proof (nrm_sub x (fopp y)) as H. rewrite nrm_opp in H. replace (fsub x (fopp y)) with (fadd x y) in H by ring. exact H. Qed.
Lemma ratio a b : 0 <= a -> a <= b -> 0 < b -> 0 <= a / b <= 1.
Proof. intros. split; [apply Rmult_le_pos; [assumption|left; apply Rinv_0_lt_compat; assumption]|]. apply Rmult_le_reg_r with b; [assumption|]. unfold Rdiv. rewrite Rmult_assoc, Rinv_l by lra. lra. Qed.
Lemma ratio_lt a b : a < b -> 0 < b -> a / b < 1.
Proof. intros. apply Rmult_lt_reg_r with b; [assumption|]. unfold Rdiv. rewrite Rmult_assoc, Rinv_l by lra. lra. Qed.
Lemma ratio_sum a c b : a + c <= b -> 0 < b -> a / b + c / b <= 1.
Proof. intros. apply Rmult_le_reg_r with b; [assumption|]. replace ((a / b + c / b) * b) with (a + c) by (field; lra). lra. Qed.

Definition dom_row (t : cell) : Prop := na t + nc t <= nb t /\ na t < nb t /\ nc t < nb t.
Lemma dom_pos t : dom_row t -> 0 < nb t.
Proof. intros (_ & H & _). pose proof (nrm_nonneg (ca F t)). lra. Qed.
Lemma dom_unit : dom_row (unit_row F f0 f1).
Proof. unfold dom_row, unit_row. cbn [ca cb cc]. rewrite nrm_0, nrm_1. lra. Qed.
Lemma dom_reduce lo mid hi : dom_row lo -> dom_row mid -> dom_row hi ->
  dom_row (reduce_row F fadd fmul (fdiv (fopp (ca F mid)) (cb F lo)) (fdiv (fopp (cc F mid)) (cb F hi)) lo mid hi).
Proof.
  intros Hl Hm Hh. pose proof (dom_pos _ Hl) as Pl. pose proof (dom_pos _ Hh) as Ph. destruct Hl as (L1 & L2 & L3), Hm as (M1 & M2 & M3), Hh as (H1 & H2 & H3).
  unfold dom_row, reduce_row. cbn [ca cb cc]. rewrite !nrm_mul, !nrm_div, !nrm_opp by assumption.
  set (A := na mid) in *. set (B := nb mid) in *. set (C := nc mid) in *.
  assert (HA : 0 <= A) by apply nrm_nonneg. assert (HC : 0 <= C) by apply nrm_nonneg.
  pose proof (ratio_sum _ _ _ L1 Pl) as RL. pose proof (ratio_sum _ _ _ H1 Ph) as RH.
  pose proof (ratio_lt _ _ L2 Pl) as RL2. pose proof (ratio_lt _ _ L3 Pl) as RL3. pose proof (ratio_lt _ _ H2 Ph) as RH2. pose proof (ratio_lt _ _ H3 Ph) as RH3.
  pose proof (ratio _ _ (nrm_nonneg (ca F lo)) (Rlt_le _ _ L2) Pl) as Q1. pose proof (ratio _ _ (nrm_nonneg (cc F lo)) (Rlt_le _ _ L3) Pl) as Q2.
  pose proof (ratio _ _ (nrm_nonneg (ca F hi)) (Rlt_le _ _ H2) Ph) as Q3. pose proof (ratio _ _ (nrm_nonneg (cc F hi)) (Rlt_le _ _ H3) Ph) as Q4.
  assert (BB : B - (A * (nc lo / nb lo) + C * (na hi / nb hi)) <=
    nrm (fadd (cb F mid) (fadd (fmul (fdiv (fopp (ca F mid)) (cb F lo)) (cc F lo)) (fmul (fdiv (fopp (cc F mid)) (cb F hi)) (ca F hi))))).
  { eapply Rle_trans; [|apply nrm_add_lo]. pose proof (nrm_add (fmul (fdiv (fopp (ca F mid)) (cb F lo)) (cc F lo)) (fmul (fdiv (fopp (cc F mid)) (cb F hi)) (ca F hi))) as K.
    rewrite !nrm_mul, !nrm_div, !nrm_opp in K by assumption. fold A C in K. fold B.
    replace (A * (nc lo / nb lo)) with (A / nb lo * nc lo) by (field; lra). replace (C * (na hi / nb hi)) with (C / nb hi * na hi) by (field; lra). lra. }
  match type of BB with _ <= ?e => set (W := e) in * end. clearbody W.
  replace (A / nb lo * na lo) with (A * (na lo / nb lo)) by (field; lra). replace (C / nb hi * nc hi) with (C * (nc hi / nb hi)) by (field; lra).
  set (p := nc lo / nb lo) in *. set (q := na lo / nb lo) in *. set (u := na hi / nb hi) in *. set (v := nc hi / nb hi) in *. clearbody p q u v A B C.
  assert (A1 : A * q + A * p <= A) by (rewrite <- Rmult_plus_distr_l; rewrite <- (Rmult_1_r A) at 2; apply Rmult_le_compat_l; lra).
  assert (C1 : C * u + C * v <= C) by (rewrite <- Rmult_plus_distr_l; rewrite <- (Rmult_1_r C) at 2; apply Rmult_le_compat_l; lra).
  split; [lra|]. split.
  - destruct (Rle_lt_or_eq_dec 0 C HC) as [Z|Z]; [|rewrite <- Z in *; lra]. assert (C * u < C) by (rewrite <- (Rmult_1_r C) at 2; apply Rmult_lt_compat_l; lra). assert (0 <= C * v) by (apply Rmult_le_pos; lra). lra.
  - destruct (Rle_lt_or_eq_dec 0 A HA) as [Z|Z]; [|rewrite <- Z in *; lra]. assert (A * p < A) by (rewrite <- (Rmult_1_r A) at 2; apply Rmult_lt_compat_l; lra). assert (0 <= A * q) by (apply Rmult_le_pos; lra). lra.
Qed.
Lemma dom_red base l : (forall g, dom_row (base g)) -> forall g, dom_row (red F fadd fmul fdiv fopp base l g).
Proof. intros H. induction l as [|l IH]; intros g; [apply H|]. cbn [red]. apply dom_reduce; apply IH. Qed.

(** Elimination. *)
Lemma term_le a c b : c <= b -> 0 < b -> 0 <= a -> c * a / b <= a.
Proof. intros. apply Rmult_le_reg_r with b; [assumption|]. replace (c * a / b * b) with (a * c) by (field; lra). apply Rmult_le_compat_l; assumption. Qed.
Lemma in_pivot lo row : nc lo <= nb lo -> 0 < nb lo -> nb row - na row <= nb (step_in F f0 fmul fsub fdiv lo row).
Proof.
  intros H P. unfold step_in. cbn [cb]. eapply Rle_trans; [|apply nrm_sub]. rewrite nrm_div, nrm_mul by assumption. pose proof (term_le _ _ _ H P (nrm_nonneg (ca F row))). lra.
Qed.
Lemma out_pivot row hi : na hi <= nb hi -> 0 < nb hi -> nb row - nc row <= nb (step_out F f0 fmul fsub fdiv row hi).
Proof.
  intros H P. unfold step_out. cbn [cb]. eapply Rle_trans; [|apply nrm_sub]. rewrite nrm_div, nrm_mul by assumption. pose proof (term_le _ _ _ H P (nrm_nonneg (cc F row))) as K. rewrite Rmult_comm in K. lra.
Qed.
Notation el := (el F f0 fmul fsub fdiv).
Notation eo := (eo F f0 fmul fsub fdiv).
Lemma el_dom G m : (forall k, (k <= m)%nat -> nc (G k) <= nb (G k) - (if (k =? 0)%nat then 0 else na (G k)) /\ 0 < nb (G k) - (if (k =? 0)%nat then 0 else na (G k))) ->
  nc (el G m) <= nb (el G m) /\ 0 < nb (el G m).
Proof.
  induction m as [|m IH]; intros H.
  - specialize (H 0%nat (le_n 0)). cbn [Nat.eqb] in H. cbn [PcrProofs6.el]. lra.
  - destruct IH as [I1 I2]; [intros; apply H; lia|]. specialize (H (S m) (le_n _)). cbn [Nat.eqb] in H. cbn [PcrProofs6.el]. pose proof (in_pivot (el G m) (G (S m)) I1 I2) as K.
    assert (E : cc F (step_in F f0 fmul fsub fdiv (el G m) (G (S m))) = cc F (G (S m))) by reflexivity. rewrite E. lra.
Qed.
Lemma eo_dom G t m : (m <= t)%nat -> (forall j, (j <= m)%nat -> na (G (t - j)%nat) <= nb (G (t - j)%nat) - (if (j =? 0)%nat then 0 else nc (G (t - j)%nat)) /\ 0 < nb (G (t - j)%nat) - (if (j =? 0)%nat then 0 else nc (G (t - j)%nat))) ->
  na (eo G t m) <= nb (eo G t m) /\ 0 < nb (eo G t m).
Proof.
  induction m as [|m IH]; intros Hm H.
  - specialize (H 0%nat (le_n 0)). rewrite Nat.sub_0_r in H. cbn [Nat.eqb] in H. cbn [PcrProofs6.eo]. lra.
  - destruct IH as [I1 I2]; [lia|intros; apply H; lia|]. specialize (H (S m) (le_n _)). cbn [Nat.eqb] in H. cbn [PcrProofs6.eo]. pose proof (out_pivot (G (t - S m)%nat) (eo G t m) I1 I2) as K.
    assert (E : ca F (step_out F f0 fmul fsub fdiv (G (t - S m)%nat) (eo G t m)) = ca F (G (t - S m)%nat)) by reflexivity. rewrite E. lra.
Qed.

(** The whole system: [xs] boundary rows, [T] rows, [xs] boundary rows. *)
Variables (xs T : nat) (G : nat -> cell).
Hypothesis Hxs : (1 <= xs)%nat.
Hypothesis HT : (1 <= T)%nat.
Notation nx := (T + 2 * xs)%nat.
Definition left_of (g : nat) : R := if (g =? 0)%nat then 0 else na (G g).
Definition right_of (g : nat) : R := if (S g <? nx)%nat then nc (G g) else 0.
Hypothesis weak : forall g, (g < nx)%nat -> left_of g + right_of g <= nb (G g).
Hypothesis sleft : forall g, (g < xs + T)%nat -> left_of g < nb (G g).
Hypothesis sright : forall g, (xs <= g < nx)%nat -> right_of g < nb (G g).
Hypothesis ends : forall g, (g = xs \/ g = xs + T - 1)%nat -> left_of g + right_of g < nb (G g).
Notation E1 := (after_in F f0 fmul fsub fdiv G xs).
Notation E2 := (after_out F f0 fmul fsub fdiv E1 (nx - 1) xs).

Lemma inner_pivot k : (k < xs)%nat -> nc (el G k) <= nb (el G k) /\ 0 < nb (el G k).
Proof.
  intros Hk. apply el_dom. intros j Hj. pose proof (weak j ltac:(lia)) as W. pose proof (sleft j ltac:(lia)) as S1. unfold left_of, right_of in *.
  destruct (Nat.ltb_spec (S j) nx); [|lia]. destruct (j =? 0)%nat; lra.
Qed.
Lemma el_pos (H : nat -> cell) m : (1 <= m)%nat -> el H m = step_in F f0 fmul fsub fdiv (el H (m - 1)) (H m).
Proof. destruct m as [|m]; [lia|]. intros _. replace (S m - 1)%nat with m by lia. reflexivity. Qed.
Lemma eo_pos (H : nat -> cell) t m : (1 <= m)%nat -> eo H t m = step_out F f0 fmul fsub fdiv (H (t - m)%nat) (eo H t (m - 1)).
Proof. destruct m as [|m]; [lia|]. intros _. replace (S m - 1)%nat with m by lia. reflexivity. Qed.
Lemma first_el : ca F (el G xs) = f0 /\ cc F (el G xs) = cc F (G xs) /\ nc (el G xs) < nb (el G xs).
Proof.
  rewrite (el_pos G xs Hxs). split; [reflexivity|]. split; [reflexivity|].
  destruct (inner_pivot (xs - 1) ltac:(lia)) as [I1 I2]. pose proof (in_pivot (el G (xs - 1)) (G xs) I1 I2) as K. pose proof (ends xs ltac:(left; reflexivity)) as Z. unfold left_of, right_of in Z.
  destruct (Nat.eqb_spec xs 0); [lia|]. destruct (Nat.ltb_spec (S xs) nx); [|lia].
  assert (E : cc F (step_in F f0 fmul fsub fdiv (el G (xs - 1)) (G xs)) = cc F (G xs)) by reflexivity. rewrite E. lra.
Qed.
Lemma E1_far g : (xs < g)%nat -> E1 g = G g.
Proof. intros H. unfold after_in. destruct (Nat.leb_spec g xs); [lia|reflexivity]. Qed.
Lemma E1_first : E1 xs = el G xs.
Proof. unfold after_in. rewrite Nat.leb_refl. reflexivity. Qed.
Lemma outer_pivot j : (j < xs)%nat -> na (eo E1 (nx - 1) j) <= nb (eo E1 (nx - 1) j) /\ 0 < nb (eo E1 (nx - 1) j).
Proof.
  intros Hj. apply eo_dom; [lia|]. intros i Hi. rewrite E1_far by lia. pose proof (weak (nx - 1 - i)%nat ltac:(lia)) as W. pose proof (sright (nx - 1 - i)%nat ltac:(lia)) as S1. unfold left_of, right_of in *.
  destruct (Nat.eqb_spec (nx - 1 - i) 0); [lia|]. destruct (Nat.ltb_spec (S (nx - 1 - i)) nx), (Nat.eqb_spec i 0); try lia; lra.
Qed.
Lemma last_E1 : na (E1 (xs + T - 1)%nat) + nc (E1 (xs + T - 1)%nat) < nb (E1 (xs + T - 1)%nat).
Proof.
  destruct (Nat.eq_dec T 1) as [ET|N1].
  - replace (xs + T - 1)%nat with xs by lia. rewrite E1_first. destruct first_el as (A & _ & B). rewrite A, nrm_0. lra.
  - rewrite E1_far by lia. pose proof (ends (xs + T - 1)%nat ltac:(right; reflexivity)) as Z. unfold left_of, right_of in Z. destruct (Nat.eqb_spec (xs + T - 1) 0); [lia|].
    destruct (Nat.ltb_spec (S (xs + T - 1)) nx); [exact Z|lia].
Qed.
Lemma last_eo : let r := eo E1 (nx - 1) xs in cc F r = f0 /\ ca F r = ca F (E1 (xs + T - 1)%nat) /\ na r < nb r.
Proof.
  cbv zeta. pose proof last_E1 as Z. rewrite (eo_pos E1 (nx - 1) xs Hxs). replace (nx - 1 - xs)%nat with (xs + T - 1)%nat by lia. split; [reflexivity|]. split; [reflexivity|].
  destruct (outer_pivot (xs - 1) ltac:(lia)) as [I1 I2]. pose proof (out_pivot (E1 (xs + T - 1)%nat) _ I1 I2) as K. unfold step_out at 1. cbn [ca]. lra.
Qed.
Lemma E2_last : E2 (xs + T - 1)%nat = eo E1 (nx - 1) xs.
Proof. unfold after_out. destruct (Nat.leb_spec (nx - 1 - xs) (xs + T - 1)), (Nat.leb_spec (xs + T - 1) (nx - 1)); try lia. cbn [andb]. f_equal. lia. Qed.
Lemma E2_inner g : (g < xs + T - 1)%nat -> E2 g = E1 g.
Proof. intros H. unfold after_out. destruct (Nat.leb_spec (nx - 1 - xs) g); [lia|reflexivity]. Qed.
Lemma E2_dom g : (xs <= g < xs + T)%nat -> dom_row (E2 g).
Proof.
  intros Hg. destruct (Nat.eq_dec g (xs + T - 1)) as [->|NE].
  - rewrite E2_last. destruct last_eo as (A & _ & B). unfold dom_row. rewrite A, nrm_0. pose proof (nrm_nonneg (ca F (eo E1 (nx - 1) xs))). lra.
  - rewrite E2_inner by lia. destruct (Nat.eq_dec g xs) as [->|N2].
    + rewrite E1_first. destruct first_el as (A & _ & B). unfold dom_row. rewrite A, nrm_0. pose proof (nrm_nonneg (cc F (el G xs))). lra.
    + rewrite E1_far by lia. pose proof (weak g ltac:(lia)) as W. pose proof (sleft g ltac:(lia)) as S1. pose proof (sright g ltac:(lia)) as S2. unfold left_of, right_of in *.
      destruct (Nat.eqb_spec g 0); [lia|]. destruct (Nat.ltb_spec (S g) nx); [|lia]. split; [|split]; assumption.
Qed.
Lemma E2_first_a : ca F (E2 xs) = f0.
Proof.
  destruct (Nat.eq_dec T 1) as [E|N1].
  - assert (X : E2 xs = eo E1 (nx - 1) xs) by (rewrite <- E2_last; f_equal; lia). rewrite X. destruct last_eo as (_ & A & _). rewrite A. replace (xs + T - 1)%nat with xs by lia. rewrite E1_first. apply first_el.
  - rewrite E2_inner by lia. rewrite E1_first. apply first_el.
Qed.
Lemma E2_last_c : cc F (E2 (xs + T - 1)%nat) = f0.
Proof. rewrite E2_last. apply last_eo. Qed.
End S.
