From Coq Require Import List Arith Reals Lra Lia.
From Verif Require Import ImexModel ImexSpec ImexCoef.
Import ListNotations.
Local Open Scope R_scope.

Lemma coeffs4 : forall h0 h1 h2 h3 h, 0 < h0 -> 0 < h1 -> 0 < h2 -> 0 < h3 ->
  exists uc a b, rawCoeffs Rops 4 (h0 :: h1 :: h2 :: h3 :: h) = Some (uc, a, b) /\ 0 < uc /\
  moments 4 (back (h0 :: h1 :: h2 :: h3 :: h)) (fun j => nth j a 0 / uc) (fun j => nth j b 0 / uc) (h0 / uc).
Proof.
  intros h0 h1 h2 h3 h H0 H1 H2 H3. eexists _, _, _. split; [reflexivity|].
  unf.
  assert (P3 : 0 < h0 / h1) by (apply Rdiv_lt_0_compat; lra).
  assert (P2 : 0 < h1 / h2) by (apply Rdiv_lt_0_compat; lra).
  assert (P1 : 0 < h2 / h3) by (apply Rdiv_lt_0_compat; lra).
  assert (E0 : h0 = (h0 / h1) * h1) by (field; lra).
  assert (E1 : h1 = (h1 / h2) * h2) by (field; lra).
  assert (E2 : h2 = (h2 / h3) * h3) by (field; lra).
  revert P1 P2 P3 E0 E1 E2. generalize (h0 / h1) as w3, (h1 / h2) as w2, (h2 / h3) as w1.
  intros w3 w2 w1 P1 P2 P3 E0 E1 E2. subst h0. subst h1. subst h2.
  assert (P12 : 0 < w1 * w2) by (apply Rmult_lt_0_compat; lra).
  assert (P23 : 0 < w2 * w3) by (apply Rmult_lt_0_compat; lra).
  assert (P123 : 0 < w1 * (w2 * w3)) by (apply Rmult_lt_0_compat; lra).
  assert (D1 : 0 < 1 + w1 * (1 + w2)) by lra.
  assert (D2 : 0 < 1 + w2 * (1 + w3)) by lra.
  assert (D3 : 0 < 1 + w1 * (1 + w2 * (1 + w3))) by lra.
  assert (U : 0 < 1 + w3 / (1 + w3) + w2 * w3 / (1 + w2 * (1 + w3))
     + w1 * w2 * w3 / (1 + w1 * (1 + w2 * (1 + w3)))).
  { assert (0 < w3 / (1 + w3)) by (apply Rdiv_lt_0_compat; lra).
    assert (0 < w2 * w3 / (1 + w2 * (1 + w3))) by (apply Rdiv_lt_0_compat; lra).
    assert (0 < w1 * w2 * w3 / (1 + w1 * (1 + w2 * (1 + w3))))
      by (apply Rdiv_lt_0_compat; lra). lra. }
  split; [exact U|].
  (* uCurrFac is a common factor: clear it first *)
  remember (1 + w3 / (1 + w3) + w2 * w3 / (1 + w2 * (1 + w3))
     + w1 * w2 * w3 / (1 + w1 * (1 + w2 * (1 + w3)))) as uc eqn:Huc.
  unfold moments, back. split; intros m Hm;
  (destruct m as [|[|[|[|[|m]]]]]; try lia); cbn [Nat.eqb sumn nth firstn fold_right pow].
  all: match goal with
  | |- 1 = _ => apply (Rmult_eq_reg_r uc); [|lra]; rewrite Huc at 1
  | _ => apply (Rmult_eq_reg_r uc); [|lra] end.
  all: unfold Rdiv.
  Time all: field; repeat split; lra.
Qed.
