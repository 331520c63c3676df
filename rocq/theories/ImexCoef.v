From Coq Require Import List Arith Reals Lra Lia.
From Verif Require Import ImexModel ImexSpec.
Import ListNotations.
Local Open Scope R_scope.

(** Shift of the variable of a polynomial. *)
Lemma poly_add : forall l1 l2 k, (length l2 <= length l1)%nat ->
  exists l, length l = length l1 /\ forall y, poly l y = poly l1 y + k * poly l2 y.
Proof.
  induction l1 as [|a l1 IH]; intros [|b l2] k H; cbn [length] in H; try lia.
  - exists []. split; [reflexivity|]. intro y. cbn [poly]. ring.
  - exists (a :: l1). split; [reflexivity|]. intro y. cbn [poly]. ring.
  - destruct (IH l2 k ltac:(lia)) as [l [Hl He]].
    exists (a + k * b :: l). split; [cbn [length]; lia|].
    intro y. cbn [poly]. rewrite He. ring.
Qed.

Lemma poly_shift : forall t l,
  exists l', length l' = length l /\ forall x, poly l x = poly l' (x - t).
Proof.
  intros t. induction l as [|a l [l0 [Hl He]]].
  - exists []. split; reflexivity.
  - destruct (@poly_add (a :: l0) l0 t) as [l' [Hl' He']]; [cbn [length]; lia|].
    exists l'. split; [cbn [length] in *; lia|].
    intro x. rewrite He'. cbn [poly]. rewrite He. ring.
Qed.

Fixpoint dpoly (l : list R) (x : R) : R :=
  match l with [] => 0 | a :: l' => poly l' x + x * dpoly l' x end.

Lemma dpoly_ok : forall l x, derivable_pt_lim (poly l) x (dpoly l x).
Proof.
  induction l as [|a l IH]; intro x.
  - apply derivable_pt_lim_const.
  - cbn [dpoly].
    replace (poly l x + x * dpoly l x) with (0 + (1 * poly l x + id x * dpoly l x))
      by (unfold id; ring).
    apply (derivable_pt_lim_plus (fct_cte a) (mult_fct id (poly l)) x 0).
    + apply derivable_pt_lim_const.
    + apply derivable_pt_lim_mult; [apply derivable_pt_lim_id|apply IH].
Qed.

Lemma poly_der_unique : forall l l' t d, (forall x, poly l x = poly l' (x - t)) ->
  derivable_pt_lim (poly l) t d -> d = nth 1 l' 0.
Proof.
  intros l l' t d He Hd.
  assert (H : derivable_pt_lim (poly l) t (dpoly l' 0)).
  { intros eps Heps.
    pose proof (dpoly_ok l' 0 eps Heps) as [del Hdel].
    exists del. intros h Hh Hl. specialize (Hdel h Hh Hl).
    rewrite !He. replace (t + h - t) with (0 + h) by ring.
    replace (t - t) with 0 by ring. exact Hdel. }
  rewrite (uniqueness_limite _ _ _ _ Hd H).
  destruct l' as [|a [|b l']]; cbn [dpoly poly nth]; ring.
Qed.

(** Order from the moments. *)
Definition moments (p : nat) (s : nat -> R) (a b : nat -> R) (g : R) : Prop :=
  (forall m, (m <= p)%nat ->
     (if Nat.eqb m 0 then 1 else 0)
     = sumn p (fun j => a j * s j ^ m) + (if Nat.eqb m 1 then g else 0)) /\
  (forall m, (m < p)%nat ->
     sumn p (fun j => b j * s j ^ m) = (if Nat.eqb m 0 then g else 0)).

Lemma sumn_ext : forall n f h, (forall j, (j < n)%nat -> f j = h j) -> sumn n f = sumn n h.
Proof.
  induction n as [|n IH]; intros f h H; [reflexivity|].
  cbn [sumn]. rewrite (IH f h), (H n) by (intros; try apply H; lia). reflexivity.
Qed.

Lemma sumn_plus : forall n f h, sumn n (fun j => f j + h j) = sumn n f + sumn n h.
Proof. induction n as [|n IH]; intros; cbn [sumn]; [ring|rewrite IH; ring]. Qed.

Lemma sumn_scal : forall n k f, sumn n (fun j => k * f j) = k * sumn n f.
Proof. induction n as [|n IH]; intros; cbn [sumn]; [ring|rewrite IH; ring]. Qed.

Lemma sumn_poly : forall p (w s : nat -> R) l,
  forall q, sumn p (fun j => w j * (s j ^ q * poly l (s j)))
  = sumn (length l) (fun m => nth m l 0 * sumn p (fun j => w j * s j ^ (q + m))).
Proof.
  intros p w s. induction l as [|a l IH]; intro q.
  - cbn [poly length sumn]. rewrite (sumn_ext p _ (fun j => 0 * 0)).
    + rewrite sumn_scal. ring.
    + intros. ring.
  - cbn [length]. 
    assert (Hs : forall n f, sumn (S n) f = f 0%nat + sumn n (fun m => f (S m))).
    { induction n as [|n IHn]; intro f; [cbn [sumn]; ring|].
      change (sumn (S (S n)) f) with (sumn (S n) f + f (S n)).
      rewrite IHn. cbn [sumn]. ring. }
    rewrite Hs. cbn [nth]. rewrite Nat.add_0_r.
    rewrite (sumn_ext p _ (fun j => a * (w j * s j ^ q) + w j * (s j ^ S q * poly l (s j)))).
    2:{ intros. cbn [poly pow]. ring. }
    rewrite sumn_plus, sumn_scal, IH. f_equal.
    apply sumn_ext. intros m _. f_equal. apply sumn_ext. intros j _.
    f_equal. f_equal. lia.
Qed.

Lemma sumn_pick : forall n m (f : nat -> R) v,
  sumn n (fun k => f k * (if Nat.eqb k m then v else 0))
  = (if Nat.ltb m n then f m * v else 0).
Proof.
  induction n as [|n IH]; intros; cbn [sumn].
  - destruct (Nat.ltb_spec m 0); [lia|reflexivity].
  - rewrite IH. destruct (Nat.ltb_spec m n); destruct (Nat.ltb_spec m (S n));
      destruct (Nat.eqb_spec n m); try lia; subst; ring.
Qed.

Lemma moments_order : forall p tn tau a b g,
  moments p (fun j => tau j - tn) a b g -> of_order p tn tau a b g.
Proof.
  intros p tn tau a b g [Ha Hb]. split.
  - intros l d Hl Hd. destruct (poly_shift tn l) as [l' [Hl' He]].
    rewrite (poly_der_unique _ _ _ _ He Hd).
    rewrite (He tn). replace (tn - tn) with 0 by ring.
    rewrite (sumn_ext p _ (fun j => a j * ((tau j - tn) ^ 0 * poly l' (tau j - tn)))).
    2:{ intros. rewrite He. cbn [pow]. ring. }
    rewrite (sumn_poly p a (fun j => tau j - tn) l' 0).
    rewrite (sumn_ext (length l') _
      (fun m => nth m l' 0 * (if Nat.eqb m 0 then 1 else 0)
                + (- nth m l' 0) * (if Nat.eqb m 1 then g else 0))).
    2:{ intros m Hm. specialize (Ha m ltac:(lia)). cbn [Nat.add].
        cbv beta in Ha. generalize dependent (sumn p (fun j => a j * (tau j - tn) ^ m)).
        intros S0 ->. ring. }
    rewrite sumn_plus. rewrite !sumn_pick.
    destruct l' as [|x [|y l']]; cbn [poly length nth].
    + cbn [Nat.ltb Nat.leb]. ring.
    + cbn [Nat.ltb Nat.leb]. ring.
    + replace (Nat.ltb 0 (S (S (length l')))) with true by reflexivity.
      replace (Nat.ltb 1 (S (S (length l')))) with true by reflexivity. ring.
  - intros l Hl. destruct (poly_shift tn l) as [l' [Hl' He]].
    rewrite (He tn). replace (tn - tn) with 0 by ring.
    rewrite (sumn_ext p _ (fun j => b j * ((tau j - tn) ^ 0 * poly l' (tau j - tn)))).
    2:{ intros. rewrite He. cbn [pow]. ring. }
    rewrite (sumn_poly p b (fun j => tau j - tn) l' 0).
    rewrite (sumn_ext (length l') _
      (fun m => nth m l' 0 * (if Nat.eqb m 0 then g else 0))).
    2:{ intros m Hm. specialize (Hb m ltac:(lia)). cbn [Nat.add].
        rewrite Hb. reflexivity. }
    rewrite sumn_pick.
    destruct l' as [|x l']; cbn [poly length nth].
    + cbn [Nat.ltb Nat.leb]. ring.
    + replace (Nat.ltb 0 (S (length l'))) with true by reflexivity. ring.
Qed.

(** The coefficients of the code. *)
Definition back (h : list R) (j : nat) : R :=
  - fold_right Rplus 0 (firstn (S j) h).

Ltac unf := cbn [Rops o0 o1 oadd osub omul odiv]; unfold two, neg, sq, cube, quart;
  cbn [Rops o0 o1 oadd osub omul odiv].

Lemma coeffs1 : forall h0 h, 0 < h0 ->
  exists uc a b, rawCoeffs Rops 1 (h0 :: h) = Some (uc, a, b) /\
  moments 1 (back (h0 :: h)) (fun j => nth j a 0 / uc) (fun j => nth j b 0 / uc) (h0 / uc).
Proof.
  intros h0 h H0. eexists _, _, _. split; [reflexivity|].
  unf. unfold moments, back. split; intros m Hm;
  (destruct m as [|[|m]]; try lia); cbn [Nat.eqb sumn nth firstn fold_right pow];
  field.
Qed.

Lemma coeffs2 : forall h0 h1 h, 0 < h0 -> 0 < h1 ->
  exists uc a b, rawCoeffs Rops 2 (h0 :: h1 :: h) = Some (uc, a, b) /\ 0 < uc /\
  moments 2 (back (h0 :: h1 :: h)) (fun j => nth j a 0 / uc) (fun j => nth j b 0 / uc) (h0 / uc).
Proof.
  intros h0 h1 h H0 H1. eexists _, _, _. split; [reflexivity|].
  unf.
  assert (0 < h0 / h1) by (apply Rdiv_lt_0_compat; lra).
  assert (E : h0 = (h0 / h1) * h1) by (field; lra).
  revert H E. generalize (h0 / h1) as w. intros w Hw E. subst h0.
  split; [apply Rdiv_lt_0_compat; lra|].
  unfold moments, back. split; intros m Hm;
  (destruct m as [|[|[|m]]]; try lia); cbn [Nat.eqb sumn nth firstn fold_right pow];
  field; lra.
Qed.

Lemma coeffs3 : forall h0 h1 h2 h, 0 < h0 -> 0 < h1 -> 0 < h2 ->
  exists uc a b, rawCoeffs Rops 3 (h0 :: h1 :: h2 :: h) = Some (uc, a, b) /\ 0 < uc /\
  moments 3 (back (h0 :: h1 :: h2 :: h)) (fun j => nth j a 0 / uc) (fun j => nth j b 0 / uc) (h0 / uc).
Proof.
  intros h0 h1 h2 h H0 H1 H2. eexists _, _, _. split; [reflexivity|].
  unf.
  assert (P2 : 0 < h0 / h1) by (apply Rdiv_lt_0_compat; lra).
  assert (P1 : 0 < h1 / h2) by (apply Rdiv_lt_0_compat; lra).
  assert (E0 : h0 = (h0 / h1) * h1) by (field; lra).
  assert (E1 : h1 = (h1 / h2) * h2) by (field; lra).
  revert P1 P2 E0 E1. generalize (h0 / h1) as w2, (h1 / h2) as w1.
  intros w2 w1 P1 P2 E0 E1. subst h0. subst h1.
  assert (P12 : 0 < w1 * w2) by (apply Rmult_lt_0_compat; lra).
  assert (U : 0 < 1 + w2 / (1 + w2) + w1 * w2 / (1 + w1 * (1 + w2))).
  { assert (0 < w2 / (1 + w2)) by (apply Rdiv_lt_0_compat; lra).
    assert (0 < w1 * w2 / (1 + w1 * (1 + w2))) by (apply Rdiv_lt_0_compat; lra). lra. }
  split; [exact U|].
  assert (N : (1 + w2) * (1 + w1 * (1 + w2)) + w2 * (1 + w1 * (1 + w2)) + w1 * w2 * (1 + w2) <> 0).
  { assert (0 < w2 * (w1 * w2)) by (apply Rmult_lt_0_compat; lra). nra. }
  assert (N' : 1 + w1 * (1 + w2) <> 0) by lra.
  assert (N'' : 1 + w1 + w1 * w2 <> 0) by lra.
  unfold moments, back. split; intros m Hm;
  (destruct m as [|[|[|[|m]]]]; try lia); cbn [Nat.eqb sumn nth firstn fold_right pow];
  (field; repeat split; try lra; try assumption).
Qed.
