From Coq Require Import List Arith Bool Lia Field.
From Verif Require Import Base SptModel SptSpec.
Import ListNotations.

Section P.
Variable F : Type.
Variables (f0 f1 : F) (fadd fmul fsub fdiv : F -> F -> F) (fopp finv : F -> F).
Hypothesis FT : field_theory f0 f1 fadd fmul fsub fopp fdiv finv (@eq F).
Add Field Ffield : FT.
Variable is_zero : F -> bool.
Hypothesis is_zero_spec : forall x, is_zero x = true <-> x = f0.
Local Infix "+!" := fadd (at level 50, left associativity).
Local Infix "-!" := fsub (at level 50, left associativity).
Local Infix "*!" := fmul (at level 40, left associativity).
Local Infix "/!" := fdiv (at level 40, left associativity).

(** ** The Thomas algorithm on the whole system. *)
Variables (A B C R : nat -> F).
Fixpoint bet (g : nat) : F := match g with O => B 0 | S h => B g -! A g *! (C h /! bet h) end.
Definition gam (g : nat) : F := match g with O => f0 | S h => C h /! bet h end.
Fixpoint y (g : nat) : F := match g with O => R 0 /! bet 0 | S h => (R g -! A g *! y h) /! bet g end.
(** Backward: [xb n k] is the solution at n - 1 - k. *)
Fixpoint xb (n k : nat) : F := match k with O => y (n - 1) | S j => y (n - 1 - k) -! gam (n - 1 - k + 1) *! xb n j end.
Definition xs (n g : nat) : F := xb n (n - 1 - g).

Lemma minor_bet k : (forall h, h <= k -> 1 <= h -> minor F f1 fmul fsub A B C h <> f0) -> forall g, g < k -> bet g <> f0 /\ minor F f1 fmul fsub A B C (S g) = bet g *! minor F f1 fmul fsub A B C g.
Proof.
  intros H. assert (G : forall g, g < k -> bet g <> f0 /\ minor F f1 fmul fsub A B C (S g) = bet g *! minor F f1 fmul fsub A B C g); [|exact G].
  induction g as [|g IH]; intros Hg.
  - assert (E : minor F f1 fmul fsub A B C 1 = B 0) by reflexivity. specialize (H 1 ltac:(lia) ltac:(lia)). cbn [bet]. rewrite E in *. split; [exact H|]. cbn [minor]. ring.
  - destruct (IH ltac:(lia)) as (N0 & E).
    assert (E' : minor F f1 fmul fsub A B C (S (S g)) = bet (S g) *! minor F f1 fmul fsub A B C (S g)).
    { change (minor F f1 fmul fsub A B C (S (S g))) with (B (S g) *! minor F f1 fmul fsub A B C (S g) -! A (S g) *! C g *! minor F f1 fmul fsub A B C g).
      cbn [bet]. rewrite E. field. exact N0. }
    split; [|exact E']. intros Z. apply (H (S (S g)) ltac:(lia) ltac:(lia)). rewrite E', Z. ring.
Qed.
Lemma xs_last n : xs n (n - 1) = y (n - 1).
Proof. unfold xs. rewrite Nat.sub_diag. reflexivity. Qed.
Lemma xs_rec n g : S g < n -> xs n g = y g -! gam (S g) *! xs n (S g).
Proof.
  intros H. unfold xs. replace (n - 1 - g) with (S (n - 1 - S g)) by lia. cbn [xb]. replace (n - 1 - S (n - 1 - S g)) with g by lia. rewrite Nat.add_1_r. reflexivity.
Qed.
Lemma xs_solves n : (forall g, g < n -> bet g <> f0) -> tri_solution F f0 fadd fmul n A B C R (xs n).
Proof.
  intros HB g Hg. 
  assert (E : (if S g <? n then C g *! xs n (S g) else f0) = bet g *! (y g -! xs n g)).
  { destruct (Nat.ltb_spec (S g) n).
    - rewrite (xs_rec n g) by lia. cbn [gam]. field. apply HB; lia.
    - replace g with (n - 1) by lia. rewrite xs_last. ring. }
  rewrite E. destruct g as [|h].
  - cbn [bet y]. field. apply (HB 0); lia.
  - rewrite (xs_rec n h) by lia. pose proof (HB h ltac:(lia)) as N1. pose proof (HB (S h) ltac:(lia)) as N2. cbn [gam].
    transitivity (A (S h) *! y h +! (B (S h) -! A (S h) *! (C h /! bet h) -! bet (S h)) *! xs n (S h) +! bet (S h) *! y (S h)); [ring|].
    cbn [y]. change (bet (S h)) with (B (S h) -! A (S h) *! (C h /! bet h)) in N2 at 1. 
    replace (B (S h) -! A (S h) *! (C h /! bet h)) with (bet (S h)) by reflexivity. field. exact N2.
Qed.
Lemma solution_unique n x : (forall g, g < n -> bet g <> f0) -> tri_solution F f0 fadd fmul n A B C R x -> forall g, g < n -> x g = xs n g.
Proof.
  intros HB HS.
  (* elimination: bet g x_g + C g x_(g+1) = bet g y g *)
  assert (EL : forall g, g < n -> bet g *! x g +! (if S g <? n then C g *! x (S g) else f0) = bet g *! y g).
  { induction g as [|h IH]; intros Hg.
    - specialize (HS 0 Hg). cbn [bet y]. rewrite <- HS. pose proof (HB 0 Hg) as N0. cbn [bet] in N0. field. exact N0.
    - specialize (IH ltac:(lia)). specialize (HS (S h) Hg). cbv iota beta in HS. pose proof (HB h ltac:(lia)) as N1. pose proof (HB (S h) Hg) as N2.
      replace (S h <? n) with true in IH by (symmetry; apply Nat.ltb_lt; lia).
      assert (X : x h = y h -! C h /! bet h *! x (S h)).
      { transitivity ((bet h *! x h +! C h *! x (S h) -! C h *! x (S h)) /! bet h); [field; exact N1|]. rewrite IH. field. exact N1. }
      rewrite X in HS. cbn [y]. set (t := if S (S h) <? n then C (S h) *! x (S (S h)) else f0) in *.
      transitivity (A (S h) *! (y h -! C h /! bet h *! x (S h)) +! B (S h) *! x (S h) +! t -! A (S h) *! y h); [cbn [bet]; ring|].
      rewrite HS. field. exact N2. }
  assert (G : forall k, k < n -> x (n - 1 - k) = xs n (n - 1 - k)).
  { induction k as [|k IH]; intros Hk.
    - rewrite Nat.sub_0_r, xs_last. specialize (EL (n - 1) ltac:(lia)). replace (S (n - 1) <? n) with false in EL by (symmetry; apply Nat.ltb_ge; lia).
      pose proof (HB (n - 1) ltac:(lia)) as N0. transitivity ((bet (n - 1) *! x (n - 1) +! f0) /! bet (n - 1)); [field; exact N0|]. rewrite EL. field. exact N0.
    - specialize (IH ltac:(lia)). rewrite (xs_rec n (n - 1 - S k)) by lia. replace (S (n - 1 - S k)) with (n - 1 - k) by lia. rewrite <- IH.
      specialize (EL (n - 1 - S k) ltac:(lia)). replace (S (n - 1 - S k)) with (n - 1 - k) in EL by lia. replace (n - 1 - k <? n) with true in EL by (symmetry; apply Nat.ltb_lt; lia).
      pose proof (HB (n - 1 - S k) ltac:(lia)) as N0. replace (n - 1 - k) with (S (n - 1 - S k)) by lia. cbn [gam]. replace (S (n - 1 - S k)) with (n - 1 - k) by lia.
      set (g := n - 1 - S k) in *. transitivity ((bet g *! x g +! C g *! x (n - 1 - k) -! C g *! x (n - 1 - k)) /! bet g); [field; exact N0|]. rewrite EL. field. exact N0. }
  intros g Hg. replace g with (n - 1 - (n - 1 - g)) by lia. apply G. lia.
Qed.

(** ** The pieces of the algorithm on local arrays. [off] is the global index of local element 0. *)
Variable len : nat.
Section Local.
Variables (off : nat) (s : rows F).
(** Local elements [lo, hi) are those of the global system. *)
Definition local_rows (lo hi : nat) : Prop :=
  forall i, lo <= i < hi -> ra F s i = A (off + i) /\ rb F s i = B (off + i) /\ rr F s i = R (off + i) /\ (S i < hi -> rc F s i = C (off + i)).

Lemma forward_loop_ok lo hi : local_rows lo hi -> forall m k u gm0 b, lo < k -> k + m <= hi ->
  (forall g, off + lo < g < off + hi -> bet g <> f0) ->
  (forall i, lo <= i < k -> u i = y (off + i)) -> b = bet (off + k - 1) -> bet (off + k - 1) = bet (off + k - 1) ->
  exists u' gm', forward_loop F fmul fsub fdiv is_zero (ra F s) (rb F s) (rc F s) (rr F s) m k u gm0 b = Ok (u', gm', bet (off + (k + m) - 1)) /\
    (forall i, lo <= i < k + m -> u' i = y (off + i)) /\ (forall i, k <= i < k + m -> gm' i = gam (off + i)) /\
    (forall i, i < k \/ k + m <= i -> u' i = u i /\ gm' i = gm0 i).
Proof.
  intros HL m. induction m as [|m IH]; intros k u gm0 b Hk Hm HB Hu -> _; cbn [forward_loop].
  - exists u, gm0. rewrite Nat.add_0_r. split; [reflexivity|]. split; [exact Hu|]. split; [intros; lia|auto].
  - destruct (HL k ltac:(lia)) as (Ea & Eb & Er & _). destruct (HL (k - 1) ltac:(lia)) as (_ & _ & _ & Ec). specialize (Ec ltac:(lia)).
    set (gm1 := set F gm0 k (rc F s (k - 1) /! bet (off + k - 1))).
    assert (G1 : gm1 k = gam (off + k)).
    { unfold gm1, set. rewrite Nat.eqb_refl, Ec. replace (off + k) with (S (off + k - 1)) at 2 by lia. cbn [gam]. do 2 f_equal. lia. }
    assert (B1 : rb F s k -! ra F s k *! gm1 k = bet (off + k)).
    { rewrite G1, Ea, Eb. replace (off + k) with (S (off + k - 1)) by lia. reflexivity. }
    assert (NZ : bet (off + k) <> f0) by (apply HB; lia).
    cbv zeta. rewrite B1. destruct (is_zero (bet (off + k))) eqn:EZ; [apply is_zero_spec in EZ; contradiction|].
    set (u1 := set F u k ((rr F s k -! ra F s k *! u (k - 1)) /! bet (off + k))).
    assert (U1 : u1 k = y (off + k)).
    { unfold u1, set. rewrite Nat.eqb_refl, Ea, Er, (Hu (k - 1) ltac:(lia)). replace (off + k) with (S (off + (k - 1))) by lia. reflexivity. }
    destruct (IH (S k) u1 gm1 (bet (off + k)) ltac:(lia) ltac:(lia) HB) as (u' & gm' & E & P1 & P2 & P3).
    + intros i Hi. destruct (Nat.eq_dec i k) as [->|]; [exact U1|]. unfold u1, set. replace (i =? k) with false by (symmetry; apply Nat.eqb_neq; lia). apply Hu. lia.
    + f_equal. lia.
    + reflexivity.
    + exists u', gm'. split; [rewrite E; do 2 f_equal; f_equal; lia|]. split; [intros i Hi; apply P1; lia|]. split.
      * intros i Hi. destruct (Nat.eq_dec i k) as [->|]; [|apply P2; lia]. rewrite (proj2 (P3 k ltac:(lia))). exact G1.
      * intros i Hi. destruct (P3 i ltac:(lia)) as (Q1 & Q2). rewrite Q1, Q2. unfold u1, gm1, set. replace (i =? k) with false by (symmetry; apply Nat.eqb_neq; lia). auto.
Qed.
Lemma forward_ok o n u0 g0 (start : bool) b um : local_rows o (o + n) -> 0 < n -> o + n <= len ->
  (forall g, off + o <= g < off + (o + n) -> bet g <> f0) ->
  (start = true -> off + o = 0) -> (start = false -> 0 < o /\ rc F s (o - 1) = C (off + o - 1) /\ b = bet (off + o - 1) /\ um = y (off + o - 1)) ->
  exists u' gm', tridagForward F fmul fsub fdiv is_zero len (ra F s) (rb F s) (rc F s) (rr F s) o n u0 g0 b um start = Ok (u', gm', bet (off + o + n - 1), y (off + o + n - 1)) /\
    (forall i, o <= i < o + n -> u' i = y (off + i)) /\ (forall i, o <= i < o + n -> off + i <> 0 -> gm' i = gam (off + i)).
Proof.
  intros HL Hn Hlen HB Hs Hm. unfold tridagForward.
  replace ((n =? 0) || (len <? o + n)) with false by (symmetry; apply orb_false_intro; [apply Nat.eqb_neq|apply Nat.ltb_ge]; lia).
  destruct (HL o ltac:(lia)) as (Ea & Eb & Er & _).
  destruct start.
  - specialize (Hs eq_refl). assert (off = 0) by lia. assert (o = 0) by lia. cbn [bind].
    set (u1 := set F u0 o (rr F s o /! rb F s o)).
    destruct (forward_loop_ok o (o + n) HL (n - 1) (S o) u1 g0 (rb F s o) ltac:(lia) ltac:(lia)) as (u' & gm' & E & P1 & P2 & P3).
    + intros g Hg. apply HB. lia.
    + intros i Hi. replace i with o by lia. unfold u1, set. rewrite Nat.eqb_refl, Eb, Er, Hs. reflexivity.
    + rewrite Eb. replace (off + S o - 1) with (off + o) by lia. rewrite Hs. reflexivity.
    + reflexivity.
    + rewrite E. cbn [bind]. exists u', gm'. rewrite (P1 (o + n - 1)) by lia. split; [do 2 f_equal; [f_equal; f_equal; lia|f_equal; lia]|].
      split; [intros i Hi; apply P1; lia|]. intros i Hi Hz. apply P2. lia.
  - destruct (Hm eq_refl) as (Ho & Ec & -> & ->). replace (o =? 0) with false by (symmetry; apply Nat.eqb_neq; lia). cbn [bind].
    set (g1 := set F g0 o (rc F s (o - 1) /! bet (off + o - 1))).
    assert (G1 : g1 o = gam (off + o)).
    { unfold g1, set. rewrite Nat.eqb_refl, Ec. replace (off + o) with (S (off + o - 1)) at 3 by lia. reflexivity. }
    assert (B1 : rb F s o -! ra F s o *! g1 o = bet (off + o)).
    { rewrite G1, Ea, Eb. replace (off + o) with (S (off + o - 1)) by lia. reflexivity. }
    rewrite B1. set (u1 := set F u0 o ((rr F s o -! ra F s o *! y (off + o - 1)) /! bet (off + o))).
    destruct (forward_loop_ok o (o + n) HL (n - 1) (S o) u1 g1 (bet (off + o)) ltac:(lia) ltac:(lia)) as (u' & gm' & E & P1 & P2 & P3).
    + intros g Hg. apply HB. lia.
    + intros i Hi. replace i with o by lia. unfold u1, set. rewrite Nat.eqb_refl, Ea, Er. replace (off + o) with (S (off + o - 1)) by lia. cbn [y]. replace (S (off + o - 1) - 1) with (off + o - 1) by lia. reflexivity.
    + f_equal. lia.
    + reflexivity.
    + rewrite E. cbn [bind]. exists u', gm'. rewrite (P1 (o + n - 1)) by lia. split; [do 2 f_equal; [f_equal; f_equal; lia|f_equal; lia]|].
      split; [intros i Hi; apply P1; lia|]. intros i Hi Hz. destruct (Nat.eq_dec i o) as [->|]; [|apply P2; lia]. rewrite (proj2 (P3 o ltac:(lia))). exact G1.
Qed.
(** Backward. [N] the number of equations. *)
Variable n_eq : nat.
Lemma back_loop_ok o n g0 : forall m u, m < n -> off + o + n <= n_eq ->
  (forall i, o <= i < o + n -> off + i <> 0 -> g0 i = gam (off + i)) ->
  (forall i, o <= i < o + m -> u i = y (off + i)) -> (forall i, o + m <= i < o + n -> u i = xs n_eq (off + i)) ->
  forall i, (o <= i < o + n -> back_loop F fmul fsub o m g0 u i = xs n_eq (off + i)) /\ (i < o \/ o + n <= i -> back_loop F fmul fsub o m g0 u i = u i).
Proof.
  induction m as [|j IH]; intros u Hm Hn Hg Hy Hx i; cbn [back_loop].
  - split; [intros Hi; apply Hx; lia|reflexivity].
  - set (u1 := set F u (o + j) (u (o + j) -! g0 (o + j + 1) *! u (o + j + 1))).
    destruct (IH u1 ltac:(lia) Hn Hg) with (i := i) as (P & Q).
    + intros k Hk. unfold u1, set. replace (k =? o + j) with false by (symmetry; apply Nat.eqb_neq; lia). apply Hy. lia.
    + intros k Hk. unfold u1, set. destruct (Nat.eqb_spec k (o + j)) as [->|].
      * rewrite (Hy (o + j)), (Hx (o + j + 1)), (Hg (o + j + 1)) by lia. rewrite (xs_rec n_eq (off + (o + j))) by lia.
        replace (off + (o + j + 1)) with (S (off + (o + j))) by lia. reflexivity.
      * apply Hx. lia.
    + split; [exact P|]. intros Hi. rewrite (Q Hi). unfold u1, set. replace (i =? o + j) with false by (symmetry; apply Nat.eqb_neq; lia). reflexivity.
Qed.
Lemma back_ok o n u g0 gp up : 0 < n -> o + n <= len -> off + o + n <= n_eq ->
  (forall i, o <= i < o + n -> off + i <> 0 -> g0 i = gam (off + i)) ->
  (forall i, o <= i < o + n -> u i = y (off + i)) ->
  (off + o + n < n_eq -> gp = gam (off + o + n) /\ up = xs n_eq (off + o + n)) -> (off + o + n = n_eq -> gp *! up = f0) ->
  exists u', tridagBack F fmul fsub len u o n g0 gp up = Ok (u', g0 o, u' o) /\ forall i, (o <= i < o + n -> u' i = xs n_eq (off + i)) /\ (i < o \/ o + n <= i -> u' i = u i).
Proof.
  intros Hn Hlen Hq Hg Hy Hin Hlast. unfold tridagBack.
  replace ((n =? 0) || (len <? o + n)) with false by (symmetry; apply orb_false_intro; [apply Nat.eqb_neq|apply Nat.ltb_ge]; lia).
  eexists. split; [reflexivity|]. intros i.
  set (u1 := set F u (o + n - 1) (u (o + n - 1) -! gp *! up)).
  destruct (back_loop_ok o n g0 (n - 1) u1 ltac:(lia) Hq Hg) with (i := i) as (P & Q).
  - intros k Hk. unfold u1, set. replace (k =? o + n - 1) with false by (symmetry; apply Nat.eqb_neq; lia). apply Hy. lia.
  - intros k Hk. replace k with (o + n - 1) by lia. unfold u1, set. rewrite Nat.eqb_refl, (Hy (o + n - 1)) by lia.
    destruct (Nat.eq_dec (off + o + n) n_eq) as [E|E].
    + rewrite (Hlast E). replace (off + (o + n - 1)) with (n_eq - 1) by lia. rewrite xs_last. ring.
    + destruct (Hin ltac:(lia)) as (-> & ->). rewrite (xs_rec n_eq (off + (o + n - 1))) by lia. replace (S (off + (o + n - 1))) with (off + o + n) by lia. reflexivity.
  - split; [exact P|]. intros Hi. rewrite (Q Hi). unfold u1, set. replace (i =? o + n - 1) with false by (symmetry; apply Nat.eqb_neq; lia). reflexivity.
Qed.
End Local.
End P.
