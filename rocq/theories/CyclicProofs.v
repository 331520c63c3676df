(** One processor, one system: the reduction to interface equations and the back substitution. *)
From Coq Require Import List Arith Bool Lia Field.
From Verif Require Import Base CyclicModel CyclicSpec.
Import ListNotations.

Section P.
Variable F : Type.
Variables (f0 f1 : F) (fadd fmul fsub fdiv : F -> F -> F) (fopp finv : F -> F).
Variable tiny : F -> bool.
Hypothesis Fth : field_theory f0 f1 fadd fmul fsub fopp fdiv finv (@eq F).
Hypothesis tiny0 : tiny f0 = true.
Add Field Ff : Fth.

Local Infix "+!" := fadd (at level 50, left associativity).
Local Infix "-!" := fsub (at level 50, left associativity).
Local Infix "*!" := fmul (at level 40, left associativity).
Local Infix "/!" := fdiv (at level 40, left associativity).

Lemma not_tiny : forall x, tiny x = false -> x <> f0.
Proof. intros x H E. subst. rewrite tiny0 in H. discriminate. Qed.

Lemma upd_same : forall {A} (f : nat -> A) i v, upd f i v i = v.
Proof. intros. unfold upd. rewrite Nat.eqb_refl. reflexivity. Qed.
Lemma upd_other : forall {A} (f : nat -> A) i v k, k <> i -> upd f i v k = f k.
Proof. intros. unfold upd. apply Nat.eqb_neq in H. rewrite H. reflexivity. Qed.

(** Row equation [i] of a coefficient array. *)
Definition eqn (co : nat -> F) (i : nat) (l x r : F) : Prop :=
  co (4 * i) *! l +! co (4 * i + 1) *! x +! co (4 * i + 2) *! r = co (4 * i + 3).

Definition eqv (v : F * F * F * F) (l x r : F) : Prop :=
  let '(v0, v1, v2, v3) := v in v0 *! l +! v1 *! x +! v2 *! r = v3.

Definition inner (co : nat -> F) (n : nat) (y : nat -> F) : Prop :=
  forall i, 0 < i -> S i < n -> eqn co i (y (i - 1)) (y i) (y (i + 1)).

Lemma add_cancel : forall a b c, a +! b = c -> b = c -! a.
Proof. intros a b c <-. ring. Qed.

(** ** Upper equation *)
Lemma elim_up : forall a b c r v0 v1 v2 v3 l x y z,
  v1 <> f0 -> v0 *! x +! v1 *! y +! v2 *! z = v3 ->
  (a *! l +! (b -! (c /! v1) *! v0) *! x +! v2 *! fopp (c /! v1) *! z = r -! (c /! v1) *! v3
   <-> a *! l +! b *! x +! c *! y = r).
Proof.
  intros a b c r v0 v1 v2 v3 l x y z Hv <-.
  split; intros E.
  - assert (r = (a *! l +! (b -! (c /! v1) *! v0) *! x +! v2 *! fopp (c /! v1) *! z)
                +! (c /! v1) *! (v0 *! x +! v1 *! y +! v2 *! z)) as ->.
    { rewrite E. ring. }
    field. exact Hv.
  - rewrite <- E. field. exact Hv.
Qed.

Lemma up_spec : forall co y last n v w,
  eqv v (y (n - 1)) (y n) last \/ n = 0 ->
  (forall i, 0 < i -> i < n -> eqn co i (y (i - 1)) (y i) (y (i + 1))) ->
  up F fmul fsub fdiv fopp tiny co n v = Ok w ->
  n <> 0 ->
  forall l, eqv w l (y 0) last <-> eqn co 0 l (y 0) (y 1).
Proof.
  intros co y last. induction n as [|i IH]; intros v w Hv Hin H Hn l; [contradiction|].
  destruct v as [[[v0 v1] v2] v3]. cbn [up] in H.
  destruct (tiny v1) eqn:Et; [discriminate|]. apply not_tiny in Et.
  destruct Hv as [Hv|Hv]; [|discriminate].
  replace (S i - 1) with i in Hv by lia. cbn [eqv] in Hv.
  destruct i as [|k].
  - cbn [up] in H. injection H as <-. cbn [eqv]. unfold eqn.
    replace (4 * 0) with 0 by lia.
    apply elim_up; assumption.
  - refine (IH _ _ _ _ H ltac:(lia) l).
    + left. cbn [eqv]. replace (S k - 1) with k by lia.
      apply elim_up with (y := y (S (S k))); [assumption|assumption|].
      specialize (Hin (S k) ltac:(lia) ltac:(lia)). unfold eqn in Hin.
      replace (S k - 1) with k in Hin by lia. replace (S k + 1) with (S (S k)) in Hin by lia. exact Hin.
    + intros i Hi1 Hi2. apply Hin; lia.
Qed.

(** ** Lower equation *)
Lemma elim_low : forall a b c r v0 v1 v2 v3 z x y rg,
  v1 <> f0 -> v0 *! z +! v1 *! x +! v2 *! y = v3 ->
  (v0 *! fopp (a /! v1) *! z +! (b -! (a /! v1) *! v2) *! y +! c *! rg = r -! (a /! v1) *! v3
   <-> a *! x +! b *! y +! c *! rg = r).
Proof.
  intros a b c r v0 v1 v2 v3 z x y rg Hv <-.
  split; intros E.
  - assert (r = (v0 *! fopp (a /! v1) *! z +! (b -! (a /! v1) *! v2) *! y +! c *! rg)
                +! (a /! v1) *! (v0 *! z +! v1 *! x +! v2 *! y)) as ->.
    { rewrite E. ring. }
    field. exact Hv.
  - rewrite <- E. field. exact Hv.
Qed.

Lemma low_spec : forall co y m i v w,
  0 < i -> 0 < m ->
  eqv v (y 0) (y (i - 1)) (y i) ->
  (forall k, i <= k -> S k < i + m -> eqn co k (y (k - 1)) (y k) (y (k + 1))) ->
  low F fmul fsub fdiv fopp tiny co m i v = Ok w ->
  forall r, eqv w (y 0) (y (i + m - 1)) r <-> eqn co (i + m - 1) (y (i + m - 2)) (y (i + m - 1)) r.
Proof.
  intros co y. induction m as [|m IH]; intros i v w Hi Hm Hv Hin H r; [lia|].
  destruct v as [[[v0 v1] v2] v3]. cbn [low] in H.
  destruct (tiny v1) eqn:Et; [discriminate|]. apply not_tiny in Et.
  cbn [eqv] in Hv.
  destruct m as [|m].
  - cbn [low] in H. injection H as <-. cbn [eqv]. unfold eqn.
    replace (i + 1 - 1) with i by lia. replace (i + 1 - 2) with (i - 1) by lia.
    apply elim_low; assumption.
  - replace (i + S (S m) - 1) with (S i + S m - 1) by lia.
    replace (i + S (S m) - 2) with (S i + S m - 2) by lia.
    refine (IH (S i) _ _ _ _ _ _ H r); [lia|lia| |].
    + cbn [eqv]. replace (S i - 1) with i by lia.
      apply elim_low with (x := y (i - 1)); [assumption|assumption|].
      specialize (Hin i ltac:(lia) ltac:(lia)). unfold eqn in Hin.
      replace (i + 1) with (S i) in Hin by lia. exact Hin.
    + intros k Hk1 Hk2. apply Hin; lia.
Qed.

(** The two interface equations of a reduced system, given that the inner rows hold, are its first and last row. *)
Lemma reduce1_spec : forall n co v y,
  reduce1 F f0 fmul fsub fdiv fopp tiny n co = Ok v ->
  inner co n y ->
  2 <= n /\
  (forall l, v 0 *! l +! v 1 *! y 0 +! v 2 *! y (n - 1) = v 3 <-> eqn co 0 l (y 0) (y 1)) /\
  (forall r, v 4 *! y 0 +! v 5 *! y (n - 1) +! v 6 *! r = v 7 <-> eqn co (n - 1) (y (n - 2)) (y (n - 1)) r).
Proof.
  intros n co v y H Hin. unfold reduce1 in H.
  destruct (n <? 2) eqn:En; [discriminate|]. apply Nat.ltb_ge in En.
  destruct (up F fmul fsub fdiv fopp tiny co (n - 2) _) as [u| |] eqn:Eu; cbn [bind] in H; try discriminate.
  destruct (low F fmul fsub fdiv fopp tiny co (n - 2) 2 _) as [lo| |] eqn:El; cbn [bind] in H; try discriminate.
  destruct u as [[[u0 u1] u2] u3]. destruct lo as [[[l0 l1] l2] l3]. injection H as <-. cbn [nth].
  split; [exact En|].
  destruct (Nat.eq_dec n 2) as [->|Hn].
  - cbn in Eu, El. injection Eu as <- <- <- <-. injection El as <- <- <- <-.
    split; intros; unfold eqn; cbn [Nat.sub Nat.mul Nat.add]; reflexivity.
  - split.
    + intros l.
      refine (up_spec co y (y (n - 1)) (n - 2) _ _ _ _ Eu ltac:(lia) l).
      * left. cbn [eqv].
        specialize (Hin (n - 2) ltac:(lia) ltac:(lia)). unfold eqn in Hin.
        replace (n - 2 + 1) with (n - 1) in Hin by lia. exact Hin.
      * intros i Hi1 Hi2. apply Hin; lia.
    + intros r.
      assert (Hv : eqv (co 4, co 5, co 6, co 7) (y 0) (y (2 - 1)) (y 2)).
      { cbn [eqv]. specialize (Hin 1 ltac:(lia) ltac:(lia)). unfold eqn in Hin.
        cbn [Nat.sub Nat.mul Nat.add] in Hin. exact Hin. }
      pose proof (low_spec co y (n - 2) 2 _ _ ltac:(lia) ltac:(lia) Hv
                    ltac:(intros; apply Hin; lia) El r) as Hs.
      replace (2 + (n - 2) - 1) with (n - 1) in Hs by lia.
      replace (2 + (n - 2) - 2) with (n - 2) in Hs by lia. exact Hs.
Qed.

(** ** Back substitution *)
(** What the forward loop leaves in [gam] and [xa]. *)
Definition fwd_ok (co gam xa : nat -> F) (lo hi : nat) : Prop :=
  forall j, lo <= j -> j < hi ->
    xa j = (co (4 * j + 3) -! co (4 * j) *! xa (j - 1)) /! (co (4 * j + 1) -! co (4 * j) *! gam j) /\
    gam (j + 1) = co (4 * j + 2) /! (co (4 * j + 1) -! co (4 * j) *! gam j).

Lemma bs_fwd_spec : forall co m j gam xa gam' xa',
  0 < j ->
  bs_fwd F fmul fsub fdiv co m j gam xa = (gam', xa') ->
  (forall k, k < j -> xa' k = xa k) /\
  (forall k, k <= j -> gam' k = gam k) /\
  fwd_ok co gam' xa' j (j + m).
Proof.
  intros co. induction m as [|m IH]; intros j gam xa gam' xa' Hj H; cbn [bs_fwd] in H.
  - injection H as <- <-. split; [reflexivity|]. split; [reflexivity|]. intros k Hk1 Hk2. lia.
  - apply IH in H; [|lia]. destruct H as (Hx & Hg & Hf).
    split; [|split].
    + intros k Hk. rewrite Hx by lia. apply upd_other. lia.
    + intros k Hk. rewrite Hg by lia. apply upd_other. lia.
    + intros k Hk1 Hk2. destruct (Nat.eq_dec k j) as [->|Hne].
      * split.
        -- rewrite Hx by lia. rewrite upd_same.
           rewrite (Hx (j - 1)) by lia. rewrite upd_other by lia.
           rewrite (Hg j) by lia. rewrite upd_other by lia. reflexivity.
        -- rewrite (Hg (j + 1)) by lia. rewrite upd_same.
           rewrite (Hg j) by lia. rewrite upd_other by lia. reflexivity.
      * apply Hf; lia.
Qed.

Lemma bs_bwd_spec : forall j gam xa,
  (forall k, k = 0 \/ j < k -> bs_bwd F fmul fsub j gam xa k = xa k) /\
  (forall k, 0 < k -> k <= j ->
     bs_bwd F fmul fsub j gam xa k = xa k -! gam (k + 1) *! bs_bwd F fmul fsub j gam xa (k + 1)).
Proof.
  induction j as [|j IH]; intros gam xa; cbn [bs_bwd].
  - split; [reflexivity|]. intros k H1 H2. lia.
  - destruct (IH gam (upd xa (S j) (xa (S j) -! gam (S j + 1) *! xa (S j + 1)))) as (Ha & Hb).
    split.
    + intros k Hk. rewrite Ha by lia. apply upd_other. lia.
    + intros k H1 H2. destruct (Nat.eq_dec k (S j)) as [->|Hne].
      * rewrite Ha by lia. rewrite upd_same. rewrite (Ha (S j + 1)) by lia.
        rewrite upd_other by lia. reflexivity.
      * rewrite Hb by lia. rewrite upd_other by lia. reflexivity.
Qed.

(** The pivots of [low] are the denominators of the forward loop. *)
Lemma low_pivots : forall co gam xa m i v0 v1 v2 v3 w,
  0 < i ->
  low F fmul fsub fdiv fopp tiny co m i (v0, v1, v2, v3) = Ok w ->
  v1 = co (4 * (i - 1) + 1) -! co (4 * (i - 1)) *! gam (i - 1) ->
  v2 = co (4 * (i - 1) + 2) ->
  fwd_ok co gam xa (i - 1) (i - 1 + m) ->
  forall j, i - 1 <= j -> j < i - 1 + m -> co (4 * j + 1) -! co (4 * j) *! gam j <> f0.
Proof.
  intros co gam xa. induction m as [|m IH]; intros i v0 v1 v2 v3 w Hi H H1 H2 Hf j Hj1 Hj2; [lia|].
  cbn [low] in H. destruct (tiny v1) eqn:Et; [discriminate|]. apply not_tiny in Et.
  destruct (Nat.eq_dec j (i - 1)) as [->|Hne].
  - rewrite <- H1. exact Et.
  - refine (IH (S i) _ _ _ _ _ ltac:(lia) H _ _ _ j ltac:(lia) ltac:(lia)).
    + replace (S i - 1) with i by lia.
      destruct (Hf (i - 1) ltac:(lia) ltac:(lia)) as (_ & Hg).
      replace (i - 1 + 1) with i in Hg by lia. rewrite Hg, H1, H2.
      rewrite H1 in Et. field. exact Et.
    + replace (S i - 1) with i by lia. reflexivity.
    + intros k Hk1 Hk2. apply Hf; lia.
Qed.

Lemma back_solve1_ok : forall n co x1 xn g xa,
  2 <= n -> exists y, back_solve1 F f0 fmul fsub fdiv n co x1 xn g xa = Ok y.
Proof.
  intros n co x1 xn g xa Hn. unfold back_solve1.
  destruct (n <? 2) eqn:En; [apply Nat.ltb_lt in En; lia|].
  destruct (bs_fwd _ _ _ _ _ _ _ _ _). eexists. reflexivity.
Qed.

Lemma back_solve1_ends : forall n co x1 xn g xa y,
  back_solve1 F f0 fmul fsub fdiv n co x1 xn g xa = Ok y -> y 0 = x1 /\ y (n - 1) = xn.
Proof.
  intros n co x1 xn g xa y H. unfold back_solve1 in H.
  destruct (n <? 2) eqn:En; [discriminate|]. apply Nat.ltb_ge in En.
  destruct (bs_fwd _ _ _ _ _ _ _ _ _) as [gam xb] eqn:Eb. injection H as <-.
  apply bs_fwd_spec in Eb; [|lia]. destruct Eb as (Hx & _ & _).
  destruct (bs_bwd_spec (n - 2) gam (upd xb (n - 1) xn)) as (Ha & _).
  split.
  - rewrite Ha by lia. rewrite upd_other by lia. rewrite Hx by lia. apply upd_same.
  - rewrite Ha by lia. apply upd_same.
Qed.

(** When the reduction of a system met no zero pivot, the back substitution fills in values that satisfy its inner
    rows. *)
Lemma back_solve1_spec : forall n co v x1 xn g xa y,
  reduce1 F f0 fmul fsub fdiv fopp tiny n co = Ok v ->
  back_solve1 F f0 fmul fsub fdiv n co x1 xn g xa = Ok y ->
  inner co n y.
Proof.
  intros n co v x1 xn g xa y Hr H. unfold back_solve1 in H. unfold reduce1 in Hr.
  destruct (n <? 2) eqn:En; [discriminate|]. apply Nat.ltb_ge in En.
  destruct (up F fmul fsub fdiv fopp tiny co (n - 2) _) as [u| |] eqn:Eu; cbn [bind] in Hr; try discriminate.
  destruct (low F fmul fsub fdiv fopp tiny co (n - 2) 2 _) as [lo| |] eqn:El; cbn [bind] in Hr; try discriminate.
  clear Hr Eu u v.
  destruct (bs_fwd _ _ _ _ _ _ _ _ _) as [gam xb] eqn:Eb. injection H as <-.
  apply bs_fwd_spec in Eb; [|lia]. destruct Eb as (Hx & Hg & Hf).
  destruct (bs_bwd_spec (n - 2) gam (upd xb (n - 1) xn)) as (Ha & Hb).
  set (y := bs_bwd F fmul fsub (n - 2) gam (upd xb (n - 1) xn)) in *.
  assert (Hg1 : gam 1 = f0). { rewrite Hg by lia. apply upd_same. }
  assert (Hpiv : forall j, 1 <= j -> j < n - 1 -> co (4 * j + 1) -! co (4 * j) *! gam j <> f0).
  { intros j Hj1 Hj2.
    refine (low_pivots co gam xb (n - 2) 2 _ _ _ _ _ ltac:(lia) El _ _ _ j ltac:(lia) ltac:(lia)).
    - cbn [Nat.sub Nat.mul Nat.add]. rewrite Hg1. ring.
    - reflexivity.
    - replace (2 - 1) with 1 by lia. exact Hf. }
  assert (Hy : forall k, k < n - 1 -> y k = xb k -! gam (k + 1) *! y (k + 1)).
  { intros k Hk. destruct k as [|k].
    - rewrite (Ha 0) by lia. rewrite upd_other by lia. replace (0 + 1) with 1 by lia. rewrite Hg1. ring.
    - rewrite (Hb (S k)) by lia. rewrite upd_other by lia. reflexivity. }
  intros i Hi1 Hi2. unfold eqn.
  assert (E1 : y (i - 1) = xb (i - 1) -! gam i *! y i).
  { rewrite (Hy (i - 1)) by lia. replace (i - 1 + 1) with i by lia. reflexivity. }
  assert (E2 : y i = xb i -! gam (i + 1) *! y (i + 1)) by (apply Hy; lia).
  destruct (Hf i ltac:(lia) ltac:(lia)) as (E3 & E4).
  specialize (Hpiv i ltac:(lia) ltac:(lia)).
  rewrite E1.
  transitivity (co (4 * i) *! xb (i - 1) +! (co (4 * i + 1) -! co (4 * i) *! gam i) *! y i +! co (4 * i + 2) *! y (i + 1)).
  { ring. }
  rewrite E2, E3, E4.
  set (bet := co (4 * i + 1) -! co (4 * i) *! gam i) in *. field. exact Hpiv.
Qed.

(** The reduction does not depend on the right hand side, and with a zero right hand side gives a zero one. *)
Definition zero_rhs (co : nat -> F) : nat -> F := fun k => if k mod 4 =? 3 then f0 else co k.

Lemma zr_other : forall co i j, j < 3 -> zero_rhs co (4 * i + j) = co (4 * i + j).
Proof.
  intros co i j Hj. unfold zero_rhs.
  replace (4 * i + j) with (j + i * 4) by lia. rewrite Nat.mod_add by lia. rewrite Nat.mod_small by lia.
  destruct (j =? 3) eqn:E; [apply Nat.eqb_eq in E; lia|reflexivity].
Qed.
Lemma zr_0 : forall co i, zero_rhs co (4 * i) = co (4 * i).
Proof. intros. pose proof (zr_other co i 0 ltac:(lia)) as H. rewrite Nat.add_0_r in H. exact H. Qed.
Lemma zr_3 : forall co i, zero_rhs co (4 * i + 3) = f0.
Proof.
  intros co i. unfold zero_rhs.
  replace (4 * i + 3) with (3 + i * 4) by lia. rewrite Nat.mod_add by lia. reflexivity.
Qed.

Lemma up_zero : forall co n v0 v1 v2 v3 w0 w1 w2 w3,
  up F fmul fsub fdiv fopp tiny co n (v0, v1, v2, v3) = Ok (w0, w1, w2, w3) ->
  up F fmul fsub fdiv fopp tiny (zero_rhs co) n (v0, v1, v2, f0) = Ok (w0, w1, w2, f0).
Proof.
  intros co. induction n as [|i IH]; intros v0 v1 v2 v3 w0 w1 w2 w3 H; cbn [up] in H |- *.
  - injection H as <- <- <- <-. reflexivity.
  - destruct (tiny v1) eqn:E; [discriminate|].
    rewrite zr_0, !zr_other by lia. rewrite zr_3.
    apply IH in H. rewrite <- H. f_equal. f_equal.
    assert (v1 <> f0) by (apply not_tiny; exact E). field. assumption.
Qed.

Lemma low_zero : forall co m i v0 v1 v2 v3 w0 w1 w2 w3,
  low F fmul fsub fdiv fopp tiny co m i (v0, v1, v2, v3) = Ok (w0, w1, w2, w3) ->
  low F fmul fsub fdiv fopp tiny (zero_rhs co) m i (v0, v1, v2, f0) = Ok (w0, w1, w2, f0).
Proof.
  intros co. induction m as [|m IH]; intros i v0 v1 v2 v3 w0 w1 w2 w3 H; cbn [low] in H |- *.
  - injection H as <- <- <- <-. reflexivity.
  - destruct (tiny v1) eqn:E; [discriminate|].
    rewrite zr_0, !zr_other by lia. rewrite zr_3.
    apply IH in H. rewrite <- H. f_equal. f_equal.
    assert (v1 <> f0) by (apply not_tiny; exact E). field. assumption.
Qed.

Lemma reduce1_zero : forall n co v,
  reduce1 F f0 fmul fsub fdiv fopp tiny n co = Ok v ->
  exists v', reduce1 F f0 fmul fsub fdiv fopp tiny n (zero_rhs co) = Ok v' /\
    (forall j, j < 8 -> v' j = zero_rhs v j).
Proof.
  intros n co v H. unfold reduce1 in H |- *.
  destruct (n <? 2) eqn:En; [discriminate|]. apply Nat.ltb_ge in En.
  destruct (up F fmul fsub fdiv fopp tiny co (n - 2) _) as [[[[u0 u1] u2] u3]| |] eqn:Eu; cbn [bind] in H; try discriminate.
  destruct (low F fmul fsub fdiv fopp tiny co (n - 2) 2 _) as [[[[l0 l1] l2] l3]| |] eqn:El; cbn [bind] in H; try discriminate.
  injection H as <-.
  cbv zeta. rewrite zr_0, !zr_other by lia. rewrite zr_3.
  rewrite (up_zero _ _ _ _ _ _ _ _ _ _ Eu). cbn [bind].
  change (zero_rhs co 4) with (co 4). change (zero_rhs co 5) with (co 5).
  change (zero_rhs co 6) with (co 6). change (zero_rhs co 7) with f0.
  rewrite (low_zero _ _ _ _ _ _ _ _ _ _ _ El). cbn [bind].
  eexists. split; [reflexivity|].
  intros j Hj. do 8 (destruct j as [|j]; [reflexivity|]). lia.
Qed.
End P.
