From Coq Require Import List Arith Bool Lia Field.
From Verif Require Import Base SptModel SptSpec SptProofs.
Import ListNotations.

Lemma all_modes_ok {A} modes (f : nat -> res A) (d : nat -> A) (P : nat -> A -> Prop) :
  (forall k, k < modes -> exists v, f k = Ok v /\ P k v) ->
  exists g, all_modes modes f d = Ok g /\ (forall k, k < modes -> P k (g k)) /\ (forall k, modes <= k -> g k = d k).
Proof.
  induction modes as [|m IH]; intros H; cbn [all_modes].
  - exists d. split; [reflexivity|]. split; [intros; lia|reflexivity].
  - destruct IH as (g & -> & H1 & H2); [intros; apply H; lia|]. destruct (H m ltac:(lia)) as (v & -> & Hv). cbn [bind].
    eexists. split; [reflexivity|]. split.
    + intros k Hk. cbv beta. destruct (Nat.eqb_spec k m) as [->|]; [exact Hv|apply H1; lia].
    + intros k Hk. cbv beta. destruct (Nat.eqb_spec k m); [lia|apply H2; lia].
Qed.

Section P.
Variable F : Type.
Variables (f0 f1 : F) (fadd fmul fsub fdiv : F -> F -> F) (fopp finv : F -> F).
Hypothesis FT : field_theory f0 f1 fadd fmul fsub fopp fdiv finv (@eq F).
Add Field Ffield2 : FT.
Variable is_zero : F -> bool.
Hypothesis is_zero_spec : forall x, is_zero x = true <-> x = f0.
Variables (A B C R : nat -> nat -> F).
Variables (N mx mxg modes : nat) (S : nat -> nat -> rows F).
Hypothesis HN : 2 <= N.
Hypothesis Hmx : 1 <= mx.
Hypothesis Hmxg : 1 <= mxg.
Let n := N * mx + 2 * mxg.
Let len := mx + 2 * mxg.
Let xend := mx + mxg - 1.
Hypothesis HS : forall kz p ix, kz < modes -> p < N -> holds_point N mx mxg p ix ->
  ra F (S p kz) ix = A kz (p * mx + ix) /\ rb F (S p kz) ix = B kz (p * mx + ix) /\ rr F (S p kz) ix = R kz (p * mx + ix).
Hypothesis HC : forall kz p ix, kz < modes -> p < N -> holds_point N mx mxg p (Datatypes.S ix) -> rc F (S p kz) ix = C kz (p * mx + ix).
Let bt kz := bet F fmul fsub fdiv (A kz) (B kz) (C kz).
Let gm_ kz := gam F f0 fmul fsub fdiv (A kz) (B kz) (C kz).
Let yy kz := y F fmul fsub fdiv (A kz) (B kz) (C kz) (R kz).
Let xx kz := xs F f0 fmul fsub fdiv (A kz) (B kz) (C kz) (R kz) n.
Hypothesis HB : forall kz g, kz < modes -> g < n -> bt kz g <> f0.

(** The points of processor p as an interval. *)
Let lo p := if p =? 0 then 0 else mxg.
Let hi p := if p =? N - 1 then len else mx + mxg.
Lemma rows_local kz p : kz < modes -> p < N -> local_rows F (A kz) (B kz) (C kz) (R kz) (p * mx) (S p kz) (lo p) (hi p).
Proof.
  intros Hk Hp i Hi. assert (H : holds_point N mx mxg p i) by (unfold holds_point; unfold lo, hi in Hi; exact Hi).
  destruct (HS kz p i Hk Hp H) as (E1 & E2 & E3). repeat split; auto. intros Hs. apply HC; auto. unfold holds_point. unfold lo, hi, len in *. lia.
Qed.
(** Forward finished, backward finished on processor p. *)
Definition fwd (p : nat) (l : local F) : Prop := forall kz i, kz < modes -> lo p <= i < hi p ->
  xk (l kz) i = yy kz (p * mx + i) /\ (p * mx + i <> 0 -> gm (l kz) i = gm_ kz (p * mx + i)).
Definition bwd (p : nat) (l : local F) : Prop := forall kz i, kz < modes -> lo p <= i < hi p -> xk (l kz) i = xx kz (p * mx + i).
(** Messages sent at the boundary before global point g. *)
Definition fmsg (g : nat) (m : message F) : Prop := forall kz, kz < modes -> m kz = (bt kz (g - 1), yy kz (g - 1)).
Definition bmsg (g : nat) (m : message F) : Prop := forall kz, kz < modes -> m kz = (gm_ kz g, xx kz g).

Lemma first_ok l junk : exists l' m', s_first F f0 fmul fsub fdiv is_zero len xend modes S junk l = Ok (l', m') /\ fwd 0 l' /\ fmsg (mx + mxg) m'.
Proof.
  unfold s_first, each_mode.
  destruct (all_modes_ok modes (fun k => first_forward F f0 fmul fsub fdiv is_zero len xend (S 0 k) (l k)) (fun k => (l k, junk k))
    (fun kz v => (forall i, lo 0 <= i < hi 0 -> xk (fst v) i = yy kz i /\ (i <> 0 -> gm (fst v) i = gm_ kz i)) /\ snd v = (bt kz (mx + mxg - 1), yy kz (mx + mxg - 1)))) as (g & -> & H & _).
  - intros kz Hk. pose proof (rows_local kz 0 Hk ltac:(lia)) as RL. replace (hi 0) with (0 + (xend + 1)) in RL by (unfold hi, xend; destruct (Nat.eqb_spec 0 (N - 1)); lia).
    unfold first_forward.
    destruct (forward_ok F f0 fmul fsub fdiv is_zero is_zero_spec (A kz) (B kz) (C kz) (R kz) len (0 * mx) (S 0 kz) 0 (xend + 1) (xk (l kz)) (gm (l kz)) true f0 f0 RL)
      as (u & g & E & P1 & P2).
    + unfold xend; lia.
    + unfold xend, len; lia.
    + intros g Hg. apply (HB kz g Hk). unfold n. unfold xend in Hg. nia.
    + intros _. lia.
    + discriminate.
    + rewrite E. cbn [bind]. eexists. split; [reflexivity|]. cbn [fst snd xk gm]. split.
      * intros i Hi. unfold hi, lo, xend in *. destruct (Nat.eqb_spec 0 (N - 1)); [lia|]. cbn [Nat.eqb] in Hi. split; [apply P1; lia|intros; apply P2; lia].
      * f_equal; unfold bt, yy; f_equal; unfold xend; lia.
  - cbn [bind]. do 2 eexists. split; [reflexivity|]. split.
    + intros kz i Hk Hi. destruct (H kz Hk) as (H1 & _). cbn [Nat.mul Nat.add]. apply H1; exact Hi.
    + intros kz Hk. destruct (H kz Hk) as (_ & ->). reflexivity.
Qed.
Lemma mid_ok p l m : 1 <= p -> p < N - 1 -> fmsg (p * mx + mxg) m ->
  exists l' m', s_mid F fmul fsub fdiv is_zero len mxg xend modes S p l m = Ok (l', m') /\ fwd p l' /\ fmsg (Datatypes.S p * mx + mxg) m'.
Proof.
  intros Hp HpN Hm. unfold s_mid, each_mode.
  destruct (all_modes_ok modes (fun k => mid_forward F fmul fsub fdiv is_zero len mxg xend (S p k) (l k) (m k)) (fun k => (l k, m k))
    (fun kz v => (forall i, lo p <= i < hi p -> xk (fst v) i = yy kz (p * mx + i) /\ (p * mx + i <> 0 -> gm (fst v) i = gm_ kz (p * mx + i))) /\
       snd v = (bt kz (Datatypes.S p * mx + mxg - 1), yy kz (Datatypes.S p * mx + mxg - 1)))) as (g & -> & H & _).
  - intros kz Hk. pose proof (rows_local kz p Hk ltac:(lia)) as RL. assert (El : lo p = mxg) by (unfold lo; destruct (Nat.eqb_spec p 0); lia).
    assert (Eh : hi p = mxg + (xend - mxg + 1)) by (unfold hi, xend; destruct (Nat.eqb_spec p (N - 1)); lia). rewrite El, Eh in *.
    unfold mid_forward. rewrite (Hm kz Hk). cbn [fst snd].
    destruct (forward_ok F f0 fmul fsub fdiv is_zero is_zero_spec (A kz) (B kz) (C kz) (R kz) len (p * mx) (S p kz) mxg (xend - mxg + 1) (xk (l kz)) (gm (l kz)) false (bt kz (p * mx + mxg - 1)) (yy kz (p * mx + mxg - 1)) RL)
      as (u & g & E & P1 & P2).
    + unfold xend; lia.
    + unfold xend, len; lia.
    + intros g Hg. apply (HB kz g Hk). unfold n. unfold xend in Hg. nia.
    + discriminate.
    + intros _. split; [lia|]. split; [|auto]. rewrite (HC kz p (mxg - 1) Hk); [f_equal; lia|lia|]. replace (Datatypes.S (mxg - 1)) with mxg by lia.
      unfold holds_point. destruct (Nat.eqb_spec p 0); [lia|]. destruct (p =? N - 1); lia.
    + rewrite E. cbn [bind]. eexists. split; [reflexivity|]. cbn [fst snd xk gm]. split.
      * intros i Hi. split; [apply P1; lia|intros; apply P2; lia].
      * f_equal; unfold bt, yy; f_equal; unfold xend; lia.
  - cbn [bind]. do 2 eexists. split; [reflexivity|]. split.
    + intros kz i Hk Hi. destruct (H kz Hk) as (H1 & _). apply H1; exact Hi.
    + intros kz Hk. destruct (H kz Hk) as (_ & ->). reflexivity.
Qed.
Lemma turn_ok l m : fmsg ((N - 1) * mx + mxg) m ->
  exists l' m', s_turn F f0 fmul fsub fdiv is_zero len mxg xend modes S (N - 1) l m = Ok (l', m') /\ bwd (N - 1) l' /\ bmsg ((N - 1) * mx + mxg) m'.
Proof.
  intros Hm. unfold s_turn, each_mode.
  destruct (all_modes_ok modes (fun k => turn_around F f0 fmul fsub fdiv is_zero len mxg xend (S (N - 1) k) (l k) (m k)) (fun k => (l k, m k))
    (fun kz v => (forall i, lo (N - 1) <= i < hi (N - 1) -> xk (fst v) i = xx kz ((N - 1) * mx + i)) /\
       snd v = (gm_ kz ((N - 1) * mx + mxg), xx kz ((N - 1) * mx + mxg)))) as (g & -> & H & _).
  - intros kz Hk. pose proof (rows_local kz (N - 1) Hk ltac:(lia)) as RL. assert (El : lo (N - 1) = mxg) by (unfold lo; destruct (Nat.eqb_spec (N - 1) 0); lia).
    assert (Eh : hi (N - 1) = mxg + (xend + 1)) by (unfold hi, xend, len; rewrite Nat.eqb_refl; lia). rewrite El, Eh in *.
    unfold turn_around. rewrite (Hm kz Hk). cbn [fst snd].
    destruct (forward_ok F f0 fmul fsub fdiv is_zero is_zero_spec (A kz) (B kz) (C kz) (R kz) len ((N - 1) * mx) (S (N - 1) kz) mxg (xend + 1) (xk (l kz)) (gm (l kz)) false (bt kz ((N - 1) * mx + mxg - 1)) (yy kz ((N - 1) * mx + mxg - 1)) RL)
      as (u & g & E & P1 & P2).
    + unfold xend; lia.
    + unfold xend, len; lia.
    + intros g Hg. apply (HB kz g Hk). unfold n. unfold xend in Hg. nia.
    + discriminate.
    + intros _. split; [lia|]. split; [|auto]. rewrite (HC kz (N - 1) (mxg - 1) Hk); [f_equal; generalize ((N - 1) * mx); intros; lia|lia|]. replace (Datatypes.S (mxg - 1)) with mxg by lia.
      unfold holds_point. rewrite Nat.eqb_refl. destruct (Nat.eqb_spec (N - 1) 0); lia.
    + rewrite E. cbn [bind].
      destruct (back_ok F f0 f1 fadd fmul fsub fdiv fopp finv FT (A kz) (B kz) (C kz) (R kz) len ((N - 1) * mx) n mxg (len - mxg) u g f0 f0) as (u' & E' & P').
      * unfold len; lia.
      * unfold len; lia.
      * unfold n, len; nia.
      * intros i Hi Hz. apply P2; [unfold xend; unfold len in Hi; lia|exact Hz].
      * intros i Hi. apply P1; unfold xend; unfold len in Hi; lia.
      * intros HH. exfalso. unfold n, len in HH. nia.
      * intros _. ring.
      * rewrite E'. cbn [bind]. eexists. split; [reflexivity|]. cbn [fst snd xk gm]. split.
        { intros i Hi. apply P'. unfold xend in Hi. unfold len. lia. }
        { f_equal; [apply P2; unfold xend; nia|]. apply P'. unfold len. lia. }
  - cbn [bind]. do 2 eexists. split; [reflexivity|]. split.
    + intros kz i Hk Hi. destruct (H kz Hk) as (H1 & _). apply H1; exact Hi.
    + intros kz Hk. destruct (H kz Hk) as (_ & ->). reflexivity.
Qed.
Lemma midb_ok p l m : 1 <= p -> p < N - 1 -> fwd p l -> bmsg (Datatypes.S p * mx + mxg) m ->
  exists l' m', s_midb F fmul fsub len mxg xend modes p l m = Ok (l', m') /\ bwd p l' /\ bmsg (p * mx + mxg) m'.
Proof.
  intros Hp HpN Hf Hm. unfold s_midb, each_mode.
  assert (El : lo p = mxg) by (unfold lo; destruct (Nat.eqb_spec p 0); lia).
  assert (Eh : hi p = mxg + (xend - mxg + 1)) by (unfold hi, xend; destruct (Nat.eqb_spec p (N - 1)); lia).
  destruct (all_modes_ok modes (fun k => mid_back F fmul fsub len mxg xend (l k) (m k)) (fun k => (l k, m k))
    (fun kz v => (forall i, lo p <= i < hi p -> xk (fst v) i = xx kz (p * mx + i)) /\
       snd v = (gm_ kz (p * mx + mxg), xx kz (p * mx + mxg)))) as (g & -> & H & _).
  - intros kz Hk. unfold mid_back. rewrite (Hm kz Hk). cbn [fst snd].
    assert (En : p * mx + mxg + (xend - mxg + 1) = Datatypes.S p * mx + mxg) by (unfold xend; lia).
    destruct (back_ok F f0 f1 fadd fmul fsub fdiv fopp finv FT (A kz) (B kz) (C kz) (R kz) len (p * mx) n mxg (xend - mxg + 1) (xk (l kz)) (gm (l kz)) (gm_ kz (Datatypes.S p * mx + mxg)) (xx kz (Datatypes.S p * mx + mxg))) as (u' & E' & P').
    + unfold xend; lia.
    + unfold xend, len; lia.
    + rewrite En. unfold n. nia.
    + intros i Hi Hz. apply (Hf kz i Hk); [rewrite El, Eh; exact Hi|exact Hz].
    + intros i Hi. apply (Hf kz i Hk). rewrite El, Eh; exact Hi.
    + intros _. rewrite En. split; reflexivity.
    + rewrite En. intros HH. exfalso. unfold n in HH. nia.
    + rewrite E'. cbn [bind]. eexists. split; [reflexivity|]. cbn [fst snd xk gm]. split.
      * intros i Hi. apply P'. rewrite El, Eh in Hi. exact Hi.
      * f_equal; [apply (Hf kz mxg Hk); [rewrite El, Eh; unfold xend; lia|nia]|apply P'; unfold xend; lia].
  - cbn [bind]. do 2 eexists. split; [reflexivity|]. split.
    + intros kz i Hk Hi. destruct (H kz Hk) as (H1 & _). apply H1; exact Hi.
    + intros kz Hk. destruct (H kz Hk) as (_ & ->). reflexivity.
Qed.
Lemma fstb_ok l m : fwd 0 l -> bmsg (mx + mxg) m -> exists l', s_fstb F fmul fsub len xend modes l m = Ok l' /\ bwd 0 l'.
Proof.
  intros Hf Hm. unfold s_fstb.
  assert (El : lo 0 = 0) by reflexivity. assert (Eh : hi 0 = 0 + (xend + 1)) by (unfold hi, xend; destruct (Nat.eqb_spec 0 (N - 1)); lia).
  destruct (all_modes_ok modes (fun k => first_back F fmul fsub len xend (l k) (m k)) l
    (fun kz v => forall i, lo 0 <= i < hi 0 -> xk v i = xx kz (0 * mx + i))) as (g & -> & H & _).
  - intros kz Hk. unfold first_back. rewrite (Hm kz Hk). cbn [fst snd].
    assert (En : 0 * mx + 0 + (xend + 1) = mx + mxg) by (unfold xend; lia).
    destruct (back_ok F f0 f1 fadd fmul fsub fdiv fopp finv FT (A kz) (B kz) (C kz) (R kz) len (0 * mx) n 0 (xend + 1) (xk (l kz)) (gm (l kz)) (gm_ kz (mx + mxg)) (xx kz (mx + mxg))) as (u' & E' & P').
    + unfold xend; lia.
    + unfold xend, len; lia.
    + rewrite En. unfold n. nia.
    + intros i Hi Hz. apply (Hf kz i Hk); [rewrite El, Eh; exact Hi|exact Hz].
    + intros i Hi. apply (Hf kz i Hk). rewrite El, Eh; exact Hi.
    + intros _. rewrite En. split; reflexivity.
    + rewrite En. intros HH. exfalso. unfold n in HH. nia.
    + rewrite E'. cbn [bind]. eexists. split; [reflexivity|]. cbn [xk]. intros i Hi. apply P'. rewrite El, Eh in Hi. exact Hi.
  - eexists. split; [reflexivity|]. intros kz i Hk Hi. apply H; assumption.
Qed.

(** The chain. *)
Lemma chain_forward_ok : forall k p w m, 1 <= p -> p + k <= N - 1 -> (forall q, q < p -> fwd q (w q)) -> fmsg (p * mx + mxg) m ->
  exists w' m', chain_forward (local F) (message F) (s_mid F fmul fsub fdiv is_zero len mxg xend modes S) k p w m = Ok (w', m') /\
    (forall q, q < p + k -> fwd q (w' q)) /\ fmsg ((p + k) * mx + mxg) m'.
Proof.
  induction k as [|k IH]; intros p w m Hp Hk Hw Hm; cbn [chain_forward].
  - exists w, m. rewrite Nat.add_0_r. auto.
  - destruct (mid_ok p (w p) m Hp ltac:(lia) Hm) as (l & m1 & -> & Hl & Hm1). cbn [bind fst snd].
    destruct (IH (Datatypes.S p) (upd w p l) m1 ltac:(lia) ltac:(lia)) as (w' & m' & E & H1 & H2).
    + intros q Hq. unfold upd. destruct (Nat.eqb_spec q p) as [->|]; [exact Hl|apply Hw; lia].
    + exact Hm1.
    + exists w', m'. split; [exact E|]. split; [intros q Hq; apply H1; lia|]. replace (p + Datatypes.S k) with (Datatypes.S p + k) by lia. exact H2.
Qed.
Lemma chain_back_ok : forall k w m, k <= N - 2 -> (forall q, q <= k -> fwd q (w q)) -> (forall q, k < q < N -> bwd q (w q)) -> bmsg (Datatypes.S k * mx + mxg) m ->
  exists w' m', chain_back (local F) (message F) (s_midb F fmul fsub len mxg xend modes) k w m = Ok (w', m') /\
    fwd 0 (w' 0) /\ (forall q, 0 < q < N -> bwd q (w' q)) /\ bmsg (mx + mxg) m'.
Proof.
  induction k as [|k IH]; intros w m Hk Hf Hb Hm; cbn [chain_back].
  - exists w, m. split; [reflexivity|]. split; [apply Hf; lia|]. split; [exact Hb|]. replace (mx + mxg) with (1 * mx + mxg) by lia. exact Hm.
  - destruct (midb_ok (Datatypes.S k) (w (Datatypes.S k)) m ltac:(lia) ltac:(lia) (Hf (Datatypes.S k) ltac:(lia)) Hm) as (l & m1 & -> & Hl & Hm1). cbn [bind fst snd].
    apply IH; [lia| | |exact Hm1].
    + intros q Hq. unfold upd. destruct (Nat.eqb_spec q (Datatypes.S k)); [lia|apply Hf; lia].
    + intros q Hq. unfold upd. destruct (Nat.eqb_spec q (Datatypes.S k)) as [->|]; [exact Hl|apply Hb; lia].
Qed.
Lemma slice_ok junk w : exists w', solve_slice F f0 fmul fsub fdiv is_zero len mxg xend modes S N junk w = Ok w' /\
  forall kz p ix, kz < modes -> p < N -> holds_point N mx mxg p ix -> xk (w' p kz) ix = xx kz (p * mx + ix).
Proof.
  unfold solve_slice, chain. replace (N <? 2) with false by (symmetry; apply Nat.ltb_ge; lia).
  destruct (first_ok (w 0) junk) as (l0 & m0 & -> & F0 & M0). cbn [bind fst snd].
  destruct (chain_forward_ok (N - 2) 1 (upd w 0 l0) m0 ltac:(lia) ltac:(lia)) as (w1 & m1 & -> & F1 & M1).
  { intros q Hq. replace q with 0 by lia. exact F0. }
  { replace (1 * mx + mxg) with (mx + mxg) by lia. exact M0. }
  cbn [bind fst snd]. destruct (turn_ok (w1 (N - 1)) m1) as (l2 & m2 & -> & B2 & M2). { replace (N - 1) with (1 + (N - 2)) by lia. exact M1. }
  cbn [bind fst snd]. destruct (chain_back_ok (N - 2) (upd w1 (N - 1) l2) m2 ltac:(lia)) as (w3 & m3 & -> & F3 & B3 & M3).
  { intros q Hq. unfold upd. destruct (Nat.eqb_spec q (N - 1)); [lia|apply F1; lia]. }
  { intros q Hq. replace q with (N - 1) by lia. unfold upd. rewrite Nat.eqb_refl. exact B2. }
  { replace (Datatypes.S (N - 2)) with (N - 1) by lia. exact M2. }
  cbn [bind fst snd]. destruct (fstb_ok (w3 0) m3 F3 M3) as (l4 & -> & B4). cbn [bind].
  eexists. split; [reflexivity|]. intros kz p ix Hk Hp Hh. unfold upd. destruct (Nat.eqb_spec p 0) as [->|]; [apply B4|apply B3]; auto; lia.
Qed.
End P.
