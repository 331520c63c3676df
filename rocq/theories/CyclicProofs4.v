(** The whole solve: correctness, absence of undefined behaviour, diagonally dominant systems. *)
From Coq Require Import List Arith Bool Lia Permutation Field Reals Lra.
From Verif Require Import Base CyclicModel CyclicSpec CyclicProofs CyclicProofs2 CyclicProofs3.
Import ListNotations.

Section P.
Variable F : Type.
Variables (f0 f1 : F) (fadd fmul fsub fdiv : F -> F -> F) (fopp finv : F -> F).
Variable tiny : F -> bool.

Notation reduce := (reduce1 F f0 fmul fsub fdiv fopp tiny).
Notation bsolve := (back_solve1 F f0 fmul fsub fdiv).
Notation isolve := (interface_solve F f0 fadd fmul fsub fdiv fopp tiny).
Notation solve := (solve_all F f0 fadd fmul fsub fdiv fopp tiny).

Lemma up_not_ub : forall co n v, up F fmul fsub fdiv fopp tiny co n v <> UB.
Proof.
  intros co. induction n as [|n IH]; intros [[[v0 v1] v2] v3]; cbn [up]; [discriminate|].
  destruct (tiny v1); [discriminate|]. apply IH.
Qed.
Lemma low_not_ub : forall co m i v, low F fmul fsub fdiv fopp tiny co m i v <> UB.
Proof.
  intros co. induction m as [|m IH]; intros i [[[v0 v1] v2] v3]; cbn [low]; [discriminate|].
  destruct (tiny v1); [discriminate|]. apply IH.
Qed.
Lemma reduce1_not_ub : forall n co, 2 <= n -> reduce n co <> UB.
Proof.
  intros n co Hn. unfold reduce1.
  replace (n <? 2) with false by (symmetry; apply Nat.ltb_ge; exact Hn). cbv zeta.
  match goal with |- bind ?m _ <> _ => destruct m as [u| |] eqn:E end; cbn [bind]; try discriminate.
  - match goal with |- bind ?m _ <> _ => destruct m as [l| |] eqn:E2 end; cbn [bind]; try discriminate.
    + destruct u as [[[u0 u1] u2] u3]. destruct l as [[[l0 l1] l2] l3]. discriminate.
    + intros _. exact (low_not_ub _ _ _ _ E2).
  - intros _. exact (up_not_ub _ _ _ E).
Qed.

(** Result of the interface solve on processor [d] that owns the systems. *)
Lemma interface_spec : forall nsys n d per myif ord mem ifx x1 xn,
  d < n -> arrival_order n d ord ->
  isolve nsys n d per myif ord mem = Ok (ifx, x1, xn) ->
  forall i, i < myns nsys n d ->
  exists W v, (forall p j, p < n -> j < 8 -> W (8 * p + j) = myif p (sys0 nsys n d + i) j) /\
    reduce (2 * n) W = Ok v /\
    x1 i = fst (solve2x2 F fadd fmul fsub fdiv fopp per v) /\
    xn i = snd (solve2x2 F fadd fmul fsub fdiv fopp per v) /\
    bsolve (2 * n) W (x1 i) (xn i) (m_gam mem i) (m_ifx mem i) = Ok (ifx i).
Proof.
  intros nsys n d per myif ord mem ifx x1 xn Hd Ho H i Hi. unfold interface_solve in H. cbv zeta in H.
  replace (myns nsys n d =? 0) with false in H by (symmetry; apply Nat.eqb_neq; lia).
  match type of H with context [gather_loop _ _ _ _ _ _ _ ?o] => set (own := o) in H end.
  destruct (gather_loop_spec F nsys n d myif (m_recv mem) ord own Hd) as (ifcs & Eg & Hg).
  rewrite Eg in H. cbn [bind] in H.
  match type of H with bind ?m _ = _ => destruct m as [if2| |] eqn:E2 end; cbn [bind] in H; try discriminate.
  match type of H with bind ?m _ = _ => destruct m as [ifx'| |] eqn:E3 end; cbn [bind] in H; try discriminate.
  injection H as <- <- <-.
  assert (HW : forall p j, p < n -> j < 8 -> ifcs i (8 * p + j) = myif p (sys0 nsys n d + i) j).
  { intros p j Hp Hj. destruct (Hg i Hi p j Hj) as (Hin & Hnin).
    destruct (Nat.eq_dec p d) as [->|Hne].
    - rewrite Hnin.
      + unfold own. rewrite copy_rows_at by exact Hi. apply copy_row_in. exact Hj.
      + intros Hc. apply (arrival_in _ _ _ Ho) in Hc. lia.
    - apply Hin. apply (arrival_in _ _ _ Ho). split; assumption. }
  assert (Hv : exists v, reduce (2 * n) (ifcs i) = Ok v /\ forall j, j < 8 -> v j = if2 i j).
  { destruct (1 <? n) eqn:En.
    - exists (if2 i). split; [|reflexivity]. exact (for_sys_inv _ _ _ _ E2 i Hi).
    - apply Nat.ltb_ge in En. assert (n = 1) as -> by lia. injection E2 as <-.
      unfold reduce1. cbn. eexists. split; [reflexivity|].
      intros j Hj. do 8 (destruct j as [|j]; [reflexivity|]). lia. }
  destruct Hv as (v & Hv & Hvj).
  exists (ifcs i), v. split; [exact HW|]. split; [exact Hv|]. cbv beta.
  replace (i <? myns nsys n d) with true by (symmetry; apply Nat.ltb_lt; exact Hi).
  assert (Es : solve2x2 F fadd fmul fsub fdiv fopp per (if2 i) = solve2x2 F fadd fmul fsub fdiv fopp per v).
  { unfold solve2x2. rewrite !Hvj by lia. reflexivity. }
  rewrite <- Es. split; [reflexivity|]. split; [reflexivity|].
  pose proof (for_sys_inv _ _ _ _ E3 i Hi) as H3. cbv beta in H3.
  replace (i <? myns nsys n d) with true in H3 by (symmetry; apply Nat.ltb_lt; exact Hi).
  exact H3.
Qed.

Lemma interface_not_ub : forall nsys n d per myif ord mem,
  d < n -> isolve nsys n d per myif ord mem <> UB.
Proof.
  intros nsys n d per myif ord mem Hd. unfold interface_solve. cbv zeta.
  destruct (myns nsys n d =? 0); [discriminate|].
  match goal with |- context [gather_loop _ _ _ _ _ _ _ ?o] => set (own := o) end.
  destruct (gather_loop_spec F nsys n d myif (m_recv mem) ord own Hd) as (ifcs & -> & _). cbn [bind].
  assert (H2 : (if 1 <? n then for_sys (fun _ : nat => f0) (fun i => reduce (2 * n) (ifcs i)) (myns nsys n d) else Ok ifcs) <> UB).
  { destruct (1 <? n); [|discriminate]. apply for_sys_not_ub. intros i Hi. apply reduce1_not_ub. lia. }
  match goal with |- bind ?m _ <> _ => destruct m as [if2| |] eqn:E end; cbn [bind]; try discriminate; [|contradiction].
  match goal with |- bind (for_sys ?a ?f ?m) _ <> _ => destruct (for_sys_ok a f m) as (ifx & ->) end.
  { intros i Hi. apply back_solve1_ok. lia. }
  discriminate.
Qed.

Lemma scatter_ok : forall nsys n d (ifx : nat -> nat -> nat -> F) ord mem x1 xn,
  arrival_order n d ord -> d < n -> exists r, scatter F nsys n d ifx ord mem x1 xn = Ok r.
Proof.
  intros nsys n d ifx ord mem x1 xn Ho Hd. destruct (le_lt_dec n 1) as [Hle|Hlt].
  - unfold scatter. replace (1 <? n) with false by (symmetry; apply Nat.ltb_ge; exact Hle). eexists. reflexivity.
  - destruct (scatter_spec F nsys n d ifx ord mem x1 xn Ho Hd Hlt) as (a & b & -> & _). eexists. reflexivity.
Qed.

Lemma solve_not_ub : forall nsys n per nloc co ord1 ord2 mem,
  (forall p, p < n -> 2 <= nloc p) ->
  (forall p, p < n -> arrival_order n p (ord2 p)) ->
  solve nsys n per nloc co ord1 ord2 mem <> UB.
Proof.
  intros nsys n per nloc co ord1 ord2 mem Hn Ho. unfold solve_all.
  match goal with |- bind ?m _ <> _ => assert (H1 : m <> UB); [|destruct m as [myif| |] eqn:E1] end;
    cbn [bind]; try discriminate; [|clear E1|contradiction].
  { apply for_sys_not_ub. intros p Hp. apply for_sys_not_ub. intros s Hs. apply reduce1_not_ub. apply Hn. exact Hp. }
  match goal with |- bind ?m _ <> _ => assert (H2 : m <> UB); [|destruct m as [st| |] eqn:E2] end;
    cbn [bind]; try discriminate; [|clear E2|contradiction].
  { apply for_sys_not_ub. intros p Hp. apply interface_not_ub. exact Hp. }
  cbv zeta.
  match goal with |- bind (for_sys ?a ?f ?m) _ <> _ => destruct (for_sys_ok a f m) as (xs & ->) end.
  { intros p Hp. apply scatter_ok; [apply Ho; exact Hp|exact Hp]. }
  cbn [bind].
  match goal with |- for_sys ?a ?f ?m <> _ => destruct (for_sys_ok a f m) as (x & ->) end; [|discriminate].
  intros p Hp. apply for_sys_ok. intros s Hs. apply back_solve1_ok. apply Hn. exact Hp.
Qed.

(** The intermediate values behind a successful solve of system [s]. *)
Lemma solve_decompose : forall nsys n per nloc co ord1 ord2 mem x,
  1 <= n ->
  (forall p, p < n -> arrival_order n p (ord1 p)) ->
  (forall p, p < n -> arrival_order n p (ord2 p)) ->
  solve nsys n per nloc co ord1 ord2 mem = Ok x ->
  forall s, s < nsys ->
  exists vp W v x1 xn g xa X,
    (forall p, p < n -> reduce (nloc p) (co p s) = Ok (vp p)) /\
    (forall p j, p < n -> j < 8 -> W (8 * p + j) = vp p j) /\
    reduce (2 * n) W = Ok v /\
    solve2x2 F fadd fmul fsub fdiv fopp per v = (x1, xn) /\
    bsolve (2 * n) W x1 xn g xa = Ok X /\
    (forall p, p < n ->
       bsolve (nloc p) (co p s) (X (2 * p)) (X (2 * p + 1)) (m_gam2 (mem p) s) (m_x (mem p) s) = Ok (x p s)).
Proof.
  intros nsys n per nloc co ord1 ord2 mem x Hn Ho1 Ho2 H s Hs. unfold solve_all in H.
  match type of H with bind ?m _ = _ => destruct m as [myif| |] eqn:E1 end; cbn [bind] in H; try discriminate.
  match type of H with bind ?m _ = _ => destruct m as [st| |] eqn:E2 end; cbn [bind] in H; try discriminate.
  cbv zeta in H.
  match type of H with bind ?m _ = _ => destruct m as [xs| |] eqn:E3 end; cbn [bind] in H; try discriminate.
  destruct (range_cover nsys n s ltac:(lia) Hs) as (d & i & Hd & Hi & Es).
  pose proof (for_sys_inv _ _ _ _ E2 d Hd) as Hst. cbv beta in Hst.
  destruct (st d) as [[ifxd x1d] xnd] eqn:Ed.
  destruct (interface_spec _ _ _ _ _ _ _ _ _ _ Hd (Ho1 d Hd) Hst i Hi) as (W & v & HW & Hv & Hx1 & Hxn & HX).
  exists (fun p => myif p s), W, v, (x1d i), (xnd i), (m_gam (mem d) i), (m_ifx (mem d) i), (ifxd i).
  split; [|split; [|split; [|split; [|split]]]].
  - intros p Hp. pose proof (for_sys_inv _ _ _ _ E1 p Hp) as Hm. exact (for_sys_inv _ _ _ _ Hm s Hs).
  - intros p j Hp Hj. rewrite HW by assumption. rewrite Es. reflexivity.
  - exact Hv.
  - rewrite Hx1, Hxn. apply surjective_pairing.
  - exact HX.
  - intros p Hp. pose proof (for_sys_inv _ _ _ _ H p Hp) as Hm. cbv beta in Hm.
    pose proof (for_sys_inv _ _ _ _ Hm s Hs) as Hb. cbv beta in Hb. rewrite <- Hb.
    pose proof (for_sys_inv _ _ _ _ E3 p Hp) as Hsc. cbv beta in Hsc.
    assert (Ex : fst (xs p) s = ifxd i (2 * p) /\ snd (xs p) s = ifxd i (2 * p + 1)).
    { destruct (le_lt_dec n 1) as [Hle|Hlt].
      - assert (n = 1) as E by lia. assert (p = 0) as -> by lia. assert (d = 0) as -> by lia.
        unfold scatter in Hsc. rewrite E in Hsc at 1. change (1 <? 1) with false in Hsc. cbv iota in Hsc.
        injection Hsc as Hxs. rewrite <- Hxs, Ed. cbn [fst snd].
        destruct (back_solve1_ends _ _ _ _ _ _ _ _ _ _ _ _ HX) as (H0 & H1).
        assert (s = i) as ->.
        { rewrite Es. rewrite sys0_min. lia. }
        replace (2 * 0) with 0 by lia. rewrite H0. replace (0 + 1) with (2 * n - 1) by lia. rewrite H1. split; reflexivity.
      - destruct (scatter_spec F nsys n p (fun p => fst (fst (st p))) (ord2 p) (mem p) (snd (fst (st p))) (snd (st p))
                    (Ho2 p Hp) Hp Hlt) as (a & b & Eab & Hab).
        rewrite Eab in Hsc. injection Hsc as Hxs. rewrite <- Hxs. cbn [fst snd].
        destruct (Hab d i Hd Hi) as (Ha & Hb'). rewrite Ed in Ha, Hb'. cbn [fst] in Ha, Hb'. rewrite Es. split; assumption. }
    destruct Ex as (<- & <-). reflexivity.
Qed.

Hypothesis Fth : field_theory f0 f1 fadd fmul fsub fopp fdiv finv (@eq F).
Hypothesis tiny0 : tiny f0 = true.

Lemma fill_row : forall a b c rhs i, row_of F (fill_coefs F a b c rhs) i = Row (a i) (b i) (c i) (rhs i).
Proof.
  intros. unfold row_of, fill_coefs. cbv zeta.
  assert (H : forall j, j < 4 -> (4 * i + j) / 4 = i /\ (4 * i + j) mod 4 = j).
  { intros j Hj. replace (4 * i + j) with (j + i * 4) by lia. rewrite Nat.div_add, Nat.mod_add by lia.
    rewrite Nat.div_small, Nat.mod_small by lia. split; lia. }
  destruct (H 0 ltac:(lia)) as (Ha & Hb). rewrite Nat.add_0_r in Ha, Hb. rewrite Ha, Hb.
  destruct (H 1 ltac:(lia)) as (-> & ->). destruct (H 2 ltac:(lia)) as (-> & ->).
  destruct (H 3 ltac:(lia)) as (-> & ->). reflexivity.
Qed.

Lemma solve_correct : forall nsys n per nloc a b c rhs ord1 ord2 mem x,
  1 <= n ->
  (forall p, p < n -> arrival_order n p (ord1 p)) ->
  (forall p, p < n -> arrival_order n p (ord2 p)) ->
  solve nsys n per nloc (fun p s => fill_coefs F (a p s) (b p s) (c p s) (rhs p s)) ord1 ord2 mem = Ok x ->
  forall s, s < nsys ->
  nonsingular F f0 fadd fmul per (distributed n nloc (fun p i => Row (a p s i) (b p s i) (c p s i) (rhs p s i))) ->
  solves F f0 fadd fmul per (distributed n nloc (fun p i => Row (a p s i) (b p s i) (c p s i) (rhs p s i)))
    (distributed n nloc (fun p => x p s)).
Proof.
  intros nsys n per nloc a b c rhs ord1 ord2 mem x Hn Ho1 Ho2 H s Hs Hns.
  destruct (solve_decompose _ _ _ _ _ _ _ _ _ Hn Ho1 Ho2 H s Hs)
    as (vp & W & v & x1 & xn & g & xa & X & Hvp & HW & Hv & H2 & HX & Hx).
  set (co := fun p => fill_coefs F (a p s) (b p s) (c p s) (rhs p s)) in *.
  assert (Er : distributed n nloc (fun p i => Row (a p s i) (b p s i) (c p s i) (rhs p s i))
             = distributed n nloc (fun p i => row_of F (co p) i)).
  { unfold distributed. apply flat_map_ext. intros p. apply map_ext. intros i. unfold co. rewrite fill_row. reflexivity. }
  rewrite Er in Hns |- *.
  pose proof (nonsing_det _ _ _ _ _ _ _ _ _ _ Fth tiny0 per n nloc co vp W v Hn Hvp HW Hv Hns) as Hd.
  destruct (solve2x2_eq _ _ _ _ _ _ _ _ _ Fth per v x1 xn Hd H2) as (Ea & Eb).
  destruct (assemble _ _ _ _ _ _ _ _ _ _ Fth tiny0 per n nloc co vp W v Hn Hvp HW Hv x1 xn g xa X
              (fun p => m_gam2 (mem p) s) (fun p => m_x (mem p) s) (fun p => x p s) HX Hx Ea Eb) as (Hg & _ & _).
  apply gsolves_solves; [|exact Hg].
  intros p Hp. specialize (Hvp p Hp). unfold reduce1 in Hvp.
  destruct (nloc p <? 2) eqn:E; [discriminate|]. apply Nat.ltb_ge in E. exact E.
Qed.

(** ** Diagonally dominant systems *)
Variable nrm : F -> R.
Variable eps : R.
Hypothesis eps_pos : (0 < eps)%R.
Hypothesis nrm_nonneg : forall x, (0 <= nrm x)%R.
Hypothesis nrm_mul : forall x y, nrm (fmul x y) = (nrm x * nrm y)%R.
Hypothesis nrm_add : forall x y, (nrm (fadd x y) <= nrm x + nrm y)%R.
Hypothesis nrm_opp : forall x, nrm (fopp x) = nrm x.
Hypothesis nrm_0 : nrm f0 = 0%R.
Hypothesis nrm_1 : nrm f1 = 1%R.
Hypothesis nrm_tiny : forall x, tiny x = true -> (nrm x < eps)%R.
Add Field Ff4 : Fth.

Definition dom (v0 v1 v2 : F) : Prop := (nrm v0 + nrm v2 + eps <= nrm v1)%R.

Lemma dom_not_tiny : forall v0 v1 v2, dom v0 v1 v2 -> tiny v1 = false.
Proof.
  intros v0 v1 v2 H. unfold dom in H. destruct (tiny v1) eqn:E; [|reflexivity].
  apply nrm_tiny in E. pose proof (nrm_nonneg v0). pose proof (nrm_nonneg v2). lra.
Qed.
Lemma dom_nz : forall v0 v1 v2, dom v0 v1 v2 -> v1 <> f0.
Proof.
  intros v0 v1 v2 H E. subst v1. unfold dom in H. rewrite nrm_0 in H.
  pose proof (nrm_nonneg v0). pose proof (nrm_nonneg v2). lra.
Qed.
Lemma nrm_sub : forall x y, (nrm x - nrm y <= nrm (fsub x y))%R.
Proof.
  intros x y. pose proof (nrm_add (fsub x y) y) as H.
  replace (fadd (fsub x y) y) with x in H by ring. lra.
Qed.
Lemma nrm_div : forall x y, y <> f0 -> (nrm (fdiv x y) * nrm y = nrm x)%R.
Proof. intros x y Hy. rewrite <- nrm_mul. f_equal. field. exact Hy. Qed.

Lemma dom_step : forall a b c v0 v1 v2,
  dom v0 v1 v2 -> dom a b c ->
  dom a (fsub b (fmul (fdiv c v1) v0)) (fmul v2 (fopp (fdiv c v1))).
Proof.
  intros a b c v0 v1 v2 Hv Hr. pose proof (dom_nz _ _ _ Hv) as Hnz. unfold dom in *.
  pose proof (nrm_sub b (fmul (fdiv c v1) v0)) as H1. rewrite nrm_mul in H1.
  rewrite nrm_mul, nrm_opp.
  pose proof (nrm_div c v1 Hnz) as H2.
  pose proof (nrm_nonneg (fdiv c v1)) as H3. pose proof (nrm_nonneg v0). pose proof (nrm_nonneg v2).
  set (t := nrm (fdiv c v1)) in *. nra.
Qed.

Lemma dom_sym : forall a b c, dom a b c -> dom c b a.
Proof. unfold dom. intros. lra. Qed.

Definition domrow (co : nat -> F) (i : nat) : Prop := dom (co (4 * i)) (co (4 * i + 1)) (co (4 * i + 2)).
Definition domv (v : F * F * F * F) : Prop := let '(v0, v1, v2, _) := v in dom v0 v1 v2.

Lemma up_dom : forall co n v, domv v -> (forall i, i < n -> domrow co i) ->
  exists w, up F fmul fsub fdiv fopp tiny co n v = Ok w /\ domv w.
Proof.
  intros co. induction n as [|n IH]; intros [[[v0 v1] v2] v3] Hv Hr; cbn [up].
  - eexists. split; [reflexivity|exact Hv].
  - rewrite (dom_not_tiny _ _ _ Hv). apply IH.
    + apply dom_step; [exact Hv|]. exact (Hr n ltac:(lia)).
    + intros i Hi. apply Hr. lia.
Qed.

Lemma low_dom : forall co m i v, domv v -> (forall k, i <= k -> k < i + m -> domrow co k) ->
  exists w, low F fmul fsub fdiv fopp tiny co m i v = Ok w /\ domv w.
Proof.
  intros co. induction m as [|m IH]; intros i [[[v0 v1] v2] v3] Hv Hr; cbn [low].
  - eexists. split; [reflexivity|exact Hv].
  - rewrite (dom_not_tiny _ _ _ Hv). apply IH.
    + cbn [domv]. apply dom_sym. apply dom_step; [apply dom_sym; exact Hv|].
      apply dom_sym. exact (Hr i ltac:(lia) ltac:(lia)).
    + intros k Hk1 Hk2. apply Hr; lia.
Qed.

Lemma reduce1_dom : forall n co, 2 <= n -> (forall i, i < n -> domrow co i) ->
  exists v, reduce n co = Ok v /\ dom (v 0) (v 1) (v 2) /\ dom (v 4) (v 5) (v 6).
Proof.
  intros n co Hn Hr. unfold reduce1.
  replace (n <? 2) with false by (symmetry; apply Nat.ltb_ge; exact Hn). cbv zeta.
  destruct (up_dom co (n - 2) (co (4 * (n - 2)), co (4 * (n - 2) + 1), co (4 * (n - 2) + 2), co (4 * (n - 2) + 3)))
    as ([[[u0 u1] u2] u3] & -> & Hu).
  { exact (Hr (n - 2) ltac:(lia)). }
  { intros i Hi. apply Hr. lia. }
  destruct (low_dom co (n - 2) 2 (co 4, co 5, co 6, co 7)) as ([[[l0 l1] l2] l3] & -> & Hl).
  { exact (Hr 1 ltac:(lia)). }
  { intros k Hk1 Hk2. apply Hr. lia. }
  cbn [bind]. eexists. split; [reflexivity|]. cbn [nth]. split; assumption.
Qed.

Lemma dom_det : forall per v, dom (v 0) (v 1) (v 2) -> dom (v 4) (v 5) (v 6) ->
  det2 F fadd fmul fsub per v <> f0.
Proof.
  intros per v H1 H2 E. unfold det2 in E.
  set (b := if per then fadd (v 2) (v 0) else v 2) in *. set (c := if per then fadd (v 4) (v 6) else v 4) in *.
  assert (Eq : fmul (v 1) (v 5) = fmul b c).
  { transitivity (fadd (fsub (fmul (v 1) (v 5)) (fmul b c)) (fmul b c)); [ring|]. rewrite E. ring. }
  apply (f_equal nrm) in Eq. rewrite !nrm_mul in Eq.
  unfold dom in H1, H2.
  pose proof (nrm_nonneg (v 0)). pose proof (nrm_nonneg (v 2)). pose proof (nrm_nonneg (v 4)). pose proof (nrm_nonneg (v 6)).
  assert (Hb : (nrm b <= nrm (v 0%nat) + nrm (v 2%nat))%R).
  { unfold b. destruct per; [|lra]. pose proof (nrm_add (v 2) (v 0)). lra. }
  assert (Hc : (nrm c <= nrm (v 4%nat) + nrm (v 6%nat))%R).
  { unfold c. destruct per; [|lra]. pose proof (nrm_add (v 4) (v 6)). lra. }
  pose proof (nrm_nonneg b). pose proof (nrm_nonneg c). nra.
Qed.

Lemma interface_dom : forall nsys n d per myif ord mem,
  d < n -> arrival_order n d ord ->
  (forall p s, p < n -> s < nsys -> dom (myif p s 0) (myif p s 1) (myif p s 2) /\ dom (myif p s 4) (myif p s 5) (myif p s 6)) ->
  exists r, isolve nsys n d per myif ord mem = Ok r.
Proof.
  intros nsys n d per myif ord mem Hd Ho Hm. unfold interface_solve. cbv zeta.
  destruct (myns nsys n d =? 0); [eexists; reflexivity|].
  match goal with |- context [gather_loop _ _ _ _ _ _ _ ?o] => set (own := o) end.
  destruct (gather_loop_spec F nsys n d myif (m_recv mem) ord own Hd) as (ifcs & -> & Hg). cbn [bind].
  assert (H2 : exists w, (if 1 <? n then for_sys (fun _ : nat => f0) (fun i => reduce (2 * n) (ifcs i)) (myns nsys n d) else Ok ifcs) = Ok w).
  { destruct (1 <? n); [|eexists; reflexivity]. apply for_sys_ok. intros i Hi.
    assert (HW : forall p j, p < n -> j < 8 -> ifcs i (8 * p + j) = myif p (sys0 nsys n d + i) j).
    { intros p j Hp Hj. destruct (Hg i Hi p j Hj) as (Hin & Hnin).
      destruct (Nat.eq_dec p d) as [->|Hne].
      - rewrite Hnin.
        + unfold own. rewrite copy_rows_at by exact Hi. apply copy_row_in. exact Hj.
        + intros Hc. apply (arrival_in _ _ _ Ho) in Hc. lia.
      - apply Hin. apply (arrival_in _ _ _ Ho). split; assumption. }
    pose proof (range_end nsys n d Hd) as Hre.
    destruct (reduce1_dom (2 * n) (ifcs i)) as (v & -> & _); [lia| |eexists; reflexivity].
    intros k Hk. unfold domrow.
    pose proof (Nat.div_mod k 2 ltac:(lia)) as Hdm. pose proof (Nat.mod_upper_bound k 2 ltac:(lia)) as Hmb.
    set (q := k / 2) in *. destruct (Hm q (sys0 nsys n d + i) ltac:(lia) ltac:(lia)) as (Hu & Hl).
    destruct (k mod 2) as [|[|r]] eqn:Er; [| |lia].
    - replace (4 * k) with (8 * q + 0) by lia. replace (8 * q + 0 + 1) with (8 * q + 1) by lia.
      replace (8 * q + 0 + 2) with (8 * q + 2) by lia. rewrite !HW by lia. exact Hu.
    - replace (4 * k) with (8 * q + 4) by lia. replace (8 * q + 4 + 1) with (8 * q + 5) by lia.
      replace (8 * q + 4 + 2) with (8 * q + 6) by lia. rewrite !HW by lia. exact Hl. }
  destruct H2 as (if2 & ->). cbn [bind].
  match goal with |- exists _, bind (for_sys ?a ?f ?m) _ = _ => destruct (for_sys_ok a f m) as (ifx & ->) end.
  { intros i Hi. apply back_solve1_ok. lia. }
  eexists. reflexivity.
Qed.

Lemma solve_dom : forall nsys n per nloc a b c rhs ord1 ord2 mem,
  1 <= n ->
  (forall p, p < n -> 2 <= nloc p) ->
  (forall p, p < n -> arrival_order n p (ord1 p)) ->
  (forall p, p < n -> arrival_order n p (ord2 p)) ->
  (forall p s i, p < n -> s < nsys -> i < nloc p -> dom (a p s i) (b p s i) (c p s i)) ->
  exists x,
  solve nsys n per nloc (fun p s => fill_coefs F (a p s) (b p s) (c p s) (rhs p s)) ord1 ord2 mem = Ok x /\
  forall s, s < nsys ->
  solves F f0 fadd fmul per (distributed n nloc (fun p i => Row (a p s i) (b p s i) (c p s i) (rhs p s i)))
    (distributed n nloc (fun p => x p s)).
Proof.
  intros nsys n per nloc a b c rhs ord1 ord2 mem Hn Hl Ho1 Ho2 Hdom.
  set (co := fun p s => fill_coefs F (a p s) (b p s) (c p s) (rhs p s)).
  assert (Hrow : forall p s i, p < n -> s < nsys -> i < nloc p -> domrow (co p s) i).
  { intros p s i Hp Hs Hi. unfold domrow. pose proof (fill_row (a p s) (b p s) (c p s) (rhs p s) i) as E.
    fold (co p s) in E.
    pose proof (f_equal ra E) as Ea. pose proof (f_equal rb E) as Eb. pose proof (f_equal rc E) as Ec.
    unfold row_of in Ea, Eb, Ec. cbn [ra rb rc] in Ea, Eb, Ec. rewrite Ea, Eb, Ec. apply Hdom; assumption. }
  assert (Hok : exists x, solve nsys n per nloc co ord1 ord2 mem = Ok x).
  { unfold solve_all.
    match goal with |- exists _, bind (for_sys ?a ?f ?m) _ = _ => destruct (for_sys_ok a f m) as (myif & E1) end.
    { intros p Hp. apply for_sys_ok. intros s Hs. destruct (reduce1_dom (nloc p) (co p s)) as (v & -> & _).
      - apply Hl. exact Hp.
      - intros i Hi. apply Hrow; assumption.
      - eexists. reflexivity. }
    rewrite E1. cbn [bind].
    match goal with |- exists _, bind (for_sys ?a ?f ?m) _ = _ => destruct (for_sys_ok a f m) as (st & ->) end.
    { intros p Hp. apply interface_dom; [exact Hp|apply Ho1; exact Hp|].
      intros q s Hq Hs. pose proof (for_sys_inv _ _ _ _ E1 q Hq) as Hm.
      pose proof (for_sys_inv _ _ _ _ Hm s Hs) as Hr. cbv beta in Hr.
      destruct (reduce1_dom (nloc q) (co q s) (Hl q Hq)) as (v & Ev & Hu & Hlo).
      - intros i Hi. apply Hrow; assumption.
      - rewrite Ev in Hr. injection Hr as <-. split; assumption. }
    cbn [bind]. cbv zeta.
    match goal with |- exists _, bind (for_sys ?a ?f ?m) _ = _ => destruct (for_sys_ok a f m) as (xs & ->) end.
    { intros p Hp. apply scatter_ok; [apply Ho2; exact Hp|exact Hp]. }
    cbn [bind]. apply for_sys_ok. intros p Hp. apply for_sys_ok. intros s Hs. apply back_solve1_ok. apply Hl. exact Hp. }
  destruct Hok as (x & Hx). exists x. split; [exact Hx|]. intros s Hs.
  destruct (solve_decompose _ _ _ _ _ _ _ _ _ Hn Ho1 Ho2 Hx s Hs)
    as (vp & W & v & x1 & xn & g & xa & X & Hvp & HW & Hv & H2 & HX & Hxx).
  assert (Hdv : dom (v 0) (v 1) (v 2) /\ dom (v 4) (v 5) (v 6)).
  { destruct (reduce1_dom (2 * n) W) as (v' & Ev & Hu & Hlo); [lia| |].
    - intros k Hk. unfold domrow.
      pose proof (Nat.div_mod k 2 ltac:(lia)) as Hdm. pose proof (Nat.mod_upper_bound k 2 ltac:(lia)) as Hmb.
      set (q := k / 2) in *.
      destruct (reduce1_dom (nloc q) (co q s) (Hl q ltac:(lia))) as (w & Ew & Hu & Hlo).
      + intros i Hi. apply Hrow; [lia|assumption|assumption].
      + rewrite (Hvp q) in Ew by lia. injection Ew as <-.
        destruct (k mod 2) as [|[|r]] eqn:Er; [| |lia].
        * replace (4 * k) with (8 * q + 0) by lia. replace (8 * q + 0 + 1) with (8 * q + 1) by lia.
          replace (8 * q + 0 + 2) with (8 * q + 2) by lia. rewrite !HW by lia. exact Hu.
        * replace (4 * k) with (8 * q + 4) by lia. replace (8 * q + 4 + 1) with (8 * q + 5) by lia.
          replace (8 * q + 4 + 2) with (8 * q + 6) by lia. rewrite !HW by lia. exact Hlo.
    - rewrite Hv in Ev. injection Ev as <-. split; assumption. }
  pose proof (dom_det per v (proj1 Hdv) (proj2 Hdv)) as Hd.
  destruct (solve2x2_eq _ _ _ _ _ _ _ _ _ Fth per v x1 xn Hd H2) as (Ea & Eb).
  destruct (assemble _ _ _ _ _ _ _ _ _ _ Fth tiny0 per n nloc (fun p => co p s) vp W v Hn Hvp HW Hv x1 xn g xa X
              (fun p => m_gam2 (mem p) s) (fun p => m_x (mem p) s) (fun p => x p s) HX Hxx Ea Eb) as (Hg & _ & _).
  assert (Er : distributed n nloc (fun p i => Row (a p s i) (b p s i) (c p s i) (rhs p s i))
             = distributed n nloc (fun p i => row_of F (co p s) i)).
  { unfold distributed. apply flat_map_ext. intros p. apply map_ext. intros i. unfold co. rewrite fill_row. reflexivity. }
  rewrite Er. apply gsolves_solves; [exact Hl|exact Hg].
Qed.
End P.
