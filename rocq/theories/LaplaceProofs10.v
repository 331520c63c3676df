(** Concrete runs on one processor with three rows, for boundary conditions which are not diagonally dominant. *)
From Coq Require Import List Arith Bool ZArith Reals Lia Lra Permutation.
From Coquelicot Require Import Complex.
From Verif Require Import Base CyclicModel CyclicSpec CyclicProofs2 CyclicProps FftModel FftProofs FftProofs2 FftProofs3 FftProofs4 LaplaceModel LaplaceSpec LaplaceProofs3 LaplaceProofs4 LaplaceProofs7 LaplaceProofs8 LaplaceProofs9.
Import ListNotations.
Local Open Scope R_scope.

Lemma three_rows : forall nsys per nloc a b c r ord1 ord2 mem, nloc 0%nat = 3%nat -> arrival_order 1 0 (ord1 0%nat) -> arrival_order 1 0 (ord2 0%nat) ->
  (forall s, (s < nsys)%nat -> tinyC (b 0%nat s 1%nat) = false) ->
  exists x, solveC nsys 1 per nloc (fun p s => fill_coefs C (a p s) (b p s) (c p s) (r p s)) ord1 ord2 mem = Ok x.
Proof.
  intros nsys per nloc a b c r ord1 ord2 mem Hl Ho1 Ho2 Ht.
  assert (Hnil : forall o, arrival_order 1 0 o -> o = []).
  { intros o Ho. unfold arrival_order in Ho. cbn in Ho. apply Permutation_sym, Permutation_nil in Ho. exact Ho. }
  unfold solveC, solve_all.
  match goal with |- exists x, bind (for_sys ?d ?f ?m) _ = _ => destruct (for_sys_ok d f m) as (myif & E) end.
  { intros p Hp. assert (p = 0%nat) by lia. subst p. apply for_sys_ok. intros s Hs. rewrite Hl. unfold reduce1. cbn [Nat.ltb Nat.leb Nat.sub up low Nat.mul Nat.add].
    assert (E : fill_coefs C (a 0%nat s) (b 0%nat s) (c 0%nat s) (r 0%nat s) 5 = b 0%nat s 1%nat) by reflexivity. rewrite E, Ht by auto.
    cbn [bind]. eexists. reflexivity. }
  rewrite E. cbn [bind].
  match goal with |- exists x, bind (for_sys ?d ?f ?m) _ = _ => destruct (for_sys_ok d f m) as (st & E2) end.
  { intros p Hp. assert (p = 0%nat) by lia. subst p. unfold interface_solve. destruct (myns nsys 1 0 =? 0)%nat; [eexists; reflexivity|].
    rewrite (Hnil _ Ho1). cbn [gather_loop bind Nat.ltb Nat.leb].
    match goal with |- exists v, bind (for_sys ?d ?f ?m) _ = _ => destruct (for_sys_ok d f m) as (ifx & ->) end.
    - intros i Hi. unfold back_solve1. cbn [Nat.ltb Nat.leb Nat.mul Nat.add]. destruct (bs_fwd _ _ _ _ _ _ _ _ _); eexists; reflexivity.
    - cbn [bind]. eexists; reflexivity. }
  rewrite E2. cbn [bind].
  match goal with |- exists x, bind (for_sys ?d ?f 1) _ = _ => destruct (for_sys_ok d f 1) as (xs & ->) end.
  { intros p Hp. unfold scatter. cbn [Nat.ltb Nat.leb]. eexists; reflexivity. }
  cbn [bind]. apply for_sys_ok. intros p Hp. assert (p = 0%nat) by lia. subst p. apply for_sys_ok. intros s Hs.
  unfold back_solve1. rewrite Hl. cbn [Nat.ltb Nat.leb Nat.sub]. destruct (bs_fwd _ _ _ _ _ _ _ _ _). eexists; reflexivity.
Qed.

(** Three rows: boundary, interior, boundary. *)
Lemma nonsingular3 : forall b0 c0 q a2 b2 r0 r1 r2, b0 <> 0 -> b2 <> 0 -> c0 / b0 + a2 / b2 <> q ->
  nonsingular C (RtoC 0) Cplus Cmult false
    [Row (RtoC 0) (RtoC b0) (RtoC c0) r0; Row (RtoC 1) (RtoC q) (RtoC 1) r1; Row (RtoC a2) (RtoC b2) (RtoC 0) r2].
Proof.
  intros b0 c0 q a2 b2 r0 r1 r2 H0 H2 Hq z (Hlen & Hz). cbn [map length ra rb rc] in *.
  destruct z as [|z0 [|z1 [|z2 [|]]]]; try discriminate.
  pose proof (Hz 0%nat _ eq_refl) as E0. pose proof (Hz 1%nat _ eq_refl) as E1. pose proof (Hz 2%nat _ eq_refl) as E2.
  cbn -[Cplus Cmult RtoC] in E0, E1, E2.
  assert (P0 : z0 = Cmult (RtoC (- c0 / b0)) z1).
  { destruct z0 as [x0 y0], z1 as [x1 y1]. assert (F1 := f_equal fst E0). assert (F2 := f_equal snd E0). cbn [Cplus Cmult RtoC fst snd] in F1, F2.
    apply C_eq; cbn [Cmult RtoC fst snd]; apply (Rmult_eq_reg_l b0); auto; field_simplify; auto; lra. }
  assert (P2 : z2 = Cmult (RtoC (- a2 / b2)) z1).
  { destruct z2 as [x2 y2], z1 as [x1 y1]. assert (F1 := f_equal fst E2). assert (F2 := f_equal snd E2). cbn [Cplus Cmult RtoC fst snd] in F1, F2.
    apply C_eq; cbn [Cmult RtoC fst snd]; apply (Rmult_eq_reg_l b2); auto; field_simplify; auto; lra. }
  assert (P1 : z1 = RtoC 0).
  { subst z0 z2. destruct z1 as [x1 y1]. assert (F1 := f_equal fst E1). assert (F2 := f_equal snd E1). cbn [Cplus Cmult RtoC fst snd] in F1, F2.
    assert (Hq' : q - (c0 / b0 + a2 / b2) <> 0) by (intros E; apply Hq; lra).
    apply C_eq; cbn [RtoC fst snd]; apply (Rmult_eq_reg_l (q - (c0 / b0 + a2 / b2))); auto; rewrite Rmult_0_r; unfold Rdiv in *; [etransitivity; [|exact F1]|etransitivity; [|exact F2]]; ring. }
  assert (Z : forall c, Cmult c (RtoC 0) = RtoC 0) by (intros c; apply C_eq; cbn [Cmult RtoC fst snd]; ring).
  rewrite P1 in P0, P2. rewrite Z in P0, P2. subst. repeat constructor.
Qed.

Lemma nonsingular3_pin : forall r0 r1 r2,
  nonsingular C (RtoC 0) Cplus Cmult true
    [Row (RtoC 0) (RtoC 1) (RtoC 0) r0; Row (RtoC 1) (RtoC (-2)) (RtoC 1) r1; Row (RtoC 1) (RtoC (-2)) (RtoC 1) r2].
Proof.
  intros r0 r1 r2 z (Hlen & Hz). cbn [map length ra rb rc] in *.
  destruct z as [|z0 [|z1 [|z2 [|]]]]; try discriminate.
  pose proof (Hz 0%nat _ eq_refl) as E0. pose proof (Hz 1%nat _ eq_refl) as E1. pose proof (Hz 2%nat _ eq_refl) as E2.
  cbn -[Cplus Cmult RtoC] in E0, E1, E2. destruct z0 as [x0 y0], z1 as [x1 y1], z2 as [x2 y2].
  assert (F0 := f_equal fst E0). assert (G0 := f_equal snd E0). assert (F1 := f_equal fst E1). assert (G1' := f_equal snd E1).
  assert (F2 := f_equal fst E2). assert (G2 := f_equal snd E2). cbn [Cplus Cmult RtoC fst snd] in *.
  repeat constructor; apply C_eq; cbn [RtoC fst snd]; lra.
Qed.

Lemma tinyC_big : forall r, 1 <= Rabs r -> tinyC (r, 0) = false.
Proof.
  intros r Hr. unfold tinyC. destruct (Rlt_dec (Cmod (r, 0)) (/ 10 ^ 10)) as [H|H]; [|reflexivity]. exfalso.
  rewrite cmod_r in H. pose proof tiny_le. lra.
Qed.

Definition lay1 : layout := Layout 1 1 1.
Definition lay3 : layout := Layout 1 3 1.
Definition exdir : opts := Opts true false false false false false noflags noflags 1.
Definition exgrad : opts :=
  Opts true false false false false false (BFlags true true false false false false false false true false)
       (BFlags false false false false false false false true false false) 1.
Definition onil (p : nat) : list nat := [].
Lemma onil_ok : forall p, (p < 1)%nat -> arrival_order 1 p (onil p).
Proof. intros p H. assert (p = 0%nat) by lia. subst. apply Permutation_refl. Qed.

(** The tridiagonal matrix of each mode for the options [o] has the boundary rows [b0], [c0], [a2], [b2]. *)
Lemma solved3 : forall o b0 c0 a2 b2 F X0, periodicX o = false -> (maxmode o <= 1)%nat -> b0 <> 0 -> b2 <> 0 -> -2 < c0 / b0 + a2 / b2 ->
  (forall k bk, exists k0 k2, forall m, m = unitM 0 -> exists t, tridagMatrix lay1 o 0 m k (kwave 1 k) bk = Ok t /\
     va t 0%nat = RtoC 0 /\ vb t 0%nat = RtoC b0 /\ vc t 0%nat = RtoC c0 /\ vk t 0%nat = k0 /\
     va t 1%nat = RtoC 1 /\ vb t 1%nat = RtoC (-2 - kwave 1 k * kwave 1 k) /\ vc t 1%nat = RtoC 1 /\
     va t 2%nat = RtoC a2 /\ vb t 2%nat = RtoC b2 /\ vc t 2%nat = RtoC 0 /\ vk t 2%nat = k2) ->
  exists U, solved lay1 o 4 1 (unitM 0) F X0 U.
Proof.
  intros o b0 c0 a2 b2 F X0 Hper Hmm Hb0 Hb2 Hq HT.
  assert (Hl : well_laid lay1) by (repeat split; cbn; lia).
  assert (HT' : forall k bk, exists t, tridagMatrix lay1 o 0 (view (0 * mx lay1) (unitM 0)) k (kwave 1 k) bk = Ok t /\
     va t 0%nat = RtoC 0 /\ vb t 0%nat = RtoC b0 /\ vc t 0%nat = RtoC c0 /\
     va t 1%nat = RtoC 1 /\ vb t 1%nat = RtoC (-2 - kwave 1 k * kwave 1 k) /\ vc t 1%nat = RtoC 1 /\
     va t 2%nat = RtoC a2 /\ vb t 2%nat = RtoC b2 /\ vc t 2%nat = RtoC 0).
  { intros k bk. destruct (HT k bk) as (k0 & k2 & H). destruct (H (unitM 0) eq_refl) as (t & H1 & H2). exists t. rewrite view_unit. tauto. }
  destruct (for_sys_ok (fun _ : nat => tvec0) (fun p => matrices lay1 o p 4 1 (view (p * mx lay1) (unitM 0)) (pieces lay1 F p) (pieces lay1 X0 p)) 1) as (mats & Hm).
  { intros p Hp. assert (p = 0%nat) by lia. subst p. unfold matrices. apply for_sys_ok. intros k Hk.
    match goal with |- exists v, tridagMatrix _ _ _ _ _ _ ?bk = _ => destruct (HT' k bk) as (t & Ht & _) end. eauto. }
  assert (Hm' : all_matrices lay1 o 4 1 (unitM 0) (pieces lay1 F) (pieces lay1 X0) = Ok mats) by exact Hm.
  assert (Hrow : forall k, (k <= maxmode o)%nat -> 
     va (mats 0%nat k) 0%nat = RtoC 0 /\ vb (mats 0%nat k) 0%nat = RtoC b0 /\ vc (mats 0%nat k) 0%nat = RtoC c0 /\
     va (mats 0%nat k) 1%nat = RtoC 1 /\ vb (mats 0%nat k) 1%nat = RtoC (-2 - kwave 1 k * kwave 1 k) /\ vc (mats 0%nat k) 1%nat = RtoC 1 /\
     va (mats 0%nat k) 2%nat = RtoC a2 /\ vb (mats 0%nat k) 2%nat = RtoC b2 /\ vc (mats 0%nat k) 2%nat = RtoC 0).
  { intros k Hk. pose proof (mats_row lay1 o 4 1 (unitM 0) (pieces lay1 F) (pieces lay1 X0) mats 0 k Hm' ltac:(cbn; lia) Hk) as Hr.
    match type of Hr with tridagMatrix _ _ _ _ _ _ ?bk = _ => destruct (HT' k bk) as (t & Ht & HH) end.
    rewrite Hr in Ht. apply Ok_inj in Ht. rewrite Ht. exact HH. }
  assert (Hn3 : nrows lay1 o 0 = 3%nat) by (unfold nrows, xs, xe; rewrite Hper; reflexivity).
  destruct (three_rows (maxmode o + 1) (periodicX o) (nrows lay1 o) (fun p k => va (mats p k)) (fun p k => vb (mats p k))
               (fun p k => vc (mats p k)) (fun p k => vk (mats p k)) onil onil memC Hn3 (onil_ok 0 ltac:(lia)) (onil_ok 0 ltac:(lia))) as (x & Hx).
  { intros s Hs. destruct (Hrow s ltac:(lia)) as (_ & _ & _ & _ & E & _). rewrite E. apply tinyC_big.
    pose proof (Rle_0_sqr (kwave 1 s)) as H. unfold Rsqr in H. rewrite Rabs_left; lra. }
  assert (Hs : exists u, solve lay1 o 4 1 (unitM 0) (pieces lay1 F) (pieces lay1 X0) onil onil memC = Ok u).
  { unfold solve. rewrite Hm'. cbn [bind]. change (np lay1) with 1%nat. rewrite Hx. cbn [bind]. eexists. reflexivity. }
  destruct Hs as (u & Hu). exists (glue lay1 u). split; [auto|]. split; [auto|]. split; [lia|]. split; [lra|].
  exists (pieces lay1 F), (pieces lay1 X0), onil, onil, memC, u. split; [apply gathers_pieces|]. split; [apply gathers_pieces|].
  split; [exact onil_ok|]. split; [exact onil_ok|]. split; [|split; [exact Hu|apply gathers_glue; auto]].
  intros mats' E k Hk. rewrite Hm' in E. apply Ok_inj in E. subst mats'. rewrite Hper.
  unfold system_rows, distributed. change (np lay1) with 1%nat. cbn [seq flat_map]. rewrite Hn3. cbn [seq map app].
  destruct (Hrow k Hk) as (-> & -> & -> & -> & -> & -> & -> & -> & ->). apply nonsingular3; auto.
  pose proof (Rle_0_sqr (kwave 1 k)) as H. unfold Rsqr in H. lra.
Qed.

Lemma dir_solved : forall F X0, exists U, solved lay1 exdir 4 1 (unitM 0) F X0 U.
Proof.
  intros F X0. apply (solved3 exdir 0.5 0.5 0.5 0.5); auto; try lra. intros k bk. do 2 eexists. intros m ->. eexists.
  unfold tridagMatrix. cbn [exdir periodicX negb]. change (0 =? 0)%nat with true. change (0 =? np lay1 - 1)%nat with true. cbv iota.
  unfold inner_rows, outer_rows. cbn [exdir inner outer noflags b_dc_grad b_ac_grad b_ac_lap b_dc_lap b_dc_gradpar b_dc_gradparinv b_cylinder b_set b_rhs andb orb].
  split; [destruct (k =? 0)%nat; cbn [bind]; reflexivity|].
  unfold low_rows, high_rows, low_zero, high_zero, cr3. unfold inbndry, outbndry. change (xs lay1 exdir 0) with 0%nat. change (xe lay1 exdir 0) with 2%nat.
  cbn [exdir inner outer noflags both_one b_one g lay1 Nat.ltb Nat.leb orb andb Nat.sub va vb vc vk fst snd]. rewrite !unit_coefs.
  cbn [fst snd unitM cA]. repeat split; try reflexivity. apply C_eq; cbn [Cplus RtoC fst snd]; ring.
Qed.

Lemma grad_solved : forall F X0, exists U, solved lay1 exgrad 4 1 (unitM 0) F X0 U.
Proof.
  intros F X0. apply (solved3 exgrad (-1 / sqrt 1 / 1) (1 / sqrt 1 / 1) 0.5 0.5); auto; try (rewrite sqrt_1; lra); try lra. intros k bk. do 2 eexists. intros m ->. eexists.
  unfold tridagMatrix. cbn [exgrad periodicX negb]. change (0 =? 0)%nat with true. change (0 =? np lay1 - 1)%nat with true. cbv iota.
  unfold inner_rows, outer_rows. cbn [exgrad inner outer noflags b_dc_grad b_ac_grad b_ac_lap b_dc_lap b_dc_gradpar b_dc_gradparinv b_cylinder b_set b_rhs andb orb].
  split; [destruct (k =? 0)%nat; cbn [bind]; reflexivity|].
  unfold low_rows, high_rows, low_zero, high_zero, cr3. unfold inbndry, outbndry. change (xs lay1 exgrad 0) with 0%nat. change (xe lay1 exgrad 0) with 2%nat.
  cbn [exgrad inner outer noflags both_one b_one g lay1 Nat.ltb Nat.leb orb andb Nat.sub va vb vc vk fst snd]. rewrite !unit_coefs.
  cbn [fst snd unitM cA g_11 dx]. repeat split; try reflexivity. apply C_eq; cbn [Cplus RtoC fst snd]; ring.
Qed.

Lemma per3_matrix : forall k bk, exists t, tridagMatrix lay3 exper 0 (view (0 * mx lay3) (unitM 0)) k (kwave 1 k) bk = Ok t /\
  vb t 1%nat = RtoC (-2 - kwave 1 k * kwave 1 k) /\
  if (k =? 0)%nat then
    va t 0%nat = RtoC 0 /\ vb t 0%nat = RtoC 1 /\ vc t 0%nat = RtoC 0 /\ va t 1%nat = RtoC 1 /\ vb t 1%nat = RtoC (-2) /\ vc t 1%nat = RtoC 1 /\
    va t 2%nat = RtoC 1 /\ vb t 2%nat = RtoC (-2) /\ vc t 2%nat = RtoC 1
  else forall i, va t i = RtoC 1 /\ vb t i = RtoC (-2 - kwave 1 k * kwave 1 k) /\ vc t i = RtoC 1.
Proof.
  intros k bk. rewrite view_unit. unfold tridagMatrix. cbn [exper periodicX negb]. change (0 =? 0)%nat with true. rewrite andb_true_r.
  destruct (Nat.eqb_spec k 0) as [->|Hk]; (eexists; split; [reflexivity|]); cbn [va vb vc Nat.eqb]; rewrite ?unit_coefs; cbn [fst snd unitM cA].
  - assert (E0 : kwave 1 0 = 0) by (unfold kwave; cbn [INR]; lra). rewrite E0.
    repeat split; try reflexivity; apply C_eq; cbn [Cplus RtoC fst snd]; ring.
  - split; [apply C_eq; cbn [Cplus RtoC fst snd]; ring|]. intros i. rewrite unit_coefs. cbn [fst snd]. repeat split; try reflexivity.
    apply C_eq; cbn [Cplus RtoC fst snd]; ring.
Qed.

Lemma per3_solved : forall F, exists U, solved_periodic lay3 exper 4 1 (unitM 0) F U.
Proof.
  intros F. assert (Hl : well_laid lay3) by (repeat split; cbn; lia).
  destruct (for_sys_ok (fun _ : nat => tvec0) (fun p => matrices lay3 exper p 4 1 (view (p * mx lay3) (unitM 0)) (pieces lay3 F p) (pieces lay3 F p)) 1) as (mats & Hm).
  { intros p Hp. assert (p = 0%nat) by lia. subst p. unfold matrices. apply for_sys_ok. intros k Hk.
    match goal with |- exists v, tridagMatrix _ _ _ _ _ _ ?bk = _ => destruct (per3_matrix k bk) as (t & Ht & _) end. eauto. }
  assert (Hm' : all_matrices lay3 exper 4 1 (unitM 0) (pieces lay3 F) (pieces lay3 F) = Ok mats) by exact Hm.
  assert (Hrow : forall k, (k <= 1)%nat -> vb (mats 0%nat k) 1%nat = RtoC (-2 - kwave 1 k * kwave 1 k) /\
    if (k =? 0)%nat then
    va (mats 0%nat k) 0%nat = RtoC 0 /\ vb (mats 0%nat k) 0%nat = RtoC 1 /\ vc (mats 0%nat k) 0%nat = RtoC 0 /\
    va (mats 0%nat k) 1%nat = RtoC 1 /\ vb (mats 0%nat k) 1%nat = RtoC (-2) /\ vc (mats 0%nat k) 1%nat = RtoC 1 /\
    va (mats 0%nat k) 2%nat = RtoC 1 /\ vb (mats 0%nat k) 2%nat = RtoC (-2) /\ vc (mats 0%nat k) 2%nat = RtoC 1
    else forall i, va (mats 0%nat k) i = RtoC 1 /\ vb (mats 0%nat k) i = RtoC (-2 - kwave 1 k * kwave 1 k) /\ vc (mats 0%nat k) i = RtoC 1).
  { intros k Hk. pose proof (mats_row lay3 exper 4 1 (unitM 0) (pieces lay3 F) (pieces lay3 F) mats 0 k Hm' ltac:(cbn; lia) ltac:(cbn; lia)) as Hr.
    match type of Hr with tridagMatrix _ _ _ _ _ _ ?bk = _ => destruct (per3_matrix k bk) as (t & Ht & HH) end.
    rewrite Hr in Ht. apply Ok_inj in Ht. rewrite Ht. exact HH. }
  assert (Hn3 : nrows lay3 exper 0 = 3%nat) by reflexivity.
  destruct (three_rows (maxmode exper + 1) (periodicX exper) (nrows lay3 exper) (fun p k => va (mats p k)) (fun p k => vb (mats p k))
               (fun p k => vc (mats p k)) (fun p k => vk (mats p k)) onil onil memC Hn3 (onil_ok 0 ltac:(lia)) (onil_ok 0 ltac:(lia))) as (x & Hx).
  { intros s Hs. cbn [exper maxmode Nat.add] in Hs. destruct (Hrow s ltac:(lia)) as (E & _). rewrite E. apply tinyC_big.
    pose proof (Rle_0_sqr (kwave 1 s)) as H. unfold Rsqr in H. rewrite Rabs_left; lra. }
  assert (Hs : exists u, solve lay3 exper 4 1 (unitM 0) (pieces lay3 F) (pieces lay3 F) onil onil memC = Ok u).
  { unfold solve. rewrite Hm'. cbn [bind]. change (np lay3) with 1%nat. rewrite Hx. cbn [bind]. eexists. reflexivity. }
  destruct Hs as (u & Hu). exists (glue_per lay3 u). split; [auto|]. split; [reflexivity|]. split; [lia|]. split; [lra|].
  exists (pieces lay3 F), (pieces lay3 F), onil, onil, memC, u. split; [apply gathers_pieces|].
  split; [exact onil_ok|]. split; [exact onil_ok|]. split; [|split; [exact Hu|split; [apply gathers_glue_per; auto|apply wraps_glue_per; auto]]].
  intros mats' E k Hk. cbn [exper maxmode] in Hk. rewrite Hm' in E. apply Ok_inj in E. subst mats'. change (periodicX exper) with true.
  destruct (Hrow k Hk) as (_ & HR). destruct (Nat.eqb_spec k 0) as [->|Hk0].
  - unfold system_rows, distributed. change (np lay3) with 1%nat. cbn [seq flat_map]. rewrite Hn3. cbn [seq map app].
    destruct HR as (-> & -> & -> & -> & -> & -> & -> & -> & ->). apply nonsingular3_pin.
  - apply dominant_nonsingular. intros r Hin. unfold system_rows, distributed in Hin. change (np lay3) with 1%nat in Hin.
    apply in_flat_map in Hin as (p & Hp & Hin). apply in_map_iff in Hin as (i & <- & Hi). apply in_seq in Hp. assert (p = 0%nat) by lia. subst p.
    unfold domrowC. cbn [ra rb rc]. destruct (HR i) as (-> & -> & ->). rewrite !Cmod_R, Rabs_R1. pose proof tiny_le.
    assert (k = 1%nat) by lia. subst k. pose proof kw1. rewrite Rabs_left by nra. nra.
Qed.
