(** Inversion of parallel derivatives: existence of the assembled solution; sufficient conditions in terms of the fields. *)
From Coq Require Import List Arith Bool ZArith Reals Lia Lra Permutation.
From Coquelicot Require Import Complex.
From Verif Require Import Base CyclicModel CyclicSpec CyclicProofs2 CyclicProofs3 CyclicProps FftModel FftSpec FftProofs FftProofs2 FftProofs3 FftProofs4 FftProofs5
  LaplaceModel LaplaceSpec LaplaceProofs LaplaceProofs10 ParInvModel ParInvSpec ParInvProofs ParInvProofs2 ParInvProofs3 ParInvProofs4.
Import ListNotations.
Local Open Scope R_scope.

Lemma assemble : forall s nz zl tr co F f old ord1 ord2 mem u,
  well_formed s -> (1 <= nz)%nat -> zl <> 0 -> collects s nz f F ->
  (forall p, (p < np s)%nat -> arrival_order (np s) p (ord1 p)) -> (forall p, (p < np s)%nat -> arrival_order (np s) p (ord2 p)) ->
  modes_nonsingular s nz zl co (fun p y => to_row nz zl tr (p * my s + y) (f p y)) old ->
  solve s nz zl tr co f old ord1 ord2 mem = Ok u -> exists U, solved s nz zl tr co F U.
Proof.
  intros s nz zl tr co F f old ord1 ord2 mem u Hl Hn Hz Hf O1 O2 Hns Hs. pose proof Hl as (H1 & H2 & H3 & H4).
  pose proof (first_gd s) as Hfg.
  set (U0 := fun i => to_row nz zl tr i (u ((i - gd s) / my s)%nat (gd s + (i - gd s) mod my s)%nat)).
  set (U := fun i => if (i =? first s - 1)%nat then (if closed s then shiftZ_row nz zl (ts s) (U0 (past s - 1)%nat) else U0 (first s))
     else if (i =? past s)%nat then (if closed s then shiftZ_row nz zl (- ts s) (U0 (first s)) else U0 (past s - 1)%nat) else U0 i).
  assert (UI : forall i, is_inside s i -> U i = U0 i).
  { intros i (A & B). unfold U. rewrite (proj2 (Nat.eqb_neq i (first s - 1))), (proj2 (Nat.eqb_neq i (past s))) by lia. reflexivity. }
  exists U. split; [exact Hl|]. split; [exact Hn|]. split; [exact Hz|]. exists f, old, ord1, ord2, mem, u.
  split; [exact Hf|]. split; [exact O1|]. split; [exact O2|]. split; [exact Hns|]. split; [exact Hs|]. split.
  - intros p y j Hp Hy Hi Hj. rewrite UI by (split; [exact Hi|unfold past; nia]). unfold U0.
    assert (E : (p * my s + y - gd s = (y - gd s) + p * my s)%nat) by lia. rewrite E, Nat.div_add, Nat.mod_add, Nat.div_small, Nat.mod_small by lia.
    replace (0 + p)%nat with p by lia. replace (gd s + (y - gd s))%nat with y by lia. reflexivity.
  - intros j Hj.
    assert (UA : U (first s - 1)%nat = if closed s then shiftZ_row nz zl (ts s) (U0 (past s - 1)%nat) else U0 (first s)) by (unfold U; rewrite Nat.eqb_refl; reflexivity).
    assert (UC : U (past s) = if closed s then shiftZ_row nz zl (- ts s) (U0 (first s)) else U0 (past s - 1)%nat).
    { unfold U. rewrite (proj2 (Nat.eqb_neq (past s) (first s - 1))), Nat.eqb_refl by lia. reflexivity. }
    rewrite UA, UC, (UI (first s)), (UI (past s - 1)%nat) by (unfold is_inside; lia). destruct (closed s); auto.
Qed.

Lemma dominated_solve : forall s nz zl tr c co,
  well_formed s -> closed s = true -> (2 <= my s)%nat -> (forall p y kw, (1 <= y)%nat -> co p y kw = c (p * my s + y)%nat kw) ->
  (forall i k, is_inside s i -> (k <= nz / 2)%nat -> let d := c i (kwave zl k) in Cmod (fst (fst d)) + Cmod (snd d) + / 10 ^ 10 <= Cmod (snd (fst d))) ->
  forall f old ord1 ord2 mem,
  (forall p, (p < np s)%nat -> arrival_order (np s) p (ord1 p)) -> (forall p, (p < np s)%nat -> arrival_order (np s) p (ord2 p)) ->
  (exists u, solve s nz zl tr co f old ord1 ord2 mem = Ok u) /\
  modes_nonsingular s nz zl co (fun p y => to_row nz zl tr (p * my s + y) (f p y)) old.
Proof.
  intros s nz zl tr c co Hl Hc Hm Hco Hd f old ord1 ord2 mem O1 O2. split.
  - destruct (dom_ok s nz zl c co (fun p y => to_row nz zl tr (p * my s + y) (f p y)) old Hl Hc Hco Hd Hm ord1 ord2 mem O1 O2) as (u & E).
    unfold solve. rewrite E. cbn [bind]. eexists. reflexivity.
  - apply (dom_nonsingular s nz zl c co); auto.
Qed.

(** Dominance in terms of the fields. *)
Lemma Cmod_R : forall x, Cmod (RtoC x) = Rabs x.
Proof. intros. apply Cmod_R. Qed.
Lemma par_dominant : forall nu M i kw, yC M i = 0 -> 0 <= yD M i -> yA M i <= - / 10 ^ 10 -> 0 < ydy M i -> 0 < yg22 M i ->
  Rabs (yE M i + sg M i * yB M i + when nu (yB M i / yg22 M i * yd1 M i)) * ydy M i <= 2 * (yB M i / yg22 M i) ->
  let d := par_coefs nu M i kw in Cmod (fst (fst d)) + Cmod (snd d) + / 10 ^ 10 <= Cmod (snd (fst d)).
Proof.
  intros nu M i kw HC HD HA Hdy Hg HE d. unfold d, par_coefs. cbv zeta. rewrite HC.
  set (e0 := if nu then yE M i + sg M i * yB M i + yB M i / yg22 M i * yd1 M i else yE M i + sg M i * yB M i).
  assert (Ee : e0 = yE M i + sg M i * yB M i + when nu (yB M i / yg22 M i * yd1 M i)) by (unfold e0, when; destruct nu; ring). rewrite <- Ee in HE. clearbody e0.
  set (b0 := yB M i / yg22 M i) in *. clearbody b0. cbn [fst snd].
  assert (Hb : Rabs (0.5 * (e0 / ydy M i)) <= b0 / (ydy M i * ydy M i)).
  { assert (P : 0 < / (ydy M i * ydy M i)) by (apply Rinv_0_lt_compat; nra). pose proof (Rmult_le_compat_r (/ 2 * / (ydy M i * ydy M i)) _ _ ltac:(nra) HE) as Q.
    replace (2 * b0 * (/ 2 * / (ydy M i * ydy M i))) with (b0 / (ydy M i * ydy M i)) in Q by (unfold Rdiv; field; lra).
    replace (Rabs (0.5 * (e0 / ydy M i))) with (Rabs e0 * ydy M i * (/ 2 * / (ydy M i * ydy M i))); [exact Q|].
    rewrite Rabs_mult. unfold Rdiv. rewrite Rabs_mult, (Rabs_pos_eq (/ ydy M i)) by (left; apply Rinv_0_lt_compat; auto). rewrite (Rabs_pos_eq 0.5) by lra. replace 0.5 with (/ 2) by lra. field. lra. }
  set (b1 := b0 / (ydy M i * ydy M i)) in *. set (e1 := 0.5 * (e0 / ydy M i)) in *. clearbody b1 e1.
  replace (0 / ydy M i) with 0 by (unfold Rdiv; ring). replace (- (0.5 * kw * 0), 0)%R with (0, 0)%R by (f_equal; ring).
  replace ((b1 - e1, - (0.5 * kw * 0)) : C) with (RtoC (b1 - e1)) by (apply C_eq; cbn [RtoC fst snd]; ring).
  replace ((b1 + e1, 0.5 * kw * 0) : C) with (RtoC (b1 + e1)) by (apply C_eq; cbn [RtoC fst snd]; ring).
  rewrite !Cmod_R. assert (Hb2 : - b1 <= e1 <= b1) by (pose proof (Rle_abs e1); pose proof (Rle_abs (- e1)) as Q; rewrite Rabs_Ropp in Q; lra).
  rewrite (Rabs_pos_eq (b1 - e1)), (Rabs_pos_eq (b1 + e1)) by lra. assert (0 <= kw * kw * yD M i) by (apply Rmult_le_pos; [nra|auto]).
  assert (0 < / 10 ^ 10) by (apply Rinv_0_lt_compat, pow_lt; lra). rewrite Rabs_left by lra. lra.
Qed.
Lemma div_dominant : forall M i kw, (1 <= i)%nat -> yA M i <= - / 10 ^ 10 ->
  (forall k, (i - 1 <= k <= i + 1)%nat -> 0 <= yB M k /\ 0 < yJ M k /\ 0 < yg22 M k /\ 0 < ydy M k) ->
  let d := div_coefs M i kw in Cmod (fst (fst d)) + Cmod (snd d) + / 10 ^ 10 <= Cmod (snd (fst d)).
Proof.
  intros M i kw Hi HA H d. unfold d, div_coefs. cbv zeta. cbn [fst snd]. rewrite !Cmod_R.
  destruct (H (i - 1)%nat ltac:(lia)) as (B0 & J0 & G0 & D0). destruct (H i ltac:(lia)) as (B1 & J1 & G1 & D1). destruct (H (i + 1)%nat ltac:(lia)) as (B2 & J2 & G2 & D2).
  set (bL := _ / (0.5 * (ydy M i + ydy M (i - 1)%nat) * _ * _ * _)). set (bR := _ / (0.5 * (ydy M i + ydy M (i + 1)%nat) * _ * _ * _)).
  assert (PL : 0 <= bL).
  { unfold bL, Rdiv. apply Rmult_le_pos; [apply Rmult_le_pos; lra|]. left. apply Rinv_0_lt_compat. replace 0.5 with (/ 2) by lra. repeat apply Rmult_lt_0_compat; lra. }
  assert (PR : 0 <= bR).
  { unfold bR, Rdiv. apply Rmult_le_pos; [apply Rmult_le_pos; lra|]. left. apply Rinv_0_lt_compat. replace 0.5 with (/ 2) by lra. repeat apply Rmult_lt_0_compat; lra. }
  clearbody bL bR. assert (0 < / 10 ^ 10) by (apply Rinv_0_lt_compat, pow_lt; lra).
  rewrite (Rabs_pos_eq bL), (Rabs_pos_eq bR) by auto. rewrite Rabs_left by lra. lra.
Qed.

(** A surface of three rows. *)
Lemma one_open : forall nz zl co f old ord1 ord2 mem,
  arrival_order 1 0 (ord1 0%nat) -> arrival_order 1 0 (ord2 0%nat) ->
  (forall kw, co 0%nat 1%nat kw = (RtoC 1, RtoC (-3), RtoC 1)) ->
  let s := Surface 1 1 1 false false 0 in
  (exists u, solve s nz zl None co f old ord1 ord2 mem = Ok u) /\ modes_nonsingular s nz zl co (fun p y => to_row nz zl None (p * my s + y) (f p y)) old.
Proof.
  intros nz zl co f old ord1 ord2 mem O1 O2 Hc s.
  set (rows := fun p y => to_row nz zl None (p * my s + y) (f p y)).
  assert (Hl : well_formed s) by (unfold well_formed, first, past; cbn; lia).
  assert (S1 : forall k, let t := system s 0 nz zl (co 0%nat) (rows 0%nat) (old 0%nat k) k in
    va t 1%nat = RtoC 1 /\ vb t 1%nat = RtoC (-3) /\ vc t 1%nat = RtoC 1).
  { intros k t. destruct (interior_sys s nz zl co rows old Hl 0 1 k 1 ltac:(cbn; lia) ltac:(cbn; lia) eq_refl ltac:(cbn; lia) ltac:(cbn; lia)) as (A & B & D & _).
    unfold sysof in A, B, D. fold t in A, B, D. change (start s 0 + 1)%nat with 1%nat in *. unfold phl, phr in *. cbn [closed andb s] in *. rewrite Hc in *. cbn [fst snd] in *. rewrite Cmult_1_r in *. auto. }
  split.
  - destruct (three_rows (1 + nz / 2) false (size s) (fun p kz => va (sysof s nz zl co rows old p kz)) (fun p kz => vb (sysof s nz zl co rows old p kz))
      (fun p kz => vc (sysof s nz zl co rows old p kz)) (fun p kz => vk (sysof s nz zl co rows old p kz)) ord1 ord2 mem eq_refl O1 O2) as (x & E).
    { intros k _. destruct (S1 k) as (_ & B & _). unfold sysof. rewrite B. unfold tinyC. destruct (Rlt_dec _ _) as [L|L]; [|reflexivity]. exfalso.
      rewrite Cmod_R, Rabs_left in L by lra. assert (/ 10 ^ 10 < 1); [|lra]. rewrite <- Rinv_1. apply Rinv_lt_contravar; [|apply Rlt_pow_R1; [lra|lia]]. rewrite Rmult_1_l. apply pow_lt. lra. }
    assert (E' : exists v, solve_aligned s nz zl co rows old ord1 ord2 mem = Ok v).
    { eexists. unfold solve_aligned. cbv zeta. match goal with |- bind ?r ?g = _ => transitivity (bind (Ok x) g); [apply (f_equal (fun rr0 => bind rr0 g)); exact E|reflexivity] end. }
    destruct E' as (v & E'). unfold solve. fold rows. rewrite E'. cbn [bind]. eexists. reflexivity.
  - intros k Hk. destruct (S1 k) as (A & B & D).
    destruct (lower_sys s nz zl co rows old Hl k 0 eq_refl ltac:(cbn; lia)) as (L1 & L2 & L3 & _).
    destruct (upper_sys s nz zl co rows old k 0 2 eq_refl eq_refl ltac:(cbn; lia)) as (U1 & U2 & U3 & _).
    unfold sysof in *.
    assert (E : system_rows s nz zl co rows old k = [CyclicSpec.Row (RtoC 0) (RtoC 1) (RtoC (-1)) (vk (system s 0 nz zl (co 0%nat) (rows 0%nat) (old 0%nat k) k) 0%nat);
      CyclicSpec.Row (RtoC 1) (RtoC (-3)) (RtoC 1) (vk (system s 0 nz zl (co 0%nat) (rows 0%nat) (old 0%nat k) k) 1%nat);
      CyclicSpec.Row (RtoC (-1)) (RtoC 1) (RtoC 0) (vk (system s 0 nz zl (co 0%nat) (rows 0%nat) (old 0%nat k) k) 2%nat)]).
    { unfold system_rows, distributed. change (np s) with 1%nat. change (size s 0) with 3%nat. cbn [seq flat_map map List.app]. cbv zeta.
change (seq 0 (size s 0)) with [0%nat; 1%nat; 2%nat]. cbn [map List.app]. rewrite A, B, D, L1, L2, L3, U1, U2, U3. reflexivity. }
    fold rows. rewrite E. change (closed s) with false. apply nonsingular3; lra.
Qed.

(** The boundary rows of an open surface. *)
Lemma boundary_rows : forall s nz zl co f old ord1 ord2 mem u,
  well_formed s -> (1 <= nz)%nat -> closed s = false ->
  (forall p, (p < np s)%nat -> arrival_order (np s) p (ord1 p)) -> (forall p, (p < np s)%nat -> arrival_order (np s) p (ord2 p)) ->
  modes_nonsingular s nz zl co f old ->
  solve s nz zl None co f old ord1 ord2 mem = Ok u ->
  (forall y j, ((if ylow s then 1 else 0) <= y < first s)%nat -> (y + 1 < gd s + my s)%nat -> u 0%nat y j = u 0%nat (y + 1)%nat j) /\
  (forall y j, (gd s + my s <= y < my s + 2 * gd s)%nat -> u (np s - 1)%nat y j = u (np s - 1)%nat (y - 1)%nat j).
Proof.
  intros s nz zl co f old ord1 ord2 mem u Hl Hnz Hc O1 O2 N E. unfold solve, to_row, from_row in E.
  change (fun p y : nat => f p y) with f in E.
  destruct (solve_aligned s nz zl co f old ord1 ord2 mem) as [v| |] eqn:Ev; cbn [bind] in E; try discriminate. injection E as <-.
  destruct (solve_modes s nz zl co f old ord1 ord2 mem v Hl O1 O2 N Ev) as (Y & E1 & _ & E3 & E4 & _).
  pose proof Hl as (H1 & H2 & H3 & H4). pose proof (start0 s) as S0. rewrite Hc in S0.
  assert (Sp : forall p, (start s p <= gd s)%nat) by (intros p; unfold start, local_ystart, y0; destruct (firstY s p), (ylow s); cbn [andb]; lia).
  assert (Sz : forall p, ((if ylow s then gd s - 1 else gd s) * (if (p =? 0)%nat then 1 else 0) + my s + (if (p =? np s - 1)%nat then gd s else 0) = size s p)%nat).
  { intros p. unfold size, firstY, lastY, LocalNy. rewrite Hc. cbn [negb andb]. destruct (p =? 0)%nat, (p =? np s - 1)%nat, (ylow s); lia. }
  split.
  - intros y j Hy Hy2. pose proof (Sz 0%nat) as Z. cbn [Nat.eqb] in Z.
    assert (B : (y + 1 - start s 0 < size s 0)%nat) by (destruct (ylow s), (0 =? np s - 1)%nat; lia).
    rewrite (E1 0%nat y j), (E1 0%nat (y + 1)%nat j) by (destruct (ylow s); lia). apply irfft_ext0; [auto|].
    intros k Hk. cbn [Nat.mul Nat.add]. apply (E3 Hc k y Hk). destruct (ylow s); lia.
  - intros y j Hy. pose proof (Sz (np s - 1)%nat) as Z. rewrite Nat.eqb_refl in Z. specialize (Sp (np s - 1)%nat).
    assert (B : (y - start s (np s - 1) < size s (np s - 1))%nat).
    { destruct (Nat.eqb_spec (np s - 1) 0) as [E0|E0]; [rewrite E0 in *; destruct (ylow s); lia|].
      assert (S1 : start s (np s - 1) = gd s); [|lia]. unfold start, local_ystart, y0, firstY. rewrite (proj2 (Nat.eqb_neq (np s - 1) 0)), andb_false_r by auto. cbn [andb]. lia. }
    rewrite (E1 (np s - 1)%nat y j), (E1 (np s - 1)%nat (y - 1)%nat j) by lia. apply irfft_ext0; [auto|].
    intros k Hk. assert (Q : ((np s - 1) * my s + (y - 1) = (np s - 1) * my s + y - 1)%nat) by (clear - Hy H2; generalize ((np s - 1) * my s)%nat; lia). rewrite Q.
    apply (E4 Hc k _ Hk). unfold past. replace (np s * my s)%nat with ((np s - 1) * my s + my s)%nat by nia. lia.
Qed.
