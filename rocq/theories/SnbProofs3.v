(** The SNB model: a solver that exists (InvertParDiv on a closed surface), so that the model runs. *)
From Coq Require Import List Arith Bool ZArith Reals Lia Lra.
From Coquelicot Require Import Coquelicot.
From Verif Require Import Base CyclicModel CyclicSpec FftModel FftSpec FftProofs FvModel LaplaceModel LaplaceSpec ParInvModel ParInvSpec ParInvProofs ParInvProofs2 ParInvProofs3 ParInvProofs4 ParInvProofs5 ParInvProps SnbModel SnbSpec SnbProofs SnbProofs2.
Import ListNotations.
Local Open Scope R_scope.

Lemma div_dominant' : forall M i kw, (1 <= i)%nat -> / 10 ^ 10 <= yA M i ->
  (forall k, (i - 1 <= k <= i + 1)%nat -> yB M k <= 0 /\ 0 < yJ M k /\ 0 < yg22 M k /\ 0 < ydy M k) ->
  let d := div_coefs M i kw in Cmod (fst (fst d)) + Cmod (snd d) + / 10 ^ 10 <= Cmod (snd (fst d)).
Proof.
  intros M i kw Hi HA H d. unfold d, div_coefs. cbv zeta. cbn [fst snd]. rewrite !Cmod_R.
  destruct (H (i - 1)%nat ltac:(lia)) as (B0 & J0 & G0 & D0). destruct (H i ltac:(lia)) as (B1 & J1 & G1 & D1). destruct (H (i + 1)%nat ltac:(lia)) as (B2 & J2 & G2 & D2).
  set (bL := _ / (0.5 * (ydy M i + ydy M (i - 1)%nat) * _ * _ * _)). set (bR := _ / (0.5 * (ydy M i + ydy M (i + 1)%nat) * _ * _ * _)).
  assert (NN : forall a b d, a <= 0 -> 0 <= b -> 0 < d -> a * b / d <= 0).
  { intros a b d0 Ha Hb Hd. unfold Rdiv. assert (0 <= - a * b * / d0); [|lra]. apply Rmult_le_pos; [apply Rmult_le_pos; lra|]. left. apply Rinv_0_lt_compat. lra. }
  assert (PL : bL <= 0).
  { unfold bL. apply NN; [lra|lra|]. replace 0.5 with (/ 2) by lra. repeat apply Rmult_lt_0_compat; lra. }
  assert (PR : bR <= 0).
  { unfold bR. apply NN; [lra|lra|]. replace 0.5 with (/ 2) by lra. repeat apply Rmult_lt_0_compat; lra. }
  clearbody bL bR. assert (0 < / 10 ^ 10) by (apply Rinv_0_lt_compat, pow_lt; lra).
  rewrite (Rabs_left1 bL), (Rabs_left1 bR) by auto. rewrite Rabs_pos_eq by lra. lra.
Qed.

(** The fields of the processors put together, with the guard rows of the surface. *)
Definition glue (s : surface) (nz : nat) (zl : R) (u : nat -> plane) : plane :=
  let U0 := fun i => u ((i - gd s) / my s)%nat (gd s + (i - gd s) mod my s)%nat in
  fun i => if (i =? first s - 1)%nat then (if closed s then shiftZ_row nz zl (ts s) (U0 (past s - 1)%nat) else U0 (first s))
     else if (i =? past s)%nat then (if closed s then shiftZ_row nz zl (- ts s) (U0 (first s)) else U0 (past s - 1)%nat) else U0 i.
Lemma glue_solved : forall s nz zl co F old ord1 ord2 mem u,
  well_formed s -> (1 <= nz)%nat -> zl <> 0 ->
  (forall p, (p < np s)%nat -> arrival_order (np s) p (ord1 p)) -> (forall p, (p < np s)%nat -> arrival_order (np s) p (ord2 p)) ->
  modes_nonsingular s nz zl co (fun p y => to_row nz zl None (p * my s + y) (F (p * my s + y)%nat)) old ->
  solve s nz zl None co (fun p y => F (p * my s + y)%nat) old ord1 ord2 mem = Ok u -> solved s nz zl None co F (glue s nz zl u).
Proof.
  intros s nz zl co F old ord1 ord2 mem u Hl Hn Hz O1 O2 Hns Hs. pose proof Hl as (H1 & H2 & H3 & H4). pose proof (first_gd s) as Hfg.
  set (U0 := fun i => u ((i - gd s) / my s)%nat (gd s + (i - gd s) mod my s)%nat).
  set (U := glue s nz zl u).
  assert (UI : forall i, is_inside s i -> U i = U0 i).
  { intros i (A & B). unfold U, glue. rewrite (proj2 (Nat.eqb_neq i (first s - 1))), (proj2 (Nat.eqb_neq i (past s))) by lia. reflexivity. }
  split; [exact Hl|]. split; [exact Hn|]. split; [exact Hz|]. exists (fun p y => F (p * my s + y)%nat), old, ord1, ord2, mem, u.
  split; [intros p y j _ _ _ _; reflexivity|]. split; [exact O1|]. split; [exact O2|]. split; [exact Hns|]. split; [exact Hs|]. split.
  - intros p y j Hp Hy Hi Hj. rewrite UI by (split; [exact Hi|unfold past; nia]). unfold U0. cbn [to_row].
    assert (E : (p * my s + y - gd s = (y - gd s) + p * my s)%nat) by lia. rewrite E, Nat.div_add, Nat.mod_add, Nat.div_small, Nat.mod_small by lia.
    replace (0 + p)%nat with p by lia. replace (gd s + (y - gd s))%nat with y by lia. reflexivity.
  - intros j Hj.
    assert (UA : U (first s - 1)%nat = if closed s then shiftZ_row nz zl (ts s) (U0 (past s - 1)%nat) else U0 (first s)) by (unfold U, glue; rewrite Nat.eqb_refl; reflexivity).
    assert (UC : U (past s) = if closed s then shiftZ_row nz zl (- ts s) (U0 (first s)) else U0 (past s - 1)%nat).
    { unfold U, glue. rewrite (proj2 (Nat.eqb_neq (past s) (first s - 1))), Nat.eqb_refl by lia. reflexivity. }
    rewrite UA, UC, (UI (first s)), (UI (past s - 1)%nat) by (unfold is_inside; lia). destruct (closed s); auto.
Qed.

Lemma rsum_le : forall n f g, (forall i, (i < n)%nat -> f i <= g i) -> rsum n f <= rsum n g.
Proof. induction n as [|n IH]; intros f g H; cbn [rsum]; [lra|]. pose proof (IH f g ltac:(intros; apply H; lia)). pose proof (H n ltac:(lia)). lra. Qed.
Lemma rsum_nonneg : forall n f, (forall i, (i < n)%nat -> 0 <= f i) -> 0 <= rsum n f.
Proof. induction n as [|n IH]; intros f H; cbn [rsum]; [lra|]. pose proof (IH f ltac:(intros; apply H; lia)). pose proof (H n ltac:(lia)). lra. Qed.
Definition le (x y : R) : bool := if Rle_dec x y then true else false.
Definition lt (x y : R) : bool := if Rlt_dec x y then true else false.
Lemma le_spec : forall x y, le x y = true <-> x <= y.
Proof. intros. unfold le. destruct (Rle_dec x y); split; intros; auto; try discriminate; contradiction. Qed.
Lemma lt_spec : forall x y, lt x y = true <-> x < y.
Proof. intros. unfold lt. destruct (Rlt_dec x y); split; intros; auto; try discriminate; contradiction. Qed.
Definition good (s : surface) (M : ydata) : bool :=
  forallb (fun i => (le (/ 10 ^ 10) (yA M i) || (i =? first s - 1)%nat || (i =? past s)%nat) && le (yB M i) 0 && lt 0 (yJ M i) && lt 0 (yg22 M i) && lt 0 (ydy M i))%bool
    (seq (first s - 1) (past s - first s + 2)).
Lemma good_spec : forall s M, well_formed s -> good s M = true ->
  (forall i, is_inside s i -> / 10 ^ 10 <= yA M i) /\ (forall i, (first s - 1 <= i <= past s)%nat -> yB M i <= 0 /\ 0 < yJ M i /\ 0 < yg22 M i /\ 0 < ydy M i).
Proof.
  intros s M (H1 & H2 & H3 & H4) G. unfold good in G. rewrite forallb_forall in G. pose proof (first_gd s).
  assert (K : forall i, (first s - 1 <= i <= past s)%nat -> (le (/ 10 ^ 10) (yA M i) || (i =? first s - 1)%nat || (i =? past s)%nat = true)%bool /\ yB M i <= 0 /\ 0 < yJ M i /\ 0 < yg22 M i /\ 0 < ydy M i).
  { intros i Hi. specialize (G i). rewrite !andb_true_iff, le_spec, !lt_spec in G.
    assert (I : In i (seq (first s - 1) (past s - first s + 2))) by (apply in_seq; lia). specialize (G I). tauto. }
  split; [|intros i Hi; apply K, Hi]. intros i (A & B). destruct (K i ltac:(lia)) as (L & _).
  rewrite (proj2 (Nat.eqb_neq i (first s - 1))), (proj2 (Nat.eqb_neq i (past s))), !orb_false_r in L by lia. apply le_spec. exact L.
Qed.
Lemma good_intro : forall s M, (forall i, is_inside s i -> / 10 ^ 10 <= yA M i) -> (forall i, (first s - 1 <= i <= past s)%nat -> yB M i <= 0 /\ 0 < yJ M i /\ 0 < yg22 M i /\ 0 < ydy M i) ->
  well_formed s -> good s M = true.
Proof.
  intros s M HA H W0. pose proof W0 as (w1 & w2 & w3 & W). pose proof (first_gd s). unfold good. apply forallb_forall. intros i Hi. apply in_seq in Hi. rewrite !andb_true_iff, le_spec, !lt_spec.
  destruct (H i ltac:(lia)) as (a & b & d & e). repeat split; auto.
  destruct (Nat.eqb_spec i (first s - 1)) as [|N1]; [rewrite orb_true_r; reflexivity|]. destruct (Nat.eqb_spec i (past s)) as [|N2]; [rewrite orb_true_r; reflexivity|].
  rewrite !orb_false_r. apply le_spec, HA. split; lia.
Qed.

Section Solver.
Variables (s : surface) (nz : nat) (zl : R) (old : nat -> nat -> tvec) (ord1 ord2 : nat -> list nat) (mem : nat -> memory C).
Hypothesis W : well_formed s.
Hypothesis Hc : closed s = true.
Hypothesis Hm : (2 <= my s)%nat.
Hypothesis Hn : (1 <= nz)%nat.
Hypothesis Hz : zl <> 0.
Hypothesis O1 : forall p, (p < np s)%nat -> arrival_order (np s) p (ord1 p).
Hypothesis O2 : forall p, (p < np s)%nat -> arrival_order (np s) p (ord2 p).

Definition solver (M : ydata) (F : plane) : option plane :=
  if good s M then match invert_pardiv s nz zl None M (fun p y => F (p * my s + y)%nat) old ord1 ord2 mem with Ok u => Some (glue s nz zl u) | _ => None end else None.

Lemma good_dominated : forall M, good s M = true -> forall f old ord1 ord2 mem,
  (forall p, (p < np s)%nat -> arrival_order (np s) p (ord1 p)) -> (forall p, (p < np s)%nat -> arrival_order (np s) p (ord2 p)) ->
  (exists u, invert_pardiv s nz zl None M f old ord1 ord2 mem = Ok u) /\
  modes_nonsingular s nz zl (fun p => div_coefs (yview (p * my s) M)) (fun p y => to_row nz zl None (p * my s + y) (f p y)) old.
Proof.
  intros M G. destruct (good_spec s M W G) as (HA & H). intros f old' o1 o2 mem' P1 P2. unfold invert_pardiv. pose proof W as (H1 & H2 & H3 & H4). pose proof (first_gd s).
  apply (dominated_solve s nz zl None (div_coefs M)); auto; [intros; apply div_view; auto|].
  intros i k Hi Hk. pose proof Hi as (A & B). apply div_dominant'; [lia|apply HA; exact Hi|]. intros m Hm'. apply H. lia.
Qed.
Lemma solver_ok : forall M F U, solver M F = Some U -> div_solved s nz zl None M F U.
Proof.
  intros M F U E. unfold solver in E. destruct (good s M) eqn:G; [|discriminate].
  destruct (good_dominated M G (fun p y => F (p * my s + y)%nat) old ord1 ord2 mem O1 O2) as (_ & N).
  destruct (invert_pardiv s nz zl None M (fun p y => F (p * my s + y)%nat) old ord1 ord2 mem) as [u| |] eqn:Eu; try discriminate. injection E as <-.
  unfold div_solved. apply (glue_solved s nz zl _ F old ord1 ord2 mem u W Hn Hz O1 O2 N). exact Eu.
Qed.
Lemma solver_total : forall M F, good s M = true -> exists U, solver M F = Some U.
Proof.
  intros M F G. unfold solver. rewrite G. destruct (good_dominated M G (fun p y => F (p * my s + y)%nat) old ord1 ord2 mem O1 O2) as ((u & ->) & _).
  eexists. reflexivity.
Qed.

Variables (c : consts) (o : snb) (m : ydata) (yl : yline) (Te Ne : plane).
Hypothesis HP : physical c o Te Ne.
Hypothesis HM : forall i, (first s - 1 <= i <= past s)%nat -> 0 < yJ m i /\ 0 < yg22 m i /\ 0 < ydy m i.
Hypothesis HL : forall g i j, (g < ngroups o)%nat -> is_inside s i -> (j < nz)%nat -> lam_ee c o Te Ne g i j <= 10 ^ 10.

Lemma problems_good : forall g, (g < ngroups o)%nat -> good s (problem c o nz m Te Ne g) = true.
Proof.
  intros g Hg. assert (P0 : 0 < INR nz) by (apply lt_0_INR; lia). apply good_intro.
  - intros i Hi. unfold problem, with_coefs. cbn [yA]. unfold dc_row. apply Rmult_le_reg_r with (INR nz); [exact P0|].
    unfold Rdiv. rewrite Rmult_assoc, Rinv_l, Rmult_1_r by lra.
    rewrite Rmult_comm. rewrite <- (rsum_const nz (/ 10 ^ 10)). apply rsum_le. intros j Hj.
    rewrite lam_ee_eq by exact HP. unfold Rdiv. rewrite Rmult_1_l. apply Rinv_le_contravar; [apply lam_ee_pos; exact HP|apply HL; auto].
  - intros i Hi. destruct (HM i Hi) as (a & b & d). unfold problem, with_coefs. cbn [yB yJ yg22 ydy]. split; [|auto].
    unfold dc_row. assert (0 <= rsum nz (fun j => lam_ei c o Te Ne g i j)).
    { apply rsum_nonneg. intros j _. left. apply lam_ei_pos. exact HP. }
    rewrite (rsum_ext nz _ (fun j => (-1 / 3) * lam_ei c o Te Ne g i j)) by (intros j _; rewrite lam_ei_eq by exact HP; reflexivity).
    rewrite rsum_scal. unfold Rdiv. assert (0 < / INR nz) by (apply Rinv_0_lt_compat; exact P0). 
    change (fun j : nat => lam_ei c o Te Ne g i j) with (lam_ei c o Te Ne g i) in *. assert (0 <= rsum nz (lam_ei c o Te Ne g i) * / INR nz) by (apply Rmult_le_pos; lra). rewrite Rmult_assoc. lra.
  - exact W.
Qed.
Lemma runs_groups : forall n g Q0, (g + n <= ngroups o)%nat -> exists Q, groups c o nz m yl Te Ne solver n (limit_of o g) Q0 = Some Q.
Proof.
  induction n as [|n IH]; intros g Q0 H; cbn [groups]; [eexists; reflexivity|]. cbv zeta. rewrite limit_step, weight_model.
  destruct (solver_total (problem c o nz m Te Ne g) (rhs c o m yl Te Ne g) (problems_good g ltac:(lia))) as (U & E).
  unfold problem, rhs in E. rewrite E. apply IH. lia.
Qed.
Lemma runs : exists Q, snb_run s zl c o nz m Te Ne Q.
Proof.
  destruct (runs_groups (ngroups o) 0 (Div_Q_SH c o m yl Te Ne) ltac:(lia)) as (Q & E). exists Q. exists yl, solver. split; [exact solver_ok|].
  unfold divHeatFlux. replace 0 with (limit_of o 0) by (unfold limit_of; cbn [INR]; ring). exact E.
Qed.
End Solver.
