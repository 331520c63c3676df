(** Inversion of parallel derivatives: layout of the rows, and the equations of every mode. *)
From Coq Require Import List Arith Bool ZArith Reals Lia Lra.
From Coquelicot Require Import Complex.
From Verif Require Import Base CyclicModel CyclicSpec CyclicProofs2 CyclicProofs3 CyclicProps FftModel FftSpec FftProofs FftProofs2 FftProofs3 FftProofs4
  LaplaceModel LaplaceSpec LaplaceProofs ParInvModel ParInvSpec.
Import ListNotations.
Local Open Scope R_scope.

(** The local index of row 0. *)
Definition start (s : surface) (p : nat) : nat := (local_ystart s p - y0 s p)%nat.

Lemma y0_le : forall s p, (y0 s p <= local_ystart s p)%nat.
Proof. intros s p. unfold y0, local_ystart. destruct (firstY s p), (ylow s); cbn [andb]; lia. Qed.

Lemma off_size : forall s p, well_formed s -> (p < np s)%nat -> (off (size s) p + start s 0 = p * my s + start s p)%nat.
Proof.
  intros s p (H1 & H2 & H3 & H4) Hp. unfold first, past in H4. induction p as [|p IH]; [reflexivity|]. cbn [off].
  specialize (IH ltac:(lia)). revert IH. unfold size, start, local_ystart, y0, firstY, lastY, LocalNy.
  rewrite (proj2 (Nat.eqb_neq (S p) 0)), (proj2 (Nat.eqb_neq p (np s - 1))), !andb_false_r by lia. cbn [Nat.eqb andb].
  destruct (closed s), (ylow s), (p =? 0)%nat; cbn [negb andb] in *; lia.
Qed.
Definition total (s : surface) : nat := (past s + (if closed s then 0 else gd s) - start s 0)%nat.
Lemma off_all : forall s, well_formed s -> off (size s) (np s) = total s.
Proof.
  intros s Hl. pose proof Hl as (H1 & H2 & H3 & H4). destruct (np s) as [|P] eqn:E; [lia|]. cbn [off].
  pose proof (off_size s P Hl ltac:(lia)) as A. revert A. unfold total, past. rewrite E. unfold size, start, local_ystart, y0, firstY, lastY, LocalNy.
  rewrite E. replace (P =? S P - 1)%nat with true by (symmetry; apply Nat.eqb_eq; lia).
  unfold first, past in H4. rewrite E in H4.
  destruct (closed s), (ylow s); destruct (Nat.eqb_spec P 0); cbn [negb andb Nat.eqb] in *; try subst P; lia.
Qed.

(** The owner of an interior point. *)
Lemma owner : forall s i, well_formed s -> (gd s <= i < past s)%nat -> (first s <= i)%nat ->
  exists p q, (p < np s)%nat /\ (q < size s p)%nat /\ i = (off (size s) p + q + start s 0)%nat /\ i = (p * my s + (start s p + q))%nat /\
    (gd s <= start s p + q < gd s + my s)%nat /\ (local_ystart s p <= start s p + q)%nat /\ q = (start s p + q + y0 s p - local_ystart s p)%nat.
Proof.
  intros s i Hl Hi Hf. pose proof Hl as (H1 & H2 & H3 & H4). unfold past in *.
  set (p := ((i - gd s) / my s)%nat). set (r := ((i - gd s) mod my s)%nat).
  assert (Ei : (i - gd s = my s * p + r)%nat) by (apply Nat.div_mod; lia).
  assert (Hr : (r < my s)%nat) by (apply Nat.mod_upper_bound; lia).
  assert (Hp : (p < np s)%nat) by nia. clearbody p r.
  assert (Hs : (start s p <= gd s)%nat) by (unfold start, local_ystart, y0; destruct (firstY s p), (ylow s); cbn [andb]; lia).
  assert (Hx : (local_ystart s p <= gd s + r)%nat).
  { unfold local_ystart, firstY, first in *. destruct (Nat.eqb_spec p 0) as [->|]; [|rewrite andb_false_r; cbn [andb]; lia].
    rewrite andb_true_r. destruct (negb (closed s) && ylow s)%bool; lia. }
  exists p, (gd s + r - start s p)%nat. pose proof (off_size s p Hl Hp) as A.
  split; [exact Hp|]. split.
  { unfold size, start, local_ystart, y0, LocalNy in *. destruct (firstY s p), (lastY s p), (ylow s); cbn [andb] in *; lia. }
  split; [lia|]. split; [lia|]. split; [lia|]. split; [lia|]. unfold start, local_ystart, y0 in *. clear A H4. destruct (firstY s p), (ylow s); cbn [andb] in *; lia.
Qed.

(** The last row of the last processor, and the rows of the boundaries. *)
Lemma start0 : forall s, start s 0 = if closed s then gd s else if ylow s then 1%nat else 0%nat.
Proof. intros s. unfold start, local_ystart, y0, firstY. destruct (closed s), (ylow s); cbn [negb andb Nat.eqb]; lia. Qed.

(** ** What [solve_aligned] says, mode by mode *)
Section Modes.
Variables (s : surface) (nz : nat) (zl : R) (co : nat -> nat -> R -> coef3) (rows : nat -> nat -> nat -> R).
Variables (old : nat -> nat -> tvec) (ord1 ord2 : nat -> list nat) (mem : nat -> memory C) (u : nat -> nat -> nat -> R).
Hypothesis Hl : well_formed s.
Hypothesis O1 : forall p, (p < np s)%nat -> arrival_order (np s) p (ord1 p).
Hypothesis O2 : forall p, (p < np s)%nat -> arrival_order (np s) p (ord2 p).
Hypothesis Hns : modes_nonsingular s nz zl co rows old.
Hypothesis Hsolve : solve_aligned s nz zl co rows old ord1 ord2 mem = Ok u.

Definition sysof (p k : nat) : tvec := system s p nz zl (co p) (rows p) (old p k) k.

Lemma solve_rows : exists X : nat -> nat -> C,
  (forall p q j, (p < np s)%nat -> (q < size s p)%nat -> u p (start s p + q)%nat j = irfft nz (X (off (size s) p + q)%nat) j) /\
  (forall k, (k <= nz / 2)%nat -> solves C (RtoC 0) Cplus Cmult (closed s) (system_rows s nz zl co rows old k) (map (fun i => X i k) (seq 0 (total s)))).
Proof.
  unfold solve_aligned in Hsolve.
  match type of Hsolve with context [solveC ?a ?b ?c ?d ?e ?f ?gg ?h] => destruct (solveC a b c d e f gg h) as [x| |] eqn:Es end; cbn [bind] in Hsolve; try discriminate.
  injection Hsolve as <-. destruct Hl as (H1 & H2 & H3 & H4).
  set (X := fun i k => nth i (distributed (np s) (size s) (fun p => x p k)) (RtoC 0)).
  assert (HX : forall p q k, (p < np s)%nat -> (q < size s p)%nat -> X (off (size s) p + q)%nat k = x p k q).
  { intros p q k A B. unfold X. apply nth_error_nth. apply (distributed_nth (np s) (size s) (fun p => x p k)); auto. }
  exists X. split.
  - intros p q j A B. replace (start s p + q + y0 s p - local_ystart s p)%nat with q.
    2:{ unfold start, local_ystart, y0. destruct (firstY s p), (ylow s); cbn [andb]; lia. }
    unfold irfft, fftw_c2r. rewrite !HX by auto. f_equal. f_equal. apply rsum_ext. intros i Hi. rewrite HX by auto. reflexivity.
  - intros k Hk.
    pose proof (C25_complex_solution (1 + nz / 2) (np s) (closed s) (size s) (fun p kz => va (sysof p kz)) (fun p kz => vb (sysof p kz))
      (fun p kz => vc (sysof p kz)) (fun p kz => vk (sysof p kz)) ord1 ord2 mem x H1 O1 O2 Es k ltac:(lia) (Hns k Hk)) as S.
    replace (map (fun i => X i k) (seq 0 (total s))) with (distributed (np s) (size s) (fun p => x p k)); [exact S|].
    apply (nth_ext _ _ (RtoC 0) (RtoC 0)).
    + rewrite distributed_len, map_length, seq_length. apply off_all. exact Hl.
    + intros i Hi. rewrite distributed_len, off_all in Hi by exact Hl.
      rewrite (nth_indep (map (fun i => X i k) (seq 0 (total s))) (RtoC 0) (X 0%nat k)) by (rewrite map_length, seq_length; exact Hi).
      rewrite (map_nth (fun i => X i k)), seq_nth by exact Hi. reflexivity.
Qed.

(** The system at an interior point; the phases at the ends of a closed surface. *)
Definition phl (i k : nat) : C := if (closed s && (i =? first s)%nat)%bool then shiftM zl (ts s) k else RtoC 1.
Definition phr (i k : nat) : C := if (closed s && (i + 1 =? past s)%nat)%bool then shiftM zl (- ts s) k else RtoC 1.

Lemma interior_sys : forall p q k i, (p < np s)%nat -> (q < size s p)%nat -> i = (p * my s + (start s p + q))%nat ->
  (gd s <= start s p + q < gd s + my s)%nat -> (local_ystart s p <= start s p + q)%nat ->
  let c := co p (start s p + q)%nat (kwave zl k) in
  va (sysof p k) q = Cmult (fst (fst c)) (phl i k) /\ vb (sysof p k) q = snd (fst c) /\ vc (sysof p k) q = Cmult (snd c) (phr i k) /\
  vk (sysof p k) q = rfft nz (rows p (start s p + q)%nat) k.
Proof.
  intros p q k i Hp Hq Hi Hy Hy' c. destruct Hl as (H1 & H2 & H3 & H4).
  assert (Hin : ((y0 s p <=? q) && (q <? y0 s p + (LocalNy s - gd s - local_ystart s p)))%nat%bool = true).
  { apply andb_true_iff. pose proof (y0_le s p). unfold start, LocalNy in *. split; [apply Nat.leb_le|apply Nat.ltb_lt]; lia. }
  assert (Hpt : (q - y0 s p + local_ystart s p = start s p + q)%nat).
  { apply andb_true_iff in Hin as (A & _). apply Nat.leb_le in A. unfold start, local_ystart, y0 in *. destruct (firstY s p), (ylow s); cbn [andb] in *; lia. }
  assert (E : va (inner_system s p nz zl (co p) (rows p) (old p k) k) q = fst (fst c) /\ vb (inner_system s p nz zl (co p) (rows p) (old p k) k) q = snd (fst c) /\
     vc (inner_system s p nz zl (co p) (rows p) (old p k) k) q = snd c /\ vk (inner_system s p nz zl (co p) (rows p) (old p k) k) q = rfft nz (rows p (start s p + q)%nat) k).
  { unfold inner_system. cbv zeta. cbn [va vb vc vk]. rewrite Hin, Hpt. repeat split; reflexivity. }
  destruct E as (E1 & E2 & E3 & E4). unfold sysof, system. cbv zeta. set (t := inner_system s p nz zl (co p) (rows p) (old p k) k) in *. clearbody t c.
  unfold phl, phr. destruct (closed s) eqn:Ec; cbn [andb].
  - assert (Es : start s p = gd s) by (unfold start, local_ystart, y0, firstY; rewrite Ec; cbn [negb andb]; lia).
    assert (Ef : first s = gd s) by (unfold first; rewrite Ec; reflexivity).
    assert (B1 : (i =? first s)%nat = ((p =? 0) && (q =? 0))%nat%bool).
    { rewrite Ef, Hi, Es. destruct (Nat.eqb_spec p 0) as [->|]; destruct (Nat.eqb_spec q 0); cbn [andb]; [apply Nat.eqb_eq|apply Nat.eqb_neq|apply Nat.eqb_neq|apply Nat.eqb_neq]; nia. }
    assert (B2 : (i + 1 =? past s)%nat = ((p =? np s - 1) && (q =? LocalNy s - 2 * gd s - 1))%nat%bool).
    { unfold past, LocalNy. rewrite Hi, Es. rewrite Es in Hy. destruct (Nat.eqb_spec p (np s - 1)) as [->|]; [|cbn [andb]; apply Nat.eqb_neq; nia].
      destruct (Nat.eqb_spec q (my s + 2 * gd s - 2 * gd s - 1)); cbn [andb]; [apply Nat.eqb_eq|apply Nat.eqb_neq]; nia. }
    rewrite B1, B2. unfold twist. cbv zeta.
    set (e := (LocalNy s - 2 * gd s - 1)%nat).
    assert (S1 : (cos (kwave zl k * ts s), sin (kwave zl k * ts s)) = shiftM zl (- ts s) k).
    { unfold shiftM. rewrite Ropp_mult_distr_r_reverse, cos_neg, sin_neg, Ropp_involutive. reflexivity. }
    rewrite S1. change (cos (kwave zl k * ts s), - sin (kwave zl k * ts s)) with (shiftM zl (ts s) k). clearbody e.
    destruct (p =? 0)%nat, (p =? np s - 1)%nat; cbn [andb va vb vc vk];
      destruct (Nat.eqb_spec q 0) as [Q0|Q0]; destruct (Nat.eqb_spec q e) as [Qe|Qe];
      try rewrite <- Qe; try rewrite <- Q0; rewrite ?E1, ?E2, ?E3, ?E4, ?Cmult_1_r; repeat split; reflexivity.
  - unfold ends. cbv zeta.
    assert (F : (firstY s p = true -> (q <? gd s)%nat = false) /\ (lastY s p = true -> ((size s p - gd s <=? q) && (q <? size s p))%nat%bool = false)).
    { split; intros B.
      - apply andb_true_iff in Hin as (A & _). apply Nat.leb_le in A. unfold y0 in A. rewrite B in A. apply Nat.ltb_ge. exact A.
      - apply andb_false_iff. left. apply Nat.leb_gt. unfold size. rewrite B. unfold start, local_ystart, y0, LocalNy in *. destruct (firstY s p), (ylow s); cbn [andb] in *; lia. }
    destruct F as (F1 & F2). rewrite !Cmult_1_r.
    destruct (firstY s p); destruct (lastY s p); cbn [va vb vc vk]; rewrite ?(F1 eq_refl), ?(F2 eq_refl); auto.
Qed.

(** The system in the boundary rows of an open surface. *)
Lemma lower_sys : forall k q, closed s = false -> (q < gd s)%nat ->
  va (sysof 0 k) q = RtoC 0 /\ vb (sysof 0 k) q = RtoC 1 /\ vc (sysof 0 k) q = RtoC (-1) /\ vk (sysof 0 k) q = RtoC 0.
Proof.
  intros k q Hc Hq. destruct Hl as (H1 & H2 & H3 & H4).
  unfold sysof, system. cbv zeta. rewrite Hc. set (t := inner_system s 0 nz zl (co 0%nat) (rows 0%nat) (old 0%nat k) k). clearbody t.
  unfold ends. cbv zeta. replace (firstY s 0) with true by (unfold firstY; rewrite Hc; reflexivity).
  assert (F : lastY s 0 = true -> ((size s 0 - gd s <=? q) && (q <? size s 0))%nat%bool = false).
  { intros B. apply andb_false_iff. left. apply Nat.leb_gt. unfold size. rewrite B. unfold firstY. rewrite Hc. cbn [negb andb Nat.eqb].
    unfold lastY in B. rewrite Hc in B. cbn [negb andb] in B. apply Nat.eqb_eq in B. unfold first, past in H4. rewrite Hc in H4. cbn [negb andb] in H4. unfold LocalNy.
    destruct (ylow s); nia. }
  destruct (lastY s 0); cbn [va vb vc vk]; rewrite ?(F eq_refl), (proj2 (Nat.ltb_lt q (gd s))) by auto; auto.
Qed.
Lemma upper_sys : forall k p q, closed s = false -> p = (np s - 1)%nat -> (size s p - gd s <= q < size s p)%nat ->
  va (sysof p k) q = RtoC (-1) /\ vb (sysof p k) q = RtoC 1 /\ vc (sysof p k) q = RtoC 0 /\ vk (sysof p k) q = RtoC 0.
Proof.
  intros k p q Hc Hp Hq.
  unfold sysof, system. cbv zeta. rewrite Hc. set (t := inner_system s p nz zl (co p) (rows p) (old p k) k). clearbody t.
  unfold ends. cbv zeta. replace (lastY s p) with true by (unfold lastY; rewrite Hc; symmetry; apply Nat.eqb_eq; auto).
  assert (F : ((size s p - gd s <=? q) && (q <? size s p))%nat%bool = true).
  { apply andb_true_iff. split; [apply Nat.leb_le|apply Nat.ltb_lt]; lia. }
  cbn [va vb vc vk]. rewrite F. auto.
Qed.

Lemma zero_rhs : forall k,
  (forall p y, (p < np s)%nat -> (gd s <= y < gd s + my s)%nat -> (first s <= p * my s + y)%nat -> rfft nz (rows p y) k = RtoC 0) ->
  forall p q, (p < np s)%nat -> (q < size s p)%nat -> vk (sysof p k) q = RtoC 0.
Proof.
  intros k H0 p q Hp Hq.
  destruct (lt_dec q (y0 s p)) as [Hlow|Hlow].
  { unfold y0, firstY in Hlow. destruct (closed s) eqn:Ec; cbn [negb andb] in Hlow; [lia|]. destruct (Nat.eqb_spec p 0) as [->|]; [|lia].
    apply (lower_sys k q Ec Hlow). }
  destruct (le_lt_dec (gd s + my s) (start s p + q)) as [Hup|Hup].
  { assert (B : lastY s p = true).
    { pose proof Hl as (_ & _ & G3 & _). clear H0. unfold size, start, local_ystart, y0, LocalNy in *. destruct (lastY s p); [reflexivity|]. destruct (firstY s p), (ylow s); cbn [andb] in *; lia. }
    pose proof B as B'. unfold lastY in B'. apply andb_true_iff in B' as (B1 & B2). apply negb_true_iff in B1. apply Nat.eqb_eq in B2.
    apply (upper_sys k p q B1 B2). split; [|exact Hq]. destruct Hl as (H1 & H2 & H3 & H4).
    unfold size, start, local_ystart, y0, LocalNy in *. rewrite B in *. destruct (firstY s p), (ylow s); cbn [andb] in *; lia. }
  assert (Hly : (local_ystart s p <= start s p + q)%nat) by (unfold start; pose proof (y0_le s p); lia).
  assert (Hg : (gd s <= local_ystart s p)%nat) by (unfold local_ystart; destruct (firstY s p && ylow s)%bool; lia).
  destruct (interior_sys p q k (p * my s + (start s p + q)) Hp Hq eq_refl ltac:(lia) Hly) as (_ & _ & _ & E). rewrite E. apply H0; auto; [lia|].
  unfold local_ystart, firstY, first in *. destruct (Nat.eqb_spec p 0) as [->|]; [rewrite andb_true_r in *; destruct (negb (closed s) && ylow s)%bool; lia|].
  destruct Hl as (H1 & H2 & H3 & H4). destruct (negb (closed s) && ylow s)%bool; nia.
Qed.

(** Everything in terms of the global index. *)
Lemma solve_modes : exists Y : nat -> nat -> C,
  (forall p y j, (p < np s)%nat -> (start s p <= y)%nat -> (y - start s p < size s p)%nat -> u p y j = irfft nz (Y (p * my s + y)%nat) j) /\
  (forall p y k i, (p < np s)%nat -> (gd s <= y < gd s + my s)%nat -> (k <= nz / 2)%nat -> i = (p * my s + y)%nat -> (first s <= i)%nat ->
     let c := co p y (kwave zl k) in
     Cplus (Cplus (Cmult (fst (fst c)) (Cmult (phl i k) (Y (if closed s && (i =? first s)%nat then past s - 1 else i - 1)%nat k))) (Cmult (snd (fst c)) (Y i k)))
       (Cmult (snd c) (Cmult (phr i k) (Y (if closed s && (i + 1 =? past s)%nat then first s else i + 1)%nat k))) = rfft nz (rows p y) k) /\
  (closed s = false -> forall k i, (k <= nz / 2)%nat -> (start s 0 <= i < first s)%nat -> Y i k = Y (i + 1)%nat k) /\
  (closed s = false -> forall k i, (k <= nz / 2)%nat -> (past s <= i < past s + gd s)%nat -> Y i k = Y (i - 1)%nat k) /\
  (forall k, (k <= nz / 2)%nat ->
     (forall p y, (p < np s)%nat -> (gd s <= y < gd s + my s)%nat -> (first s <= p * my s + y)%nat -> rfft nz (rows p y) k = RtoC 0) ->
     forall i, (first s <= i < past s)%nat -> Y i k = RtoC 0).
Proof.
  destruct solve_rows as (X & HX & HS). pose proof Hl as (H1 & H2 & H3 & H4).
  assert (Ef : (start s 0 <= first s)%nat).
  { rewrite start0. unfold first. destruct (closed s), (ylow s); cbn [negb andb]; lia. }
  set (Y := fun i => X (i - start s 0)%nat). exists Y.
  assert (HN : forall (i k : nat), (i < total s)%nat -> nth i (map (fun i => X i k) (seq 0 (total s))) (RtoC 0) = X i k).
  { intros i k Hi. rewrite (nth_indep (map (fun i => X i k) (seq 0 (total s))) (RtoC 0) (X 0%nat k)) by (rewrite map_length, seq_length; exact Hi).
    rewrite (map_nth (fun i => X i k)), seq_nth by exact Hi. reflexivity. }
  assert (RowE : forall p q k, (p < np s)%nat -> (q < size s p)%nat -> (k <= nz / 2)%nat ->
    let r := (off (size s) p + q)%nat in let t := sysof p k in
    Cplus (Cplus (Cmult (va t q) (if (r =? 0)%nat then if closed s then X (total s - 1)%nat k else RtoC 0 else X (r - 1)%nat k)) (Cmult (vb t q) (X r k)))
      (Cmult (vc t q) (if (S r =? total s)%nat then if closed s then X 0%nat k else RtoC 0 else X (S r) k)) = vk t q).
  { intros p q k Hp Hq Hk r t. destruct (HS k Hk) as (_ & S2).
    assert (Hr : (r < total s)%nat).
    { rewrite <- off_all by exact Hl. pose proof (off_mono (size s) (S p) (np s) ltac:(lia)) as A. cbn [off] in A. unfold r. lia. }
    specialize (S2 r _ (distributed_nth (np s) (size s) (fun p i => let t := system s p nz zl (co p) (rows p) (old p k) k in Row (va t i) (vb t i) (vc t i) (vk t i)) p q Hp Hq)).
    cbv zeta in S2. cbn [ra rb rc rr] in S2. fold (sysof p k) in S2. fold t in S2. rewrite <- S2. f_equal; [f_equal|].
    - f_equal. unfold left_of. destruct r as [|r'] eqn:Er; cbn [Nat.eqb].
      + destruct (closed s); [|reflexivity]. destruct (total s) as [|n] eqn:En; [lia|]. rewrite seq_S, map_app. cbn [map]. rewrite last_last. f_equal. lia.
      + rewrite HN by lia. f_equal. lia.
    - f_equal. symmetry. apply HN. exact Hr.
    - f_equal. unfold right_of. rewrite map_length, seq_length. destruct (Nat.eqb_spec (S r) (total s)) as [E|E].
      + destruct (closed s); [|reflexivity]. destruct (total s) as [|n]; [lia|]. reflexivity.
      + symmetry. apply HN. lia. }
  split.
  { intros p y j Hp Hy Hq. specialize (HX p (y - start s p)%nat j Hp Hq). replace (start s p + (y - start s p))%nat with y in HX by lia. rewrite HX.
    unfold Y. pose proof (off_size s p Hl Hp). do 2 f_equal. lia. }
  split.
  { intros p y k i Hp Hy Hk Hi Hf c.
    assert (Hs : (start s p <= gd s)%nat) by (unfold start, local_ystart, y0; destruct (firstY s p), (ylow s); cbn [andb]; lia).
    assert (Hly : (local_ystart s p <= y)%nat).
    { unfold local_ystart, firstY, first in *. destruct (Nat.eqb_spec p 0) as [->|]; [|rewrite andb_false_r; cbn [andb]; lia].
      rewrite andb_true_r. destruct (negb (closed s) && ylow s)%bool; lia. }
    set (q := (y - start s p)%nat). assert (Eq : (start s p + q = y)%nat) by (unfold q; lia).
    assert (Hq : (q < size s p)%nat).
    { unfold size, start, local_ystart, y0, LocalNy in *. destruct (firstY s p), (lastY s p), (ylow s); cbn [andb] in *; lia. }
    destruct (interior_sys p q k i Hp Hq ltac:(lia) ltac:(lia) ltac:(lia)) as (A1 & A2 & A3 & A4). rewrite Eq in A1, A2, A3, A4. fold c in A1, A2, A3.
    pose proof (RowE p q k Hp Hq Hk) as Rw. cbv zeta in Rw. rewrite A1, A2, A3, A4 in Rw. rewrite <- Rw. pose proof (off_size s p Hl Hp) as Eo.
    assert (Er : (off (size s) p + q = i - start s 0)%nat) by lia. rewrite Er. unfold Y.
    assert (Hip : (i < past s)%nat) by (unfold past; nia).
    f_equal; [f_equal|].
    - rewrite <- Cmult_assoc. do 2 f_equal. destruct (closed s) eqn:Ec; cbn [andb].
      + assert (E0 : start s 0 = first s) by (rewrite start0; unfold first; rewrite Ec; reflexivity).
        assert (Et : total s = (past s - start s 0)%nat) by (unfold total; rewrite Ec; lia).
        destruct (Nat.eqb_spec i (first s)); destruct (Nat.eqb_spec (i - start s 0) 0); try lia; f_equal; lia.
      + rewrite (proj2 (Nat.eqb_neq (i - start s 0) 0)); [f_equal; lia|].
        revert Hf. rewrite start0, Ec. unfold first. rewrite Ec. destruct (ylow s); cbn [negb andb]; lia.
    - rewrite <- Cmult_assoc. do 2 f_equal. destruct (closed s) eqn:Ec; cbn [andb].
      + assert (Et : total s = (past s - start s 0)%nat) by (unfold total; rewrite Ec; lia).
        assert (E0 : start s 0 = first s) by (rewrite start0; unfold first; rewrite Ec; reflexivity).
        destruct (Nat.eqb_spec (i + 1) (past s)); destruct (Nat.eqb_spec (S (i - start s 0)) (total s)); try lia; f_equal; lia.
      + rewrite (proj2 (Nat.eqb_neq _ _)); [f_equal; lia|]. unfold total. rewrite Ec. lia. }
  split.
  - intros Hc k i Hk Hi. set (q := (i - start s 0)%nat).
    assert (Hq : (q < gd s)%nat).
    { unfold q. revert Hi. rewrite start0, Hc. unfold first. rewrite Hc. destruct (ylow s); cbn [negb andb]; lia. }
    assert (Hq' : (q < size s 0)%nat).
    { unfold size, firstY. rewrite Hc. cbn [negb andb Nat.eqb]. unfold LocalNy. destruct (lastY s 0), (ylow s); lia. }
    destruct (lower_sys k q Hc Hq) as (A1 & A2 & A3 & A4).
    pose proof (RowE 0%nat q k ltac:(lia) Hq' Hk) as Rw. cbv zeta in Rw. cbn [off] in Rw. rewrite A1, A2, A3, A4, Nat.add_0_l in Rw.
    rewrite (proj2 (Nat.eqb_neq (S q) (total s))) in Rw.
    2:{ unfold total. rewrite Hc. unfold q. lia. }
    unfold Y. fold q. replace (i + 1 - start s 0)%nat with (S q) by (unfold q; lia).
    destruct (X q k) as [r1 i1], (X (S q) k) as [r2 i2].
    match type of Rw with Cplus (Cplus (Cmult _ ?z) _) _ = _ => destruct z end.
    apply (f_equal fst) in Rw as R1. apply (f_equal snd) in Rw as R2. cbn [Cplus Cmult RtoC fst snd] in R1, R2. apply C_eq; cbn [fst snd]; lra.
  split.
  - intros Hc k i Hk Hi. set (p := (np s - 1)%nat). set (q := (i - p * my s - start s p)%nat).
    assert (Hp : (p < np s)%nat) by (unfold p; lia). pose proof (off_size s p Hl Hp) as Eo.
    assert (Es : (off (size s) p + size s p = total s)%nat).
    { rewrite <- off_all by exact Hl. replace (np s) with (S p) by (unfold p; lia). reflexivity. }
    assert (Et : total s = (past s + gd s - start s 0)%nat) by (unfold total; rewrite Hc; reflexivity).
    assert (Hpp : (past s = gd s + p * my s + my s)%nat) by (unfold past, p; nia).
    assert (Hsp : (start s p <= gd s /\ start s 0 <= 1 + gd s)%nat).
    { unfold start, local_ystart, y0. destruct (firstY s p), (firstY s 0), (ylow s); cbn [andb]; lia. }
    assert (Hq : (size s p - gd s <= q < size s p)%nat) by (unfold q; clearbody p; lia).
    destruct (upper_sys k p q Hc eq_refl Hq) as (A1 & A2 & A3 & A4).
    pose proof (RowE p q k Hp ltac:(lia) Hk) as Rw. cbv zeta in Rw. rewrite A1, A2, A3, A4 in Rw.
    assert (Er : (off (size s) p + q = i - start s 0)%nat) by (unfold q; lia). rewrite Er in Rw.
    rewrite (proj2 (Nat.eqb_neq (i - start s 0) 0)) in Rw by lia.
    unfold Y. replace (i - 1 - start s 0)%nat with (i - start s 0 - 1)%nat by lia.
    destruct (X (i - start s 0)%nat k) as [r1 i1], (X (i - start s 0 - 1)%nat k) as [r2 i2].
    match type of Rw with Cplus _ (Cmult _ ?z) = _ => destruct z end.
    apply (f_equal fst) in Rw as R1. apply (f_equal snd) in Rw as R2. cbn [Cplus Cmult RtoC fst snd] in R1, R2. apply C_eq; cbn [fst snd]; lra.
  - intros k Hk H0 i Hi.
    assert (HZ : forall p q, (p < np s)%nat -> (q < size s p)%nat -> vk (sysof p k) q = RtoC 0) by (exact (zero_rhs k H0)).
    assert (EZ : map (fun r => Row (ra r) (rb r) (rc r) (RtoC 0)) (system_rows s nz zl co rows old k) = system_rows s nz zl co rows old k).
    { unfold system_rows. apply (nth_ext _ _ (Row (RtoC 0) (RtoC 0) (RtoC 0) (RtoC 0)) (Row (RtoC 0) (RtoC 0) (RtoC 0) (RtoC 0))).
      - apply map_length.
      - intros n Hn'. rewrite map_length, distributed_len in Hn'. destruct (off_find _ _ _ Hn') as (p & q & A & B & ->).
        pose proof (distributed_nth (np s) (size s) (fun p i => let t := system s p nz zl (co p) (rows p) (old p k) k in Row (va t i) (vb t i) (vc t i) (vk t i)) p q A B) as E.
        cbv zeta in E. rewrite (nth_error_nth _ _ _ (map_nth_error (fun r => Row (ra r) (rb r) (rc r) (RtoC 0)) _ _ E)), (nth_error_nth _ _ _ E). cbn [ra rb rc].
        rewrite <- (HZ p q A B). reflexivity. }
    pose proof (Hns k Hk (map (fun i => X i k) (seq 0 (total s)))) as NS. rewrite EZ in NS. specialize (NS (HS k Hk)).
    rewrite Forall_forall in NS. apply NS. unfold Y. apply (in_map (fun i => X i k)). apply in_seq. unfold total. destruct (closed s); lia.
Qed.
End Modes.
