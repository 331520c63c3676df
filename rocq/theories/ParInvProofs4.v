(** Inversion of parallel derivatives: coefficients, conservation, diagonally dominant systems. *)
From Coq Require Import List Arith Bool ZArith Reals Lia Lra.
From Coquelicot Require Import Complex.
From Verif Require Import Base CyclicModel CyclicSpec CyclicProofs2 CyclicProofs3 CyclicProps FftModel FftSpec FftProofs FftProofs2 FftProofs3 FftProofs4 FftProofs5
  LaplaceModel LaplaceSpec LaplaceProofs ParInvModel ParInvSpec ParInvProofs ParInvProofs2 ParInvProofs3.
Import ListNotations.
Local Open Scope R_scope.

(** ** The coefficients a processor computes are those of the whole surface *)
Lemma par_view : forall nu M o y kw, (1 <= y)%nat -> par_coefs nu (yview o M) y kw = par_coefs nu M (o + y) kw.
Proof.
  intros nu M o y kw Hy. unfold par_coefs, sg, yview. cbn [yA yB yC yD yE yg22 ydy yd1 yJ].
  replace (o + (y + 1))%nat with (o + y + 1)%nat by lia. replace (o + (y - 1))%nat with (o + y - 1)%nat by lia. reflexivity.
Qed.
Lemma div_view : forall M o y kw, (1 <= y)%nat -> div_coefs (yview o M) y kw = div_coefs M (o + y) kw.
Proof.
  intros M o y kw Hy. unfold div_coefs, yview. cbn [yA yB yC yD yE yg22 ydy yd1 yJ].
  replace (o + (y + 1))%nat with (o + y + 1)%nat by lia. replace (o + (y - 1))%nat with (o + y - 1)%nat by lia. reflexivity.
Qed.
Lemma par_real0 : forall nu M i, real_row (par_coefs nu M i 0).
Proof. intros. unfold real_row, par_coefs. cbv zeta. cbn [fst snd RtoC]. repeat split; ring. Qed.
Lemma par_real : forall nu M i kw, yC M i = 0 -> real_row (par_coefs nu M i kw).
Proof. intros nu M i kw H. unfold real_row, par_coefs. cbv zeta. cbn [fst snd RtoC]. rewrite H. unfold Rdiv. repeat split; ring. Qed.
Lemma div_real : forall M i kw, real_row (div_coefs M i kw).
Proof. intros. unfold real_row, div_coefs. cbv zeta. cbn [fst snd RtoC]. auto. Qed.

(** ** Sums along z *)
Lemma sum_mode0 : forall n x, (1 <= n)%nat -> rsum n x = INR n * fst (rfft n x 0).
Proof.
  intros n x Hn. rewrite rfft_re. rewrite (rsum_ext n (fun j => x j * cos (ang n j 0)) x) by (intros; rewrite ang_0, cos_0; ring). field. apply not_0_INR. lia.
Qed.
Lemma sum_spectral : forall n M x, (1 <= n)%nat -> M 0%nat = RtoC 1 -> rsum n (spectral n M x) = rsum n x.
Proof.
  intros n M x Hn H. rewrite !sum_mode0, rfft_spectral by (auto; lia). unfold keep. cbn [Nat.eqb]. rewrite H.
  cbn [Cmult RtoC fst snd]. ring.
Qed.
Lemma sum_shift : forall n zl a x, (1 <= n)%nat -> rsum n (shiftZ_row n zl a x) = rsum n x.
Proof.
  intros n zl a x Hn. rewrite (rsum_ext n _ (spectral n (shiftM zl a) x)) by (intros; apply shift_row_spectral; auto).
  apply sum_spectral; auto. apply shiftM_0.
Qed.
Lemma sum_to_row : forall n zl tr i x, (1 <= n)%nat -> rsum n (to_row n zl tr i x) = rsum n x.
Proof.
  intros n zl tr i x Hn. unfold to_row. destruct tr; [|reflexivity]. destruct (n =? 1)%nat; [reflexivity|].
  rewrite (rsum_ext n _ (spectral n (shiftM zl (- r i)) x)).
  - apply sum_spectral; auto. apply shiftM_0.
  - intros j Hj. rewrite to_shift. apply shift_spectral; rewrite shiftM_0; reflexivity.
Qed.
Lemma sum_sgn : forall n, Nat.even n = true -> rsum n sgn = 0.
Proof.
  intros n H. apply Nat.even_spec in H as (m & ->). induction m; [reflexivity|].
  replace (2 * S m)%nat with (S (S (2 * m))) by lia. cbn [rsum]. rewrite IHm. unfold sgn.
  replace (Nat.even (2 * m)) with true by (symmetry; apply Nat.even_spec; exists m; reflexivity).
  replace (Nat.even (S (2 * m))) with false. 2:{ symmetry. rewrite Nat.even_succ, <- Nat.negb_even. replace (Nat.even (2 * m)) with true; [reflexivity|]. symmetry. apply Nat.even_spec. exists m. reflexivity. }
  ring.
Qed.
Lemma telescope : forall n (g : nat -> R), rsum n (fun q => g (S q) - g q) = g n - g 0%nat.
Proof. induction n; intros g; cbn [rsum]; [ring|]. rewrite IHn. ring. Qed.

(** ** No row is lost *)
Section Cons.
Variables (s : surface) (nz : nat) (zl : R) (tr : option (nat -> R)) (M : ydata) (F U : plane).
Hypothesis HS : div_solved s nz zl tr M F U.

Lemma div_up_to : forall i, is_inside s i -> exists r, (Nat.even nz = false -> r = 0) /\ forall j, (j < nz)%nat ->
  Ldiv M U i j = to_row nz zl tr i (F i) j + r * sgn j.
Proof.
  intros i Hi. destruct (equation_up_to s nz zl tr (div_coefs M) _ F U ltac:(intros; apply div_view; auto) HS ltac:(intros; apply div_real) i Hi) as (r & R1 & R2).
  exists r. split; [exact R1|]. intros j Hj. rewrite <- R2 by auto. pose proof HS as ((H1 & H2 & H3 & H4) & Hn & _). pose proof (first_gd s). destruct Hi.
  apply Ldiv_modes; auto; lia.
Qed.

Definition fsum (i : nat) : R := rsum nz (flux M U i).
Lemma fsum_eq : forall i, fsum i = mean (yB M) i * mean (yJ M) i / mean (yg22 M) i * ((rsum nz (U (i + 1)%nat) - rsum nz (U i)) / mean (ydy M) i).
Proof.
  intros i. unfold fsum, flux, Rdiv. rewrite <- rsum_minus, <- rsum_scal_r, <- rsum_scal. reflexivity.
Qed.
Lemma fsum_ends : (closed s = true -> forall f, In f [yB M; yJ M; yg22 M; ydy M] -> f (first s - 1)%nat = f (past s - 1)%nat /\ f (past s) = f (first s)) ->
  fsum (past s - 1) = fsum (first s - 1).
Proof.
  intros HP. pose proof HS as ((H1 & H2 & H3 & H4) & Hn & _ & f & old & o1 & o2 & mem & u & _ & _ & _ & _ & _ & _ & Hg). pose proof (first_gd s).
  rewrite !fsum_eq. replace (past s - 1 + 1)%nat with (past s) by lia. replace (first s - 1 + 1)%nat with (first s) by lia.
  destruct (closed s) eqn:Ec.
  - assert (Em : forall f, In f [yB M; yJ M; yg22 M; ydy M] -> mean f (past s - 1) = mean f (first s - 1)).
    { intros f0 Hf. destruct (HP eq_refl f0 Hf) as (A & B). unfold mean. replace (past s - 1 + 1)%nat with (past s) by lia. replace (first s - 1 + 1)%nat with (first s) by lia. rewrite A, B. ring. }
    rewrite !Em by (cbn [In]; auto). 
    assert (A : rsum nz (U (first s - 1)%nat) = rsum nz (U (past s - 1)%nat)).
    { rewrite <- (sum_shift nz zl (ts s) (U (past s - 1)%nat)) by auto. apply rsum_ext. intros j Hj. specialize (Hg j Hj). rewrite Ec in Hg. apply Hg. }
    assert (B : rsum nz (U (past s)) = rsum nz (U (first s))).
    { rewrite <- (sum_shift nz zl (- ts s) (U (first s))) by auto. apply rsum_ext. intros j Hj. specialize (Hg j Hj). rewrite Ec in Hg. apply Hg. }
    rewrite A, B. reflexivity.
  - assert (A : rsum nz (U (first s - 1)%nat) = rsum nz (U (first s))).
    { apply rsum_ext. intros j Hj. specialize (Hg j Hj). rewrite Ec in Hg. apply Hg. }
    assert (B : rsum nz (U (past s)) = rsum nz (U (past s - 1)%nat)).
    { apply rsum_ext. intros j Hj. specialize (Hg j Hj). rewrite Ec in Hg. apply Hg. }
    rewrite A, B. unfold Rminus. rewrite !Rplus_opp_r. unfold Rdiv. ring.
Qed.
Lemma conserved : (forall i, is_inside s i -> yJ M i <> 0 /\ ydy M i <> 0) ->
  (closed s = true -> forall f, In f [yB M; yJ M; yg22 M; ydy M] -> f (first s - 1)%nat = f (past s - 1)%nat /\ f (past s) = f (first s)) ->
  rsum (past s - first s) (fun q => let i := (first s + q)%nat in rsum nz (fun j => yJ M i * ydy M i * (yA M i * U i j)))
  = rsum (past s - first s) (fun q => let i := (first s + q)%nat in rsum nz (fun j => yJ M i * ydy M i * F i j)).
Proof.
  intros HJ HP. cbv zeta. pose proof HS as ((H1 & H2 & H3 & H4) & Hn & _). pose proof (first_gd s).
  assert (E : forall q, (q < past s - first s)%nat ->
    rsum nz (fun j => yJ M (first s + q)%nat * ydy M (first s + q)%nat * F (first s + q)%nat j)
    = rsum nz (fun j => yJ M (first s + q)%nat * ydy M (first s + q)%nat * (yA M (first s + q)%nat * U (first s + q)%nat j)) + (fsum (first s + q) - fsum (first s + q - 1))).
  { intros q Hq. set (i := (first s + q)%nat). assert (Hi : is_inside s i) by (unfold is_inside, i; lia).
    destruct (HJ i Hi) as (J1 & J2). destruct (div_up_to i Hi) as (r & R1 & R2).
    unfold fsum. rewrite <- rsum_minus, <- rsum_plus.
    rewrite (rsum_ext nz (fun j => _ + _) (fun j => yJ M i * ydy M i * Ldiv M U i j)).
    2:{ intros j Hj. unfold Ldiv. field. auto. }
    rewrite (rsum_ext nz (fun j => yJ M i * ydy M i * Ldiv M U i j) (fun j => yJ M i * ydy M i * (to_row nz zl tr i (F i) j + r * sgn j))) by (intros j Hj; rewrite R2 by auto; reflexivity).
    rewrite !rsum_scal, rsum_plus, rsum_scal, sum_to_row by auto. change (rsum nz (fun j => F i j)) with (rsum nz (F i)).
    destruct (Nat.even nz) eqn:Ev; [rewrite (sum_sgn nz Ev)|rewrite (R1 eq_refl)]; ring. }
  rewrite (rsum_ext _ (fun q => rsum nz (fun j => yJ M (first s + q)%nat * ydy M (first s + q)%nat * F (first s + q)%nat j)) _ E).
  rewrite rsum_plus. rewrite (rsum_ext _ (fun q => fsum (first s + q) - fsum (first s + q - 1)) (fun q => (fun q => fsum (first s + q - 1)) (S q) - (fun q => fsum (first s + q - 1)) q)).
  2:{ intros q Hq. cbv beta. do 2 f_equal. lia. }
  rewrite (telescope _ (fun q => fsum (first s + q - 1))). cbv beta.
  replace (first s + (past s - first s) - 1)%nat with (past s - 1)%nat by lia. rewrite Nat.add_0_r. rewrite fsum_ends by exact HP. ring.
Qed.
End Cons.

(** ** Dominated systems *)
Lemma max_at : forall (z : list C), z <> [] -> exists i, (i < length z)%nat /\ forall j, (j < length z)%nat -> Cmod (nth j z (RtoC 0)) <= Cmod (nth i z (RtoC 0)).
Proof.
  induction z as [|a z IH]; [congruence|]. intros _. destruct z as [|b z].
  - exists 0%nat. cbn [length nth]. split; [lia|]. intros j Hj. replace j with 0%nat by lia. cbn [nth]. lra.
  - destruct IH as (i & I1 & I2); [discriminate|]. destruct (Rle_dec (Cmod a) (Cmod (nth i (b :: z) (RtoC 0)))) as [L|L].
    + exists (S i). split; [cbn [length] in *; lia|]. intros j Hj. destruct j as [|j]; [exact L|]. apply I2. cbn [length] in *. lia.
    + exists 0%nat. split; [cbn [length]; lia|]. intros j Hj. destruct j as [|j]; [cbn [nth]; lra|]. specialize (I2 j ltac:(cbn [length] in *; lia)).
      change (nth (S j) (a :: b :: z) (RtoC 0)) with (nth j (b :: z) (RtoC 0)). change (nth 0 (a :: b :: z) (RtoC 0)) with a. lra.
Qed.
Lemma dominated_nonsingular : forall per rows,
  (forall r, In r rows -> Cmod (ra r) + Cmod (rc r) < Cmod (rb r)) -> nonsingular C (RtoC 0) Cplus Cmult per rows.
Proof.
  intros per rows H z (HL & HE). rewrite map_length in HL. destruct (list_eq_dec Ceq_dec z []) as [->|Hz]; [constructor|].
  destruct (max_at z Hz) as (i & I1 & I2).
  destruct (nth_error rows i) as [r|] eqn:Er; [|apply nth_error_None in Er; lia].
  specialize (H r (nth_error_In _ _ Er)). specialize (HE i _ (map_nth_error (fun r : trow C => CyclicSpec.Row (ra r) (rb r) (rc r) (RtoC 0)) i rows Er)). cbn [ra rb rc rr] in HE.
  set (m := Cmod (nth i z (RtoC 0))) in *.
  assert (Hl : Cmod (left_of C (RtoC 0) per z i) <= m).
  { unfold left_of. destruct i as [|i']; [|apply I2; lia]. destruct per; [|rewrite Cmod_0; apply Cmod_ge_0].
    replace (last z (RtoC 0)) with (nth (length z - 1) z (RtoC 0)); [apply I2; lia|]. clear. induction z as [|a z IH]; [reflexivity|]. destruct z as [|b z]; [reflexivity|].
    change (last (a :: b :: z) (RtoC 0)) with (last (b :: z) (RtoC 0)). rewrite <- IH. cbn [length]. replace (S (S (length z)) - 1)%nat with (S (length z)) by lia. replace (S (length z) - 1)%nat with (length z) by lia. reflexivity. }
  assert (Hr : Cmod (right_of C (RtoC 0) per z i) <= m).
  { unfold right_of. destruct (Nat.eqb_spec (S i) (length z)) as [E|E]; [|apply I2; lia]. destruct per; [|rewrite Cmod_0; apply Cmod_ge_0].
    replace (hd (RtoC 0) z) with (nth 0 z (RtoC 0)) by (destruct z; reflexivity). apply I2. lia. }
  assert (Hm : m = 0).
  { assert (E : Cmult (rb r) (nth i z (RtoC 0)) = Copp (Cplus (Cmult (ra r) (left_of C (RtoC 0) per z i)) (Cmult (rc r) (right_of C (RtoC 0) per z i)))).
    { apply (f_equal (fun v => Cminus v (Cplus (Cmult (ra r) (left_of C (RtoC 0) per z i)) (Cmult (rc r) (right_of C (RtoC 0) per z i))))) in HE.
      transitivity (Cminus (RtoC 0) (Cplus (Cmult (ra r) (left_of C (RtoC 0) per z i)) (Cmult (rc r) (right_of C (RtoC 0) per z i)))); [rewrite <- HE; ring|ring]. }
    apply (f_equal Cmod) in E. rewrite Cmod_opp, Cmod_mult in E. fold m in E.
    pose proof (Cmod_triangle (Cmult (ra r) (left_of C (RtoC 0) per z i)) (Cmult (rc r) (right_of C (RtoC 0) per z i))) as T. rewrite !Cmod_mult in T.
    pose proof (Cmod_ge_0 (nth i z (RtoC 0))) as P. fold m in P. pose proof (Cmod_ge_0 (ra r)). pose proof (Cmod_ge_0 (rc r)).
    pose proof (Rmult_le_compat_l (Cmod (ra r)) _ _ ltac:(auto) Hl). pose proof (Rmult_le_compat_l (Cmod (rc r)) _ _ ltac:(auto) Hr). nra. }
  apply Forall_forall. intros v Hv. destruct (In_nth _ _ (RtoC 0) Hv) as (j & J1 & J2). specialize (I2 j J1). rewrite J2, Hm in I2.
  apply Cmod_eq_0. pose proof (Cmod_ge_0 v). lra.
Qed.

Lemma unit_mult : forall a zl t k, Cmod (Cmult a (shiftM zl t k)) = Cmod a.
Proof.
  intros a zl t k. rewrite Cmod_mult. unfold shiftM, Cmod at 2. cbn [fst snd].
  replace (cos (kwave zl k * t) ^ 2 + (- sin (kwave zl k * t)) ^ 2) with 1; [rewrite sqrt_1; ring|].
  pose proof (sin2_cos2 (kwave zl k * t)) as E. unfold Rsqr in E. simpl pow. lra.
Qed.

Section Solvable.
Variables (s : surface) (nz : nat) (zl : R) (c : nat -> R -> coef3) (co : nat -> nat -> R -> coef3) (rows : nat -> nat -> nat -> R) (old : nat -> nat -> tvec).
Hypothesis Hl : well_formed s.
Hypothesis Hc : closed s = true.
Hypothesis Hco : forall p y kw, (1 <= y)%nat -> co p y kw = c (p * my s + y)%nat kw.
Hypothesis Hdom : forall i k, is_inside s i -> (k <= nz / 2)%nat ->
  let d := c i (kwave zl k) in Cmod (fst (fst d)) + Cmod (snd d) + / 10 ^ 10 <= Cmod (snd (fst d)).

Lemma dom_sys : forall p q k, (p < np s)%nat -> (q < size s p)%nat -> (k <= nz / 2)%nat ->
  let t := system s p nz zl (co p) (rows p) (old p k) k in Cmod (va t q) + Cmod (vc t q) + / 10 ^ 10 <= Cmod (vb t q).
Proof.
  intros p q k Hp Hq Hk t. pose proof Hl as (H1 & H2 & H3 & H4).
  assert (Es : start s p = gd s) by (unfold start, local_ystart, y0, firstY; rewrite Hc; cbn [negb andb]; lia).
  assert (Ey : local_ystart s p = gd s) by (unfold local_ystart, firstY; rewrite Hc; reflexivity).
  assert (Eq : size s p = my s) by (unfold size, firstY, lastY, LocalNy; rewrite Hc; cbn [negb andb]; lia).
  assert (Ef : first s = gd s) by (unfold first; rewrite Hc; reflexivity). rewrite Eq in Hq.
  destruct (interior_sys s nz zl co rows old Hl p q k (p * my s + (start s p + q)) Hp ltac:(lia) eq_refl ltac:(lia) ltac:(lia)) as (A1 & A2 & A3 & _).
  fold t in A1, A2, A3. unfold sysof in A1, A2, A3. fold t in A1, A2, A3. rewrite A1, A2, A3, Hco by lia. set (i := (p * my s + (start s p + q))%nat).
  assert (Hi : is_inside s i) by (unfold is_inside, i, past; nia).
  assert (Pl : forall a, Cmod (Cmult a (phl s zl i k)) = Cmod a) by (intros a; unfold phl; destruct (closed s && (i =? first s)%nat)%bool; [apply unit_mult|rewrite Cmult_1_r; reflexivity]).
  assert (Pr : forall a, Cmod (Cmult a (phr s zl i k)) = Cmod a) by (intros a; unfold phr; destruct (closed s && (i + 1 =? past s)%nat)%bool; [apply unit_mult|rewrite Cmult_1_r; reflexivity]).
  rewrite Pl, Pr. apply (Hdom i k Hi Hk).
Qed.
Lemma dom_nonsingular : modes_nonsingular s nz zl co rows old.
Proof.
  intros k Hk. apply dominated_nonsingular. intros r Hr. destruct (In_nth_error _ _ Hr) as (n & Hn). 
  assert (Hn' : (n < length (system_rows s nz zl co rows old k))%nat) by (apply nth_error_Some; congruence). unfold system_rows in Hn'. rewrite distributed_len in Hn'.
  destruct (off_find _ _ _ Hn') as (p & q & A & B & ->).
  unfold system_rows in Hn. rewrite (distributed_nth (np s) (size s) _ p q A B) in Hn. injection Hn as <-. cbn [ra rb rc].
  pose proof (dom_sys p q k A B Hk) as D. cbv zeta in D. pose proof (Rinv_0_lt_compat (10 ^ 10) ltac:(apply pow_lt; lra)). lra.
Qed.
Lemma dom_ok : (2 <= my s)%nat -> forall ord1 ord2 mem,
  (forall p, (p < np s)%nat -> arrival_order (np s) p (ord1 p)) -> (forall p, (p < np s)%nat -> arrival_order (np s) p (ord2 p)) ->
  exists u, solve_aligned s nz zl co rows old ord1 ord2 mem = Ok u.
Proof.
  intros Hm ord1 ord2 mem O1 O2. pose proof Hl as (H1 & H2 & H3 & H4).
  assert (Eq : forall p, size s p = my s) by (intros p; unfold size, firstY, lastY, LocalNy; rewrite Hc; cbn [negb andb]; lia).
  destruct (C25_dominant_complex (1 + nz / 2) (np s) (closed s) (size s) (fun p kz => va (sysof s nz zl co rows old p kz)) (fun p kz => vb (sysof s nz zl co rows old p kz))
      (fun p kz => vc (sysof s nz zl co rows old p kz)) (fun p kz => vk (sysof s nz zl co rows old p kz)) ord1 ord2 mem H1 ltac:(intros; rewrite Eq; lia) O1 O2) as (x & E & _).
  { intros p k i Hp Hk Hi. apply dom_sys; auto. lia. }
  unfold solve_aligned. cbv zeta. unfold sysof in E. rewrite E. cbn [bind]. eexists. reflexivity.
Qed.
End Solvable.
