(** Inversion of parallel derivatives (C88) and of the divergence of a parallel gradient (C89). *)
From Coq Require Import List Arith Bool ZArith Reals Lia Lra Permutation.
From Coquelicot Require Import Complex.
From Verif Require FvModel.
From Verif Require Import Base CyclicModel CyclicSpec FftModel FftSpec FftProofs FftProofs3 FftProofs4
  FftProofs2 LaplaceModel LaplaceSpec LaplaceProofs ParInvModel ParInvSpec ParInvProofs ParInvProofs2 ParInvProofs3 ParInvProofs4 ParInvProofs5.
Import ListNotations.
Local Open Scope R_scope.

(** ** C88: A + B Grad2_par2 + C D2DYDZ + D D2DZ2 + E DDY *)

(** The result satisfies the equation at every point of the surface and every z, on open and closed surfaces, across
    processors and across the twist-shift cut, provided the right hand side has no mode at the highest frequency of an
    even number of points, or (identity transform, no shift angle, no mixed derivative) with any right hand side. *)
Theorem C88_equation : forall s nz zl tr nu M F U, par_solved s nz zl tr nu M F U ->
  (forall i, is_inside s i -> ydy M i <> 0) ->
  (forall i, is_inside s i -> no_nyquist nz (F i)) \/
    (tr = None /\ (closed s = true -> ts s = 0) /\ forall i, is_inside s i -> yC M i = 0) ->
  forall i j, is_inside s i -> (j < nz)%nat -> Lpar nu M nz zl U i j = to_row nz zl tr i (F i) j.
Proof.
  intros s nz zl tr nu M F U HS Hdy H i j Hi Hj. pose proof HS as ((H1 & H2 & H3 & H4) & Hn & Hz & _). pose proof (first_gd s). destruct Hi as (A & B).
  rewrite Lpar_modes by (auto; try (apply Hdy; split; auto); lia).
  rewrite <- (equation s nz zl tr (par_coefs nu M) _ F U ltac:(intros; apply par_view; auto) HS ltac:(intros; apply par_real0) i j); auto; [split; auto|].
  destruct H as [H|(T1 & T2 & T3)]; [left; exact H|right]. split; [exact T1|]. split; [exact T2|]. intros k. apply par_real, T3. split; auto.
Qed.

(** Without any assumption the two sides differ at most by a multiple of (+1, -1, +1, ...) along z. *)
Theorem C88_equation_up_to_highest_mode : forall s nz zl tr nu M F U, par_solved s nz zl tr nu M F U ->
  (forall i, is_inside s i -> ydy M i <> 0) ->
  forall i, is_inside s i -> exists r, (Nat.even nz = false -> r = 0) /\
  forall j, (j < nz)%nat -> Lpar nu M nz zl U i j = to_row nz zl tr i (F i) j + r * (if Nat.even j then 1 else -1).
Proof.
  intros s nz zl tr nu M F U HS Hdy i Hi. pose proof HS as ((H1 & H2 & H3 & H4) & Hn & Hz & _). pose proof (first_gd s). pose proof Hi as (A & B).
  destruct (equation_up_to s nz zl tr (par_coefs nu M) _ F U ltac:(intros; apply par_view; auto) HS ltac:(intros; apply par_real0) i Hi) as (r & R1 & R2).
  exists r. split; [exact R1|]. intros j Hj. change (if Nat.even j then 1 else -1) with (sgn j). rewrite <- R2 by auto. apply Lpar_modes; auto. lia.
Qed.

(** On an open surface, with the identity transform, the boundary rows that are returned have zero gradient. *)
Theorem C88_boundary : forall s nz zl nu M f old ord1 ord2 mem u,
  well_formed s -> (1 <= nz)%nat -> closed s = false ->
  (forall p, (p < np s)%nat -> arrival_order (np s) p (ord1 p)) -> (forall p, (p < np s)%nat -> arrival_order (np s) p (ord2 p)) ->
  modes_nonsingular s nz zl (fun p => par_coefs nu (yview (p * my s) M)) f old ->
  invert_par s nz zl None nu M f old ord1 ord2 mem = Ok u ->
  (forall y j, ((if ylow s then 1 else 0) <= y < first s)%nat -> (y + 1 < gd s + my s)%nat -> u 0%nat y j = u 0%nat (y + 1)%nat j) /\
  (forall y j, (gd s + my s <= y < my s + 2 * gd s)%nat -> u (np s - 1)%nat y j = u (np s - 1)%nat (y - 1)%nat j).
Proof. intros s nz zl nu M f old ord1 ord2 mem u. unfold invert_par. apply boundary_rows. Qed.

(** Closed surface, no mixed derivative, D >= 0, A < 0 and the first derivative not dominating the second: no zero pivot
    is met and no mode is singular, whatever the right hand side, the order of messages and the contents of memory. *)
Theorem C88_solvable : forall s nz zl tr nu M, well_formed s -> closed s = true -> (2 <= my s)%nat ->
  (forall i, is_inside s i -> yC M i = 0 /\ 0 <= yD M i /\ yA M i <= - / 10 ^ 10 /\ 0 < ydy M i /\ 0 < yg22 M i /\
     Rabs (yE M i + yB M i * (inv_sqrt_g22 M i 0%nat * Dy M (inv_sqrt_g22 M) i 0%nat) + when nu (yB M i / yg22 M i * yd1 M i)) * ydy M i <= 2 * (yB M i / yg22 M i)) ->
  forall f old ord1 ord2 mem,
  (forall p, (p < np s)%nat -> arrival_order (np s) p (ord1 p)) -> (forall p, (p < np s)%nat -> arrival_order (np s) p (ord2 p)) ->
  (exists u, invert_par s nz zl tr nu M f old ord1 ord2 mem = Ok u) /\
  modes_nonsingular s nz zl (fun p => par_coefs nu (yview (p * my s) M)) (fun p y => to_row nz zl tr (p * my s + y) (f p y)) old.
Proof.
  intros s nz zl tr nu M Hl Hc Hm H f old ord1 ord2 mem O1 O2. unfold invert_par.
  apply (dominated_solve s nz zl tr (par_coefs nu M)); auto; [intros; apply par_view; auto|].
  intros i k Hi Hk. destruct (H i Hi) as (A1 & A2 & A3 & A4 & A5 & A6). apply par_dominant; auto.
  replace (sg M i * yB M i) with (yB M i * (inv_sqrt_g22 M i 0%nat * Dy M (inv_sqrt_g22 M) i 0%nat)); [exact A6|].
  unfold sg, Dy, inv_sqrt_g22, Rdiv. rewrite !Rinv_mult. ring.
Qed.

(** ** C89: A + Div_par(B Grad_par) *)
Theorem C89_equation : forall s nz zl tr M F U, div_solved s nz zl tr M F U ->
  (forall i, is_inside s i -> no_nyquist nz (F i)) \/ (tr = None /\ (closed s = true -> ts s = 0)) ->
  forall i j, is_inside s i -> (j < nz)%nat -> Ldiv M U i j = to_row nz zl tr i (F i) j.
Proof.
  intros s nz zl tr M F U HS H i j Hi Hj. pose proof HS as ((H1 & H2 & H3 & H4) & Hn & Hz & _). pose proof (first_gd s). destruct Hi as (A & B).
  rewrite (Ldiv_modes M nz zl U i j) by (auto; lia).
  rewrite <- (equation s nz zl tr (div_coefs M) _ F U ltac:(intros; apply div_view; auto) HS ltac:(intros; apply div_real) i j); auto; [split; auto|].
  destruct H as [H|(T1 & T2)]; [left; exact H|right]. split; [exact T1|]. split; [exact T2|]. intros k. apply div_real.
Qed.
Theorem C89_equation_up_to_highest_mode : forall s nz zl tr M F U, div_solved s nz zl tr M F U ->
  forall i, is_inside s i -> exists r, (Nat.even nz = false -> r = 0) /\
  forall j, (j < nz)%nat -> Ldiv M U i j = to_row nz zl tr i (F i) j + r * (if Nat.even j then 1 else -1).
Proof. exact div_up_to. Qed.

(** The operator that is inverted is A plus the finite-volume operator FV::Div_par_K_Grad_par (C66 and following), with
    its boundary fluxes. *)
Theorem C89_same_operator : forall M U i j y, (1 <= i)%nat -> yJ M i <> 0 -> ydy M i <> 0 ->
  let z := fun (g : nat -> R) k => g (Z.to_nat k) in
  Ldiv M U i j = yA M i * U i j +
    FvModel.K_Grad_par y (FvModel.Metric (z (yJ M)) (z (ydy M)) (z (yg22 M))) (z (yB M)) (z (fun i => U i j)) true (Z.of_nat i).
Proof.
  intros M U i j y Hi HJ Hd z. unfold Ldiv, flux, mean, FvModel.K_Grad_par, z. cbn [orb FvModel.mJ FvModel.mdy FvModel.mg22].
  rewrite Nat2Z.id. replace (Z.to_nat (Z.of_nat i + 1)) with (i + 1)%nat by lia. replace (Z.to_nat (Z.of_nat i - 1)) with (i - 1)%nat by lia.
  replace (i - 1 + 1)%nat with i by lia.
  rewrite (Rplus_comm (yB M (i - 1)%nat)), (Rplus_comm (yJ M (i - 1)%nat)), (Rplus_comm (yg22 M (i - 1)%nat)), (Rplus_comm (ydy M (i - 1)%nat)).
  unfold Rdiv. rewrite !Rinv_mult, !Rinv_inv, !Rinv_1. ring.
Qed.

(** Conservation: over the whole surface, the volume integral of A u equals that of the right hand side: what the
    divergence moves around is neither created nor lost, at processor boundaries, at the twist-shift cut (where the
    guard cells of the coefficients hold the values of the other end), or at the ends of an open surface. *)
Theorem C89_conserves : forall s nz zl tr M F U, div_solved s nz zl tr M F U ->
  (forall i, is_inside s i -> yJ M i <> 0 /\ ydy M i <> 0) ->
  (closed s = true -> forall f, In f [yB M; yJ M; yg22 M; ydy M] -> f (first s - 1)%nat = f (past s - 1)%nat /\ f (past s) = f (first s)) ->
  rsum (past s - first s) (fun q => let i := (first s + q)%nat in rsum nz (fun j => yJ M i * ydy M i * (yA M i * U i j)))
  = rsum (past s - first s) (fun q => let i := (first s + q)%nat in rsum nz (fun j => yJ M i * ydy M i * F i j)).
Proof. exact conserved. Qed.

Theorem C89_boundary : forall s nz zl M f old ord1 ord2 mem u,
  well_formed s -> (1 <= nz)%nat -> closed s = false ->
  (forall p, (p < np s)%nat -> arrival_order (np s) p (ord1 p)) -> (forall p, (p < np s)%nat -> arrival_order (np s) p (ord2 p)) ->
  modes_nonsingular s nz zl (fun p => div_coefs (yview (p * my s) M)) f old ->
  invert_pardiv s nz zl None M f old ord1 ord2 mem = Ok u ->
  (forall y j, ((if ylow s then 1 else 0) <= y < first s)%nat -> (y + 1 < gd s + my s)%nat -> u 0%nat y j = u 0%nat (y + 1)%nat j) /\
  (forall y j, (gd s + my s <= y < my s + 2 * gd s)%nat -> u (np s - 1)%nat y j = u (np s - 1)%nat (y - 1)%nat j).
Proof. intros s nz zl M f old ord1 ord2 mem u. unfold invert_pardiv. apply boundary_rows. Qed.

Theorem C89_solvable : forall s nz zl tr M, well_formed s -> closed s = true -> (2 <= my s)%nat ->
  (forall i, is_inside s i -> yA M i <= - / 10 ^ 10) ->
  (forall i, (first s - 1 <= i <= past s)%nat -> 0 <= yB M i /\ 0 < yJ M i /\ 0 < yg22 M i /\ 0 < ydy M i) ->
  forall f old ord1 ord2 mem,
  (forall p, (p < np s)%nat -> arrival_order (np s) p (ord1 p)) -> (forall p, (p < np s)%nat -> arrival_order (np s) p (ord2 p)) ->
  (exists u, invert_pardiv s nz zl tr M f old ord1 ord2 mem = Ok u) /\
  modes_nonsingular s nz zl (fun p => div_coefs (yview (p * my s) M)) (fun p y => to_row nz zl tr (p * my s + y) (f p y)) old.
Proof.
  intros s nz zl tr M Hl Hc Hm HA H f old ord1 ord2 mem O1 O2. unfold invert_pardiv. pose proof Hl as (H1 & H2 & H3 & H4). pose proof (first_gd s).
  apply (dominated_solve s nz zl tr (div_coefs M)); auto; [intros; apply div_view; auto|].
  intros i k Hi Hk. pose proof Hi as (A & B). apply div_dominant; [lia|apply HA; exact Hi|]. intros m Hm'. apply H. lia.
Qed.

(** ** Cases: two processors of two points on a closed surface with a twist, shifted metric, four points in z; and an
    open surface of one point. A = -1, B = 1, unit metric. *)
Definition exM : ydata := YData (fun _ => -1) (fun _ => 1) (fun _ => 0) (fun _ => 0) (fun _ => 0) (fun _ => 1) (fun _ => 1) (fun _ => 0) (fun _ => 1).
Definition exS : surface := Surface 2 2 1 true false 1.
Definition exO : surface := Surface 1 1 1 false false 0.
Definition exOrd (p : nat) : list nat := [1 - p]%nat.
Lemma exOrd_ok : forall p, (p < 2)%nat -> arrival_order 2 p (exOrd p).
Proof. intros p Hp. destruct p as [|[|]]; [| |lia]; apply Permutation_refl. Qed.
Lemma exS_ok : well_formed exS.
Proof. unfold well_formed, first, past; cbn; lia. Qed.
Lemma ex_small : -1 <= - / 10 ^ 10.
Proof.
  assert (/ 10 ^ 10 < 1); [|lra]. rewrite <- Rinv_1. apply Rinv_lt_contravar; [|apply Rlt_pow_R1; [lra|lia]]. rewrite Rmult_1_l. apply pow_lt. lra.
Qed.
Definition exold : nat -> nat -> tvec := fun _ _ => TVec (fun _ => RtoC 7) (fun _ => RtoC 7) (fun _ => RtoC 7) (fun _ => RtoC 7).
Definition exmem : nat -> memory C := fun _ =>
  {| m_ifcs := fun _ _ => RtoC 7; m_recv := fun _ _ => RtoC 7; m_ifx := fun _ _ => RtoC 7; m_x1 := fun _ => RtoC 7; m_xn := fun _ => RtoC 7; m_x := fun _ _ => RtoC 7; m_gam := fun _ _ => RtoC 7; m_gam2 := fun _ _ => RtoC 7 |}.
Example C88_case : forall zShift F, exists U, par_solved exS 4 1 (Some zShift) false exM F U.
Proof.
  intros zShift F. destruct (C88_solvable exS 4 1 (Some zShift) false exM exS_ok eq_refl (le_n 2)) with (f := fun p y => F (p * 2 + y)%nat) (old := exold) (ord1 := exOrd) (ord2 := exOrd) (mem := exmem) as ((u & E) & N).
  - intros i Hi. unfold when, inv_sqrt_g22, Dy, inv_sqrt_g22. cbn [exM yA yB yC yD yE yg22 ydy yd1]. pose proof ex_small.
    repeat split; try lra. replace (0 + 1 * (1 / sqrt 1 * ((1 / sqrt 1 - 1 / sqrt 1) / (2 * 1))) + 0) with 0 by (unfold Rdiv; ring). rewrite Rabs_R0. lra.
  - apply exOrd_ok.
  - apply exOrd_ok.
  - apply (assemble exS 4 1 (Some zShift) _ F (fun p y => F (p * 2 + y)%nat) exold exOrd exOrd exmem u); auto using exS_ok, exOrd_ok.
    intros p y j _ _ _ _. reflexivity.
Qed.
Example C89_case : forall zShift F, exists U, div_solved exS 4 1 (Some zShift) exM F U.
Proof.
  intros zShift F. destruct (C89_solvable exS 4 1 (Some zShift) exM exS_ok eq_refl (le_n 2)) with (f := fun p y => F (p * 2 + y)%nat) (old := exold) (ord1 := exOrd) (ord2 := exOrd) (mem := exmem) as ((u & E) & N).
  - intros i Hi. exact ex_small.
  - intros i Hi. cbn. lra.
  - apply exOrd_ok.
  - apply exOrd_ok.
  - apply (assemble exS 4 1 (Some zShift) _ F (fun p y => F (p * 2 + y)%nat) exold exOrd exOrd exmem u); auto using exS_ok, exOrd_ok.
    intros p y j _ _ _ _. reflexivity.
Qed.
Definition exOrd1 (p : nat) : list nat := [].
Lemma exOrd1_ok : forall p, (p < 1)%nat -> arrival_order 1 p (exOrd1 p).
Proof. intros p Hp. replace p with 0%nat by lia. apply Permutation_refl. Qed.
Lemma exM_par : forall kw, par_coefs false (yview (0 * my exO) exM) 1 kw = (RtoC 1, RtoC (-3), RtoC 1).
Proof.
  intros kw. unfold par_coefs, sg, yview. cbv zeta. cbn [exM yA yB yC yD yE yg22 ydy yd1]. unfold Rdiv. rewrite Rinv_1, sqrt_1, Rinv_1.
  f_equal; [f_equal|]; apply C_eq; cbn [RtoC fst snd]; lra.
Qed.
Lemma exM_div : forall kw, div_coefs (yview (0 * my exO) exM) 1 kw = (RtoC 1, RtoC (-3), RtoC 1).
Proof.
  intros kw. unfold div_coefs, yview. cbv zeta. cbn [exM yA yB yC yD yE yg22 ydy yd1 yJ].
  replace (0.5 * (1 + 1) * (0.5 * (1 + 1)) / (0.5 * (1 + 1) * (0.5 * (1 + 1)) * 1 * 1)) with 1 by lra.
  replace (-1 - (1 + 1)) with (-3) by lra. reflexivity.
Qed.
Example C88_case_open : forall F, exists f old ord1 ord2 mem u U,
  modes_nonsingular exO 4 1 (fun p => par_coefs false (yview (p * my exO) exM)) f old /\
  invert_par exO 4 1 None false exM f old ord1 ord2 mem = Ok u /\ par_solved exO 4 1 None false exM F U.
Proof.
  intros F. destruct (one_open 4 1 (fun p => par_coefs false (yview (p * my exO) exM)) (fun p y => F (p * 1 + y)%nat) exold exOrd1 exOrd1 exmem
    (exOrd1_ok 0 (le_n 1)) (exOrd1_ok 0 (le_n 1)) exM_par) as ((u & E) & N).
  assert (W : well_formed exO) by (unfold well_formed, first, past; cbn; lia).
  destruct (assemble exO 4 1 None _ F (fun p y => F (p * 1 + y)%nat) exold exOrd1 exOrd1 exmem u W ltac:(lia) ltac:(lra) ltac:(intros p y j _ _ _ _; reflexivity) exOrd1_ok exOrd1_ok N E) as (U & HU).
  exists (fun p y => F (p * 1 + y)%nat), exold, exOrd1, exOrd1, exmem, u, U. auto.
Qed.
Example C89_case_open : forall F, exists f old ord1 ord2 mem u U,
  modes_nonsingular exO 4 1 (fun p => div_coefs (yview (p * my exO) exM)) f old /\
  invert_pardiv exO 4 1 None exM f old ord1 ord2 mem = Ok u /\ div_solved exO 4 1 None exM F U.
Proof.
  intros F. destruct (one_open 4 1 (fun p => div_coefs (yview (p * my exO) exM)) (fun p y => F (p * 1 + y)%nat) exold exOrd1 exOrd1 exmem
    (exOrd1_ok 0 (le_n 1)) (exOrd1_ok 0 (le_n 1)) exM_div) as ((u & E) & N).
  assert (W : well_formed exO) by (unfold well_formed, first, past; cbn; lia).
  destruct (assemble exO 4 1 None _ F (fun p y => F (p * 1 + y)%nat) exold exOrd1 exOrd1 exmem u W ltac:(lia) ltac:(lra) ltac:(intros p y j _ _ _ _; reflexivity) exOrd1_ok exOrd1_ok N E) as (U & HU).
  exists (fun p y => F (p * 1 + y)%nat), exold, exOrd1, exOrd1, exmem, u, U. auto.
Qed.

Print Assumptions C88_equation.
Print Assumptions C88_equation_up_to_highest_mode.
Print Assumptions C88_boundary.
Print Assumptions C88_solvable.
Print Assumptions C89_equation.
Print Assumptions C89_equation_up_to_highest_mode.
Print Assumptions C89_same_operator.
Print Assumptions C89_conserves.
Print Assumptions C89_boundary.
Print Assumptions C89_solvable.
