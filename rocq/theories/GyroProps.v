(** Gyro-averaging operators (C96). *)
From Coq Require Import List Arith Bool ZArith Reals Lia Lra Permutation.
From Coquelicot Require Import Complex.
From Verif Require Import Base CyclicModel CyclicSpec CyclicProofs2 CyclicProps FftModel FftProofs FftProofs2 FftProofs3 FftProofs4 LaplaceModel LaplaceSpec LaplaceProofs3 LaplaceProofs4 LaplaceProofs5 LaplaceProofs6 LaplaceProofs7 LaplaceProofs8 LaplaceProofs9 LaplaceProofs10 LaplaceProps GyroModel GyroSpec GyroProofs GyroProofs2.
Import ListNotations.
Local Open Scope R_scope.

(** Pade approximations: (1 - rho^2 Laplace_perp) g = f at every point of the domain, whatever the default Laplacian was
    used for before. *)
Theorem C96_pade0 : forall l nz zl inv s fin fout f g s', is_solver l nz zl inv -> default_options (lo s) nz -> mesh_ok l (lM s) nz ->
  let Lap := Lperp (nonuniform (lo s)) (lM s) nz zl in
  (forall rho, gyroPade0_const inv f rho fin fout s = Some (g, s') -> forall i j, inside l i -> (j < nz)%nat -> g i j - rho ^ 2 * Lap g i j = f i j) /\
  (forall rho, gyroPade0_2D inv f rho fin fout s = Some (g, s') -> forall i j, inside l i -> (j < nz)%nat -> g i j - rho i ^ 2 * Lap g i j = f i j) /\
  (forall rho, gyroPade0_3D nz inv f rho fin fout s = Some (g, s') -> forall i j, inside l i -> (j < nz)%nat -> g i j - (rsum nz (rho i) / INR nz) ^ 2 * Lap g i j = f i j).
Proof.
  intros l nz zl inv s fin fout f u s' HI HO HM Lap.
  assert (K : forall d, invert inv (prepared d fin fout s) f = Some (u, s') -> forall i j, inside l i -> (j < nz)%nat -> u i j + d i * Lap u i j = f i j)
    by (intros d E; exact (pade_eq l nz zl inv HI d fin fout s f u s' E HO HM)).
  split; [|split]; intros rho E i j Hi Hj; pose proof (K _ E i j Hi Hj) as H; cbv beta in H; rewrite <- H; [ring|ring|unfold DC, dc_row; ring].
Qed.
Theorem C96_pade1 : forall l nz zl inv s fin fout f g s', is_solver l nz zl inv -> default_options (lo s) nz -> mesh_ok l (lM s) nz ->
  let Lap := Lperp (nonuniform (lo s)) (lM s) nz zl in
  (forall rho, gyroPade1_const inv f rho fin fout s = Some (g, s') -> forall i j, inside l i -> (j < nz)%nat -> g i j - rho ^ 2 / 2 * Lap g i j = f i j) /\
  (forall rho, gyroPade1_2D inv f rho fin fout s = Some (g, s') -> forall i j, inside l i -> (j < nz)%nat -> g i j - rho i ^ 2 / 2 * Lap g i j = f i j) /\
  (forall rho, gyroPade1_3D nz inv f rho fin fout s = Some (g, s') -> forall i j, inside l i -> (j < nz)%nat -> g i j - (rsum nz (rho i) / INR nz) ^ 2 / 2 * Lap g i j = f i j).
Proof.
  intros l nz zl inv s fin fout f u s' HI HO HM Lap.
  assert (K : forall d, invert inv (prepared d fin fout s) f = Some (u, s') -> forall i j, inside l i -> (j < nz)%nat -> u i j + d i * Lap u i j = f i j)
    by (intros d E; exact (pade_eq l nz zl inv HI d fin fout s f u s' E HO HM)).
  assert (E5 : -0.5 = - / 2) by lra.
  split; [|split]; intros rho E i j Hi Hj; pose proof (K _ E i j Hi Hj) as H; cbv beta in H; rewrite <- H, E5; [field|field|unfold DC, dc_row, Rdiv; ring].
Qed.

(** A field that does not depend on z: the average over z of the solution. *)
Theorem C96_pade1_Field2D : forall l nz zl inv s fin fout f rho g s', is_solver l nz zl inv -> default_options (lo s) nz -> mesh_ok l (lM s) nz ->
  gyroPade1_Field2D nz inv f rho fin fout s = Some (g, s') ->
  exists U, (forall i, g i = rsum nz (U i) / INR nz) /\
    forall i j, inside l i -> (j < nz)%nat -> U i j - rho i ^ 2 / 2 * Lperp (nonuniform (lo s)) (lM s) nz zl U i j = f i.
Proof.
  intros l nz zl inv s fin fout f rho u s' HI HO HM E. unfold gyroPade1_Field2D in E.
  destruct (gyroPade1_2D inv (fun i _ => f i) rho fin fout s) as [(U & s1)|] eqn:E1; [|discriminate]. injection E as <- <-.
  exists U. split; [reflexivity|]. destruct (C96_pade1 l nz zl inv s fin fout (fun i _ => f i) U s1 HI HO HM) as (_ & H & _).
  intros i j Hi Hj. exact (H rho E1 i j Hi Hj).
Qed.

(** Twice the inversion, then the Laplacian. *)
Theorem C96_pade2 : forall l nz zl inv bc s fin fout f g s', is_solver l nz zl inv -> default_options (lo s) nz -> mesh_ok l (lM s) nz ->
  (forall V i j, inside l i -> bc V i j = V i j) ->
  let Lap := Lperp (nonuniform (lo s)) (lM s) nz zl in
  forall rho, gyroPade2_2D l nz zl inv bc f rho fin fout s = Some (g, s') ->
  exists h1 h2 : plane, forall i j, inside l i -> (j < nz)%nat ->
    h1 i j - rho i ^ 2 / 2 * Lap h1 i j = f i j /\ h2 i j - rho i ^ 2 / 2 * Lap h2 i j = h1 i j /\
    g i j = rho i ^ 2 / 2 * Lap h2 i j /\ g i j = h2 i j - h1 i j.
Proof.
  intros l nz zl inv bc s fin fout f u s' HI HO HM Hbc Lap rho E.
  destruct (pade2_inv l nz zl inv bc f rho fin fout s u s' E) as (h1 & h2 & E1 & E2 & -> & ->).
  exists h1, h2. intros i j Hi Hj. rewrite Hbc by exact Hi. destruct (HM i Hi) as (Hdx & _). destruct HO as (Ha & Hs & Hz & Hk).
  pose proof (pade_eq l nz zl inv HI _ _ _ _ _ _ _ E1 (conj Ha (conj Hs (conj Hz Hk))) HM i j Hi Hj) as H1.
  pose proof (pade_eq l nz zl inv HI _ _ _ _ _ _ _ E2 (conj Ha (conj Hs (conj Hz Hk))) HM i j Hi Hj) as H2.
  change (Lperp (nonuniform (lo (prepared (fun i => -0.5 * rho i * rho i) fin fout s))) (lM (prepared (fun i => -0.5 * rho i * rho i) fin fout s)) nz zl h2 i j) with (Lap h2 i j) in H2.
  fold (Lap h1 i j) in H1. cbv beta in H1, H2.
  apply invert_inv in E1 as (_ & E1). apply HI in E1. destruct E1 as (W & _ & Hn & Hzl & _).
  rewrite Delp2_eq by auto. change (Lperp _ _ nz zl h2 i j) with (Lap h2 i j). set (a := Lap h1 i j) in *. set (b := Lap h2 i j) in *. clearbody a b.
  replace (-0.5 * rho i * rho i) with (- (rho i ^ 2 / 2)) in * by lra. replace (0.5 * rho i * rho i) with (rho i ^ 2 / 2) by lra. repeat split; lra.
Qed.
(** The constant and the z-dependent radius are the same function with the obvious arguments. *)
Theorem C96_pade2_kinds : forall l nz zl inv bc f fin fout s,
  (forall rho, gyroPade2_const l nz zl inv bc f rho fin fout s = gyroPade2_2D l nz zl inv bc f (fun _ => rho) fin fout s) /\
  (forall rho, gyroPade2_3D l nz zl inv bc f rho fin fout s = gyroPade2_2D l nz zl inv bc f (fun i => rsum nz (rho i) / INR nz) fin fout s).
Proof. intros. split; reflexivity. Qed.

Theorem C96_taylor : forall l nz zl s f rho, well_laid l -> (1 <= nz)%nat -> zl <> 0 -> default_options (lo s) nz -> mesh_ok l (lM s) nz ->
  forall i j, inside l i -> (j < nz)%nat -> gyroTaylor0 l nz zl f rho s i j = f i j + rho i j ^ 2 * Lperp (nonuniform (lo s)) (lM s) nz zl f i j.
Proof.
  intros l nz zl s f rho W Hn Hz (Ha & Hs & _) HM i j Hi Hj. destruct (HM i Hi) as (Hdx & _). unfold gyroTaylor0. rewrite Delp2_eq by auto. ring.
Qed.

(** With the default flags, half way between the two outermost cells on each side the result has the value of the
    argument in the outermost cell. *)
Theorem C96_boundary : forall l nz zl inv s f g s', is_solver l nz zl inv -> zero_DC (lo s) = false -> (nz / 2 <= maxmode (lo s))%nat ->
  (exists rho, gyroPade0_2D inv f rho GYRO_FLAGS GYRO_FLAGS s = Some (g, s') \/ gyroPade1_2D inv f rho GYRO_FLAGS GYRO_FLAGS s = Some (g, s')) ->
  forall j, (j < nz)%nat -> (g 0%nat j + g 1%nat j) / 2 = f 0%nat j /\ (g (NX l - 2)%nat j + g (NX l - 1)%nat j) / 2 = f (NX l - 1)%nat j.
Proof.
  intros l nz zl inv s f u s' HI Hz Hk (rho & [E|E]) j Hj; exact (pade_bndry l nz zl inv HI _ s f u s' E Hz Hk j Hj).
Qed.

(** Integrated shear: the term of the shear is not multiplied by the radius. *)
Theorem C96_shear : forall l nz zl inv s fin fout f rho g s', is_solver l nz zl inv ->
  all_terms (lo s) = true -> IncIntShear (lo s) = true -> zero_DC (lo s) = false -> (nz / 2 <= maxmode (lo s))%nat -> mesh_ok l (lM s) nz ->
  gyroPade0_2D inv f rho fin fout s = Some (g, s') -> forall i j, inside l i -> (j < nz)%nat ->
  g i j - rho i ^ 2 * (Lperp (nonuniform (lo s)) (lM s) nz zl g i j - 2 * g13 (lM s) i * Dx (lM s) (Dz nz zl g) i j)
    + g11 (lM s) i * Ishear (lM s) i ^ 2 * D2z nz zl g i j = f i j.
Proof.
  intros l nz zl inv s fin fout f rho u s' HI Ha Hs Hz Hk HM E i j Hi Hj.
  change (invert inv (prepared (fun i => - rho i * rho i) fin fout s) f = Some (u, s')) in E. apply invert_inv in E as (-> & E).
  rewrite <- (equation l nz zl inv HI _ fin fout s f u E Ha Hz Hk HM i j Hi Hj). destruct (HM i Hi) as (Hdx & _). rewrite Lop_prepared by auto.
  rewrite Hs. cbn [when]. ring.
Qed.

(** History: whatever was computed with the default Laplacian before, by these functions or by other parts of the
    program, the result of a call is the same. *)
Theorem C96_history : forall l nz zl inv bc cs s s', run l nz zl inv bc cs s = Some s' ->
  forall c, (forall A C D a b, c <> OtherUse A C D a b) -> perform l nz zl inv bc c s' = perform l nz zl inv bc c s.
Proof.
  intros l nz zl inv bc cs s s' E c N. apply perform_state; [|exact N]. apply same_sym. exact (run_same l nz zl inv bc cs s s' E).
Qed.
(** But they leave their coefficients and flags behind in it: an inversion that relies on those it has set before
    inverts another operator. *)
Theorem C96_coefficients_left : forall inv f rho fin fout s g s',
  gyroPade0_2D inv f rho fin fout s = Some (g, s') ->
  inner (lo s') = fin /\ outer (lo s') = fout /\ forall i, cA (lM s') i = 1 /\ cC1 (lM s') i = 1 /\ cC2 (lM s') i = 1 /\ cD (lM s') i = - rho i ^ 2.
Proof.
  intros inv f rho fin fout s u s' E. change (invert inv (prepared (fun i => - rho i * rho i) fin fout s) f = Some (u, s')) in E. apply invert_inv in E as (-> & _).
  cbn. repeat split. ring.
Qed.

(** ** A case: three cells in x, four points in z, unit metric, radius 1; any field. *)
Example C96_case : forall f, exists g s', gyroPade0_2D ex_inv f (fun _ => 1) GYRO_FLAGS GYRO_FLAGS ex_lap = Some (g, s') /\
  is_solver lay1 4 1 ex_inv /\ default_options (lo ex_lap) 4 /\ mesh_ok lay1 (lM ex_lap) 4 /\ inside lay1 1.
Proof.
  intros f. destruct (ex_runs f) as (g & s' & E). exists g, s'. split; [exact E|]. split; [exact ex_solver|]. split; [repeat split; cbn; lia|].
  split; [intros i _; cbn; split; [lra|right; split; reflexivity]|cbn; unfold inside; cbn; lia].
Qed.

Print Assumptions C96_pade0.
Print Assumptions C96_pade1.
Print Assumptions C96_pade1_Field2D.
Print Assumptions C96_pade2.
Print Assumptions C96_pade2_kinds.
Print Assumptions C96_taylor.
Print Assumptions C96_boundary.
Print Assumptions C96_shear.
Print Assumptions C96_history.
Print Assumptions C96_coefficients_left.
