(** Gyro-averaging: proofs. *)
From Coq Require Import List Arith Bool ZArith Reals Lia Lra Permutation.
From Coquelicot Require Import Complex.
From Verif Require Import Base CyclicModel CyclicSpec CyclicProofs2 CyclicProps FftModel FftProofs FftProofs2 FftProofs3 FftProofs4 LaplaceModel LaplaceSpec LaplaceProofs3 LaplaceProofs4 LaplaceProofs5 LaplaceProofs6 LaplaceProofs7 LaplaceProofs8 LaplaceProofs9 LaplaceProofs10 LaplaceProps GyroModel GyroSpec.
Import ListNotations.
Local Open Scope R_scope.

Section G.
Variables (l : layout) (nz : nat) (zl : R).
Variable inv : opts -> xdata -> plane -> plane -> option plane.
Hypothesis HI : is_solver l nz zl inv.

(** The state of the Laplacian with coefficient [d] and flags. *)
Definition prepared (d : nat -> R) (fin fout : bflags) (s : lap) : lap :=
  setOuter fout (setInner fin (setCoefD d (setCoefC (fun _ => 1) (setCoefA (fun _ => 1) s)))).

Lemma lowpass_full : forall o x, zero_DC o = false -> (nz / 2 <= maxmode o)%nat -> lowPass_row nz (Z.of_nat (maxmode o)) (negb (zero_DC o)) x = Ok x.
Proof.
  intros o x Hz Hk. unfold lowPass_row. rewrite Hz. cbn [negb]. rewrite andb_true_r.
  replace (Z.leb (Z.of_nat (nz / 2)) (Z.of_nat (maxmode o))) with true; [reflexivity|]. symmetry. apply Z.leb_le. lia.
Qed.

Lemma inside_interior : forall o i, well_laid l -> inside l i -> is_interior l o i.
Proof.
  intros o i (L1 & L2 & L3) (A & B). destruct (bndry_ge1 o (g l) L3) as ((B1 & B2) & (B3 & B4)). unfold is_interior, NX. lia.
Qed.

(** The equation solved, without assumption on integrated shear. *)
Lemma equation : forall d fin fout s f U, inv (lo (prepared d fin fout s)) (lM (prepared d fin fout s)) f f = Some U ->
  all_terms (lo s) = true -> zero_DC (lo s) = false -> (nz / 2 <= maxmode (lo s))%nat ->
  mesh_ok l (lM s) nz -> forall i j, inside l i -> (j < nz)%nat ->
  Lop (lo (prepared d fin fout s)) (lM (prepared d fin fout s)) nz zl U i j = f i j.
Proof.
  intros d fin fout s f U E Ha Hz Hk HM i j Hi Hj. apply HI in E. pose proof E as (W & _ & Hn & Hzl & _). destruct (HM i Hi) as (Hdx & Hny).
  set (o := lo (prepared d fin fout s)) in *. set (M := lM (prepared d fin fout s)) in *.
  assert (LP : lowPass_row nz (Z.of_nat (maxmode o)) (negb (zero_DC o)) (f i) = Ok (f i)) by (apply lowpass_full; assumption).
  destruct Hny as [Odd|(Z1 & Z2)].
  - destruct (C60_interior_any_mode l o nz zl M f f U E i (f i) (inside_interior o i W Hi) Hdx ltac:(cbn; lra) LP) as (r & R1 & R2).
    rewrite R2 by auto. rewrite R1; [ring|]. rewrite <- Nat.negb_odd, Odd. reflexivity.
  - apply (C60_interior l o nz zl M f f U E i j (f i)); auto.
    + apply inside_interior; auto.
    + cbn. lra.
    + right. split; [exact Z1|]. cbn. unfold when. destruct (all_terms (lo s)); auto.
Qed.

Lemma Lop_prepared : forall d fin fout s U i j, all_terms (lo s) = true -> dx (lM s) i <> 0 ->
  Lop (lo (prepared d fin fout s)) (lM (prepared d fin fout s)) nz zl U i j
  = U i j + d i * (Lperp (nonuniform (lo s)) (lM s) nz zl U i j - when (IncIntShear (lo s)) (2 * g13 (lM s) i * Dx (lM s) (Dz nz zl U) i j))
    + when (IncIntShear (lo s)) (g11 (lM s) i * Ishear (lM s) i ^ 2 * D2z nz zl U i j).
Proof.
  intros d fin fout s U i j Ha Hdx. unfold Lop, Lperp.
  unfold prepared, setOuter, setInner, setCoefA, setCoefC, setCoefD. cbv zeta. cbn [lo lM all_terms nonuniform IncIntShear g11 g33 g13 G1 G3 dx Ishear cA cC1 cC2 cD].
  rewrite Ha. unfold Dx, D2x. cbn [dx]. destruct (IncIntShear (lo s)); cbn [negb when]; unfold Rdiv; rewrite Rminus_eq_0; ring.
Qed.

(** ** The functions are inversions *)
Lemma invert_inv : forall d fin fout s f g s', invert inv (prepared d fin fout s) f = Some (g, s') ->
  s' = prepared d fin fout s /\ inv (lo s') (lM s') f f = Some g.
Proof.
  intros d fin fout s f g s' E. unfold invert in E. destruct (inv _ _ _ _) as [u|] eqn:Eu; [|discriminate]. injection E as <- <-. auto.
Qed.
Lemma pade_eq : forall d fin fout s f g s', invert inv (prepared d fin fout s) f = Some (g, s') ->
  default_options (lo s) nz -> mesh_ok l (lM s) nz -> forall i j, inside l i -> (j < nz)%nat ->
  g i j + d i * Lperp (nonuniform (lo s)) (lM s) nz zl g i j = f i j.
Proof.
  intros d fin fout s f g s' E (Ha & Hsh & Hz & Hk) HM i j Hi Hj. apply invert_inv in E as (-> & E).
  rewrite <- (equation d fin fout s f g E Ha Hz Hk HM i j Hi Hj). destruct (HM i Hi) as (Hdx & _). rewrite Lop_prepared by auto.
  rewrite Hsh. cbn [when]. ring.
Qed.

(** ** Boundaries *)
Lemma full_sel : forall o x j, (1 <= nz)%nat -> (j < nz)%nat -> zero_DC o = false -> (nz / 2 <= maxmode o)%nat ->
  sel nz (fun k => 1 * msk o k) x j = x j.
Proof.
  intros o x j Hn Hj Hz Hk. rewrite <- (sel_all nz x j Hn Hj). apply sel_ext; auto. intros k Hk'. unfold msk. rewrite Hz. cbn [andb].
  rewrite (proj2 (Nat.leb_le k (maxmode o))) by lia. ring.
Qed.
Lemma pade_bndry : forall d s f g s', invert inv (prepared d GYRO_FLAGS GYRO_FLAGS s) f = Some (g, s') ->
  zero_DC (lo s) = false -> (nz / 2 <= maxmode (lo s))%nat -> forall j, (j < nz)%nat ->
  (g 0%nat j + g 1%nat j) / 2 = f 0%nat j /\ (g (NX l - 2)%nat j + g (NX l - 1)%nat j) / 2 = f (NX l - 1)%nat j.
Proof.
  intros d s f u s' E Hz Hk j Hj. apply invert_inv in E as (-> & E). apply HI in E. pose proof E as (W & _ & Hn & _).
  set (o := lo (prepared d GYRO_FLAGS GYRO_FLAGS s)) in *. set (M := lM (prepared d GYRO_FLAGS GYRO_FLAGS s)) in *.
  assert (S1 : forall x, sel nz (fun _ => 1) x j = x j) by (intros; apply sel_all; auto).
  split.
  - pose proof (inner_real l o nz zl M f f u E 0 (fun _ => 1) 0.5 0.5 j ltac:(cbn; lia)) as H.
    rewrite full_sel, !S1 in H by auto. change (imposed (inner o) f f 0) with (f 0%nat) in H. rewrite <- H; [cbn [Nat.add]; lra|].
    intros k _ _. unfold inner_bc. destruct (k =? 0)%nat; reflexivity.
  - pose proof (outer_real l o nz zl M f f u E 0 (fun _ => 1) 0.5 0.5 j ltac:(cbn; lia)) as H. cbv zeta in H.
    rewrite full_sel, !S1 in H by auto. rewrite Nat.sub_0_r in H. change (imposed (outer o) f f (NX l - 1)) with (f (NX l - 1)%nat) in H.
    rewrite <- H; [replace (NX l - 1 - 1)%nat with (NX l - 2)%nat by lia; lra| |].
    + intros k _. right. repeat split.
    + intros k _ _. unfold outer_bc. destruct (k =? 0)%nat; reflexivity.
Qed.

(** ** Delp2 *)
Lemma Delp2_eq : forall s U i j, well_laid l -> (1 <= nz)%nat -> zl <> 0 -> all_terms (lo s) = true -> IncIntShear (lo s) = false ->
  inside l i -> (j < nz)%nat -> dx (lM s) i <> 0 -> Delp2 l nz zl s U i j = Lperp (nonuniform (lo s)) (lM s) nz zl U i j.
Proof.
  intros s U i j (L1 & L2 & L3) Hn Hz Ha Hs (I1 & I2) Hj Hdx. unfold Delp2.
  set (p := ((i - g l) / mx l)%nat). set (jx := (g l + (i - g l) mod mx l)%nat).
  assert (E : (p * mx l + jx = i)%nat) by (unfold p, jx; pose proof (Nat.div_mod (i - g l) (mx l)); lia).
  assert (J : (jx < g l + mx l)%nat) by (unfold jx; pose proof (Nat.mod_upper_bound (i - g l) (mx l)); lia).
  rewrite (C61_formula (lo s) (LocalNx l) nz zl (p * mx l) (lM s) U jx j); auto; try (unfold jx, LocalNx in *; lia); rewrite E; auto.
Qed.

(** ** The state of the Laplacian *)
Lemma same_prepared : forall d fin fout s s', same_make s s' -> prepared d fin fout s = prepared d fin fout s'.
Proof.
  intros d fin fout [[? ? ? ? ? ? ? ? ?] [? ? ? ? ? ? ? ? ? ? ? ? ?]] [[? ? ? ? ? ? ? ? ?] [? ? ? ? ? ? ? ? ? ? ? ? ?]] ((H1 & H2 & H3 & H4 & H5 & H6 & H7) & (K1 & K2 & K3 & K4 & K5 & K6 & K7 & K8 & K9)).
  cbn in *. subst. reflexivity.
Qed.
Lemma prepared_same : forall d fin fout s, same_make s (prepared d fin fout s).
Proof. intros. repeat split. Qed.
Lemma same_refl : forall s, same_make s s.
Proof. intros. repeat split. Qed.
Lemma same_trans : forall s t u, same_make s t -> same_make t u -> same_make s u.
Proof.
  unfold same_make. cbv zeta. intros s t u ((H1 & H2 & H3 & H4 & H5 & H6 & H7) & (K1 & K2 & K3 & K4 & K5 & K6 & K7 & K8 & K9))
    ((H1' & H2' & H3' & H4' & H5' & H6' & H7') & (K1' & K2' & K3' & K4' & K5' & K6' & K7' & K8' & K9')).
  repeat split; etransitivity; eauto.
Qed.
Lemma same_sym : forall s t, same_make s t -> same_make t s.
Proof. unfold same_make. cbv zeta. intros s t ((H1 & H2 & H3 & H4 & H5 & H6 & H7) & (K1 & K2 & K3 & K4 & K5 & K6 & K7 & K8 & K9)). repeat split; auto. Qed.

Variable bc : plane -> plane.
Lemma pade2_inv : forall f rho fin fout s g s', gyroPade2_2D l nz zl inv bc f rho fin fout s = Some (g, s') ->
  let d := fun i => -0.5 * rho i * rho i in
  exists h1 h2, invert inv (prepared d fin fout s) f = Some (h1, prepared d fin fout s) /\
    invert inv (prepared d fin fout (prepared d fin fout s)) h1 = Some (h2, prepared d fin fout s) /\
    s' = prepared d fin fout s /\ g = bc (fun i j => 0.5 * rho i * rho i * Delp2 l nz zl s' h2 i j).
Proof.
  intros f rho fin fout s u s' E d. unfold gyroPade2_2D, gyroPade1_2D in E. cbv zeta in E. fold d in E. fold (prepared d fin fout s) in E.
  destruct (invert inv (prepared d fin fout s) f) as [(h1 & s1)|] eqn:E1; [|discriminate]. pose proof (invert_inv _ _ _ _ _ _ _ E1) as (-> & _).
  fold (prepared d fin fout (prepared d fin fout s)) in E.
  destruct (invert inv (prepared d fin fout (prepared d fin fout s)) h1) as [(h2 & s2)|] eqn:E2; [|discriminate]. pose proof (invert_inv _ _ _ _ _ _ _ E2) as (-> & _).
  injection E as <- <-. rewrite <- (same_prepared d fin fout s (prepared d fin fout s)) in E2 |- * by apply prepared_same.
  exists h1, h2. repeat split; auto.
Qed.

Lemma perform_same : forall c s u s', perform l nz zl inv bc c s = Some (u, s') -> same_make s s'.
Proof.
  intros c s u s' E. destruct c as [f rho a b|f rho a b|f rho a b|A C D a b]; cbn [perform] in E.
  - unfold gyroPade0_2D in E. apply invert_inv in E as (-> & _). apply prepared_same.
  - unfold gyroPade1_2D in E. apply invert_inv in E as (-> & _). apply prepared_same.
  - apply pade2_inv in E as (h1 & h2 & _ & _ & -> & _). apply prepared_same.
  - injection E as _ <-. repeat split.
Qed.
Lemma run_same : forall cs s s', run l nz zl inv bc cs s = Some s' -> same_make s s'.
Proof.
  induction cs as [|c cs IH]; intros s s' E; cbn [run] in E; [injection E as <-; apply same_refl|].
  destruct (perform l nz zl inv bc c s) as [(u & s1)|] eqn:E1; [|discriminate]. apply (same_trans s s1); [eapply perform_same; eauto|apply IH; exact E].
Qed.
Lemma perform_state : forall c s s', same_make s s' -> (forall A C D a b, c <> OtherUse A C D a b) ->
  perform l nz zl inv bc c s = perform l nz zl inv bc c s'.
Proof.
  intros c s s' HS N. destruct c as [f rho a b|f rho a b|f rho a b|A C D a b]; [| | |exfalso; eapply N; reflexivity]; cbn [perform].
  - unfold gyroPade0_2D. cbv zeta. fold (prepared (fun i => - rho i * rho i) a b s) (prepared (fun i => - rho i * rho i) a b s'). rewrite (same_prepared _ a b s s' HS). reflexivity.
  - unfold gyroPade1_2D. cbv zeta. fold (prepared (fun i => -0.5 * rho i * rho i) a b s) (prepared (fun i => -0.5 * rho i * rho i) a b s'). rewrite (same_prepared _ a b s s' HS). reflexivity.
  - unfold gyroPade2_2D, gyroPade1_2D. cbv zeta. fold (prepared (fun i => -0.5 * rho i * rho i) a b s) (prepared (fun i => -0.5 * rho i * rho i) a b s'). rewrite (same_prepared _ a b s s' HS). reflexivity.
Qed.
End G.
