(** Gyro-averaging: a concrete solver. *)
From Coq Require Import List Arith Bool ZArith Reals Lia Lra Permutation.
From Coquelicot Require Import Complex.
From Verif Require Import Base CyclicModel CyclicSpec CyclicProofs2 CyclicProps FftModel FftProofs FftProofs2 FftProofs3 FftProofs4 LaplaceModel LaplaceSpec LaplaceProofs3 LaplaceProofs4 LaplaceProofs5 LaplaceProofs6 LaplaceProofs7 LaplaceProofs8 LaplaceProofs9 LaplaceProofs10 LaplaceProps GyroModel GyroSpec GyroProofs.
Import ListNotations.
Local Open Scope R_scope.

Lemma nonsingular_half : forall q r0 r1 r2, 0 < q ->
  nonsingular C (RtoC 0) Cplus Cmult false
    [Row (RtoC 0) (RtoC 0.5) (RtoC 0.5) r0; Row (RtoC (-1)) (RtoC q) (RtoC (-1)) r1; Row (RtoC 0.5) (RtoC 0.5) (RtoC 0) r2].
Proof.
  intros q r0 r1 r2 Hq z (Hlen & Hz). cbn [map length ra rb rc] in *.
  destruct z as [|z0 [|z1 [|z2 [|]]]]; try discriminate.
  pose proof (Hz 0%nat _ eq_refl) as E0. pose proof (Hz 1%nat _ eq_refl) as E1. pose proof (Hz 2%nat _ eq_refl) as E2.
  cbn -[Cplus Cmult RtoC] in E0, E1, E2. destruct z0 as [x0 y0], z1 as [x1 y1], z2 as [x2 y2].
  assert (F0 := f_equal fst E0). assert (G0 := f_equal snd E0). assert (F1 := f_equal fst E1). assert (G1' := f_equal snd E1).
  assert (F2 := f_equal fst E2). assert (G2 := f_equal snd E2). cbn [Cplus Cmult RtoC fst snd] in *.
  assert (A0 : x0 = - x1) by lra. assert (A2 : x2 = - x1) by lra. assert (B0 : y0 = - y1) by lra. assert (B2 : y2 = - y1) by lra. subst.
  assert (x1 = 0) by nra. assert (y1 = 0) by nra. subst. repeat constructor; apply C_eq; cbn [RtoC fst snd]; lra.
Qed.

Definition Cdec (a b : C) : bool := if Req_EM_T (fst a) (fst b) then if Req_EM_T (snd a) (snd b) then true else false else false.
Lemma Cdec_spec : forall a b, Cdec a b = true <-> a = b.
Proof.
  intros [x y] [x' y']. unfold Cdec. cbn [fst snd]. destruct (Req_EM_T x x') as [->|N]; [destruct (Req_EM_T y y') as [->|N]|]; split; intros H; auto; try discriminate; injection H; intros; contradiction.
Qed.
(** The matrix of one mode is that of the case. *)
Definition fits (t : tvec) (k : nat) : bool :=
  (Cdec (va t 0) (RtoC 0) && Cdec (vb t 0) (RtoC 0.5) && Cdec (vc t 0) (RtoC 0.5) &&
   Cdec (va t 1) (RtoC (-1)) && Cdec (vb t 1) (RtoC (3 + kwave 1 k * kwave 1 k)) && Cdec (vc t 1) (RtoC (-1)) &&
   Cdec (va t 2) (RtoC 0.5) && Cdec (vb t 2) (RtoC 0.5) && Cdec (vc t 2) (RtoC 0))%bool.
Definition ex_inv (o : opts) (M : xdata) (F X0 : plane) : option plane :=
  match all_matrices lay1 o 4 1 M (pieces lay1 F) (pieces lay1 X0) with
  | Ok mats =>
    if (negb (periodicX o) && (nrows lay1 o 0 =? 3)%nat && forallb (fun k => fits (mats 0%nat k) k) (seq 0 (maxmode o + 1)))%bool then
      match solve lay1 o 4 1 M (pieces lay1 F) (pieces lay1 X0) onil onil memC with Ok u => Some (glue lay1 u) | _ => None end
    else None
  | _ => None
  end.

Lemma fits_spec : forall t k, fits t k = true <->
  (va t 0%nat = RtoC 0 /\ vb t 0%nat = RtoC 0.5 /\ vc t 0%nat = RtoC 0.5 /\ va t 1%nat = RtoC (-1) /\ vb t 1%nat = RtoC (3 + kwave 1 k * kwave 1 k) /\
   vc t 1%nat = RtoC (-1) /\ va t 2%nat = RtoC 0.5 /\ vb t 2%nat = RtoC 0.5 /\ vc t 2%nat = RtoC 0).
Proof. intros. unfold fits. rewrite !andb_true_iff, !Cdec_spec. tauto. Qed.

Lemma ex_solver : is_solver lay1 4 1 ex_inv.
Proof.
  intros o M F X0 U E. unfold ex_inv in E. destruct (all_matrices lay1 o 4 1 M (pieces lay1 F) (pieces lay1 X0)) as [mats| |] eqn:Hm; try discriminate.
  destruct (negb (periodicX o) && (nrows lay1 o 0 =? 3)%nat && forallb _ _)%bool eqn:G; [|discriminate].
  apply andb_true_iff in G as (G & G3). apply andb_true_iff in G as (G1 & G2). apply negb_true_iff in G1. apply Nat.eqb_eq in G2. rewrite forallb_forall in G3.
  destruct (solve _ _ _ _ _ _ _ _ _ _) as [u| |] eqn:Hu; try discriminate. injection E as <-.
  assert (Hl : well_laid lay1) by (repeat split; cbn; lia).
  split; [auto|]. split; [auto|]. split; [lia|]. split; [lra|].
  exists (pieces lay1 F), (pieces lay1 X0), onil, onil, memC, u. split; [apply gathers_pieces|]. split; [apply gathers_pieces|].
  split; [exact onil_ok|]. split; [exact onil_ok|]. split; [|split; [exact Hu|apply gathers_glue; auto]].
  intros mats' E k Hk. rewrite Hm in E. apply Ok_inj in E. subst mats'. rewrite G1.
  unfold system_rows, distributed. change (np lay1) with 1%nat. cbn [seq flat_map]. rewrite G2. cbn [seq map app].
  specialize (G3 k ltac:(apply in_seq; lia)). apply fits_spec in G3. destruct G3 as (-> & -> & -> & -> & -> & -> & -> & -> & ->).
  apply nonsingular_half. pose proof (Rle_0_sqr (kwave 1 k)) as H. unfold Rsqr in H. lra.
Qed.

Definition ex_lap : lap := Lap (Opts true false false false false false noflags noflags 2) (unitM 0).
Definition ex_M : xdata := XData (fun _ => 1) (fun _ => 1) (fun _ => 0) (fun _ => 0) (fun _ => 0) (fun _ => 1) (fun _ => 1) (fun _ => 1) (fun _ => 0)
        (fun _ => 1) (fun _ => 1) (fun _ => 1) (fun _ => -1 * 1).
Definition ex_o : opts := Opts true false false false false false GYRO_FLAGS GYRO_FLAGS 2.
Lemma ex_coefs : forall L j kw, tridagCoefs ex_o L ex_M j kw = ((-1, 0), (2 + kw * kw, 0), (-1, 0)).
Proof.
  intros L j kw. unfold tridagCoefs. cbv zeta. cbn [ex_o all_terms nonuniform IncIntShear ex_M g11 g33 g13 G1 G3 cD cC1 cC2 dx Ishear].
  replace (1 - 1) with 0 by ring. replace (0 / (2 * 1 * 1)) with 0 by field. replace (0 * (-1 * 1)) with 0 by ring.
  replace (0 + 1 * 0) with 0 by ring. replace (0 + 0 * 0) with 0 by ring.
  assert (E3 : forall b : bool, (if b then 0 else 0) = 0) by (intros [|]; reflexivity). rewrite !E3.
  f_equal; [f_equal|]; f_equal; field.
Qed.
Lemma ex_row : forall k bk, exists t, tridagMatrix lay1 ex_o 0 ex_M k (kwave 1 k) bk = Ok t /\ fits t k = true.
Proof.
  intros k bk. eexists.
  unfold tridagMatrix. cbn [ex_o periodicX negb]. change (0 =? 0)%nat with true. change (0 =? np lay1 - 1)%nat with true. cbv iota.
  unfold inner_rows, outer_rows. cbn [ex_o inner outer GYRO_FLAGS b_dc_grad b_ac_grad b_ac_lap b_dc_lap b_dc_gradpar b_dc_gradparinv b_cylinder b_set b_rhs andb orb].
  split; [destruct (k =? 0)%nat; cbn [bind]; reflexivity|]. apply fits_spec.
  unfold low_rows, high_rows, low_zero, high_zero, cr3. unfold inbndry, outbndry. change (xs lay1 ex_o 0) with 0%nat. change (xe lay1 ex_o 0) with 2%nat.
  cbn [ex_o inner outer GYRO_FLAGS both_one b_one g lay1 Nat.ltb Nat.leb orb andb Nat.sub va vb vc vk fst snd]. rewrite !ex_coefs.
  cbn [fst snd ex_M cA]. repeat split; try reflexivity. apply C_eq; cbn [Cplus RtoC fst snd]; ring.
Qed.
Lemma ex_runs : forall f, exists g s', gyroPade0_2D ex_inv f (fun _ => 1) GYRO_FLAGS GYRO_FLAGS ex_lap = Some (g, s').
Proof.
  intros f. unfold gyroPade0_2D, invert. cbv zeta.
  change (lo _) with ex_o. change (lM _) with ex_M.
  assert (E : exists g, ex_inv ex_o ex_M f f = Some g).
  { destruct (for_sys_ok (fun _ : nat => tvec0) (fun p => matrices lay1 ex_o p 4 1 (view (p * mx lay1) ex_M) (pieces lay1 f p) (pieces lay1 f p)) 1) as (mats & Hm).
    { intros p Hp. assert (p = 0%nat) by lia. subst p. unfold matrices. apply for_sys_ok. intros k Hk. change (view (0 * mx lay1) ex_M) with ex_M.
      match goal with |- exists v, tridagMatrix _ _ _ _ _ _ ?bk = _ => destruct (ex_row k bk) as (t & Ht & _) end. eauto. }
    assert (Hm' : all_matrices lay1 ex_o 4 1 ex_M (pieces lay1 f) (pieces lay1 f) = Ok mats) by exact Hm.
    assert (Hrow : forall k, (k <= 2)%nat -> fits (mats 0%nat k) k = true).
    { intros k Hk. pose proof (mats_row lay1 ex_o 4 1 ex_M (pieces lay1 f) (pieces lay1 f) mats 0 k Hm' ltac:(cbn; lia) Hk) as Hr. change (view (0 * mx lay1) ex_M) with ex_M in Hr.
      match type of Hr with tridagMatrix _ _ _ _ _ _ ?bk = _ => destruct (ex_row k bk) as (t & Ht & HH) end.
      rewrite Hr in Ht. apply Ok_inj in Ht. rewrite Ht. exact HH. }
    unfold ex_inv. rewrite Hm'. change (negb (periodicX ex_o)) with true. change (nrows lay1 ex_o 0 =? 3)%nat with true. change (maxmode ex_o + 1)%nat with 3%nat. cbn [andb].
    replace (forallb (fun k => fits (mats 0%nat k) k) (seq 0 3)) with true by (symmetry; apply forallb_forall; intros k Hk; apply in_seq in Hk; apply Hrow; lia).
    destruct (three_rows 3 false (nrows lay1 ex_o) (fun p k => va (mats p k)) (fun p k => vb (mats p k))
               (fun p k => vc (mats p k)) (fun p k => vk (mats p k)) onil onil memC eq_refl (onil_ok 0 ltac:(lia)) (onil_ok 0 ltac:(lia))) as (x & Hx).
    { intros s Hs. pose proof (Hrow s ltac:(lia)) as Hf. apply fits_spec in Hf. destruct Hf as (_ & _ & _ & _ & -> & _). apply tinyC_big.
      pose proof (Rle_0_sqr (kwave 1 s)) as H. unfold Rsqr in H. rewrite Rabs_pos_eq; lra. }
    unfold solve. rewrite Hm'. cbn [bind]. change (np lay1) with 1%nat. change (maxmode ex_o + 1)%nat with 3%nat. change (periodicX ex_o) with false. rewrite Hx. cbn [bind]. eexists. reflexivity. }
  destruct E as (u & ->). eauto.
Qed.
