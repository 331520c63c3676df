(** LaplaceNaulin: a concrete problem with a coefficient that depends on z, with the model of LaplaceCyclic as the direct
    solver: one processor, one point, three points in z. *)
From Coq Require Import List Arith Bool ZArith Reals Lia Lra FunctionalExtensionality.
From Coquelicot Require Import Complex.
From Verif Require Import Base CyclicModel CyclicSpec CyclicProofs2 CyclicProps FftModel FftProofs FftProofs2 FftProofs3 FftProofs4 LaplaceModel LaplaceSpec LaplaceProofs3 LaplaceProofs4 LaplaceProofs7 LaplaceProofs8 LaplaceProofs9 LaplaceProofs10
  NaulinModel NaulinSpec NaulinProofs NaulinProofs2.
Import ListNotations.
Local Open Scope R_scope.

Lemma solved3n : forall nz o b0 c0 a2 b2 F X0, periodicX o = false -> (1 <= nz)%nat -> b0 <> 0 -> b2 <> 0 -> -2 < c0 / b0 + a2 / b2 ->
  (forall k bk, exists k0 k2, forall m, m = unitM 0 -> exists t, tridagMatrix lay1 o 0 m k (kwave 1 k) bk = Ok t /\
     va t 0%nat = RtoC 0 /\ vb t 0%nat = RtoC b0 /\ vc t 0%nat = RtoC c0 /\ vk t 0%nat = k0 /\
     va t 1%nat = RtoC 1 /\ vb t 1%nat = RtoC (-2 - kwave 1 k * kwave 1 k) /\ vc t 1%nat = RtoC 1 /\
     va t 2%nat = RtoC a2 /\ vb t 2%nat = RtoC b2 /\ vc t 2%nat = RtoC 0 /\ vk t 2%nat = k2) ->
  exists u, solve lay1 o nz 1 (unitM 0) (pieces lay1 F) (pieces lay1 X0) onil onil memC = Ok u /\ solved lay1 o nz 1 (unitM 0) F X0 (glue lay1 u).
Proof.
  intros nz o b0 c0 a2 b2 F X0 Hper Hmm Hb0 Hb2 Hq HT.
  assert (Hl : well_laid lay1) by (repeat split; cbn; lia).
  assert (HT' : forall k bk, exists t, tridagMatrix lay1 o 0 (view (0 * mx lay1) (unitM 0)) k (kwave 1 k) bk = Ok t /\
     va t 0%nat = RtoC 0 /\ vb t 0%nat = RtoC b0 /\ vc t 0%nat = RtoC c0 /\
     va t 1%nat = RtoC 1 /\ vb t 1%nat = RtoC (-2 - kwave 1 k * kwave 1 k) /\ vc t 1%nat = RtoC 1 /\
     va t 2%nat = RtoC a2 /\ vb t 2%nat = RtoC b2 /\ vc t 2%nat = RtoC 0).
  { intros k bk. destruct (HT k bk) as (k0 & k2 & H). destruct (H (unitM 0) eq_refl) as (t & H1 & H2). exists t. rewrite view_unit. tauto. }
  destruct (for_sys_ok (fun _ : nat => tvec0) (fun p => matrices lay1 o p nz 1 (view (p * mx lay1) (unitM 0)) (pieces lay1 F p) (pieces lay1 X0 p)) 1) as (mats & Hm).
  { intros p Hp. assert (p = 0%nat) by lia. subst p. unfold matrices. apply for_sys_ok. intros k Hk.
    match goal with |- exists v, tridagMatrix _ _ _ _ _ _ ?bk = _ => destruct (HT' k bk) as (t & Ht & _) end. eauto. }
  assert (Hm' : all_matrices lay1 o nz 1 (unitM 0) (pieces lay1 F) (pieces lay1 X0) = Ok mats) by exact Hm.
  assert (Hrow : forall k, (k <= maxmode o)%nat -> 
     va (mats 0%nat k) 0%nat = RtoC 0 /\ vb (mats 0%nat k) 0%nat = RtoC b0 /\ vc (mats 0%nat k) 0%nat = RtoC c0 /\
     va (mats 0%nat k) 1%nat = RtoC 1 /\ vb (mats 0%nat k) 1%nat = RtoC (-2 - kwave 1 k * kwave 1 k) /\ vc (mats 0%nat k) 1%nat = RtoC 1 /\
     va (mats 0%nat k) 2%nat = RtoC a2 /\ vb (mats 0%nat k) 2%nat = RtoC b2 /\ vc (mats 0%nat k) 2%nat = RtoC 0).
  { intros k Hk. pose proof (mats_row lay1 o nz 1 (unitM 0) (pieces lay1 F) (pieces lay1 X0) mats 0 k Hm' ltac:(cbn; lia) Hk) as Hr.
    match type of Hr with tridagMatrix _ _ _ _ _ _ ?bk = _ => destruct (HT' k bk) as (t & Ht & HH) end.
    rewrite Hr in Ht. apply Ok_inj in Ht. rewrite Ht. exact HH. }
  assert (Hn3 : nrows lay1 o 0 = 3%nat) by (unfold nrows, xs, xe; rewrite Hper; reflexivity).
  destruct (three_rows (maxmode o + 1) (periodicX o) (nrows lay1 o) (fun p k => va (mats p k)) (fun p k => vb (mats p k))
               (fun p k => vc (mats p k)) (fun p k => vk (mats p k)) onil onil memC Hn3 (onil_ok 0 ltac:(lia)) (onil_ok 0 ltac:(lia))) as (x & Hx).
  { intros s Hs. destruct (Hrow s ltac:(lia)) as (_ & _ & _ & _ & E & _). rewrite E. apply tinyC_big.
    pose proof (Rle_0_sqr (kwave 1 s)) as H. unfold Rsqr in H. rewrite Rabs_left; lra. }
  assert (Hs : exists u, solve lay1 o nz 1 (unitM 0) (pieces lay1 F) (pieces lay1 X0) onil onil memC = Ok u).
  { unfold solve. rewrite Hm'. cbn [bind]. change (np lay1) with 1%nat. rewrite Hx. cbn [bind]. eexists. reflexivity. }
  destruct Hs as (u & Hu). exists u. split; [exact Hu|]. split; [auto|]. split; [auto|]. split; [lia|]. split; [lra|].
  exists (pieces lay1 F), (pieces lay1 X0), onil, onil, memC, u. split; [apply gathers_pieces|]. split; [apply gathers_pieces|].
  split; [exact onil_ok|]. split; [exact onil_ok|]. split; [|split; [exact Hu|apply gathers_glue; auto]].
  intros mats' E k Hk. rewrite Hm' in E. apply Ok_inj in E. subst mats'. rewrite Hper.
  unfold system_rows, distributed. change (np lay1) with 1%nat. cbn [seq flat_map]. rewrite Hn3. cbn [seq map app].
  destruct (Hrow k Hk) as (-> & -> & -> & -> & -> & -> & -> & -> & ->). apply nonsingular3; auto.
  pose proof (Rle_0_sqr (kwave 1 k)) as H. unfold Rsqr in H. lra.
Qed.

Lemma dir_solved3 : forall F X0, exists u, solve lay1 exdir 3 1 (unitM 0) (pieces lay1 F) (pieces lay1 X0) onil onil memC = Ok u /\ solved lay1 exdir 3 1 (unitM 0) F X0 (glue lay1 u).
Proof.
  intros F X0. apply (solved3n 3 exdir 0.5 0.5 0.5 0.5); auto; try lra; try lia. intros k bk. do 2 eexists. intros m ->. eexists.
  unfold tridagMatrix. cbn [exdir periodicX negb]. change (0 =? 0)%nat with true. change (0 =? np lay1 - 1)%nat with true. cbv iota.
  unfold inner_rows, outer_rows. cbn [exdir inner outer noflags b_dc_grad b_ac_grad b_ac_lap b_dc_lap b_dc_gradpar b_dc_gradparinv b_cylinder b_set b_rhs andb orb].
  split; [destruct (k =? 0)%nat; cbn [bind]; reflexivity|].
  unfold low_rows, high_rows, low_zero, high_zero, cr3. unfold inbndry, outbndry. change (xs lay1 exdir 0) with 0%nat. change (xe lay1 exdir 0) with 2%nat.
  cbn [exdir inner outer noflags both_one b_one g lay1 Nat.ltb Nat.leb orb andb Nat.sub va vb vc vk fst snd]. rewrite !unit_coefs.
  cbn [fst snd unitM cA]. repeat split; try reflexivity. apply C_eq; cbn [Cplus RtoC fst snd]; ring.
Qed.


Definition exmesh : mesh := Mesh lay1 [0%nat] (fun _ => unitM 0) 3 1.
Definition wave (j : nat) : R := match j with 0%nat => 0.1 | 1%nat => -0.1 | _ => 0 end.
Definition exprob (a : R) : problem :=
  Problem (fun _ _ j => wave j) (fun _ _ _ => 1) (fun _ _ _ => 1) (fun _ _ _ => 1) 0 a 10 1.
Definition exinv (n : nat) (b xg : field3) : option field3 :=
  Some (fun y => match solve lay1 exdir 3 1 (unitM 0) (pieces lay1 (b y)) (pieces lay1 (xg y)) onil onil memC with
                 | Ok u => glue lay1 u | _ => fun _ _ => 0 end).

Lemma ex_data : forall a y, direct_data exmesh (exprob a) y = unitM 0.
Proof.
  intros a y. unfold direct_data. cbn [exmesh met unitM g11 g33 g13 G1 G3 g_11 g_22 dx Ishear]. unfold unitM. f_equal; apply functional_extensionality; intros i.
  - unfold AOverD_DC, AOverD, dc, dc_row. cbn [exprob Acoef Dcoef exmesh mz]. cbn [rsum INR]. unfold wave. lra.
  - unfold C1coefTimesD_DC, C1TimesD, dc, dc_row. cbn [exprob C1coef Dcoef exmesh mz]. cbn [rsum INR]. lra.
  - unfold C2coef_DC, dc, dc_row. cbn [exprob C2coef exmesh mz]. cbn [rsum INR]. lra.
Qed.
Lemma ex_direct : forall a, direct exmesh (exprob a) exdir exinv.
Proof.
  intros a n b x u H y Hy. unfold exinv in H. injection H as <-. rewrite ex_data. cbn [exmesh lay mz zlen].
  destruct (dir_solved3 (b y) (x y)) as (v & Hv & HS). rewrite Hv. exact HS.
Qed.
Lemma ex_modes : all_modes exmesh exdir.
Proof. repeat split; cbn; try lia. Qed.
Lemma ex_plain : plain_mesh exmesh exdir.
Proof. split; [reflexivity|]. intros y i _. cbn. lra. Qed.
Lemma ex_coefs : forall a, good_coefs exmesh (exprob a).
Proof.
  intros a y i _. split; [|intros j _; cbn; lra]. unfold dc_row. cbn [exprob C1coef Dcoef exmesh mz]. cbn [rsum INR]. lra.
Qed.

(** With a large enough tolerance the first solve is accepted. *)
Lemma ex_accepts : forall rhs x0, exists a x, naulin exmesh (exprob a) exdir exinv rhs x0 = NOk x 0 0.
Proof.
  intros rhs x0. set (rD := fun y i j => rhs y i j / Dcoef (exprob 0) y i j).
  destruct (calc_b_x_pair exmesh exdir exinv x0 (calc_b_guess exmesh (exprob 0) rD x0) x0 0) as [pr|] eqn:E; [|discriminate].
  exists (error3D exmesh (exprob 0) rD pr + 1), (snd pr). unfold naulin.
  change (fun y i j : nat => rhs y i j / Dcoef (exprob (error3D exmesh (exprob 0) rD pr + 1)) y i j) with rD.
  change (calc_b_guess exmesh (exprob (error3D exmesh (exprob 0) rD pr + 1)) rD x0) with (calc_b_guess exmesh (exprob 0) rD x0). rewrite E.
  cbn [iterate]. match goal with |- (if ?c then _ else _) = _ => replace c with true; [reflexivity|] end. symmetry. unfold accepted.
  apply orb_true_iff. right. cbn [atol exprob]. change (error3D exmesh (exprob (error3D exmesh (exprob 0) rD pr + 1)) rD pr) with (error3D exmesh (exprob 0) rD pr).
  destruct (Rlt_dec _ _) as [L|L]; [reflexivity|]. exfalso. apply L. lra.
Qed.

(** A direct solver for which the iteration contracts: the operator is twice the field. *)
Definition half_inv (n : nat) (b xg : field3) : option field3 := Some (fun y i j => b y i j / 2).
