(** Concrete runs: unit metric, A constant, two processors with two points each. *)
From Coq Require Import List Arith Bool ZArith Reals Lia Lra Permutation.
From Coquelicot Require Import Complex.
From Verif Require Import Base CyclicModel CyclicSpec CyclicProofs2 CyclicProps FftModel LaplaceModel LaplaceSpec LaplaceProofs3 LaplaceProofs4 LaplaceProofs7 LaplaceProofs8.
Import ListNotations.
Local Open Scope R_scope.

Definition unitM (a : R) : xdata :=
  XData (fun _ => 1) (fun _ => 1) (fun _ => 0) (fun _ => 0) (fun _ => 0) (fun _ => 1) (fun _ => 1) (fun _ => 1) (fun _ => 0)
        (fun _ => a) (fun _ => 1) (fun _ => 1) (fun _ => 1).
Lemma view_unit : forall p a, view p (unitM a) = unitM a.
Proof. reflexivity. Qed.
Lemma unit_coefs : forall o L a j kw, tridagCoefs o L (unitM a) j kw = ((1, 0), (-2 - kw * kw, 0), (1, 0)).
Proof.
  intros o L a j kw. unfold tridagCoefs. cbv zeta. cbn [unitM g11 g33 g13 G1 G3 cD cC1 cC2 dx Ishear].
  assert (E1 : (if all_terms o then 0 else 0) = 0) by (destruct (all_terms o); reflexivity). rewrite E1.
  replace (1 - 1) with 0 by ring. replace (0 / (1 * 1)) with 0 by field. replace (0 / (2 * 1 * 1)) with 0 by field.
  replace (0 * 1 - 0.5 * 0 * (1 * 1)) with 0 by ring. replace (0 * 1) with 0 by ring.
  assert (E2 : forall b c : bool, (if b then if c then 0 else 0 else 0) = 0) by (intros [|] [|]; reflexivity). rewrite E2.
  replace (0 + 1 * 0) with 0 by ring. replace (0 + 0 * 0) with 0 by ring.
  assert (E3 : forall b : bool, (if b then 0 else 0) = 0) by (intros [|]; reflexivity).
  replace (1 * 1 + 1 * 0 * 0) with (1 * 1) by ring. replace (2 * 0 * 1) with 0 by ring. rewrite !E3.
  assert (E4 : forall b : bool, (if b then 1 * 1 else 1 * 1) = 1) by (intros [|]; ring). rewrite E4.
  f_equal; [f_equal|]; f_equal; field.
Qed.

Definition ord0 (p : nat) : list nat := match p with 0%nat => [1%nat] | _ => [0%nat] end.
Lemma ord0_ok : forall p, (p < 2)%nat -> arrival_order 2 p (ord0 p).
Proof. intros [|[|p]] H; [| |lia]; unfold arrival_order; apply Permutation_refl. Qed.
Definition memC : nat -> memory C := fun _ =>
  {| m_ifcs := fun _ _ => RtoC 7; m_recv := fun _ _ => RtoC 7; m_ifx := fun _ _ => RtoC 7; m_x1 := fun _ => RtoC 7;
     m_xn := fun _ => RtoC 7; m_x := fun _ _ => RtoC 7; m_gam := fun _ _ => RtoC 7; m_gam2 := fun _ _ => RtoC 7 |}.

Definition lay2 : layout := Layout 2 2 1.
Definition noflags : bflags := BFlags false false false false false false false false false false.
Definition lapflags : bflags := BFlags false false true true false false false false false false.
Definition exo : opts := Opts true false false false false false lapflags lapflags 1.
Definition exper : opts := Opts true false false true false false noflags noflags 1.

Lemma e_half : exp (-1) <= / 2.
Proof.
  replace (-1) with (Ropp 1) by lra. rewrite exp_Ropp. apply Rinv_le_contravar; [lra|]. pose proof (exp_ineq1 1 ltac:(lra)). lra.
Qed.
Lemma tiny_le : / 10 ^ 10 <= / 4.
Proof. apply Rinv_le_contravar; lra. Qed.
Lemma cmod_r : forall r, Cmod (r, 0) = Rabs r.
Proof. intros r. apply Cmod_R. Qed.

Lemma dom_inside : forall kw e, e <= / 4 -> Cmod (1, 0) + Cmod (1, 0) + e <= Cmod (Cplus (-2 - kw * kw, 0) (RtoC (-1))).
Proof.
  intros kw e He. unfold Cplus, RtoC. cbn [fst snd]. replace (0 + 0) with 0 by ring. rewrite !cmod_r.
  pose proof (Rle_0_sqr kw) as H. unfold Rsqr in H. rewrite Rabs_R1. rewrite Rabs_left by lra. lra.
Qed.
Lemma dom_bndry1 : forall e v, e <= / 4 -> 0 <= v <= / 2 -> Cmod (RtoC 0) + Cmod (RtoC (- v)) + e <= Cmod (RtoC 1).
Proof. intros e v He Hv. rewrite !Cmod_R. rewrite Rabs_R0, Rabs_Ropp, Rabs_R1, Rabs_right by lra. lra. Qed.
Lemma dom_bndry2 : forall e v, e <= / 4 -> 0 <= v <= / 2 -> Cmod (RtoC (- v)) + Cmod (RtoC 0) + e <= Cmod (RtoC 1).
Proof. intros e v He Hv. rewrite (Rplus_comm (Cmod (RtoC (- v)))). apply dom_bndry1; auto. Qed.
Lemma dom_pin : forall e, e <= / 4 -> Cmod (RtoC 0) + Cmod (RtoC 0) + e <= Cmod (RtoC 1).
Proof. intros e He. rewrite !Cmod_R. rewrite Rabs_R0, Rabs_R1. lra. Qed.

Lemma kw1 : kwave 1 1 >= 1.
Proof. unfold kwave. cbn [INR]. pose proof PI2_1. lra. Qed.
Lemma exp_le_half : forall x, x <= -1 -> 0 <= exp x <= / 2.
Proof.
  intros x Hx. split; [left; apply exp_pos|]. destruct (Req_dec x (-1)) as [->|Hn]; [apply e_half|].
  left. eapply Rlt_le_trans; [apply exp_increasing with (y := -1); lra|apply e_half].
Qed.

Lemma ex_matrix : forall p k bk, (p < 2)%nat -> (k <= 1)%nat -> exists t,
  tridagMatrix lay2 exo p (view (p * mx lay2) (unitM (-1))) k (kwave 1 k) bk = Ok t /\
  forall i, (i < nrows lay2 exo p)%nat -> Cmod (va t i) + Cmod (vc t i) + / 10 ^ 10 <= Cmod (vb t i).
Proof.
  intros p k bk Hp Hk. rewrite view_unit. pose proof tiny_le as He. set (e := / 10 ^ 10) in *. clearbody e.
  pose proof kw1 as Hkw.
  assert (Hd1 : forall i, (i <= 1)%nat -> 0 <= exp (- sqrt (- -1) * 1 / sqrt 1) <= / 2).
  { intros i _. apply exp_le_half. replace (- -1) with 1 by ring. rewrite sqrt_1. lra. }
  assert (Ha1 : 0 <= exp (-1 * sqrt (1 / 1) * kwave 1 1 * 1) <= / 2).
  { apply exp_le_half. replace (1 / 1) with 1 by field. rewrite sqrt_1. lra. }
  assert (Hn : ~ - -1 < 0) by lra.
  unfold tridagMatrix. cbn [exo lay2 periodicX negb].
  destruct p as [|[|p]]; [| |lia]; destruct k as [|[|k]]; try lia;
    cbn [Nat.eqb np Nat.sub bind inner_rows outer_rows inner outer lapflags b_dc_grad b_ac_grad b_ac_lap b_dc_lap b_dc_gradpar b_dc_gradparinv b_set b_rhs b_one andb orb].
  1,3: unfold inner_rows, outer_rows; cbn [exo inner outer lapflags b_dc_grad b_ac_grad b_ac_lap b_dc_lap b_dc_gradpar b_dc_gradparinv b_set b_rhs b_one andb orb Nat.eqb unitM cA];
    destruct (Rlt_dec (- -1) 0) as [HH|_]; [contradiction|].
  3,4: unfold inner_rows, outer_rows; cbn [exo inner outer lapflags b_dc_grad b_ac_grad b_ac_lap b_dc_lap b_dc_gradpar b_dc_gradparinv b_set b_rhs b_one andb orb Nat.eqb unitM cA].
  all: eexists; split; [reflexivity|].
  all: intros i Hi; change (nrows lay2 exo 0) with 3%nat in Hi; change (nrows lay2 exo 1) with 3%nat in Hi.
  all: destruct i as [|[|[|i]]]; [| | |lia].
  all: unfold low_rows, high_rows, low_zero, high_zero, cr3; change (LocalNx (Layout 2 2 1)) with 4%nat; unfold inbndry, outbndry; cbn [exo inner outer lapflags both_one b_one g lay2 Nat.ltb Nat.leb orb];
    try (change (xs (Layout 2 2 1) exo 0) with 0%nat); try (change (xs (Layout 2 2 1) exo 1) with 1%nat); try (change (xe (Layout 2 2 1) exo 0) with 2%nat);
    try (change (xe (Layout 2 2 1) exo 1) with 3%nat); cbn [Nat.sub Nat.leb Nat.ltb andb va vb vc fst snd Nat.add unitM dx g11 g33 cA]; rewrite ?unit_coefs; cbn [fst snd];
    try (apply dom_inside; auto); try (apply dom_bndry1; auto); try (apply dom_bndry2; auto); eauto.
Qed.

Lemma per_matrix : forall p k zl bk, (p < 2)%nat -> exists t,
  tridagMatrix lay2 exper p (view (p * mx lay2) (unitM (-1))) k (kwave zl k) bk = Ok t /\
  forall i, (i < nrows lay2 exper p)%nat -> Cmod (va t i) + Cmod (vc t i) + / 10 ^ 10 <= Cmod (vb t i).
Proof.
  intros p k zl bk Hp. rewrite view_unit. pose proof tiny_le as He. set (e := / 10 ^ 10) in *. clearbody e.
  unfold tridagMatrix. cbn [exper lay2 periodicX negb].
  destruct ((k =? 0)%nat && (p =? 0)%nat)%bool; (eexists; split; [reflexivity|]);
    intros i Hi; cbn [va vb vc]; try (destruct (i =? 0)%nat; [apply dom_pin; auto|]); rewrite unit_coefs; cbn [fst snd unitM cA]; apply dom_inside; auto.
Qed.

Lemma all_dom : forall o zl nz M rhs x0,
  (forall p k bk, (p < 2)%nat -> (k <= maxmode o)%nat -> exists t, tridagMatrix lay2 o p (view (p * mx lay2) M) k (kwave zl k) bk = Ok t /\
     forall i, (i < nrows lay2 o p)%nat -> Cmod (va t i) + Cmod (vc t i) + / 10 ^ 10 <= Cmod (vb t i)) ->
  exists mats, all_matrices lay2 o nz zl M rhs x0 = Ok mats /\
   forall p kz i, (p < 2)%nat -> (kz <= maxmode o)%nat -> (i < nrows lay2 o p)%nat ->
     Cmod (va (mats p kz) i) + Cmod (vc (mats p kz) i) + / 10 ^ 10 <= Cmod (vb (mats p kz) i).
Proof.
  intros o zl nz M rhs x0 H.
  destruct (for_sys_ok (fun _ : nat => tvec0) (fun p => matrices lay2 o p nz zl (view (p * mx lay2) M) (rhs p) (x0 p)) 2) as (mats & Hm).
  { intros p Hp. unfold matrices. apply for_sys_ok. intros k Hk. destruct (H p k (fun i => rfft nz (source_row lay2 o p (xs lay2 o p + i) (rhs p (xs lay2 o p + i)%nat) (x0 p (xs lay2 o p + i)%nat)) k) Hp) as (t & Ht & _); [lia|]. eauto. }
  exists mats. split; [exact Hm|]. intros p k i Hp Hk Hi.
  pose proof (mats_row lay2 o nz zl M rhs x0 mats p k Hm Hp Hk) as Hr.
  destruct (H p k (fun i => rfft nz (source_row lay2 o p (xs lay2 o p + i) (rhs p (xs lay2 o p + i)%nat) (x0 p (xs lay2 o p + i)%nat)) k) Hp Hk) as (t & Ht & Hd).
  rewrite Hr in Ht. apply Ok_inj in Ht. rewrite Ht. apply Hd; auto.
Qed.

Lemma ex_solved : forall F X0, exists U, solved lay2 exo 4 1 (unitM (-1)) F X0 U.
Proof.
  intros F X0.
  destruct (all_dom exo 1 4 (unitM (-1)) (pieces lay2 F) (pieces lay2 X0)) as (mats & Hm & Hd).
  { intros p k bk Hp Hk. apply ex_matrix; auto. }
  assert (Hl : well_laid lay2) by (repeat split; cbn; lia).
  destruct (dominant_solves lay2 exo 4 1 (unitM (-1)) (pieces lay2 F) (pieces lay2 X0) ord0 ord0 memC mats Hl) as (Hns & u & Hu); auto using ord0_ok.
  { intros [|[|p]] Hp; [cbv; lia|cbv; lia|cbn in Hp; lia]. }
  exists (glue lay2 u). split; [auto|]. split; [reflexivity|]. split; [lia|]. split; [lra|].
  exists (pieces lay2 F), (pieces lay2 X0), ord0, ord0, memC, u. repeat split; auto using gathers_pieces, gathers_glue, ord0_ok.
Qed.

Lemma per_solved : forall F, exists U, solved_periodic lay2 exper 4 1 (unitM (-1)) F U.
Proof.
  intros F.
  destruct (all_dom exper 1 4 (unitM (-1)) (pieces lay2 F) (pieces lay2 F)) as (mats & Hm & Hd).
  { intros p k bk Hp Hk. apply per_matrix; auto. }
  assert (Hl : well_laid lay2) by (repeat split; cbn; lia).
  destruct (dominant_solves lay2 exper 4 1 (unitM (-1)) (pieces lay2 F) (pieces lay2 F) ord0 ord0 memC mats Hl) as (Hns & u & Hu); auto using ord0_ok.
  { intros [|[|p]] Hp; [cbv; lia|cbv; lia|cbn in Hp; lia]. }
  exists (glue_per lay2 u). split; [auto|]. split; [reflexivity|]. split; [lia|]. split; [lra|].
  exists (pieces lay2 F), (pieces lay2 F), ord0, ord0, memC, u. repeat split; auto using gathers_pieces, ord0_ok.
  - apply gathers_glue_per; auto.
Qed.
