(** LaplaceXZcyclic: the equation and the boundary conditions in real space. *)
From Coq Require Import List Arith Bool ZArith Reals Lia Lra.
From Coquelicot Require Import Complex.
From Verif Require Import Base CyclicModel CyclicSpec CyclicProofs2 CyclicProofs3 CyclicProps FftModel FftSpec FftProofs FftProofs2 FftProofs3 FftProofs4 FftProofs5
  LaplaceModel LaplaceSpec LaplaceProofs LaplaceProofs2 LaplaceProofs5 XzModel XzSpec XzProofs XzProofs2.
Import ListNotations.
Local Open Scope R_scope.

Lemma equation : forall M fin fout l rhs x0 U, xz_solved M fin fout l rhs x0 U ->
  elliptic M (fst (current l)) (snd (current l)) -> definite M fin fout (snd (current l)) ->
  forall y i j, (y < nys M)%nat -> (first M <= i <= last_x M)%nat -> (j < xnz M)%nat ->
  xz_operator M (fst (current l)) (snd (current l)) U y i j = rhs y i j.
Proof.
  intros M fin fout l rhs x0 U HS Hel Hdf y i j Hy Hi Hj. destruct (solved_modes M fin fout l rhs x0 U HS Hel Hdf) as (X & HX).
  destruct HS as (Hl & Hn & Hz & _). revert HX Hel. clear Hdf. generalize (fst (current l)) (snd (current l)). intros A B HX Hel.
  destruct (HX y Hy) as (HU & HM). destruct (Hel y Hy) as (P & _).
  destruct (P i ltac:(lia)) as (a1 & a2 & a3 & a4). destruct (P (i + 1)%nat ltac:(lia)) as (b1 & b2 & b3 & b4). destruct (P (i - 1)%nat ltac:(lia)) as (c1 & c2 & c3 & c4).
  pose proof Hl as (H1 & H2 & H3). unfold first, last_x in Hi.
  assert (Hnx : (1 <= i + 1 - g (xl M) <= nx M)%nat) by (unfold nx; lia).
  set (r := (i + 1 - g (xl M))%nat) in *.
  assert (E0 : U y i j = irfft (xnz M) (X y r) j) by (rewrite <- HU by lia; f_equal; lia).
  assert (EP : U y (i + 1)%nat j = irfft (xnz M) (X y (r + 1)%nat) j) by (rewrite <- HU by lia; f_equal; lia).
  assert (EM : U y (i - 1)%nat j = irfft (xnz M) (X y (r - 1)%nat) j) by (rewrite <- HU by lia; f_equal; lia).
  assert (ED : D2z (xnz M) (xzl M) (U y) i j = irfft (xnz M) (fun k => Cmult (RtoC (- (kwave (xzl M) k * kwave (xzl M) k))) (X y r k)) j).
  { apply D2z_irfft; auto. intros j' Hj'. rewrite <- HU by lia. f_equal. lia. }
  rewrite <- (irfft_rfft (xnz M) (rhs y i) j Hn Hj).
  transitivity (irfft (xnz M) (fun k => Cplus (Cmult (RtoC (face M A y i (i - 1))) (X y (r - 1)%nat k))
     (Cplus (Cplus (Cmult (RtoC (B y i - face M A y i (i + 1) - face M A y i (i - 1))) (X y r k))
        (Cmult (RtoC (A y i * mg33 M y i)) (Cmult (RtoC (- (kwave (xzl M) k * kwave (xzl M) k))) (X y r k))))
       (Cmult (RtoC (face M A y i (i + 1))) (X y (r + 1)%nat k)))) j).
  - rewrite irfft_plus, irfft_plus, irfft_plus, !irfft_scal, <- ED, <- E0, <- EP, <- EM.
    unfold xz_operator, flux, face, avg, half_sum. replace (i - 1 + 1)%nat with i by lia. replace 0.5 with (/ 2) by lra.
    field. repeat split; lra.
  - apply irfft_ext0; auto. intros k Hk. assert (Hk' : (k < nmode M)%nat) by (unfold nmode; lia).
    specialize (HM r k ltac:(lia) Hk'). cbv zeta in HM. unfold grow, grhs in HM.
    rewrite (proj2 (Nat.eqb_neq r 0)), (proj2 (Nat.eqb_neq r (nx M + 1))) in HM by lia. cbv zeta in HM. cbn [fst snd] in HM.
    replace (r + g (xl M) - 1)%nat with i in HM by lia. rewrite <- HM. apply C_eq; cbn [Cplus Cmult RtoC fst snd]; ring.
Qed.

(** * Boundary rows *)
Lemma edge_lin : forall gr b d, edge gr b d = (if gr then 1 else / 2) * b + (if gr then -1 else / 2) * d.
Proof. intros [] b d; unfold edge, Rdiv; ring. Qed.

Lemma edge_sel : forall n s gr U0 U1 V0 V1 X0 X1 j, (1 <= n)%nat ->
  (forall j, (j < n)%nat -> U0 j = irfft n X0 j) -> (forall j, (j < n)%nat -> U1 j = irfft n X1 j) ->
  (forall k, (k <= n / 2)%nat -> s k <> 0 ->
     Cplus (Cmult (RtoC (if gr : bool then 1 else / 2)) (X0 k)) (Cmult (RtoC (if gr then -1 else / 2)) (X1 k)) =
     Cplus (Cmult (RtoC (if gr then 1 else / 2)) (rfft n V0 k)) (Cmult (RtoC (if gr then -1 else / 2)) (rfft n V1 k))) ->
  edge gr (sel n s U0 j) (sel n s U1 j) = edge gr (sel n s V0 j) (sel n s V1 j).
Proof.
  intros n s gr U0 U1 V0 V1 X0 X1 j Hn H0 H1 H. rewrite !edge_lin.
  rewrite (sel_irfft n s U0 X0), (sel_irfft n s U1 X1) by auto. unfold sel. rewrite <- !irfft_scal, <- !irfft_plus.
  apply irfft_ext0; auto. intros k Hk. destruct (Req_dec (s k) 0) as [E|E].
  - rewrite E. apply C_eq; cbn [Cplus Cmult RtoC fst snd]; ring.
  - specialize (H k Hk E). 
    transitivity (Cmult (RtoC (s k)) (Cplus (Cmult (RtoC (if gr then 1 else / 2)) (X0 k)) (Cmult (RtoC (if gr then -1 else / 2)) (X1 k)))); [|rewrite H];
      apply C_eq; cbn [Cplus Cmult RtoC fst snd]; ring.
Qed.

Section Bnd.
Variables (M : xzmesh) (fin fout : bflags) (l : list (field2 * field2)) (rhs x0 U : field3d).
Hypothesis HS : xz_solved M fin fout l rhs x0 U.
Hypothesis Hel : elliptic M (fst (current l)) (snd (current l)).
Hypothesis Hdf : definite M fin fout (snd (current l)).

Lemma inner_sel : forall s gr y j, (y < nys M)%nat -> (forall k, s k <> 0 -> neumann fin k = gr) ->
  edge gr (sel (xnz M) s (U y (first M - 1)%nat) j) (sel (xnz M) s (U y (first M)) j) =
  edge gr (sel (xnz M) s (given fin rhs x0 y (first M - 1)%nat) j) (sel (xnz M) s (given fin rhs x0 y (first M)) j).
Proof.
  intros s gr y j Hy Hs. destruct (solved_modes M fin fout l rhs x0 U HS Hel Hdf) as (X & HX).
  destruct HS as (Hl & Hn & Hz & _). destruct (HX y Hy) as (HU & HM). pose proof Hl as (H1 & H2 & H3). unfold first.
  apply (edge_sel _ _ _ _ _ _ _ (X y 0%nat) (X y 1%nat)); auto.
  - intros j' Hj. rewrite <- HU by lia. reflexivity.
  - intros j' Hj. rewrite <- HU by lia. f_equal. lia.
  - intros k Hk Ek. specialize (HM 0%nat k ltac:(lia) ltac:(unfold nmode; lia)). cbv zeta in HM. unfold grow, grhs in HM.
    replace (0 =? nx M + 1)%nat with false in HM by (symmetry; apply Nat.eqb_neq; lia). cbn [Nat.eqb Nat.add] in HM. rewrite (Hs k Ek) in HM.
    destruct gr; cbn [fst snd] in HM.
    + etransitivity; [|etransitivity; [exact HM|]]; apply C_eq; cbn [Cplus Cminus Copp Cmult RtoC fst snd]; ring.
    + replace 0.5 with (/ 2) in HM by lra. etransitivity; [|etransitivity; [exact HM|]]; apply C_eq; cbn [Cplus Cminus Copp Cmult RtoC fst snd]; ring.
Qed.

Lemma outer_sel : forall s gr y j, (y < nys M)%nat -> (forall k, s k <> 0 -> neumann fout k = gr) ->
  edge gr (sel (xnz M) s (U y (last_x M + 1)%nat) j) (sel (xnz M) s (U y (last_x M)) j) = 0.
Proof.
  intros s gr y j Hy Hs. destruct (solved_modes M fin fout l rhs x0 U HS Hel Hdf) as (X & HX).
  destruct HS as (Hl & Hn & Hz & _). destruct (HX y Hy) as (HU & HM). pose proof Hl as (H1 & H2 & H3).
  assert (N1 : (1 <= nx M)%nat) by (unfold nx; nia).
  assert (Z : forall j, sel (xnz M) s (fun _ => 0) j = 0).
  { intros j'. unfold sel. etransitivity; [|exact (irfft_zero (xnz M) j')]. apply irfft_ext0; auto. intros k _. rewrite rfft_zero_row. apply C_eq; cbn [Cmult RtoC fst snd]; ring. }
  transitivity (edge gr (sel (xnz M) s (fun _ => 0) j) (sel (xnz M) s (fun _ => 0) j)).
  - apply (edge_sel _ _ _ _ _ _ _ (X y (nx M + 1)%nat) (X y (nx M))); auto.
    + intros j' Hj. rewrite <- HU by lia. f_equal. unfold last_x. fold (nx M). lia.
    + intros j' Hj. rewrite <- HU by lia. f_equal. unfold last_x. fold (nx M). lia.
    + intros k Hk Ek. specialize (HM (nx M + 1)%nat k ltac:(lia) ltac:(unfold nmode; lia)). cbv zeta in HM. unfold grow, grhs in HM.
      rewrite Nat.eqb_refl, (proj2 (Nat.eqb_neq (nx M + 1) 0)) in HM by lia. replace (nx M + 1 - 1)%nat with (nx M) in HM by lia. rewrite (Hs k Ek) in HM.
      rewrite !rfft_zero_row. destruct gr; cbn [fst snd] in HM.
      * etransitivity; [|etransitivity; [exact HM|]]; apply C_eq; cbn [Cplus Cminus Copp Cmult RtoC fst snd]; ring.
      * replace 0.5 with (/ 2) in HM by lra. etransitivity; [|etransitivity; [exact HM|]]; apply C_eq; cbn [Cplus Cminus Copp Cmult RtoC fst snd]; ring.
  - rewrite Z. unfold edge. destruct gr; lra.
Qed.
End Bnd.

(** * The result is determined by the arguments *)
Lemma xz_unique : forall M fin fout l rhs x0 U V, xz_solved M fin fout l rhs x0 U -> xz_solved M fin fout l rhs x0 V ->
  elliptic M (fst (current l)) (snd (current l)) -> definite M fin fout (snd (current l)) ->
  forall y i j, (y < nys M)%nat -> (first M - 1 <= i <= last_x M + 1)%nat -> (j < xnz M)%nat -> U y i j = V y i j.
Proof.
  intros M fin fout l rhs x0 U V HS HT Hel Hdf y i j Hy Hi Hj.
  destruct (solved_modes M fin fout l rhs x0 U HS Hel Hdf) as (X & HX). destruct (solved_modes M fin fout l rhs x0 V HT Hel Hdf) as (Y & HY).
  destruct HS as (Hl & Hn & Hz & _). revert HX HY Hel Hdf. generalize (fst (current l)) (snd (current l)). intros A B HX HY Hel Hdf.
  destruct (HX y Hy) as (HU & HM). destruct (HY y Hy) as (HV & HN). pose proof Hl as (H1 & H2 & H3). unfold first, last_x in Hi. fold (nx M) in Hi.
  assert (N1 : (1 <= nx M)%nat) by (unfold nx; nia).
  replace i with (i + 1 - g (xl M) + g (xl M) - 1)%nat by lia. rewrite HU, HV by lia.
  apply irfft_ext0; auto. intros k Hk. assert (Hk' : (k < nmode M)%nat) by (unfold nmode; lia).
  assert (E : forall r, (r <= nx M + 1)%nat -> let c := grow M fin fout A B y k r in
     Cplus (Cplus (Cmult (RtoC (fst (fst c))) (if (r =? 0)%nat then RtoC 0 else Cminus (X y (r - 1)%nat k) (Y y (r - 1)%nat k)))
                  (Cmult (RtoC (snd (fst c))) (Cminus (X y r k) (Y y r k))))
           (Cmult (RtoC (snd c)) (if (r =? nx M + 1)%nat then RtoC 0 else Cminus (X y (r + 1)%nat k) (Y y (r + 1)%nat k))) = RtoC 0).
  { intros r Hr. cbv zeta. pose proof (HM r k Hr Hk') as P. pose proof (HN r k Hr Hk') as Q. cbv zeta in P, Q.
    transitivity (Cminus (grhs M fin fout rhs x0 y k r) (grhs M fin fout rhs x0 y k r)); [|apply C_eq; cbn [Cminus Cplus Copp RtoC fst snd]; ring].
    rewrite <- P at 1. rewrite <- Q.
    destruct (r =? 0)%nat, (r =? nx M + 1)%nat; apply C_eq; cbn [Cplus Cminus Copp Cmult RtoC fst snd]; ring. }
  assert (Hre : forall r, (r <= nx M + 1)%nat -> fst (Cminus (X y r k) (Y y r k)) = 0).
  { apply (real_zero M fin fout A B y k Hl Hz Hy Hk' Hel Hdf (fun r => fst (Cminus (X y r k) (Y y r k)))). intros r Hr. specialize (E r Hr). cbv zeta in *.
    rewrite cpart in E. apply (f_equal fst) in E. cbn [fst RtoC] in E. etransitivity; [|exact E].
    destruct (r =? 0)%nat, (r =? nx M + 1)%nat; cbn [fst RtoC Cminus Cplus Copp]; ring. }
  assert (Him : forall r, (r <= nx M + 1)%nat -> snd (Cminus (X y r k) (Y y r k)) = 0).
  { apply (real_zero M fin fout A B y k Hl Hz Hy Hk' Hel Hdf (fun r => snd (Cminus (X y r k) (Y y r k)))). intros r Hr. specialize (E r Hr). cbv zeta in *.
    rewrite cpart in E. apply (f_equal snd) in E. cbn [snd RtoC] in E. etransitivity; [|exact E].
    destruct (r =? 0)%nat, (r =? nx M + 1)%nat; cbn [snd RtoC Cminus Cplus Copp]; ring. }
  specialize (Hre (i + 1 - g (xl M))%nat ltac:(lia)). specialize (Him (i + 1 - g (xl M))%nat ltac:(lia)).
  cbn [Cminus Cplus Copp fst snd] in Hre, Him. apply C_eq; lra.
Qed.
