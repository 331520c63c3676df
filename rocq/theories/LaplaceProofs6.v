(** Delp2, zerolaplace2 and the condition on the axis of a cylinder. *)
From Coq Require Import List Arith Bool ZArith Reals Lia Lra.
From Coquelicot Require Import Complex.
From Verif Require Import Base CyclicModel CyclicSpec CyclicProofs2 CyclicProofs3 CyclicProps FftModel FftSpec FftProofs FftProofs2 FftProofs3 FftProofs4 FftProofs5
  LaplaceModel LaplaceSpec LaplaceProofs LaplaceProofs2 LaplaceProofs3 LaplaceProofs4 LaplaceProofs5.
Import ListNotations.
Local Open Scope R_scope.

Lemma plain_view : forall p M, plain (view p M) = view p (plain M).
Proof. reflexivity. Qed.

Lemma rowsum_0 : forall c a b d, rowsum c 0 a b d = Cplus (Cplus (Cmult (fst (fst c)) a) (Cmult (snd (fst c)) b)) (Cmult (snd c) d).
Proof. intros. unfold rowsum. apply C_eq; cbn [Cplus Cmult RtoC fst snd]; ring. Qed.

Lemma delp2_Lop : forall o LNx nz zl p M U jx j, (1 <= nz)%nat -> zl <> 0 -> (1 <= jx)%nat -> (jx + 1 < LNx)%nat -> dx M (p + jx)%nat <> 0 -> (j < nz)%nat ->
  delp2_row o LNx nz zl (view p M) (fun ix => U (p + ix)%nat) jx j = Lop o (plain M) nz zl U (p + jx) j.
Proof.
  intros o LNx nz zl p M U jx j Hn Hz H1 H2 Hdx Hj.
  rewrite (Lop_modes o (plain M) nz zl U (p + jx) (rfft nz (U (p + jx - 1)%nat)) (rfft nz (U (p + jx)%nat)) (rfft nz (U (p + jx + 1)%nat)) j); auto;
    try lia; try (intros; symmetry; apply irfft_rfft; auto); try (left; repeat split; apply rfft_ny; auto); [|cbn [plain cC1]; lra].
  unfold delp2_row. apply irfft_ext0; auto. intros k Hk. cbv zeta. unfold laplace_coefs.
  rewrite plain_view, tridagCoefs_global by lia. cbn [plain cA]. rewrite rowsum_0.
  replace (p + (jx - 1))%nat with (p + jx - 1)%nat by lia. replace (p + (jx + 1))%nat with (p + jx + 1)%nat by lia. reflexivity.
Qed.

(** ** zerolaplace2 *)
Section ZL2.
Variables (o : opts) (LNx nz : nat) (zl : R) (m : xdata) (outer : bool).
Hypothesis Hn : (1 <= nz)%nat.
Hypothesis Hz : zl <> 0.

Definition shifted (x : nat) : nat := if outer then (x + 1)%nat else (x - 1)%nat.
Definition at_coef (x k : nat) : C :=
  let c := laplace_coefs o LNx m zl (neighbour outer x) k in if outer then snd c else fst (fst c).

Lemma view0 : forall M : xdata, view 0 M = M.
Proof. intros []. reflexivity. Qed.

Definition point (steps x : nat) : Prop :=
  if outer then (2 <= x /\ x + steps <= LNx)%nat else (steps <= x + 1 /\ x + 2 < LNx)%nat.

(** Cells already treated, or before the boundary, are not written. *)
Definition before (x i : nat) : Prop := if outer then (i < x)%nat else (x < i)%nat.
Lemma zl2_before : forall steps x c1 c2 f i, point steps x -> before x i -> zl2_loop o LNx nz zl m outer steps x c1 c2 f i = f i.
Proof.
  induction steps; intros x c1 c2 f i Hp Hb; [reflexivity|]. cbn [zl2_loop]. cbv zeta. fold (shifted x).
  destruct steps as [|s']; [cbn [zl2_loop]; unfold before in Hb; destruct outer; rewrite (proj2 (Nat.eqb_neq i x)) by lia; reflexivity|].
  rewrite IHsteps.
  - unfold before in Hb. destruct outer; rewrite (proj2 (Nat.eqb_neq i x)) by lia; reflexivity.
  - unfold point, shifted in *. destruct outer; lia.
  - unfold before, shifted in *. unfold point in Hp. destruct outer; lia.
Qed.

Lemma zl2_spec : forall steps x c1 c2 f, point steps x ->
  (forall j, (j < nz)%nat -> f (neighbour outer x) j = irfft nz c1 j) ->
  (forall j, (j < nz)%nat -> f (neighbour outer (neighbour outer x)) j = irfft nz c2 j) ->
  (forall y k, (k <= nz / 2)%nat -> (if outer then x <= y < x + steps else x < y + steps /\ y <= x)%nat -> at_coef y k <> RtoC 0) ->
  (forall y, (y < LNx)%nat -> dx m y <> 0) ->
  forall y, (if outer then x <= y < x + steps else x < y + steps /\ y <= x)%nat ->
  let h := zl2_loop o LNx nz zl m outer steps x c1 c2 f in
  exists r, ((g13 m (neighbour outer y) = 0 /\ when (all_terms o) (G3 m (neighbour outer y)) = 0) -> r = 0) /\
    forall j, (j < nz)%nat -> Lop o (plain m) nz zl h (neighbour outer y) j = r * sgn j.
Proof.
  induction steps; intros x c1 c2 f Hp Hf1 Hf2 Hla Hdx y Hy; [destruct outer; lia|]. cbv zeta. cbn [zl2_loop]. cbv zeta. fold (shifted x).
  set (c0 := fun kz => Cdiv (Copp (Cplus (Cmult (snd (fst (laplace_coefs o LNx m zl (neighbour outer x) kz))) (c1 kz))
     (Cmult (if outer then fst (fst (laplace_coefs o LNx m zl (neighbour outer x) kz)) else snd (laplace_coefs o LNx m zl (neighbour outer x) kz)) (c2 kz))))
     (if outer then snd (laplace_coefs o LNx m zl (neighbour outer x) kz) else fst (fst (laplace_coefs o LNx m zl (neighbour outer x) kz)))).
  set (f' := fun i => if (i =? x)%nat then irfft nz c0 else f i).
  assert (Hfx : forall j, f' x j = irfft nz c0 j) by (intros j; unfold f'; rewrite Nat.eqb_refl; reflexivity).
  assert (Hfo : forall i, i <> x -> f' i = f i) by (intros i Hi; unfold f'; rewrite (proj2 (Nat.eqb_neq i x)) by auto; reflexivity).
  destruct (Nat.eq_dec y x) as [->|Hne].
  - set (h := zl2_loop o LNx nz zl m outer steps (shifted x) c0 c1 f').
    assert (Hh : forall i, (i = x \/ i = neighbour outer x \/ i = neighbour outer (neighbour outer x))%nat -> h i = f' i).
    { intros i Hi. unfold h. destruct steps as [|s']; [reflexivity|]. apply zl2_before.
      - unfold point, shifted in *. destruct outer; lia.
      - unfold before, shifted, neighbour in *. unfold point in Hp. destruct outer; lia. }
    assert (Nx : neighbour outer x <> x /\ neighbour outer (neighbour outer x) <> x).
    { unfold neighbour. unfold point in Hp. destruct outer; lia. }
    assert (V0 : forall j, (j < nz)%nat -> h x j = irfft nz c0 j) by (intros j Hj; rewrite Hh by auto; apply Hfx).
    assert (V1 : forall j, (j < nz)%nat -> h (neighbour outer x) j = irfft nz c1 j).
    { intros j Hj. rewrite Hh by auto. rewrite Hfo by tauto. auto. }
    assert (V2 : forall j, (j < nz)%nat -> h (neighbour outer (neighbour outer x)) j = irfft nz c2 j).
    { intros j Hj. rewrite Hh by auto. rewrite Hfo by tauto. auto. }
    set (i := neighbour outer x) in *.
    assert (Hi : (1 <= i)%nat /\ (i + 1 < LNx)%nat) by (unfold i, neighbour; unfold point in Hp; destruct outer; lia).
    set (XL := if outer then c2 else c0). set (XR := if outer then c0 else c2).
    assert (WL : forall j, (j < nz)%nat -> h (i - 1)%nat j = irfft nz XL j).
    { unfold XL, i, neighbour in *. destruct outer; [intros; apply V2; auto|]. intros j Hj. replace (x + 1 - 1)%nat with x by lia. auto. }
    assert (WR : forall j, (j < nz)%nat -> h (i + 1)%nat j = irfft nz XR j).
    { unfold XR, i, neighbour in *. destruct outer; [|intros; apply V2; auto]. intros j Hj.
      replace (x - 1 + 1)%nat with x by (unfold point in Hp; lia). auto. }
    assert (Hdxi : dx (plain m) i <> 0) by (cbn [plain dx]; apply Hdx; lia).
    assert (HC : cC1 (plain m) i <> 0) by (cbn [plain cC1]; lra).
    assert (Hrow : forall k, (k <= nz / 2)%nat -> rowsum (gcoefs o (plain m) i (kwave zl k)) (cA (plain m) i) (XL k) (c1 k) (XR k) = RtoC 0).
    { intros k Hk. cbn [plain cA]. rewrite rowsum_0.
      assert (Ec : laplace_coefs o LNx m zl i k = gcoefs o (plain m) i (kwave zl k)).
      { unfold laplace_coefs. rewrite <- (view0 (plain m)) at 1. rewrite tridagCoefs_global by lia. reflexivity. }
      rewrite <- Ec. assert (Hne : at_coef x k <> RtoC 0) by (apply Hla; [exact Hk|destruct outer; lia]).
      unfold at_coef in Hne. cbv zeta in Hne. fold i in Hne. unfold XL, XR, c0.
      clearbody i. clear - Hne. destruct outer; cbv beta iota;
        set (cc := laplace_coefs o LNx m zl i k) in *; clearbody cc;
        generalize dependent (fst (fst cc)); generalize dependent (snd (fst cc)); generalize dependent (snd cc); intros; field; assumption. }
    destruct (Req_EM_T (g13 m i) 0) as [E13|N13]; [destruct (Req_EM_T (when (all_terms o) (G3 m i)) 0) as [E3|N3]|].
    + exists 0. split; [reflexivity|]. intros j Hj.
      rewrite (Lop_modes o (plain m) nz zl h i XL c1 XR j); auto; try lia; try (right; split; [exact E13|exact E3]).
      rewrite (irfft_ext0 nz _ (fun _ => RtoC 0)) by (auto). rewrite irfft_zero. ring.
    + destruct (Lop_modes_gen o (plain m) nz zl h i XL c1 XR) as (r & _ & E); auto; try lia.
      exists r. split; [intros (_ & A); contradiction|]. intros j Hj. rewrite (E j Hj).
      rewrite (irfft_ext0 nz _ (fun _ => RtoC 0)) by (auto). rewrite irfft_zero. ring.
    + destruct (Lop_modes_gen o (plain m) nz zl h i XL c1 XR) as (r & _ & E); auto; try lia.
      exists r. split; [intros (A & _); contradiction|]. intros j Hj. rewrite (E j Hj).
      rewrite (irfft_ext0 nz _ (fun _ => RtoC 0)) by (auto). rewrite irfft_zero. ring.
  - destruct steps as [|s']; [exfalso; destruct outer; lia|].
    assert (Eb : neighbour outer (shifted x) = x) by (unfold neighbour, shifted; unfold point in Hp; destruct outer; lia).
    apply (IHsteps (shifted x) c0 c1 f').
    + unfold point, shifted in *. destruct outer; lia.
    + rewrite Eb. auto.
    + rewrite Eb. intros j Hj. rewrite Hfo; [auto|]. unfold neighbour. unfold point in Hp. destruct outer; lia.
    + intros y' k Hk Hy'. apply Hla; [exact Hk|]. unfold shifted in Hy'. unfold point in Hp. destruct outer; lia.
    + exact Hdx.
    + unfold shifted. unfold point in Hp. destruct outer; lia.
Qed.
End ZL2.
