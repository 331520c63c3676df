From Coq Require Import Reals ZArith List Bool Lia Lra.
From Verif Require Import Base BracketModel BracketSpec BracketProofs.
Import ListNotations.
Local Open Scope R_scope.

Definition TS (n nz : Z) (h : Z -> Z -> R) : R := sumR 0 n (fun i => sumR 0 nz (fun k => h i k)).
Definition per2 (n nz : Z) (h : Z -> Z -> R) : Prop := (forall i k, h (i + n)%Z k = h i k) /\ (forall i k, h i (k + nz)%Z = h i k).
Lemma TS_ext n nz h h' : (forall i k, (0 <= i < n)%Z -> (0 <= k < nz)%Z -> h i k = h' i k) -> TS n nz h = TS n nz h'.
Proof. intros H. apply sumR_ext. intros i Hi. apply sumR_ext. intros k Hk. now apply H. Qed.
Lemma TS_add n nz h h' : TS n nz (fun i k => h i k + h' i k) = TS n nz h + TS n nz h'.
Proof. unfold TS. rewrite <- sumR_add. apply sumR_ext. intros. apply sumR_add. Qed.
Lemma TS_scale n nz c h : TS n nz (fun i k => c * h i k) = c * TS n nz h.
Proof. unfold TS. rewrite <- sumR_scale. apply sumR_ext. intros. apply sumR_scale. Qed.
Lemma TS_zero n nz : TS n nz (fun _ _ => 0) = 0.
Proof. rewrite (TS_ext n nz _ (fun i k => 0 * 0)) by (intros; ring). rewrite TS_scale. ring. Qed.
Lemma TS_shift n nz h c d : (0 < n)%Z -> (0 < nz)%Z -> per2 n nz h -> TS n nz (fun i k => h (i + c)%Z (k + d)%Z) = TS n nz h.
Proof.
  intros Hn Hz [P Q]. unfold TS.
  rewrite (sumR_ext 0 n (fun i => sumR 0 nz (fun k => h (i + c)%Z (k + d)%Z)) (fun i => sumR 0 nz (fun k => h (i + c)%Z k)))
    by (intros; now apply (sumR_shift_any nz (fun k => h (i + c)%Z k) d)).
  apply (sumR_shift_any n (fun i => sumR 0 nz (fun k => h i k)) c); trivial.
  intros i. apply sumR_ext. intros; apply P.
Qed.

Section Cyclic.
Variables (n nz : Z).
Hypothesis (Hn : (0 < n)%Z) (Hz : (0 < nz)%Z).
Definition mono (a f g : Z -> Z -> R) (w : Z * Z * Z * Z) (i k : Z) : R :=
  let '(b1, b2, c1, c2) := w in a i k * f (i + b1)%Z (k + b2)%Z * g (i + c1)%Z (k + c2)%Z.
Definition M (a f g : Z -> Z -> R) (w : Z * Z * Z * Z) : R := TS n nz (mono a f g w).
Lemma M_cycle a f g b1 b2 c1 c2 : per2 n nz a -> per2 n nz f -> per2 n nz g ->
  M f g a (b1, b2, c1, c2) = M a f g (- c1, - c2, b1 - c1, b2 - c2)%Z.
Proof.
  intros [A A'] [F F'] [G G']. unfold M. rewrite <- (TS_shift n nz (mono f g a (b1, b2, c1, c2)) (- c1) (- c2)); trivial.
  - apply TS_ext. intros i k _ _. unfold mono.
    replace (i + - c1 + b1)%Z with (i + (b1 - c1))%Z by ring. replace (k + - c2 + b2)%Z with (k + (b2 - c2))%Z by ring.
    replace (i + - c1 + c1)%Z with i by ring. replace (k + - c2 + c2)%Z with k by ring. ring.
  - split; intros i k; unfold mono.
    + replace (i + n + b1)%Z with (i + b1 + n)%Z by ring. replace (i + n + c1)%Z with (i + c1 + n)%Z by ring. now rewrite F, G, A.
    + replace (k + nz + b2)%Z with (k + b2 + nz)%Z by ring. replace (k + nz + c2)%Z with (k + c2 + nz)%Z by ring. now rewrite F', G', A'.
Qed.
Definition lin (a f g : Z -> Z -> R) (l : list (R * (Z * Z * Z * Z))) (i k : Z) : R :=
  fold_right Rplus 0 (map (fun t => fst t * mono a f g (snd t) i k) l).
Lemma TS_lin a f g l : TS n nz (lin a f g l) = fold_right Rplus 0 (map (fun t => fst t * M a f g (snd t)) l).
Proof.
  induction l as [|[c w] l IH]; unfold lin in *; cbn [map fold_right fst snd].
  - apply TS_zero.
  - rewrite TS_add, IH. f_equal. apply TS_scale.
Qed.
(* the 24 terms of the Arakawa sum: offsets of f, then of g *)
Definition ara : list (R * (Z * Z * Z * Z)) :=
  [(1%R, (0, 1, 1, 0)); ((-1)%R, (0, 1, -1, 0)); ((-1)%R, (0, -1, 1, 0)); (1%R, (0, -1, -1, 0));
   ((-1)%R, (1, 0, 0, 1)); (1%R, (1, 0, 0, -1)); (1%R, (-1, 0, 0, 1)); ((-1)%R, (-1, 0, 0, -1));
   (1%R, (1, 1, 1, 0)); ((-1)%R, (1, -1, 1, 0)); ((-1)%R, (-1, 1, -1, 0)); (1%R, (-1, -1, -1, 0));
   ((-1)%R, (1, 1, 0, 1)); (1%R, (-1, 1, 0, 1)); (1%R, (1, -1, 0, -1)); ((-1)%R, (-1, -1, 0, -1));
   (1%R, (0, 1, 1, 1)); ((-1)%R, (1, 0, 1, 1)); ((-1)%R, (-1, 0, -1, -1)); (1%R, (0, -1, -1, -1));
   ((-1)%R, (0, 1, -1, 1)); (1%R, (-1, 0, -1, 1)); (1%R, (1, 0, 1, -1)); ((-1)%R, (0, -1, 1, -1))]%Z.
Definition J12 (f g : Z -> Z -> R) (i k : Z) : R :=
  arakawa_cell (f (i - 1)%Z) (f i) (f (i + 1)%Z) (g (i - 1)%Z) (g i) (g (i + 1)%Z) 1 k (k + 1)%Z (k - 1)%Z.
Lemma J12_lin a f g i k : a i k * J12 f g i k = lin a f g ara i k.
Proof.
  unfold lin, ara, mono, J12, arakawa_cell. cbn [map fold_right fst snd]. rewrite !Z.add_0_r.
  change (i - 1)%Z with (i + -1)%Z. change (k - 1)%Z with (k + -1)%Z. ring.
Qed.
Lemma J12_cyclic a f g : per2 n nz a -> per2 n nz f -> per2 n nz g ->
  TS n nz (fun i k => a i k * J12 f g i k) = TS n nz (fun i k => f i k * J12 g a i k).
Proof.
  intros A F G.
  rewrite (TS_ext n nz _ (lin a f g ara)) by (intros; apply J12_lin).
  rewrite (TS_ext n nz (fun i k => f i k * J12 g a i k) (lin f g a ara)) by (intros; apply J12_lin).
  rewrite !TS_lin. unfold ara. cbn [map fold_right fst snd]. rewrite !(M_cycle a f g) by assumption. cbn. ring.
Qed.
End Cyclic.

(* the fields of a mesh with periodic guard cells, seen on the torus *)
Section Torus.
Variables (m : pmesh) (y : Z).
Hypothesis (Hx : (xstart m <= xend m)%Z) (Hz : (2 <= LocalNz m)%Z).
Definition nx := (xend m + 1 - xstart m)%Z.
Definition torus (f : field3) (i k : Z) : R := f (xstart m + i mod nx)%Z y (k mod LocalNz m)%Z.
Lemma torus_per f : per2 nx (LocalNz m) (torus f).
Proof.
  split; intros i k; unfold torus; f_equal.
  - f_equal. replace (i + nx)%Z with (i + 1 * nx)%Z by ring. apply Z.mod_add. unfold nx. lia.
  - replace (k + LocalNz m)%Z with (k + 1 * LocalNz m)%Z by ring. apply Z.mod_add. lia.
Qed.
Lemma torus_in f x z : (xstart m <= x <= xend m)%Z -> torus f (x - xstart m) z = f x y (z mod LocalNz m)%Z.
Proof. intros H. unfold torus. rewrite Z.mod_small by (unfold nx; lia). f_equal. lia. Qed.
Lemma torus_near f x z : periodic_x m f -> (xstart m - 1 <= x <= xend m + 1)%Z -> torus f (x - xstart m) z = f x y (z mod LocalNz m)%Z.
Proof.
  intros P H. destruct (Z.eq_dec x (xstart m - 1)) as [->|]; [|destruct (Z.eq_dec x (xend m + 1)) as [->|]; [|apply torus_in; lia]].
  - rewrite (proj1 (P y _)). replace (xstart m - 1 - xstart m)%Z with (-1)%Z by ring. unfold torus. f_equal.
    replace (-1)%Z with (nx - 1 + (-1) * nx)%Z by ring. rewrite Z.mod_add by (unfold nx; lia). rewrite Z.mod_small by (unfold nx; lia). unfold nx. lia.
  - rewrite (proj2 (P y _)). replace (xend m + 1 - xstart m)%Z with nx by (unfold nx; ring). unfold torus. f_equal.
    rewrite Z.mod_same by (unfold nx; lia). lia.
Qed.
Lemma plane_sum_TS h : plane_sum m h = TS nx (LocalNz m) (fun i k => h (xstart m + i)%Z k).
Proof.
  unfold plane_sum, TS, sumR. f_equal. unfold zrange. rewrite !map_map. fold nx. rewrite (Z.sub_0_r nx). apply map_ext. intros i.
  reflexivity.
Qed.
Lemma cell33_torus dx dz f g x z : (forall x y, dx x y <> 0 /\ dz x y <> 0) -> periodic_x m f -> periodic_x m g ->
  (xstart m <= x <= xend m)%Z -> (0 <= z < LocalNz m)%Z ->
  12 * (dx x y * dz x y) * cell33 m dx dz f g x y z = J12 (torus f) (torus g) (x - xstart m) z.
Proof.
  intros Hd Pf Pg Hxx Hzz. unfold J12, cell33, arakawa_cell.
  assert (N : forall h j w, periodic_x m h -> (j = -1 \/ j = 0 \/ j = 1)%Z -> torus h (x - xstart m + j)%Z w = h (x + j)%Z y (w mod LocalNz m)%Z).
  { intros h j w P Hj. rewrite <- (torus_near h (x + j) w) by (trivial; lia). f_equal. lia. }
  change (x - xstart m - 1)%Z with (x - xstart m + -1)%Z. change (x - 1)%Z with (x + -1)%Z.
  rewrite !N by (auto; tauto).
  replace (torus f (x - xstart m)) with (fun w => torus f (x - xstart m) w) by reflexivity.
  rewrite !(torus_near f x), !(torus_near g x) by (trivial; lia).
  rewrite !(Z.mod_small z) by lia. destruct (Hd x y). field. tauto.
Qed.
Lemma cell33_cyclic dx dz a f g : (forall x y, dx x y <> 0 /\ dz x y <> 0) -> periodic_x m a -> periodic_x m f -> periodic_x m g ->
  plane_sum m (fun x z => a x y z * (dx x y * dz x y) * cell33 m dx dz f g x y z)
  = plane_sum m (fun x z => f x y z * (dx x y * dz x y) * cell33 m dx dz g a x y z).
Proof.
  intros Hd Pa Pf Pg. rewrite !plane_sum_TS.
  assert (H : forall u v w, periodic_x m u -> periodic_x m v -> periodic_x m w ->
    TS nx (LocalNz m) (fun i k => u (xstart m + i)%Z y k * (dx (xstart m + i)%Z y * dz (xstart m + i)%Z y) * cell33 m dx dz v w (xstart m + i)%Z y k)
    = 1 / 12 * TS nx (LocalNz m) (fun i k => torus u i k * J12 (torus v) (torus w) i k)).
  { intros u v w Pu Pv Pw. rewrite <- TS_scale. apply TS_ext. intros i k Hi Hk.
    assert (Hi' : (xstart m <= xstart m + i <= xend m)%Z) by (unfold nx in Hi; lia).
    pose proof (cell33_torus dx dz v w (xstart m + i) k Hd Pv Pw Hi' Hk) as E.
    replace (xstart m + i - xstart m)%Z with i in E by ring. rewrite <- E.
    pose proof (torus_in u (xstart m + i) k Hi') as E'. replace (xstart m + i - xstart m)%Z with i in E' by ring.
    rewrite E'. rewrite Z.mod_small by lia. field. }
  rewrite !H by assumption. f_equal. apply J12_cyclic; try apply torus_per; try (unfold nx; lia); lia.
Qed.
End Torus.
