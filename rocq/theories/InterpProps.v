(** C36: interpolation to arbitrary index positions, and staggered interpolation. *)
From Coq Require Import Reals ZArith List Lia Lra Psatz.
From Verif Require Import Base DerivModel DerivSpec InterpModel InterpSpec InterpProofs.
Import ListNotations.
Local Open Scope R_scope.

(** ** Bilinear *)
(** Inside the array: a value within the bounds of the four surrounding cells, and exact for fields linear in each
    direction. *)
Theorem C36_bilinear : forall m f dx dz, (1 <= LocalNz m)%Z -> 0 <= dx < IZR (LocalNx m - 1) ->
  exists v, bilinear m f dx dz = Ok v /\
    (forall lo hi, bounded_by m f (Int_part dx) (Int_part dx + 1) (Int_part dz) (Int_part dz + 1) lo hi -> lo <= v <= hi) /\
    (forall F, polynomial2 1 F -> sampled m f F (Int_part dx) (Int_part dx + 1) (Int_part dz) (Int_part dz + 1) -> v = F dx dz).
Proof.
  intros m f dx dz Hn (H0 & H1). pose proof (Int_part_le dx 0 H0). pose proof (Int_part_lt _ _ H1).
  eexists. split; [apply bilinear_eq; lia|].
  pose proof (frac_range dx). pose proof (frac_range dz).
  assert (Ex : dx = IZR (Int_part dx) + frac dx) by (unfold frac; ring). assert (Ez : dz = IZR (Int_part dz) + frac dz) by (unfold frac; ring).
  set (i := Int_part dx) in *. set (k := Int_part dz) in *. set (tx := frac dx) in *. set (tz := frac dz) in *.
  split.
  - intros lo hi B. unfold bil.
    pose proof (B i k ltac:(lia) ltac:(lia)). pose proof (B (i + 1)%Z k ltac:(lia) ltac:(lia)).
    pose proof (B i (k + 1)%Z ltac:(lia) ltac:(lia)). pose proof (B (i + 1)%Z (k + 1)%Z ltac:(lia) ltac:(lia)).
    assert (C : forall t a b, 0 <= t < 1 -> lo <= a <= hi -> lo <= b <= hi -> lo <= (1 - t) * a + t * b <= hi) by (intros; split; nra).
    apply C; [lra| |]; apply C; assumption || lra.
  - intros F (P1 & P2) S. unfold bil. rewrite !S by lia. rewrite !plus_IZR.
    rewrite !(poly1_line (fun X => F X _) (IZR i) tx (P2 _)). rewrite (poly1_line (F (IZR i + tx)) (IZR k) tz (P1 _)).
    rewrite Ex, Ez. reflexivity.
Qed.

(** ** Four-point Lagrange *)
(** Two or more cells from the ends of the X range: exact for cubics. *)
Theorem C36_lagrange_cubic : forall m f F dx dz, (1 <= LocalNz m)%Z -> 1 <= dx < IZR (LocalNx m - 2) -> (1 <= xend m)%Z ->
  Int_part dx <> xend m \/ dx = IZR (xend m) ->
  polynomial2 3 F -> sampled m f F (Int_part dx - 2) (Int_part dx + 2) (Int_part dz - 1) (Int_part dz + 2) ->
  lagrange m f dx dz = Ok (F dx dz).
Proof.
  intros m f F dx dz Hn (H0 & H1) Hx Hd (P1 & P2) S. pose proof (Int_part_le dx 1 H0). pose proof (Int_part_lt _ _ H1).
  rewrite lagrange_eq by lia. f_equal.
  assert (Ex : dx = IZR (Int_part dx) + frac dx) by (unfold frac; ring). assert (Ez : dz = IZR (Int_part dz) + frac dz) by (unfold frac; ring).
  assert (ROW : forall j, (Int_part dx - 2 <= j <= Int_part dx + 2)%Z -> lrow f (LocalNz m) j (Int_part dz) (frac dz) = F (IZR j) dz).
  { intros j Hj. unfold lrow. rewrite !S by lia. rewrite minus_IZR, !plus_IZR.
    rewrite (lagrange_cubic (F (IZR j)) _ _ (P1 _)). rewrite Ez at 3. reflexivity. }
  destruct (Z.eqb_spec (Int_part dx) (xend m)) as [E|E].
  - destruct Hd as [Hd|Hd]; [contradiction|]. unfold lag. cbv zeta. rewrite lagrange_at1.
    replace (xend m - 1 + 1)%Z with (xend m) by ring. rewrite ROW by lia. rewrite <- Hd. reflexivity.
  - unfold lag. cbv zeta. replace (Int_part dx =? 0)%Z with false by (symmetry; apply Z.eqb_neq; lia).
    replace (Int_part dx =? LocalNx m - 2)%Z with false by (symmetry; apply Z.eqb_neq; lia).
    rewrite !ROW by lia. rewrite minus_IZR, !plus_IZR. replace (IZR (Int_part dx) + 1 + 1) with (IZR (Int_part dx) + 2) by ring.
    rewrite (lagrange_cubic (fun X => F X dz) _ _ (P2 _)). rewrite Ex at 3. reflexivity.
Qed.

(** Anywhere in the array the value is defined, constants are reproduced, grid values are reproduced at grid points, and past
    the last non-boundary point the value there is used. *)
Theorem C36_lagrange_everywhere : forall m f dx dz, (1 <= LocalNz m)%Z -> 0 <= dx < IZR (LocalNx m - 1) -> (1 <= xend m)%Z ->
  exists v, lagrange m f dx dz = Ok v /\
    (forall c, (forall i k, f i k = c) -> v = c) /\
    (forall i k, dx = IZR i -> dz = IZR k -> v = f i (k mod LocalNz m)%Z) /\
    (Int_part dx = xend m -> lagrange m f (IZR (xend m)) dz = Ok v).
Proof.
  intros m f dx dz Hn (H0 & H1) Hx. pose proof (Int_part_le dx 0 H0). pose proof (Int_part_lt _ _ H1).
  eexists. split; [apply lagrange_eq; lia|]. split; [|split].
  - intros c Hc. assert (L : forall i k tx tz, lag m f i k tx tz = c) by (intros; unfold lag, lrow; cbv zeta; rewrite !Hc, !lagrange_const; reflexivity).
    destruct (_ =? _)%Z; apply L.
  - intros i k Ei Ek. rewrite Ei, Ek, !Int_part_IZR, !frac_IZR. destruct (Z.eqb_spec i (xend m)) as [->|E].
    + unfold lag, lrow. cbv zeta. rewrite lagrange_at1, lagrange_at0. f_equal. lia.
    + unfold lag, lrow. cbv zeta. rewrite !lagrange_at0. reflexivity.
  - intros E. rewrite lagrange_eq by (rewrite ?Int_part_IZR; lia). rewrite Int_part_IZR, E, Z.eqb_refl. reflexivity.
Qed.

(** In the first cell of the array not even linear fields are reproduced: the missing neighbour is replaced by a copy. *)
Theorem C36_lagrange_edge_refuted :
  ~ (forall m f F dx dz, (1 <= LocalNz m)%Z -> 0 <= dx < IZR (LocalNx m - 1) -> (1 <= xend m)%Z -> Int_part dx <> xend m ->
      polynomial2 1 F -> (forall i k, f i k = F (IZR i) (IZR k)) -> 0 <= dz < IZR (LocalNz m) -> lagrange m f dx dz = Ok (F dx dz)).
Proof.
  intros H. set (m := Mesh 8 1 1 2 5).
  specialize (H m (fun i _ => IZR i) (fun X _ => X) (1 / 2) 0 ltac:(cbn; lia) ltac:(cbn; lra) ltac:(cbn; lia)).
  assert (E : Int_part (1 / 2) = 0%Z) by (apply Int_part_eq; lra).
  rewrite lagrange_eq in H by (rewrite ?E; cbn; lia). rewrite E in H.
  assert (P : polynomial2 1 (fun X _ => X)).
  { split.
    - intros X. exists [X]. split; [unfold degree_le; cbn [length]; lia|]. intros x. cbn [peval]. ring.
    - intros Z0. exists [0; 1]. split; [unfold degree_le; cbn [length]; lia|]. intros x. cbn [peval]. ring. }
  specialize (H ltac:(cbn; lia) P ltac:(reflexivity) ltac:(cbn; lra)). injection H as H. revert H.
  replace (0 =? xend m)%Z with false by reflexivity. unfold lag. cbv zeta. change (0 =? 0)%Z with true. change (0 =? LocalNx m - 2)%Z with false. cbv iota. unfold lrow.
  replace (frac (1 / 2)) with (1 / 2) by (unfold frac; rewrite E; lra). replace (frac 0) with 0 by (symmetry; exact (frac_IZR 0)).
  rewrite !lagrange_at0. unfold lagrange_4pt. change (0 + 1)%Z with 1%Z. change (1 + 1)%Z with 2%Z. lra.
Qed.

(** ** Hermite spline *)
(** For every position, also outside the array: the value is defined, it is the value at the position limited to the range of
    non-boundary X points, it is exact for fields quadratic in each direction and at grid points. *)
Theorem C36_spline : forall m f dx dz, has_guards m ->
  exists v, spline m f dx dz = Ok v /\
    spline m f (clamp m dx) dz = Ok v /\
    (forall F, polynomial2 2 F ->
       sampled m f F (xstart m - 1) (xend m + 1) (Int_part dz - 1) (Int_part dz + 2) -> v = F (clamp m dx) dz) /\
    (forall i k, clamp m dx = IZR i -> dz = IZR k -> v = f i (k mod LocalNz m)%Z).
Proof.
  intros m f dx dz G. pose proof (corner_range m dx G) as (C & T & E).
  assert (GRID : forall i k, clamp m dx = IZR i -> dz = IZR k ->
     spl2 m f (fst (corner m dx)) (Int_part dz) (snd (corner m dx)) (frac dz) = f i (k mod LocalNz m)%Z).
  { intros i k Ei Ek. rewrite Ek, Int_part_IZR, frac_IZR. unfold spl2, spl. cbv zeta. rewrite herm_0.
    destruct (Req_dec (snd (corner m dx)) 1) as [E1|E1].
    - rewrite E1, herm_1. f_equal. apply eq_IZR. rewrite plus_IZR. lra.
    - assert (I : i = fst (corner m dx)).
      { symmetry. rewrite <- (Int_part_IZR i). symmetry. apply Int_part_eq. rewrite <- Ei, <- E. lra. }
      assert (Z : snd (corner m dx) = 0) by (rewrite I in Ei; lra). rewrite Z, herm_0, I. reflexivity. }
  eexists. split; [apply spline_eq; exact G|]. split; [|split].
  - pose proof G as (G1 & G2 & G3 & G4).
    assert (CL : IZR (xstart m) <= clamp m dx <= IZR (xend m)).
    { unfold clamp. assert (IZR (xstart m) < IZR (xend m)) by (apply IZR_lt; lia). split; [apply Rmax_l|].
      apply Rmax_lub; [lra|apply Rmin_r]. }
    assert (F : corner m (clamp m dx) = corner m dx).
    { destruct (Req_dec (snd (corner m dx)) 1) as [E1|E1].
      - assert (X : clamp m dx = IZR (fst (corner m dx) + 1)) by (rewrite plus_IZR; lra).
        assert (Y : (fst (corner m dx) + 1 = xend m)%Z /\ corner m dx = ((xend m - 1)%Z, 1)).
        { unfold corner in *. pose proof (frac_range dx). destruct (Z.leb_spec (xend m) (Int_part dx)); cbn [fst snd] in *; [split; [lia|reflexivity]|].
          destruct (Z.ltb_spec (Int_part dx) (xstart m)); cbn [fst snd] in *; lra. }
        rewrite (proj2 Y). rewrite X, (proj1 Y). unfold corner. rewrite Int_part_IZR, Z.leb_refl. reflexivity.
      - assert (X : Int_part (clamp m dx) = fst (corner m dx)) by (apply Int_part_eq; lra).
        unfold corner at 1. rewrite X. replace (xend m <=? fst (corner m dx))%Z with false by (symmetry; apply Z.leb_gt; lia).
        replace (fst (corner m dx) <? xstart m)%Z with false by (symmetry; apply Z.ltb_ge; lia).
        unfold frac. rewrite X, <- E. destruct (corner m dx). cbn [fst snd]. f_equal. ring. }
    rewrite spline_eq by exact G. rewrite F. reflexivity.
  - intros F P S. rewrite (spl2_quadratic m f F); [|destruct G as (? & ? & ? & ?); lia|exact P|intros i k Hi Hk; apply S; lia].
    rewrite E. f_equal. unfold frac. ring.
  - exact GRID.
Qed.

(** With exact derivatives the spline is exact for cubics: the four basis functions, applied in X then in Z. *)
Theorem C36_spline_basis : forall m f fx fz fxz i k tx tz F Fx Fz Fxz, (1 <= LocalNz m)%Z -> (0 <= i)%Z -> (i + 1 < LocalNx m)%Z ->
  (forall Z, exists a, degree_le 3 a /\ (forall X, F X Z = peval a X) /\ (forall X, Fx X Z = peval (pderiv a) X)) ->
  (forall Z, exists a, degree_le 3 a /\ (forall X, Fz X Z = peval a X) /\ (forall X, Fxz X Z = peval (pderiv a) X)) ->
  (forall X, exists a, degree_le 3 a /\ (forall Z, F X Z = peval a Z) /\ (forall Z, Fz X Z = peval (pderiv a) Z)) ->
  sampled m f F i (i + 1) k (k + 1) -> sampled m fx Fx i (i + 1) k (k + 1) -> sampled m fz Fz i (i + 1) k (k + 1) ->
  sampled m fxz Fxz i (i + 1) k (k + 1) ->
  hermite_point m f fx fz fxz (HW i (k mod LocalNz m) (hermite_basis tx) (hermite_basis tz)) = Ok (F (IZR i + tx) (IZR k + tz)).
Proof.
  intros m f fx fz fxz i k tx tz F Fx Fz Fxz Hn H0 H1 HX HXZ HZ S Sx Sz Sxz. rewrite hermite_point_eq by lia. f_equal.
  unfold spl. cbv zeta. rewrite !S, !Sx, !Sz, !Sxz by lia. rewrite !plus_IZR.
  assert (A : forall Z, herm tx (F (IZR i) Z) (F (IZR i + 1) Z) (Fx (IZR i) Z) (Fx (IZR i + 1) Z) = F (IZR i + tx) Z).
  { intros Z. destruct (HX Z) as (a & L & E1 & E2). apply (herm_cubic (fun X => F X Z) (fun X => Fx X Z) _ _ a); assumption. }
  assert (B : forall Z, herm tx (Fz (IZR i) Z) (Fz (IZR i + 1) Z) (Fxz (IZR i) Z) (Fxz (IZR i + 1) Z) = Fz (IZR i + tx) Z).
  { intros Z. destruct (HXZ Z) as (a & L & E1 & E2). apply (herm_cubic (fun X => Fz X Z) (fun X => Fxz X Z) _ _ a); assumption. }
  rewrite !A, !B. destruct (HZ (IZR i + tx)) as (a & L & E1 & E2). apply (herm_cubic (F (IZR i + tx)) (Fz (IZR i + tx)) _ _ a); assumption.
Qed.

(** ** Monotonic spline *)
(** For every position and field the value lies within the range of the four cells around the limited position, and it is the
    Hermite spline's value whenever that lies within the range. *)
Theorem C36_monotonic : forall m f dx dz, has_guards m ->
  exists v i, monotonic m f dx dz = Ok v /\
    (xstart m <= i < xend m)%Z /\ IZR i <= clamp m dx <= IZR (i + 1) /\
    (forall lo hi, bounded_by m f i (i + 1) (Int_part dz) (Int_part dz + 1) lo hi -> lo <= v <= hi) /\
    (forall s, spline m f dx dz = Ok s ->
       s = v \/ (exists i' k', (i <= i' <= i + 1)%Z /\ (Int_part dz <= k' <= Int_part dz + 1)%Z /\ v = f i' (k' mod LocalNz m)%Z /\
                  (v < s -> forall i2 k2, (i <= i2 <= i + 1)%Z -> (Int_part dz <= k2 <= Int_part dz + 1)%Z -> f i2 (k2 mod LocalNz m)%Z < s) /\
                  (s < v -> forall i2 k2, (i <= i2 <= i + 1)%Z -> (Int_part dz <= k2 <= Int_part dz + 1)%Z -> s < f i2 (k2 mod LocalNz m)%Z))).
Proof.
  intros m f dx dz G. pose proof (corner_range m dx G) as (C & T & E).
  eexists. exists (fst (corner m dx)). split; [apply monotonic_eq; exact G|]. split; [exact C|]. split; [rewrite plus_IZR; lra|].
  set (i := fst (corner m dx)) in *. set (k := Int_part dz). set (n := LocalNz m) in *.
  set (a := f i (k mod n)%Z). set (b := f (i + 1)%Z (k mod n)%Z). set (c := f i ((k + 1) mod n)%Z). set (d := f (i + 1)%Z ((k + 1) mod n)%Z).
  set (s := spl2 m f i k (snd (corner m dx)) (frac dz)).
  pose proof (max4 a b c d) as (M1 & M2). pose proof (min4 a b c d) as (N1 & N2).
  assert (CASES : forall i' k', (i <= i' <= i + 1)%Z -> (k <= k' <= k + 1)%Z ->
    let u := f i' (k' mod n)%Z in u = a \/ u = b \/ u = c \/ u = d).
  { intros i' k' Hi Hk. cbv zeta. assert (i' = i \/ i' = i + 1)%Z as [-> | ->] by lia; assert (k' = k \/ k' = k + 1)%Z as [-> | ->] by lia; tauto. }
  assert (WIT : forall u, u = a \/ u = b \/ u = c \/ u = d -> exists i' k', (i <= i' <= i + 1)%Z /\ (k <= k' <= k + 1)%Z /\ u = f i' (k' mod n)%Z).
  { intros u [-> |[-> |[-> | ->]]]; [exists i, k|exists (i + 1)%Z, k|exists i, (k + 1)%Z|exists (i + 1)%Z, (k + 1)%Z]; (split; [lia|split; [lia|reflexivity]]). }
  split.
  - intros lo hi B. unfold limited. cbv zeta.
    assert (lo <= a <= hi /\ lo <= b <= hi /\ lo <= c <= hi /\ lo <= d <= hi) by (repeat split; apply B; lia).
    destruct (Rgt_dec s _); destruct (Rlt_dec _ _); lra.
  - intros s' Hs. rewrite spline_eq in Hs by exact G. injection Hs as Hs. fold i k s in Hs. subst s'. unfold limited. cbv zeta.
    destruct (Rgt_dec s (MAX2 a (MAX2 b (MAX2 c d)))) as [X|X].
    + destruct (Rlt_dec (MAX2 a (MAX2 b (MAX2 c d))) _) as [Y|Y]; [lra|]. right. destruct (WIT _ M1) as (i' & k' & W1 & W2 & W3).
      exists i', k'. split; [exact W1|]. split; [exact W2|]. split; [exact W3|]. split.
      * intros _ i2 k2 Q1 Q2. destruct (CASES i2 k2 Q1 Q2) as [-> |[-> |[-> | ->]]]; lra.
      * intros; lra.
    + destruct (Rlt_dec s _) as [Y|Y]; [|left; reflexivity]. right. destruct (WIT _ N1) as (i' & k' & W1 & W2 & W3).
      exists i', k'. split; [exact W1|]. split; [exact W2|]. split; [exact W3|]. split.
      * intros; lra.
      * intros _ i2 k2 Q1 Q2. destruct (CASES i2 k2 Q1 Q2) as [-> |[-> |[-> | ->]]]; lra.
Qed.

(** ** Spline in Z, and the weights handed out for the parallel transform *)
Theorem C36_zspline : forall m f i dz, (1 <= LocalNz m)%Z -> (0 <= i < LocalNx m)%Z ->
  exists v, zspline m f i dz = Ok v /\
    (forall k, zspline m f i (dz + IZR (k * LocalNz m)) = Ok v) /\
    (forall F, polynomial 2 F -> (forall k, (Int_part dz - 1 <= k <= Int_part dz + 2)%Z -> f i (k mod LocalNz m)%Z = F (IZR k)) -> v = F dz) /\
    (forall k, dz = IZR k -> v = f i (k mod LocalNz m)%Z).
Proof.
  intros m f i dz Hn Hi. eexists. split; [apply zspline_eq; lia|]. split; [|split].
  - intros k. rewrite zspline_eq by lia. rewrite Int_part_add, frac_add. unfold zspl. cbv zeta.
    replace (Int_part dz + k * LocalNz m + 1)%Z with (Int_part dz + 1 + k * LocalNz m)%Z by ring. rewrite !Z_mod_plus_full. reflexivity.
  - intros F P S. unfold zspl. cbv zeta. rewrite !ddz_eq by lia.
    replace (Int_part dz + 1 + 1)%Z with (Int_part dz + 2)%Z by ring. replace (Int_part dz + 1 - 1)%Z with (Int_part dz) by ring.
    rewrite !S by lia. rewrite !plus_IZR, minus_IZR. rewrite (herm_quadratic F _ _ P). f_equal. unfold frac. ring.
  - intros k ->. rewrite Int_part_IZR, frac_IZR. unfold zspl. cbv zeta. apply herm_0.
Qed.

(** The weights sum to one, their positions are cells of the row, and the weighted sum is the spline's value: at a grid
    column [i] both for the Z spline and for the XZ spline. *)
Theorem C36_weights : forall m f i dz, has_guards m -> (xstart m <= i <= xend m)%Z ->
  exists w v, hermite_weights m (IZR i) dz = Ok w /\
    fold_right (fun pw s => snd pw + s) 0 (y_approximation m w) = 1 /\
    Forall (fun pw => (0 <= fst pw < LocalNz m)%Z) (y_approximation m w) /\
    zspline m f i dz = Ok v /\ spline m f (IZR i) dz = Ok v /\ weighted (f i) (y_approximation m w) = v.
Proof.
  intros m f i dz G Hi. pose proof G as (G1 & G2 & G3 & G4).
  pose proof (corner_range m (IZR i) G) as (C & T & E). rewrite weights_eq by exact G. eexists. exists (zspl m f i (Int_part dz) (frac dz)).
  split; [reflexivity|]. unfold y_approximation. cbn [hk hz]. cbv zeta.
  set (n := LocalNz m) in *. set (k := Int_part dz).
  pose proof (Z.mod_pos_bound k n ltac:(lia)) as B.
  assert (M1 : (if (0 <? k mod n)%Z then (k mod n - 1)%Z else (n - 1)%Z) = ((k - 1) mod n)%Z).
  { rewrite <- Zminus_mod_idemp_l. destruct (Z.ltb_spec 0 (k mod n)).
    - symmetry. apply Z.mod_small. lia.
    - replace (k mod n - 1)%Z with (n - 1 + (-1) * n)%Z by lia. rewrite Z_mod_plus_full. symmetry. apply Z.mod_small. lia. }
  rewrite M1, !rem_next by lia. split; [|split; [|split; [|split]]].
  - cbn [fold_right snd]. unfold hermite_basis. cbn [h00 h01 h10 h11]. lra.
  - repeat constructor; cbn [fst]; apply Z.mod_pos_bound; lia.
  - apply zspline_eq; lia.
  - rewrite spline_eq by exact G. f_equal. unfold spl2, zspl. fold k. fold n.
    assert (X : clamp m (IZR i) = IZR i).
    { unfold clamp. assert (IZR (xstart m) <= IZR i <= IZR (xend m)) by (split; apply IZR_le; lia). rewrite Rmin_left by lra. apply Rmax_right. lra. }
    rewrite X in E. unfold spl. cbv zeta. fold n.
    destruct (Req_dec (snd (corner m (IZR i))) 1) as [E1|E1].
    + rewrite E1, !herm_1. assert (I : (fst (corner m (IZR i)) + 1 = i)%Z) by (apply eq_IZR; rewrite plus_IZR; lra). rewrite I. reflexivity.
    + assert (I : fst (corner m (IZR i)) = i).
      { rewrite <- (Int_part_IZR i) at 2. symmetry. apply Int_part_eq. lra. }
      assert (Z : snd (corner m (IZR i)) = 0) by (rewrite I in E; lra). rewrite Z, !herm_0, I. reflexivity.
  - cbn [weighted fold_right fst snd]. unfold zspl. cbv zeta. fold n k. rewrite !ddz_eq by lia.
    replace (k + 1 + 1)%Z with (k + 2)%Z by ring. replace (k + 1 - 1)%Z with k by ring.
    unfold herm, hermite_basis. cbn [h00 h01 h10 h11]. unfold weighted. cbn [fold_right fst snd]. replace 0.5 with (1 / 2) by lra. replace (-0.5) with (- (1 / 2)) by lra. field.
Qed.

(** ** Whole fields *)
(** Interpolating a field writes every point of the region that is not masked, at [y + y_offset], with the value
    interpolated in that plane at the point's own displacement, and nothing else; the state left by earlier calculations does
    not matter. *)
Theorem C36_field : forall W (calc : R -> R -> res W) (point : plane -> W -> res R) m skip y_offset f dx dz st region,
  (forall x y z, In (x, y, z) region -> skip (x, y, z) = false -> (0 <= y + y_offset < LocalNy m)%Z /\
     exists v, (do w <- calc (dx (x, y, z)) (dz (x, y, z)); point (fun i k => f (i, (y + y_offset)%Z, k)) w) = Ok v) ->
  exists r, interpolate_with m calc point skip y_offset f dx dz st region = Ok r /\
    (forall x y z, In (x, y, z) region -> skip (x, y, z) = false ->
       exists v, r (x, (y + y_offset)%Z, z) = Some v /\
         (do w <- calc (dx (x, y, z)) (dz (x, y, z)); point (fun i k => f (i, (y + y_offset)%Z, k)) w) = Ok v) /\
    (forall x y z, (~ In (x, y, z) region \/ skip (x, y, z) = true) -> r (x, (y + y_offset)%Z, z) = None).
Proof.
  intros W calc point m skip yo f dx dz st region H.
  destruct (calc_total W calc skip dx dz region st) as (st' & Hst).
  { intros [[x y] z] Hin Hs. destruct (H x y z Hin Hs) as (_ & v & E). destruct (calc _ _) as [w| |]; try discriminate E. exists w. reflexivity. }
  destruct (calc_ok _ _ _ _ _ _ _ _ Hst) as (I1 & I2).
  destruct (loop_total W m point skip yo f st' region (fun _ => None)) as (r & Hr).
  { intros x y z Hin Hs. destruct (H x y z Hin Hs) as (Hy & v & E). split; [exact Hy|].
    destruct (I1 _ Hin Hs) as (w & Ew & Es). rewrite Ew in E. cbn [bind] in E. exists w, v. split; assumption. }
  exists r. unfold interpolate_with. rewrite Hst. cbn [bind]. unfold interpolate. split; [exact Hr|].
  destruct (loop_ok _ _ _ _ _ _ _ _ _ _ Hr) as (J1 & J2). split.
  - intros x y z Hin Hs. destruct (J1 x y z Hin Hs) as (w & v & Es & Ep & Er). exists v. split; [exact Er|].
    destruct (I1 _ Hin Hs) as (w' & Ew & Es'). rewrite Ew. cbn [bind]. congruence.
  - intros x y z Hp. rewrite J2 by exact Hp. reflexivity.
Qed.

(** The hypotheses of the previous theorem hold for all displacements with the Hermite and monotonic splines. *)
Theorem C36_spline_fields_defined : forall m (f : plane) dx dz, has_guards m ->
  (exists v, (do w <- hermite_weights m dx dz; spline_point m f w) = Ok v) /\
  (exists v, (do w <- hermite_weights m dx dz; monotonic_point m f w) = Ok v).
Proof.
  intros m f dx dz G. split.
  - eexists. apply (spline_eq m f dx dz G).
  - eexists. apply (monotonic_eq m f dx dz G).
Qed.

(** ** Axisymmetric fields *)
(** Defined everywhere; exact for linear fields as long as the position stays inside (except for the last point moved inwards
    by less than a cell), between the extreme values for displacements that are not negative, and the grid value, limited to
    the array, for displacements by whole cells. *)
Theorem C36_field2d_partial : forall nx f jx d, (2 <= nx)%Z -> (0 <= jx < nx)%Z ->
  exists v, interpolate2d_point nx f jx d = Ok v /\
    (forall a b, (forall i, f i = a + b * IZR i) -> 0 <= IZR jx + d <= IZR (nx - 1) -> (jx < nx - 1)%Z \/ 0 <= d \/ d <= -1 ->
       v = a + b * (IZR jx + d)) /\
    (0 <= d -> forall lo hi, (forall i, (0 <= i < nx)%Z -> lo <= f i <= hi) -> lo <= v <= hi) /\
    (forall k, d = IZR k -> v = f (Z.max 0 (Z.min (jx + k) (nx - 1)))).
Proof.
  intros nx f jx d Hn Hj. unfold interpolate2d_point. cbv zeta.
  set (k := truncate d). set (t := d - IZR k).
  assert (T : (0 <= d -> 0 <= t < 1) /\ (d < 0 -> -1 < t <= 0)).
  { unfold t, k, truncate. destruct (Rle_dec 0 d).
    - split; [intros _|lra]. destruct (base_Int_part d). lra.
    - split; [lra|intros _]. rewrite opp_IZR. destruct (base_Int_part (- d)). lra. }
  assert (RD : forall i, (0 <= i < nx)%Z -> rdx nx f i = Ok (f i)).
  { intros i Hi. unfold rdx. replace ((0 <=? i) && (i <? nx))%Z%bool with true; [reflexivity|].
    symmetry. rewrite Bool.andb_true_iff, Z.leb_le, Z.ltb_lt. lia. }
  assert (KI : forall q, d = IZR q -> k = q /\ t = 0).
  { intros q E. assert (k = q).
    - unfold k, truncate. rewrite E. destruct (Rle_dec 0 (IZR q)); [apply Int_part_IZR|]. rewrite <- opp_IZR, Int_part_IZR. lia.
    - split; [assumption|]. unfold t. rewrite H, E. ring. }
  assert (K0 : 0 <= d -> (0 <= k)%Z).
  { intros H. unfold k, truncate. destruct (Rle_dec 0 d); [|lra]. apply Int_part_le. exact H. }
  assert (DT : d = IZR k + t) by (unfold t; ring).
  destruct (Z.ltb_spec (k + jx) 0) as [A|A]; [|destruct (Z.leb_spec (nx - 1) (k + jx)) as [B|B]].
  - eexists. rewrite !RD by lia. cbn [bind]. split; [reflexivity|]. split; [|split].
    + intros a b Hf (P1 & P2) _. rewrite !Hf. assert (IZR (k + jx + 1) <= IZR 0) by (apply IZR_le; lia). rewrite !plus_IZR in H.
      destruct (Rle_dec 0 d) as [D|D]; [specialize (K0 D); lia|]. destruct (proj2 T ltac:(lra)). rewrite DT in P1.
      lra.
    + intros D lo hi Hb. specialize (K0 D). lia.
    + intros q Hq. destruct (KI q Hq) as (-> & _). replace (Z.max 0 (Z.min (jx + q) (nx - 1))) with 0%Z by lia. ring.
  - eexists. rewrite !RD by lia. cbn [bind]. split; [reflexivity|]. replace (nx - 2 + 1)%Z with (nx - 1)%Z by ring. split; [|split].
    + intros a b Hf (P1 & P2) Q. rewrite !Hf. assert (IZR (nx - 1) <= IZR (k + jx)) by (apply IZR_le; lia).
      rewrite plus_IZR in H. destruct (Rle_dec 0 d) as [D|D].
      * destruct (proj1 T D). replace (IZR jx + d) with (IZR (nx - 1)) by lra. rewrite !minus_IZR. ring.
      * exfalso. destruct (proj2 T ltac:(lra)) as (T1 & T2).
        assert (IP : (0 <= Int_part (- d))%Z) by (apply Int_part_le; lra).
        assert (KE : k = (- Int_part (- d))%Z) by (unfold k, truncate; destruct (Rle_dec 0 d); [lra|reflexivity]).
        destruct Q as [Q|[Q|Q]]; [lia|lra|]. assert (1 <= Int_part (- d))%Z by (apply Int_part_le; lra). lia.
    + intros D lo hi Hb. pose proof (Hb (nx - 1)%Z ltac:(lia)). lra.
    + intros q Hq. destruct (KI q Hq) as (-> & _). replace (Z.max 0 (Z.min (jx + q) (nx - 1))) with (nx - 1)%Z by lia. ring.
  - eexists. rewrite !RD by lia. cbn [bind]. split; [reflexivity|]. split; [|split].
    + intros a b Hf _ _. rewrite !Hf. rewrite DT. rewrite !plus_IZR. ring.
    + intros D lo hi Hb. pose proof (Hb (k + jx)%Z ltac:(lia)). pose proof (Hb (k + jx + 1)%Z ltac:(lia)). destruct (proj1 T D). split; nra.
    + intros q Hq. destruct (KI q Hq) as (-> & ->). replace (Z.max 0 (Z.min (jx + q) (nx - 1))) with (q + jx)%Z by lia. ring.
Qed.

(** For negative displacements it extrapolates (the conversion to int rounds towards zero), so the value can leave the range
    of the field; and the last point cannot be moved inwards by less than a cell. *)
Theorem C36_field2d_refuted :
  ~ (forall nx f jx d lo hi v, (2 <= nx)%Z -> (0 <= jx < nx)%Z -> (forall i, lo <= f i <= hi) ->
       interpolate2d_point nx f jx d = Ok v -> lo <= v <= hi) /\
  ~ (forall nx f jx d a b v, (2 <= nx)%Z -> (0 <= jx < nx)%Z -> (forall i, f i = a + b * IZR i) -> 0 <= IZR jx + d <= IZR (nx - 1) ->
       interpolate2d_point nx f jx d = Ok v -> v = a + b * (IZR jx + d)).
Proof.
  assert (E : truncate (- (1 / 2)) = 0%Z).
  { unfold truncate. destruct (Rle_dec 0 (- (1 / 2))); [lra|]. rewrite Ropp_involutive.
    replace (Int_part (1 / 2)) with 0%Z; [reflexivity|]. symmetry. apply Int_part_eq. lra. }
  split; intros H.
  - specialize (H 3%Z (fun i => if (i =? 2)%Z then 1 else 0) 1%Z (- (1 / 2)) 0 1 (- (1 / 2)) ltac:(lia) ltac:(lia)).
    assert (B : forall i, 0 <= (if (i =? 2)%Z then 1 else 0) <= 1) by (intros i; destruct (i =? 2)%Z; lra).
    specialize (H B). unfold interpolate2d_point in H. rewrite E in H. cbv zeta in H. cbn [Z.add Z.ltb Z.compare Z.leb Z.sub Z.opp Z.pos_sub Pos.pred_double Pos.compare Pos.compare_cont] in H.
    unfold rdx in H. cbn in H. assert (X : 0 * (1 - (- (1 / 2) - 0)) + 1 * (- (1 / 2) - 0) = - (1 / 2)) by lra.
    rewrite X in H. specialize (H eq_refl). lra.
  - specialize (H 3%Z (fun i => 0 + 1 * IZR i) 2%Z (- (1 / 2)) 0 1 2 ltac:(lia) ltac:(lia) (fun i => eq_refl)).
    assert (B : 0 <= 2 + - (1 / 2) <= IZR (3 - 1)) by (cbn; lra). specialize (H B).
    unfold interpolate2d_point in H. rewrite E in H. cbv zeta in H. cbn in H.
    assert (X : (0 + 1 * 1) * (1 - 1) + (0 + 1 * 2) * 1 = 2) by lra.
    rewrite X in H. specialize (H eq_refl). lra.
Qed.

(** ** Staggered interpolation *)
(** Centre to lower face and back: exact for cubics sampled on any uniform grid. *)
Theorem C36_staggered : forall s a x0 h i, s = C2L \/ s = L2C -> degree_le 3 a ->
  interp_to_line s (sample a x0 h (loc_in s)) i = peval a (x0 + h * (IZR i + loc_out s)).
Proof.
  intros s a x0 h i Hs L. unfold degree_le in L.
  destruct Hs as [-> | ->]; unfold interp_to_line, interp, populate, sample, loc_in, loc_out; cbn [DerivModel.m DerivModel.p DerivModel.mm DerivModel.pp];
    rewrite ?plus_IZR, ?minus_IZR; repeat (destruct a as [|? a]; cbn [length] in L; try lia); cbn [peval]; field.
Qed.

(** Non-vacuity: a 6 x 4 plane; [f i k = i^2 + k]. *)
Example C36_case :
  let m := Mesh 6 1 4 1 4 in let F := fun X Z => X * X + Z in let f := fun i k => F (IZR i) (IZR k) in
  has_guards m /\ polynomial2 2 F /\ sampled m f F 0 5 0 3 /\
  spline m f (5 / 2) (3 / 2) = Ok (31 / 4) /\ spline m f 9 (3 / 2) = Ok (35 / 2) /\ bilinear m f 2 (3 / 2) = Ok (11 / 2) /\
  lagrange m f (5 / 2) (3 / 2) = Ok (31 / 4).
Proof.
  cbv zeta. assert (P : forall d, (2 <= d)%nat -> polynomial2 d (fun X Z => X * X + Z)).
  { intros d Hd. split.
    - intros X. exists [X * X; 1]. split; [unfold degree_le; cbn [length]; lia|]. intros x. cbn [peval]. ring.
    - intros Z0. exists [Z0; 0; 1]. split; [unfold degree_le; cbn [length]; lia|]. intros x. cbn [peval]. ring. }
  set (m := Mesh 6 1 4 1 4). set (f := fun i k : Z => IZR i * IZR i + IZR k).
  assert (G : has_guards m) by (unfold has_guards; cbn; lia).
  assert (S : sampled m f (fun X Z => X * X + Z) 0 5 0 3).
  { intros i k Hi Hk. unfold f. cbn [LocalNz m]. rewrite Z.mod_small by (cbn; lia). reflexivity. }
  assert (E5 : Int_part (5 / 2) = 2%Z) by (apply Int_part_eq; lra). assert (E3 : Int_part (3 / 2) = 1%Z) by (apply Int_part_eq; lra).
  split; [exact G|]. split; [apply P; lia|]. split; [exact S|]. split; [|split; [|split]].
  - destruct (C36_spline m f (5 / 2) (3 / 2) G) as (v & -> & _ & Q & _). f_equal. rewrite (Q _ (P 2%nat ltac:(lia))).
    + unfold clamp. cbn [xstart xend m]. rewrite Rmin_left by lra. rewrite Rmax_right by lra. lra.
    + rewrite E3. intros i k Hi Hk. cbn [xstart xend m] in Hi. apply S; lia.
  - destruct (C36_spline m f 9 (3 / 2) G) as (v & -> & _ & Q & _). f_equal. rewrite (Q _ (P 2%nat ltac:(lia))).
    + unfold clamp. cbn [xstart xend m]. rewrite Rmin_right by lra. rewrite Rmax_right by lra. lra.
    + rewrite E3. intros i k Hi Hk. cbn [xstart xend m] in Hi. apply S; lia.
  - rewrite bilinear_eq; rewrite ?(Int_part_IZR 2); try (cbn; lia). f_equal. rewrite E3. unfold bil.
    rewrite (frac_IZR 2). unfold frac. rewrite E3. change (2 + 1)%Z with 3%Z. change (1 mod LocalNz m)%Z with 1%Z. change ((1 + 1) mod LocalNz m)%Z with 2%Z. unfold f. lra.
  - rewrite (C36_lagrange_cubic m f (fun X Z => X * X + Z)); [f_equal; lra|cbn; lia|cbn; lra|cbn; lia| |apply P; lia|].
    + left. rewrite E5. cbn. lia.
    + rewrite E5, E3. intros i k Hi Hk. apply S; lia.
Qed.

Print Assumptions C36_bilinear.
Print Assumptions C36_lagrange_cubic.
Print Assumptions C36_lagrange_everywhere.
Print Assumptions C36_lagrange_edge_refuted.
Print Assumptions C36_spline.
Print Assumptions C36_spline_basis.
Print Assumptions C36_monotonic.
Print Assumptions C36_zspline.
Print Assumptions C36_weights.
Print Assumptions C36_field.
Print Assumptions C36_spline_fields_defined.
Print Assumptions C36_field2d_partial.
Print Assumptions C36_field2d_refuted.
Print Assumptions C36_staggered.
