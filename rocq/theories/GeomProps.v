(** Properties C27, C37, C45, C46: metric inversion, vectors, connection coefficients, vector calculus. *)
From Coq Require Import Reals ZArith Bool Lra Psatz Lia FunctionalExtensionality.
From Verif Require Import Base GeomModel GeomSpec.
Local Open Scope R_scope.

(** * C27 *)
(** Either the determinant is below the threshold, and then a non-negative threshold throws and a negative one returns 1 leaving the
    matrix alone, or the matrix is overwritten by its two-sided inverse and 0 is returned. *)
Theorem C27_invert3x3 : forall a small, small <> 0 \/ determinant (m_at a) <> 0 ->
  (Rabs (determinant (m_at a)) < Rabs small /\ (small >= 0 -> invert3x3 a small = Throw) /\ (small < 0 -> invert3x3 a small = Ok (1%Z, a))) \/
  (Rabs small <= Rabs (determinant (m_at a)) /\ exists b, invert3x3 a small = Ok (0%Z, b) /\ inverse_of (m_at a) (m_at b)).
Proof.
  intros [b00 b01 b02 b10 b11 b12 b20 b21 b22] small H. unfold invert3x3, determinant, m_at in *. cbn [a00 a01 a02 a10 a11 a12 a20 a21 a22] in *.
  set (det := b00 * (b11 * b22 - b12 * b21) + b01 * (b12 * b20 - b10 * b22) + b02 * (b10 * b21 - b11 * b20)).
  set (det' := b00 * (b11 * b22 - b12 * b21) - b01 * (b10 * b22 - b12 * b20) + b02 * (b10 * b21 - b11 * b20)) in *.
  assert (E : det' = det) by (unfold det, det'; ring). rewrite E in *. clear E. clearbody det' || clear det'.
  destruct (Rlt_dec (Rabs det) (Rabs small)) as [L|L].
  - left. split; [exact L|]. split; intros S.
    + destruct (Rge_dec small 0); [reflexivity|lra].
    + destruct (Rge_dec small 0); [lra|reflexivity].
  - right. split; [lra|]. eexists. split; [reflexivity|].
    assert (N : det <> 0). { destruct H as [H|H]; [|exact H]. intros Z0. rewrite Z0, Rabs_R0 in L. apply L. now apply Rabs_pos_lt. }
    unfold inverse_of, sum3, delta. cbn [m_at a00 a01 a02 a10 a11 a12 a20 a21 a22].
    split; intros i j; destruct i, j; unfold det in *; field; exact N.
Qed.
Print Assumptions C27_invert3x3.
(** The exception: with a threshold of exactly zero a singular matrix is neither reported nor inverted. *)
Theorem C27_zero_threshold_refuted :
  ~ forall a, determinant (m_at a) = 0 -> invert3x3 a 0 = Throw \/ (exists b, invert3x3 a 0 = Ok (1%Z, b)).
Proof.
  intros H. specialize (H (Mat 0 0 0 0 0 0 0 0 0)). unfold determinant, invert3x3 in H. cbn in H.
  destruct (Rlt_dec _ _) as [L|L].
  - rewrite Rabs_R0 in L. replace (0 * (0 * 0 - 0 * 0) + 0 * (0 * 0 - 0 * 0) + 0 * (0 * 0 - 0 * 0)) with 0 in L by ring. rewrite Rabs_R0 in L. lra.
  - destruct H as [H|[b H]]; [lra|discriminate H|discriminate H].
Qed.
Print Assumptions C27_zero_threshold_refuted.
Example C27_case : exists b, invert3x3 (Mat 2 1 0 0 1 0 0 0 4) small_default = Ok (0%Z, b) /\ inverse_of (m_at (Mat 2 1 0 0 1 0 0 0 4)) (m_at b).
Proof.
  assert (D : determinant (m_at (Mat 2 1 0 0 1 0 0 0 4)) = 8) by (unfold determinant; cbn; ring).
  destruct (C27_invert3x3 (Mat 2 1 0 0 1 0 0 0 4) small_default) as [[H _]|[_ H]]; [right; rewrite D; lra| |exact H].
  exfalso. rewrite D in H. rewrite !Rabs_pos_eq in H; unfold small_default in *; lra.
Qed.

(** calcCovariant/calcContravariant give inverse metric tensors (or throw), and applying one after the other restores the tensor. *)
Theorem C27_metric_inverse : forall g h, calc_inverse g = Ok h -> inverse_of (s_at g) (s_at h).
Proof.
  intros g h H. unfold calc_inverse in H. set (a := Mat (s11 g) (s12 g) (s13 g) (s12 g) (s22 g) (s23 g) (s13 g) (s23 g) (s33 g)) in H.
  assert (SP : 0 < small_default) by (unfold small_default; lra).
  destruct (C27_invert3x3 a small_default) as [(A & B & _)|(A & b & E & I)]; [left; lra| |].
  - rewrite B in H by lra. discriminate.
  - rewrite E in H. cbn [bind snd] in H. injection H as <-.
    (* the inverse of a symmetric matrix is symmetric *)
    assert (SY : forall i j, m_at b i j = m_at b j i).
    { intros i j. destruct I as [I1 I2].
      assert (AS : forall i j, m_at a i j = m_at a j i) by (intros [] []; reflexivity).
      assert (K : forall i j, m_at b i j = sum3 (fun k => sum3 (fun l => m_at b i k * m_at a k l * m_at b j l))).
      { intros i' j'. unfold sum3.
        assert (J : forall k, m_at a k X * m_at b j' X + m_at a k Y * m_at b j' Y + m_at a k Z * m_at b j' Z = delta j' k).
        { intros k. rewrite <- (I2 j' k). unfold sum3. rewrite (AS k X), (AS k Y), (AS k Z). ring. }
        pose proof (J X) as J1. pose proof (J Y) as J2. pose proof (J Z) as J3.
        replace (_ + _ + _) with (m_at b i' X * (m_at a X X * m_at b j' X + m_at a X Y * m_at b j' Y + m_at a X Z * m_at b j' Z) + m_at b i' Y * (m_at a Y X * m_at b j' X + m_at a Y Y * m_at b j' Y + m_at a Y Z * m_at b j' Z) + m_at b i' Z * (m_at a Z X * m_at b j' X + m_at a Z Y * m_at b j' Y + m_at a Z Z * m_at b j' Z)) by ring.
        rewrite J1, J2, J3. destruct j'; unfold delta; ring. }
      rewrite (K i j), (K j i). unfold sum3. rewrite (AS Y X), (AS Z X), (AS Z Y). ring. }
    assert (SB : forall i j, s_at (Sym (a00 b) (a11 b) (a22 b) (a01 b) (a02 b) (a12 b)) i j = m_at b i j).
    { intros [] []; cbn [s_at m_at s11 s22 s33 s12 s13 s23]; try reflexivity; [exact (SY X Y)|exact (SY X Z)|exact (SY Y Z)]. }
    assert (SA : forall i j, s_at g i j = m_at a i j) by (intros [] []; reflexivity).
    destruct I as [I1 I2]. split; intros i j; unfold sum3; rewrite !SB, !SA; [apply (I1 i j)|apply (I2 i j)].
Qed.
Print Assumptions C27_metric_inverse.
(** J is the reciprocal square root of det g^ij, hence J^2 = det g_ij. *)
Theorem C27_jacobian : forall g h J, inverse_of (s_at g) (s_at h) -> jacobian g = Ok J -> 0 < J /\ J * J = determinant (s_at h).
Proof.
  intros g h J I H. unfold jacobian in H.
  set (d := s11 g * s22 g * s33 g + 2 * s12 g * s13 g * s23 g - s11 g * s23 g * s23 g - s22 g * s13 g * s13 g - s33 g * s12 g * s12 g) in *.
  destruct (Rle_dec d 0) as [L|L]; [discriminate|]. injection H as <-.
  assert (P : 0 < sqrt d) by (apply sqrt_lt_R0; lra). split.
  - unfold Rdiv. rewrite Rmult_1_l. now apply Rinv_0_lt_compat.
  - replace (1 / sqrt d * (1 / sqrt d)) with (1 / (sqrt d * sqrt d)) by (field; lra). rewrite sqrt_sqrt by lra.
    assert (DD : d * determinant (s_at h) = 1).
    { destruct I as [I1 _].
      assert (M : determinant (fun i j => sum3 (fun k => s_at g i k * s_at h k j)) = determinant (s_at g) * determinant (s_at h)).
      { unfold determinant, sum3. cbn [s_at]. ring. }
      assert (N : determinant (fun i j => sum3 (fun k => s_at g i k * s_at h k j)) = 1).
      { unfold determinant. rewrite !I1. unfold delta. ring. }
      replace d with (determinant (s_at g)) by (unfold determinant, d; cbn [s_at]; ring). lra. }
    apply Rmult_eq_reg_l with d; [|lra]. rewrite DD. field. lra.
Qed.
Print Assumptions C27_jacobian.
Example C27_metric_case : exists h, calc_inverse (Sym 2 1 4 1 0 0) = Ok h /\ inverse_of (s_at (Sym 2 1 4 1 0 0)) (s_at h).
Proof.
  unfold calc_inverse, invert3x3; cbn [s11 s22 s33 s12 s13 s23 a00 a01 a02 a10 a11 a12 a20 a21 a22].
  destruct (Rlt_dec _ _) as [L|L].
  - exfalso. replace (2 * (1 * 4 - 0 * 0) + 1 * (0 * 0 - 1 * 4) + 0 * (1 * 0 - 1 * 0)) with 4 in L by ring.
    rewrite !Rabs_pos_eq in L; unfold small_default in *; lra.
  - eexists. split; [cbn [bind snd]; reflexivity|]. split; intros [] []; cbn; unfold sum3; cbn; field.
Qed.

(** * C37: vectors *)
(** Multiplying by one tensor and then by its inverse is the identity. *)
Lemma raise_lower g h v co co' : inverse_of (s_at g) (s_at h) -> lower_with g (lower_with h v co) co' = Vec (vx v) (vy v) (vz v) co'.
Proof.
  intros [I _]. unfold lower_with. cbn [vx vy vz].
  pose proof (I X X) as XX. pose proof (I X Y) as XY. pose proof (I X Z) as XZ. pose proof (I Y X) as YX. pose proof (I Y Y) as YY. pose proof (I Y Z) as YZ.
  pose proof (I Z X) as ZX. pose proof (I Z Y) as ZY. pose proof (I Z Z) as ZZ. unfold sum3, delta in *; cbn [s_at] in *.
  f_equal.
  - transitivity ((s11 g * s11 h + s12 g * s12 h + s13 g * s13 h) * vx v + (s11 g * s12 h + s12 g * s22 h + s13 g * s23 h) * vy v + (s11 g * s13 h + s12 g * s23 h + s13 g * s33 h) * vz v); [ring|]. rewrite XX, XY, XZ. ring.
  - transitivity ((s12 g * s11 h + s22 g * s12 h + s23 g * s13 h) * vx v + (s12 g * s12 h + s22 g * s22 h + s23 g * s23 h) * vy v + (s12 g * s13 h + s22 g * s23 h + s23 g * s33 h) * vz v); [ring|]. rewrite YX, YY, YZ. ring.
  - transitivity ((s13 g * s11 h + s23 g * s12 h + s33 g * s13 h) * vx v + (s13 g * s12 h + s23 g * s22 h + s33 g * s23 h) * vy v + (s13 g * s13 h + s23 g * s23 h + s33 g * s33 h) * vz v); [ring|]. rewrite ZX, ZY, ZZ. ring.
Qed.
Lemma good_sym m : good_coords m -> inverse_of (s_at (glow m)) (s_at (gup m)).
Proof. intros [A B]. split; assumption. Qed.
(** Converting to the other kind of components and back is the identity; conversion never changes the vector represented. *)
Theorem C37_round_trip : forall m v, good_coords m ->
  (covariant v = true -> toCovariant m (toContravariant m v) = v) /\ (covariant v = false -> toContravariant m (toCovariant m v) = v) /\
  covariant (toCovariant m v) = true /\ covariant (toContravariant m v) = false /\
  same_vector m (toCovariant m v) v /\ same_vector m (toContravariant m v) v.
Proof.
  intros m [x y z co] G. unfold toCovariant, toContravariant. cbn [covariant]. repeat split.
  - intros ->. cbn [covariant lower_with]. rewrite raise_lower by now apply good_sym. reflexivity.
  - intros ->. cbn [covariant lower_with]. rewrite raise_lower by exact G. reflexivity.
  - destruct co; reflexivity.
  - destruct co; reflexivity.
  - intros i. destruct co; [reflexivity|]. unfold contra. cbn [covariant lower_with].
    pose proof (raise_lower (gup m) (glow m) (Vec x y z false) true false G) as E. unfold lower_with in E. cbn [vx vy vz] in E. injection E as E1 E2 E3.
    destruct i; unfold sum3; cbn [s_at v_at vx vy vz lower_with]; lra.
  - intros i. destruct co; [|reflexivity]. unfold contra. cbn [covariant lower_with]. destruct i; unfold sum3; cbn [s_at v_at lower_with vx vy vz]; ring.
Qed.
Print Assumptions C37_round_trip.
(** The dot product is the metric inner product, whatever components the operands are given in: symmetric and representation independent. *)
Theorem C37_dot : forall m v w, good_coords m -> dot m v w = inner m v w /\ dot m w v = dot m v w /\
  (forall v' w', same_vector m v v' -> same_vector m w w' -> dot m v' w' = dot m v w).
Proof.
  assert (D : forall m v w, good_coords m -> dot m v w = inner m v w).
  { intros m [x y z co] [x' y' z' co'] G. destruct G as [I1 I2].
    pose proof (I2 X X) as XX. pose proof (I2 X Y) as XY. pose proof (I2 X Z) as XZ. pose proof (I2 Y X) as YX. pose proof (I2 Y Y) as YY. pose proof (I2 Y Z) as YZ.
    pose proof (I2 Z X) as ZX. pose proof (I2 Z Y) as ZY. pose proof (I2 Z Z) as ZZ. unfold sum3, delta in *; cbn [s_at] in *.
    unfold dot, inner, contra, sum3. cbn [covariant vx vy vz v_at s_at].
    set (g := glow m) in *. set (h := gup m) in *. destruct co, co'; cbn [xorb].
    - transitivity (
        ((s11 g * s11 h + s12 g * s12 h + s13 g * s13 h) * x + (s11 g * s12 h + s12 g * s22 h + s13 g * s23 h) * y + (s11 g * s13 h + s12 g * s23 h + s13 g * s33 h) * z) * (s11 h * x' + s12 h * y' + s13 h * z')
      + ((s12 g * s11 h + s22 g * s12 h + s23 g * s13 h) * x + (s12 g * s12 h + s22 g * s22 h + s23 g * s23 h) * y + (s12 g * s13 h + s22 g * s23 h + s23 g * s33 h) * z) * (s12 h * x' + s22 h * y' + s23 h * z')
      + ((s13 g * s11 h + s23 g * s12 h + s33 g * s13 h) * x + (s13 g * s12 h + s23 g * s22 h + s33 g * s23 h) * y + (s13 g * s13 h + s23 g * s23 h + s33 g * s33 h) * z) * (s13 h * x' + s23 h * y' + s33 h * z')); [|ring].
      rewrite XX, XY, XZ, YX, YY, YZ, ZX, ZY, ZZ. ring.
    - transitivity (
        ((s11 g * s11 h + s12 g * s12 h + s13 g * s13 h) * x + (s11 g * s12 h + s12 g * s22 h + s13 g * s23 h) * y + (s11 g * s13 h + s12 g * s23 h + s13 g * s33 h) * z) * x'
      + ((s12 g * s11 h + s22 g * s12 h + s23 g * s13 h) * x + (s12 g * s12 h + s22 g * s22 h + s23 g * s23 h) * y + (s12 g * s13 h + s22 g * s23 h + s23 g * s33 h) * z) * y'
      + ((s13 g * s11 h + s23 g * s12 h + s33 g * s13 h) * x + (s13 g * s12 h + s23 g * s22 h + s33 g * s23 h) * y + (s13 g * s13 h + s23 g * s23 h + s33 g * s33 h) * z) * z'); [|ring].
      rewrite XX, XY, XZ, YX, YY, YZ, ZX, ZY, ZZ. ring.
    - transitivity (
        ((s11 g * s11 h + s12 g * s12 h + s13 g * s13 h) * x' + (s11 g * s12 h + s12 g * s22 h + s13 g * s23 h) * y' + (s11 g * s13 h + s12 g * s23 h + s13 g * s33 h) * z') * x
      + ((s12 g * s11 h + s22 g * s12 h + s23 g * s13 h) * x' + (s12 g * s12 h + s22 g * s22 h + s23 g * s23 h) * y' + (s12 g * s13 h + s22 g * s23 h + s23 g * s33 h) * z') * y
      + ((s13 g * s11 h + s23 g * s12 h + s33 g * s13 h) * x' + (s13 g * s12 h + s23 g * s22 h + s33 g * s23 h) * y' + (s13 g * s13 h + s23 g * s23 h + s33 g * s33 h) * z') * z); [|ring].
      rewrite XX, XY, XZ, YX, YY, YZ, ZX, ZY, ZZ. ring.
    - ring. }
  assert (SY : forall m v w, inner m w v = inner m v w) by (intros; unfold inner, sum3; cbn [s_at]; ring).
  intros m v w G. split; [now apply D|]. split; [rewrite !D by assumption; apply SY|].
  intros v' w' S1 S2. rewrite !D by assumption. unfold inner, sum3. rewrite !S1, !S2. reflexivity.
Qed.
Print Assumptions C37_dot.
Lemma same_sym m v w : same_vector m v w -> same_vector m w v.
Proof. intros H i. symmetry. apply H. Qed.
Lemma dot_mixed m a b : covariant a = true -> covariant b = false -> dot m a b = vx a * vx b + vy a * vy b + vz a * vz b.
Proof. intros E1 E2. unfold dot. rewrite E1, E2. reflexivity. Qed.
Lemma cross_to_cov m a b : cross m a b = cross m (toCovariant m a) (toCovariant m b).
Proof. unfold cross, toCovariant. destruct a as [? ? ? []], b as [? ? ? []]; reflexivity. Qed.
(** The cross product is orthogonal to both operands, antisymmetric, and has the right length when J^2 = det g_ij. *)
Theorem C37_cross : forall m a b, good_coords m -> cJ m <> 0 ->
  dot m (cross m a b) a = 0 /\ dot m (cross m a b) b = 0 /\ cross m b a = vneg (cross m a b) /\
  (cJ m * cJ m = determinant (s_at (glow m)) ->
   dot m (cross m a b) (cross m a b) = dot m a a * dot m b b - dot m a b * dot m a b).
Proof.
  intros m a b G NJ.
  destruct (C37_round_trip m a G) as (_ & _ & CA & _ & SA & _). destruct (C37_round_trip m b G) as (_ & _ & CB & _ & SB & _).
  rewrite (cross_to_cov m a b), (cross_to_cov m b a).
  assert (DA : forall x, dot m x a = dot m x (toCovariant m a)).
  { intros x. apply (proj2 (proj2 (C37_dot m x (toCovariant m a) G))); [intros i; reflexivity|exact SA]. }
  assert (DB : forall x, dot m x b = dot m x (toCovariant m b)).
  { intros x. apply (proj2 (proj2 (C37_dot m x (toCovariant m b) G))); [intros i; reflexivity|exact SB]. }
  assert (DAA : dot m a a = dot m (toCovariant m a) (toCovariant m a)) by (apply (C37_dot m (toCovariant m a) (toCovariant m a) G); exact SA).
  assert (DBB : dot m b b = dot m (toCovariant m b) (toCovariant m b)) by (apply (C37_dot m (toCovariant m b) (toCovariant m b) G); exact SB).
  assert (DAB : dot m a b = dot m (toCovariant m a) (toCovariant m b)) by (apply (C37_dot m (toCovariant m a) (toCovariant m b) G); [exact SA|exact SB]).
  rewrite DA, DB, DAA, DBB, DAB. clear DA DB DAA DBB DAB SA SB.
  destruct (toCovariant m a) as [x y z ca]. destruct (toCovariant m b) as [x' y' z' cb]. cbn [covariant] in CA, CB. subst ca cb.
  unfold cross, toCovariant. cbn [covariant vx vy vz].
  repeat split.
  - unfold dot. cbn [covariant vx vy vz xorb]. field. exact NJ.
  - unfold dot. cbn [covariant vx vy vz xorb]. field. exact NJ.
  - unfold vneg. cbn [covariant vx vy vz]. f_equal; field; exact NJ.
  - intros HJ.
    (* cofactors of g_ij = det(g_ij) g^ij *)
    set (g := glow m) in *. set (h := gup m) in *. set (J := cJ m) in *. destruct G as [I1 I2]. fold g h in I1, I2.
    assert (CO : s11 g = J * J * (s22 h * s33 h - s23 h * s23 h) /\ s22 g = J * J * (s11 h * s33 h - s13 h * s13 h) /\ s33 g = J * J * (s11 h * s22 h - s12 h * s12 h) /\
                 s12 g = J * J * (s13 h * s23 h - s12 h * s33 h) /\ s13 g = J * J * (s12 h * s23 h - s13 h * s22 h) /\ s23 g = J * J * (s12 h * s13 h - s11 h * s23 h)).
    { assert (DD : J * J * determinant (s_at h) = 1).
      { rewrite HJ. assert (M : determinant (fun i j => sum3 (fun k => s_at g i k * s_at h k j)) = determinant (s_at g) * determinant (s_at h)) by (unfold determinant, sum3; cbn [s_at]; ring).
        assert (N : determinant (fun i j => sum3 (fun k => s_at g i k * s_at h k j)) = 1) by (unfold determinant; rewrite !I2; unfold delta; ring). lra. }
      pose proof (I2 X X) as XX. pose proof (I2 X Y) as XY. pose proof (I2 X Z) as XZ. pose proof (I2 Y X) as YX. pose proof (I2 Y Y) as YY. pose proof (I2 Y Z) as YZ.
      pose proof (I2 Z X) as ZX. pose proof (I2 Z Y) as ZY. pose proof (I2 Z Z) as ZZ. unfold sum3, delta in *; cbn [s_at] in *.
      set (q := determinant (s_at h)) in *.
      assert (QD : q = s11 h * (s22 h * s33 h - s23 h * s23 h) - s12 h * (s12 h * s33 h - s23 h * s13 h) + s13 h * (s12 h * s23 h - s22 h * s13 h)) by reflexivity.
      assert (A1 : s11 g * q = s22 h * s33 h - s23 h * s23 h).
      { transitivity ((s11 g * s11 h + s12 g * s12 h + s13 g * s13 h) * (s22 h * s33 h - s23 h * s23 h) + (s11 g * s12 h + s12 g * s22 h + s13 g * s23 h) * (s13 h * s23 h - s12 h * s33 h) + (s11 g * s13 h + s12 g * s23 h + s13 g * s33 h) * (s12 h * s23 h - s13 h * s22 h)); [rewrite QD; ring|]. rewrite XX, XY, XZ. ring. }
      assert (A2 : s12 g * q = s13 h * s23 h - s12 h * s33 h).
      { transitivity ((s11 g * s11 h + s12 g * s12 h + s13 g * s13 h) * (s13 h * s23 h - s12 h * s33 h) + (s11 g * s12 h + s12 g * s22 h + s13 g * s23 h) * (s11 h * s33 h - s13 h * s13 h) + (s11 g * s13 h + s12 g * s23 h + s13 g * s33 h) * (s12 h * s13 h - s11 h * s23 h)); [rewrite QD; ring|]. rewrite XX, XY, XZ. ring. }
      assert (A3 : s13 g * q = s12 h * s23 h - s13 h * s22 h).
      { transitivity ((s11 g * s11 h + s12 g * s12 h + s13 g * s13 h) * (s12 h * s23 h - s13 h * s22 h) + (s11 g * s12 h + s12 g * s22 h + s13 g * s23 h) * (s12 h * s13 h - s11 h * s23 h) + (s11 g * s13 h + s12 g * s23 h + s13 g * s33 h) * (s11 h * s22 h - s12 h * s12 h)); [rewrite QD; ring|]. rewrite XX, XY, XZ. ring. }
      assert (A4 : s22 g * q = s11 h * s33 h - s13 h * s13 h).
      { transitivity ((s12 g * s11 h + s22 g * s12 h + s23 g * s13 h) * (s13 h * s23 h - s12 h * s33 h) + (s12 g * s12 h + s22 g * s22 h + s23 g * s23 h) * (s11 h * s33 h - s13 h * s13 h) + (s12 g * s13 h + s22 g * s23 h + s23 g * s33 h) * (s12 h * s13 h - s11 h * s23 h)); [rewrite QD; ring|]. rewrite YX, YY, YZ. ring. }
      assert (A5 : s23 g * q = s12 h * s13 h - s11 h * s23 h).
      { transitivity ((s12 g * s11 h + s22 g * s12 h + s23 g * s13 h) * (s12 h * s23 h - s13 h * s22 h) + (s12 g * s12 h + s22 g * s22 h + s23 g * s23 h) * (s12 h * s13 h - s11 h * s23 h) + (s12 g * s13 h + s22 g * s23 h + s23 g * s33 h) * (s11 h * s22 h - s12 h * s12 h)); [rewrite QD; ring|]. rewrite YX, YY, YZ. ring. }
      assert (A6 : s33 g * q = s11 h * s22 h - s12 h * s12 h).
      { transitivity ((s13 g * s11 h + s23 g * s12 h + s33 g * s13 h) * (s12 h * s23 h - s13 h * s22 h) + (s13 g * s12 h + s23 g * s22 h + s33 g * s23 h) * (s12 h * s13 h - s11 h * s23 h) + (s13 g * s13 h + s23 g * s23 h + s33 g * s33 h) * (s11 h * s22 h - s12 h * s12 h)); [rewrite QD; ring|]. rewrite ZX, ZY, ZZ. ring. }
      rewrite <- A1, <- A2, <- A3, <- A4, <- A5, <- A6.
      assert (W : forall t, t = J * J * (t * q)) by (intros t; transitivity (t * (J * J * q)); [rewrite DD; ring|ring]).
      repeat split; apply W. }
    destruct CO as (C1 & C2 & C3 & C4 & C5 & C6).
    unfold dot. cbn [covariant vx vy vz xorb]. fold g h. rewrite C1, C2, C3, C4, C5, C6. field. exact NJ.
Qed.
Print Assumptions C37_cross.
(** Addition and subtraction act on the vectors represented, whatever components the operands are given in. *)
Theorem C37_add : forall m v w, good_coords m -> forall i,
  contra m (vadd m v w) i = contra m v i + contra m w i /\ contra m (vsub m v w) i = contra m v i - contra m w i /\
  contra m (vneg v) i = - contra m v i /\ forall k, contra m (vscale v k) i = k * contra m v i.
Proof.
  intros m v w G i.
  destruct (C37_round_trip m v G) as (_ & _ & CA & CB & SA & SB).
  assert (V : vadd m v w = let u := if covariant w then toCovariant m v else toContravariant m v in Vec (vx u + vx w) (vy u + vy w) (vz u + vz w) (covariant u)) by reflexivity.
  assert (S : forall u, covariant u = covariant w -> same_vector m u v ->
     contra m (Vec (vx u + vx w) (vy u + vy w) (vz u + vz w) (covariant u)) i = contra m v i + contra m w i /\
     contra m (Vec (vx u - vx w) (vy u - vy w) (vz u - vz w) (covariant u)) i = contra m v i - contra m w i).
  { intros u E H. rewrite <- !(H i). unfold contra. cbn [covariant]. rewrite E. destruct (covariant w); unfold sum3; destruct i; cbn [v_at vx vy vz]; split; ring. }
  assert (U : let u := if covariant w then toCovariant m v else toContravariant m v in covariant u = covariant w /\ same_vector m u v) by (destruct (covariant w); auto).
  destruct U as [U1 U2]. unfold vadd, vsub. destruct (S _ U1 U2) as [S1 S2]. split; [exact S1|]. split; [exact S2|].
  split; [|intros k]; unfold contra, vneg, vscale; cbn [covariant]; destruct (covariant v); unfold sum3; destruct i; cbn [v_at vx vy vz]; ring.
Qed.
Print Assumptions C37_add.
Example C37_case : let m := Coords (Sym 2 1 4 1 0 0) (Sym 1 2 (1/4) (-1) 0 0) (1/2) in
  good_coords m /\ cJ m * cJ m = determinant (s_at (glow m)) /\
  toCovariant m (Vec 1 2 3 false) = Vec (-1) 3 (3/4) true /\ dot m (Vec 1 2 3 false) (Vec (-1) 3 (3/4) true) = 29 / 4.
Proof.
  cbv zeta. split; [split; intros [] []; unfold sum3; cbn; lra|]. split; [unfold determinant; cbn; lra|].
  split; [unfold toCovariant, lower_with; cbn; f_equal; lra|unfold dot; cbn; lra].
Qed.

(** * C45: connection coefficients *)
(** All eighteen coefficients except G2_22 are the Christoffel symbols of the metric, ... *)
Theorem C45_christoffel_partial : forall g d i j k, ~ (i = Y /\ j = Y /\ k = Y) ->
  G_at (geometry g d) i j k = Gamma (s_at g) (d_at d) i j k.
Proof.
  intros g d i j k N. unfold Gamma, sum3. destruct i, j, k; try (exfalso; apply N; auto; fail); cbn [G_at geometry G1 G2 G3 s_at s11 s22 s33 s12 s13 s23 d_at]; field.
Qed.
Print Assumptions C45_christoffel_partial.
(** ... G2_22 is right exactly when g^23 d_y(g^23) = g^23 d_y(g_23) ... *)
Theorem C45_G2_22 : forall g d, G_at (geometry g d) Y Y Y = Gamma (s_at g) (d_at d) Y Y Y <-> s23 g * s23 (uY d) = s23 g * s23 (dY d).
Proof.
  intros g d. unfold Gamma, sum3. cbn [G_at geometry G1 G2 G3 s_at s11 s22 s33 s12 s13 s23 d_at]. split; intros H; lra.
Qed.
Print Assumptions C45_G2_22.
(** ... so the full claim is false: a metric and its inverse, with their y derivatives, on which G2_22 is wrong. *)
Theorem C45_christoffel_refuted :
  ~ forall g h d, inverse_of (s_at g) (s_at h) ->
      (* the derivative of the identity g^ik g_kj is zero *)
      (forall i j, sum3 (fun k => s_at (uY d) i k * s_at h k j + s_at g i k * s_at (dY d) k j) = 0) ->
      forall i j k, G_at (geometry g d) i j k = Gamma (s_at g) (d_at d) i j k.
Proof.
  intros H. set (zero := Sym 0 0 0 0 0 0).
  (* g^ij = [[1,0,0],[0,2,1],[0,1,1]], g_ij its inverse; d g_23 = t, others chosen so that d(g^-1) = - g^-1 dg g^-1 *)
  specialize (H (Sym 1 2 1 0 0 1) (Sym 1 1 2 0 0 (-1)) (DMetric zero (Sym 0 0 0 0 0 1) zero zero (Sym 0 (-4) (-2) 0 0 (-3)) zero)).
  assert (E := H ltac:(split; intros [] []; unfold sum3; cbn; lra) ltac:(intros [] []; unfold sum3; cbn; lra) Y Y Y).
  apply C45_G2_22 in E. cbn in E. lra.
Qed.
Print Assumptions C45_christoffel_refuted.
(** V_dot_Grad is the covariant derivative: v^j (d_j a_k - G^l_jk a_l) or v^j (d_j a^k + G^k_jl a^l), with the coefficients given. *)
Theorem C45_V_dot_Grad : forall m G v a aX aY aZ k,
  let da j i := t_at (match j with X => aX | Y => aY | Z => aZ end) i in
  v_at (V_dot_Grad m G v a aX aY aZ) k =
    (if covariant a then sum3 (fun j => contra m v j * (da j k - sum3 (fun l => G_at G l j k * v_at a l)))
     else sum3 (fun j => contra m v j * (da j k + sum3 (fun l => G_at G k j l * v_at a l)))) /\
  covariant (V_dot_Grad m G v a aX aY aZ) = covariant a.
Proof.
  intros m G v a aX aY aZ k da. unfold V_dot_Grad.
  assert (C : forall j, contra m v j = v_at (toContravariant m v) j).
  { intros j. unfold contra, toContravariant. destruct (covariant v); [|reflexivity]. destruct j; unfold sum3; cbn [v_at lower_with vx vy vz s_at]; ring. }
  unfold sum3. rewrite !C. generalize (toContravariant m v). intros w. unfold da.
  destruct (covariant a); split; try reflexivity; destruct k; cbn [v_at vx vy vz t_at G_at s_at]; ring.
Qed.
Print Assumptions C45_V_dot_Grad.
Example C45_case : let zero := Sym 0 0 0 0 0 0 in
  (* polar coordinates at r = 2: g_yy = r^2, so G^x_yy = -r and G^y_xy = 1/r *)
  let G := geometry (Sym 1 (1/4) 1 0 0 0) (DMetric (Sym 0 4 0 0 0 0) zero zero (Sym 0 (-1/4) 0 0 0 0) zero zero) in
  G_at G X Y Y = -2 /\ G_at G Y X Y = 1/2 /\ G_at G Y Y Y = 0.
Proof. cbn. lra. Qed.

(** * C46: vector calculus identities *)
(** With linear, mutually commuting difference operators Curl Grad = 0 and Div Curl = 0 hold exactly on the grid (no torsion). *)
Theorem C46_curl_grad_div_curl : forall Dx Dy Dz J, linear_op Dx -> linear_op Dy -> linear_op Dz ->
  commute Dx Dy -> commute Dy Dz -> commute Dx Dz -> (forall i, J i <> 0) ->
  (forall f i, let c := Curl Dx Dy Dz J (fun _ => 0) (Grad Dx Dy Dz f) in fx c i = 0 /\ fy c i = 0 /\ fz c i = 0) /\
  (forall v i, Div Dx Dy Dz J (Curl Dx Dy Dz J (fun _ => 0) v) i = 0).
Proof.
  intros Dx Dy Dz J Lx Ly Lz Cxy Cyz Cxz NJ. split.
  - intros f i. unfold Curl, Grad; cbn [fx fy fz]. rewrite (Cyz f i), (Cxz f i), (Cxy f i). repeat split; field; apply NJ.
  - intros v i. unfold Div, Curl; cbn [fx fy fz].
    assert (S : forall D f g, linear_op D -> forall k, D (fun k => f k - g k) k = D f k - D g k).
    { intros D f g (A & B & E) k. rewrite (E _ (fun k => f k + (-1) * g k)) by (intros; ring). rewrite A, B. ring. }
    assert (X1 : forall D h f g, linear_op D -> (forall k, h k = f k - g k) -> forall k, D h k = D f k - D g k).
    { intros D h f g L H k. rewrite <- (S D f g L k). apply L. exact H. }
    rewrite (X1 Dy _ (Dz (fx v)) (Dx (fz v)) Ly) by (intros; field; apply NJ).
    rewrite (X1 Dx _ (Dy (fz v)) (Dz (fy v)) Lx) by (intros; field; apply NJ).
    rewrite (X1 Dz _ (Dx (fy v)) (Dy (fx v)) Lz) by (intros; field; apply NJ).
    rewrite (Cxy (fz v) i), (Cxz (fy v) i), (Cyz (fx v) i). field. apply NJ.
Qed.
Print Assumptions C46_curl_grad_div_curl.
(** The hypotheses hold for second-order central differences on a grid whose spacings depend on their own coordinate only. *)
Theorem C46_central_differences : forall dx dy dz,
  (forall k, dx k <> 0) -> (forall k, dy k <> 0) -> (forall k, dz k <> 0) ->
  linear_op (Cx dx) /\ linear_op (Cy dy) /\ linear_op (Cz dz) /\ commute (Cx dx) (Cy dy) /\ commute (Cy dy) (Cz dz) /\ commute (Cx dx) (Cz dz).
Proof.
  intros dx dy dz HX HY HZ. repeat split; try (intros f g [[x y] z]; unfold Cx, Cy, Cz; unfold Rdiv; ring);
    try (intros a f [[x y] z]; unfold Cx, Cy, Cz; unfold Rdiv; ring);
    try (intros f g H [[x y] z]; unfold Cx, Cy, Cz; rewrite !H; reflexivity);
    intros f [[x y] z]; unfold Cx, Cy, Cz; field; auto.
Qed.
Print Assumptions C46_central_differences.
(** When the spacing in x varies along y the operators do not commute and curl grad is not zero. *)
Theorem C46_needs_separable_spacing :
  ~ (forall (dx dy : cell -> R), (forall i, dx i <> 0) -> (forall i, dy i <> 0) ->
       commute (fun f '(x, y, z) => (f (x + 1, y, z)%Z - f (x - 1, y, z)%Z) / (2 * dx (x, y, z)))
               (fun f '(x, y, z) => (f (x, y + 1, z)%Z - f (x, y - 1, z)%Z) / (2 * dy (x, y, z)))).
Proof.
  intros H. specialize (H (fun '(x, y, z) => if Z.eqb y 0 then 1 else 2) (fun _ => 1)
    ltac:(intros [[x y] z]; destruct (Z.eqb y 0); lra) ltac:(intros; lra) (fun '(x, y, z) => IZR (x * y)) (0, 0, 0)%Z). cbn in H. lra.
Qed.
Print Assumptions C46_needs_separable_spacing.
(** The Laplacian's coefficients are those of Div Grad: if along each axis i the fluxes J g^ij d_j f are differentiable, with the
    derivatives of J g^ij that enter G1..G3 and of d_j f that enter the second derivatives, then (1/J) sum_i d_i (J g^ij d_j f) is what
    Laplace() returns. [Jg i t] is J g^i. and [df i j t] is d_j f at distance t along axis i. *)
Theorem C46_laplace : forall (g : sym) (J : R) (Jg : ax -> R -> sym) (df : ax -> ax -> R -> R) (jd : ax -> sym) (f1 : tri) (f2 : sym) (fluxd : ax -> R),
  J <> 0 ->
  (forall i a b, s_at (Jg i 0) a b = J * s_at g a b) -> (forall i j, df i j 0 = t_at f1 j) ->
  (forall i j, derivable_pt_lim (fun t => s_at (Jg i t) i j) 0 (s_at (jd i) i j)) ->
  (forall i j, derivable_pt_lim (df i j) 0 (s_at f2 i j)) ->
  (forall i, derivable_pt_lim (fun t => s_at (Jg i t) i X * df i X t + s_at (Jg i t) i Y * df i Y t + s_at (Jg i t) i Z * df i Z t) 0 (fluxd i)) ->
  Laplace g (Gs J (jd X) (jd Y) (jd Z)) (t1 f1) (t2 f1) (t3 f1) f2 = sum3 fluxd / J.
Proof.
  intros g J Jg df jd f1 f2 fluxd NJ H0 H1 HJ Hf HF.
  assert (E : forall i, fluxd i = sum3 (fun j => s_at (jd i) i j * t_at f1 j + J * s_at g i j * s_at f2 i j)).
  { intros i. apply (uniqueness_limite _ 0 _ _ (HF i)). unfold sum3.
    assert (M : forall j, derivable_pt_lim (fun t => s_at (Jg i t) i j * df i j t) 0 (s_at (jd i) i j * t_at f1 j + J * s_at g i j * s_at f2 i j)).
    { intros j. rewrite <- (H1 i j), <- (H0 i i j). exact (derivable_pt_lim_mult (fun t => s_at (Jg i t) i j) (df i j) 0 _ _ (HJ i j) (Hf i j)). }
    exact (derivable_pt_lim_plus (fun t => s_at (Jg i t) i X * df i X t + s_at (Jg i t) i Y * df i Y t) (fun t => s_at (Jg i t) i Z * df i Z t) 0 _ _
      (derivable_pt_lim_plus (fun t => s_at (Jg i t) i X * df i X t) (fun t => s_at (Jg i t) i Y * df i Y t) 0 _ _ (M X) (M Y)) (M Z)). }
  unfold sum3. rewrite !E. unfold sum3, Laplace, Gs. destruct f1 as [p q r]. cbn [t_at t1 t2 t3 s_at]. field. exact NJ.
Qed.
Print Assumptions C46_laplace.
(** A case in which the flux along x is (2 + 3t)(4 + 5t) and the others are constant. *)
Example C46_case :
  Laplace (Sym 1 1 1 0 0 0) (Gs 2 (Sym 3 0 0 0 0 0) (Sym 0 0 0 0 0 0) (Sym 0 0 0 0 0 0)) 4 0 0 (Sym 5 0 0 0 0 0) = (3 * 4 + 2 * 5) / 2.
Proof.
  assert (K : forall c x, derivable_pt_lim (fun _ => c) x 0) by (intros; apply derivable_pt_lim_const).
  assert (L : forall a b, derivable_pt_lim (fun t => a + b * t) 0 b).
  { intros a b. pose proof (derivable_pt_lim_plus (fun _ => a) (fun t => b * t) 0 0 (b * 1) (K a 0) (derivable_pt_lim_scal id b 0 1 (derivable_pt_lim_id 0))) as H.
    replace (0 + b * 1) with b in H by ring. exact H. }
  pose proof (C46_laplace (Sym 1 1 1 0 0 0) 2
    (fun i t => match i with X => Sym (2 + 3 * t) 2 2 0 0 0 | _ => Sym 2 2 2 0 0 0 end)
    (fun i j t => match i, j with X, X => 4 + 5 * t | _, X => 4 | _, _ => 0 end)
    (fun i => match i with X => Sym 3 0 0 0 0 0 | _ => Sym 0 0 0 0 0 0 end) (Tri 4 0 0) (Sym 5 0 0 0 0 0)
    (fun i => match i with X => 3 * 4 + 2 * 5 | _ => 0 end)) as H.
  cbn [t1 t2 t3] in H. replace ((3 * 4 + 2 * 5) / 2) with (sum3 (fun i => match i with X => 3 * 4 + 2 * 5 | _ => 0 end) / 2) by (unfold sum3; lra).
  apply H; clear H; [lra| | | | |].
  - intros [] [] []; cbn [s_at s11 s22 s33 s12 s13 s23]; lra.
  - intros [] []; cbn [t_at t1 t2 t3]; lra.
  - intros [] []; cbn [s_at s11 s22 s33 s12 s13 s23]; first [apply K|apply L].
  - intros [] []; cbn [s_at s11 s22 s33 s12 s13 s23]; first [apply K|apply L].
  - intros []; cbn [s_at s11 s22 s33 s12 s13 s23].
    + replace (3 * 4 + 2 * 5) with (3 * (4 + 5 * 0) + (2 + 3 * 0) * 5 + 0 + 0) by ring.
      exact (derivable_pt_lim_plus (fun t => (2 + 3 * t) * (4 + 5 * t) + 0 * 0) (fun _ => 0 * 0) 0 _ _
        (derivable_pt_lim_plus (fun t => (2 + 3 * t) * (4 + 5 * t)) (fun _ => 0 * 0) 0 _ _
          (derivable_pt_lim_mult (fun t => 2 + 3 * t) (fun t => 4 + 5 * t) 0 3 5 (L 2 3) (L 4 5)) (K _ 0)) (K _ 0)).
    + apply K.
    + apply K.
Qed.
