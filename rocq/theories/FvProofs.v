From Coq Require Import Reals ZArith List Bool Lia Lra Psatz.
From Verif Require Import DerivModel DerivSpec DerivProofs DerivProofs2 FvModel FvSpec.
Local Open Scope R_scope.

Definition inr (a b x : Z) : bool := Z.leb a x && Z.leb x b.
Lemma inr_spec a b x : inr a b x = true <-> (a <= x <= b)%Z.
Proof. unfold inr. rewrite andb_true_iff, !Z.leb_le. tauto. Qed.
Definition when (b : bool) (r : R) : R := if b then r else 0.
Lemma add_at res j d x : add res j d x = res x + when (Z.eqb x j) d.
Proof. unfold add, when. destruct (Z.eqb x j); ring. Qed.

Section Loop.
Variables (A B D : Z -> R) (body : Z -> (Z -> R) -> (Z -> R)).
Hypothesis HB : forall j res x, body j res x = res x + when (Z.eqb x j) (A j) + when (Z.eqb x (j + 1)) (B j) + when (Z.eqb x (j - 1)) (D j).
Lemma loop_n_at : forall n a res x, loop_n n a body res x =
  res x + when (inr a (a + Z.of_nat n - 1) x) (A x) + when (inr a (a + Z.of_nat n - 1) (x - 1)) (B (x - 1)%Z) + when (inr a (a + Z.of_nat n - 1) (x + 1)) (D (x + 1)%Z).
Proof.
  induction n as [|n IH]; intros a res x; cbn [loop_n].
  - assert (E : forall z, inr a (a + Z.of_nat 0 - 1) z = false).
    { intros z. destruct (inr a (a + Z.of_nat 0 - 1) z) eqn:E; [|reflexivity]. apply inr_spec in E. lia. }
    rewrite !E. unfold when. ring.
  - rewrite IH, HB.
    assert (E : forall z (r : R), when (inr a (a + Z.of_nat (S n) - 1) z) r = when (Z.eqb z a) r + when (inr (a + 1) (a + 1 + Z.of_nat n - 1) z) r).
    { intros z r. unfold when. destruct (Z.eqb_spec z a) as [->|N].
      - replace (inr a (a + Z.of_nat (S n) - 1) a) with true by (symmetry; apply inr_spec; lia).
        destruct (inr (a + 1) (a + 1 + Z.of_nat n - 1) a) eqn:X; [apply inr_spec in X; lia|ring].
      - destruct (inr a (a + Z.of_nat (S n) - 1) z) eqn:X, (inr (a + 1) (a + 1 + Z.of_nat n - 1) z) eqn:Y; try ring; exfalso.
        + apply inr_spec in X. assert (inr (a + 1) (a + 1 + Z.of_nat n - 1) z = true) by (apply inr_spec; lia). congruence.
        + apply inr_spec in Y. assert (inr a (a + Z.of_nat (S n) - 1) z = true) by (apply inr_spec; lia). congruence. }
    rewrite !E.
    replace (Z.eqb (x - 1) a) with (Z.eqb x (a + 1)) by (destruct (Z.eqb_spec x (a + 1)), (Z.eqb_spec (x - 1) a); lia || reflexivity).
    replace (Z.eqb (x + 1) a) with (Z.eqb x (a - 1)) by (destruct (Z.eqb_spec x (a - 1)), (Z.eqb_spec (x + 1) a); lia || reflexivity).
    assert (W : forall b (r r' : R), (b = true -> r = r') -> when b r = when b r') by (intros [|] r r' H; [now apply H|reflexivity]).
    rewrite (W (Z.eqb x a) (A x) (A a)) by (intros X; apply Z.eqb_eq in X; now subst).
    rewrite (W (Z.eqb x (a + 1)) (B (x - 1)%Z) (B a)) by (intros X; apply Z.eqb_eq in X; f_equal; lia).
    rewrite (W (Z.eqb x (a - 1)) (D (x + 1)%Z) (D a)) by (intros X; apply Z.eqb_eq in X; f_equal; lia).
    ring.
Qed.
Lemma loop_at a b res x : loop a b body res x =
  res x + when (inr a b x) (A x) + when (inr a b (x - 1)) (B (x - 1)%Z) + when (inr a b (x + 1)) (D (x + 1)%Z).
Proof.
  unfold loop. rewrite loop_n_at. destruct (Z_le_gt_dec a (b + 1)) as [L|G].
  - replace (a + Z.of_nat (Z.to_nat (b + 1 - a)) - 1)%Z with b by lia. reflexivity.
  - replace (Z.of_nat (Z.to_nat (b + 1 - a))) with 0%Z by lia.
    assert (E1 : forall z, inr a (a + 0 - 1) z = false) by (intros z; destruct (inr a (a + 0 - 1) z) eqn:E; [apply inr_spec in E; lia|reflexivity]).
    assert (E2 : forall z, inr a b z = false) by (intros z; destruct (inr a b z) eqn:E; [apply inr_spec in E; lia|reflexivity]).
    now rewrite !E1, !E2.
Qed.
End Loop.

Lemma total_flux_form g a b F res : (a <= b + 1)%Z -> flux_form g a b F res -> total g a b res = F (b + 1)%Z - F a.
Proof.
  intros L H. unfold total. replace (b + 1)%Z with (a + Z.of_nat (Z.to_nat (b + 1 - a)))%Z at 2 by lia. rewrite <- (sum_telescope F).
  assert (G : forall n a', (a <= a')%Z -> (a' + Z.of_nat n <= b + 1)%Z -> sum_line (fun j => res j * volume g j) a' n = sum_line (fun i => F (i + 1)%Z - F i) a' n).
  { induction n as [|n IH]; intros a' L1 L2; cbn [sum_line]; [reflexivity|]. rewrite IH by lia. rewrite H by lia. reflexivity. }
  apply G; lia.
Qed.

(** * Div_par *)
Section DivPar.
Variables (y : yline) (g : metric) (lim : stencil -> edges) (f v w : Z -> R) (fixflux : bool).
Hypothesis G : good_metric g.
Hypothesis W : forall j, 0 <= w j.

Lemma max2 a b : BOUTMAX2 a b = Rmax a b.
Proof. unfold BOUTMAX2, Rmax. destruct (Rgt_dec b a), (Rle_dec a b); lra. Qed.
Lemma common_r j : common g j (j + 1) = face_factor g (j + 1).
Proof. unfold common, face_factor. now replace (j + 1 - 1)%Z with j by lia. Qed.
Lemma common_l j : common g j (j - 1) = face_factor g j.
Proof. unfold common, face_factor. f_equal; [ring|]. now rewrite Rplus_comm. Qed.

Lemma left_bdry j : firstY y = true -> periodicY y = false -> j = ystart y -> div_par_left y lim f v w fixflux j = lower_boundary_flux lim f v w fixflux j.
Proof.
  intros E1 E2 ->. unfold div_par_left, lower_boundary_flux, cell_edges. rewrite E1, E2, Z.eqb_refl. cbn [negb andb]. destruct fixflux; field.
Qed.
Lemma right_bdry j : lastY y = true -> periodicY y = false -> j = yend y -> div_par_right y lim f v w fixflux j = upper_boundary_flux lim f v w fixflux (j + 1).
Proof.
  intros E1 E2 ->. unfold div_par_right, upper_boundary_flux, cell_edges. rewrite E1, E2, Z.eqb_refl.
  replace (yend y + 1 - 1)%Z with (yend y) by lia. cbn [negb andb]. destruct fixflux; field.
Qed.
(** The two halves of an interior face. *)
Lemma halves j : ~ (lastY y = true /\ periodicY y = false /\ j = yend y) -> ~ (firstY y = true /\ periodicY y = false /\ (j + 1)%Z = ystart y) ->
  div_par_right y lim f v w fixflux j + div_par_left y lim f v w fixflux (j + 1) = upwind_face_flux lim f v w (j + 1).
Proof.
  intros N1 N2. unfold div_par_right, div_par_left, upwind_face_flux, cell_edges.
  replace (j + 1 - 1)%Z with j by lia.
  destruct (lastY y && Z.eqb j (yend y) && negb (periodicY y)) eqn:E1.
  { exfalso. apply N1. rewrite !andb_true_iff, negb_true_iff, Z.eqb_eq in E1. tauto. }
  destruct (firstY y && Z.eqb (j + 1) (ystart y) && negb (periodicY y)) eqn:E2.
  { exfalso. apply N2. rewrite !andb_true_iff, negb_true_iff, Z.eqb_eq in E2. tauto. }
  rewrite !max2, (Rmax_comm (w (j + 1)%Z) (w j)).
  assert (P : 0 <= Rmax (w j) (w (j + 1)%Z)) by (eapply Rle_trans; [apply (W j)|apply Rmax_l]).
  revert P. generalize (Rmax (w j) (w (j + 1)%Z)). intros am P.
  replace (1 / 2 * (v j + v (j + 1)%Z)) with ((v j + v (j + 1)%Z) / 2) by field.
  replace (1 / 2 * (v (j + 1)%Z + v j)) with ((v j + v (j + 1)%Z) / 2) by field.
  generalize ((v j + v (j + 1)%Z) / 2). intros vf.
  destruct (Rgt_dec vf am), (Rlt_dec vf (- am)), (Rlt_dec am vf); try (exfalso; lra); field.
Qed.

Lemma dp_flux_form : (ystart y <= yend y)%Z -> flux_form g (ystart y) (yend y) (dp_face y g lim f v w fixflux) (Div_par y g lim f v w fixflux).
Proof.
  intros LE j Hj. unfold Div_par.
  set (ys := if negb (firstY y) || periodicY y then (ystart y - 1)%Z else ystart y).
  set (ye := if negb (lastY y) || periodicY y then (yend y + 1)%Z else yend y).
  set (Rf := div_par_right y lim f v w fixflux). set (Lf := div_par_left y lim f v w fixflux).
  rewrite (loop_at
    (fun j => Rf j * (common g j (j + 1) / (mdy g j * mJ g j)) - Lf j * (common g j (j - 1) / (mdy g j * mJ g j)))
    (fun j => - (Rf j * (common g j (j + 1) / (mdy g (j + 1)%Z * mJ g (j + 1)%Z))))
    (fun j => Lf j * (common g j (j - 1) / (mdy g (j - 1)%Z * mJ g (j - 1)%Z)))).
  2:{ intros i res x. rewrite !add_at. unfold when. destruct (Z.eqb x i), (Z.eqb x (i + 1)), (Z.eqb x (i - 1)); ring. }
  replace (inr ys ye j) with true.
  2:{ symmetry. apply inr_spec. unfold ys, ye. destruct (negb (firstY y) || periodicY y), (negb (lastY y) || periodicY y); lia. }
  cbn [when]. rewrite !common_r, !common_l.
  replace (j - 1 + 1)%Z with j by lia. replace (j + 1 - 1)%Z with j by lia.
  destruct (G j) as (GJ & Gdy & _). unfold zero, volume.
  (* lower face *)
  assert (LO : face_factor g j * Lf j + when (inr ys ye (j - 1)) (face_factor g j * Rf (j - 1)%Z) = (dp_face y g lim f v w fixflux) j).
  { unfold dp_face. destruct (inr ys ye (j - 1)) eqn:E; cbn [when].
    - apply inr_spec in E. destruct (firstY y && negb (periodicY y) && Z.eqb j (ystart y)) eqn:E1.
      + exfalso. rewrite !andb_true_iff, negb_true_iff, Z.eqb_eq in E1. destruct E1 as ((E1 & E2) & E3). unfold ys in E. rewrite E1, E2 in E. cbn in E. lia.
      + destruct (lastY y && negb (periodicY y) && Z.eqb j (yend y + 1)) eqn:E2.
        { exfalso. rewrite !andb_true_iff, Z.eqb_eq in E2. lia. }
        assert (HH : Rf (j - 1)%Z + Lf j = upwind_face_flux lim f v w j).
        { unfold Rf, Lf. replace j with (j - 1 + 1)%Z at 2 3 by lia. apply halves.
          - intros (X1 & X2 & X3). lia.
          - replace (j - 1 + 1)%Z with j by lia. intros (X1 & X2 & X3). rewrite X1, X2, X3, Z.eqb_refl in E1. discriminate. }
        rewrite <- HH. ring.
    - assert (C : firstY y = true /\ periodicY y = false /\ j = ystart y).
      { destruct (Z.eq_dec j (ystart y)) as [EJ|NJ].
        - destruct (firstY y) eqn:X1, (periodicY y) eqn:X2; auto; exfalso; assert (inr ys ye (j - 1) = true); try congruence;
            apply inr_spec; unfold ys, ye; rewrite ?orb_true_r; cbn [negb orb]; destruct (negb (lastY y)); cbn [orb]; lia.
        - exfalso. assert (inr ys ye (j - 1) = true); [|congruence]. apply inr_spec. unfold ys, ye.
          destruct (negb (firstY y) || periodicY y), (negb (lastY y) || periodicY y); lia. }
      destruct C as (C1 & C2 & C3). rewrite C1, C2. cbn [negb andb]. replace (Z.eqb j (ystart y)) with true by (symmetry; now apply Z.eqb_eq).
      unfold Lf. rewrite left_bdry by auto. ring. }
  assert (UP : face_factor g (j + 1) * Rf j + when (inr ys ye (j + 1)) (face_factor g (j + 1) * Lf (j + 1)%Z) = (dp_face y g lim f v w fixflux) (j + 1)).
  { unfold dp_face. replace (j + 1 - 1)%Z with j by lia. destruct (firstY y && negb (periodicY y) && Z.eqb (j + 1) (ystart y)) eqn:E0.
    { exfalso. rewrite !andb_true_iff, Z.eqb_eq in E0. lia. }
    destruct (inr ys ye (j + 1)) eqn:E; cbn [when].
    - apply inr_spec in E. destruct (lastY y && negb (periodicY y) && Z.eqb (j + 1) (yend y + 1)) eqn:E1.
      + exfalso. rewrite !andb_true_iff, negb_true_iff, Z.eqb_eq in E1. destruct E1 as ((E1 & E2) & E3). unfold ye in E. rewrite E1, E2 in E. cbn in E. lia.
      + rewrite <- halves; [unfold Rf, Lf; ring| |].
        * intros (X1 & X2 & X3). rewrite X1, X2, X3, Z.eqb_refl in E1. discriminate.
        * intros (X1 & X2 & X3). lia.
    - assert (C : lastY y = true /\ periodicY y = false /\ j = yend y).
      { destruct (Z.eq_dec j (yend y)) as [EJ|NJ].
        - destruct (lastY y) eqn:X1, (periodicY y) eqn:X2; auto; exfalso; assert (inr ys ye (j + 1) = true); try congruence;
            apply inr_spec; unfold ys, ye; rewrite ?orb_true_r; cbn [negb orb]; destruct (negb (firstY y)); cbn [orb]; lia.
        - exfalso. assert (inr ys ye (j + 1) = true); [|congruence]. apply inr_spec. unfold ys, ye.
          destruct (negb (firstY y) || periodicY y), (negb (lastY y) || periodicY y); lia. }
      destruct C as (C1 & C2 & C3). rewrite C1, C2. cbn [negb andb]. replace (Z.eqb (j + 1) (yend y + 1)) with true by (symmetry; apply Z.eqb_eq; lia).
      unfold Rf. rewrite right_bdry by auto. ring. }
  rewrite <- LO, <- UP.
  unfold when. destruct (inr ys ye (j - 1)), (inr ys ye (j + 1)); field; lra.
Qed.
End DivPar.

(** * Div_par_K_Grad_par *)
Lemma kg_flux_form y g K f bf : good_metric g -> (ystart y <= yend y)%Z ->
  flux_form g (ystart y) (yend y) (kg_face y g K f bf) (K_Grad_par y g K f bf).
Proof.
  intros G LE j Hj. unfold K_Grad_par, volume.
  destruct (G j) as (G1 & G2 & G3), (G (j + 1)%Z) as (P1 & P2 & P3), (G (j - 1)%Z) as (M1 & M2 & M3).
  assert (UP : (if bf || periodicY y || negb (lastY y) || negb (Z.eqb j (yend y))
     then 1 / 2 * (K j + K (j + 1)%Z) * (1 / 2 * (mJ g j + mJ g (j + 1)%Z)) * (2 * (f (j + 1)%Z - f j) / (mdy g j + mdy g (j + 1)%Z)) / (1 / 2 * (mg22 g j + mg22 g (j + 1)%Z)) / (mdy g j * mJ g j)
     else 0) * (mdy g j * mJ g j) = kg_face y g K f bf (j + 1)).
  { unfold kg_face. replace (j + 1 - 1)%Z with j by lia.
    replace (Z.eqb (j + 1) (ystart y)) with false by (symmetry; apply Z.eqb_neq; lia).
    replace (Z.eqb (j + 1) (yend y + 1)) with (Z.eqb j (yend y)) by (destruct (Z.eqb_spec j (yend y)), (Z.eqb_spec (j + 1) (yend y + 1)); lia || reflexivity).
    destruct bf, (periodicY y), (firstY y), (lastY y), (Z.eqb j (yend y)); cbn [orb andb negb]; try ring; field; lra. }
  assert (DN : (if bf || periodicY y || negb (firstY y) || negb (Z.eqb j (ystart y))
     then 1 / 2 * (K j + K (j - 1)%Z) * (1 / 2 * (mJ g j + mJ g (j - 1)%Z)) * (2 * (f j - f (j - 1)%Z) / (mdy g j + mdy g (j - 1)%Z)) / (1 / 2 * (mg22 g j + mg22 g (j - 1)%Z)) / (mdy g j * mJ g j)
     else 0) * (mdy g j * mJ g j) = kg_face y g K f bf j).
  { unfold kg_face. replace (Z.eqb j (yend y + 1)) with false by (symmetry; apply Z.eqb_neq; lia).
    destruct bf, (periodicY y), (firstY y), (lastY y), (Z.eqb j (ystart y)); cbn [orb andb negb]; try ring; field; lra. }
  rewrite <- UP, <- DN. ring.
Qed.
(** Summation by parts. *)
Lemma sum_by_parts (F u : Z -> R) : forall n a,
  sum_line (fun j => u j * (F (j + 1)%Z - F j)) a n = u (a + Z.of_nat n)%Z * F (a + Z.of_nat n)%Z - u a * F a - sum_line (fun j => F (j + 1)%Z * (u (j + 1)%Z - u j)) a n.
Proof.
  induction n as [|n IH]; intros a; cbn [sum_line].
  - replace (a + Z.of_nat 0)%Z with a by lia. ring.
  - rewrite IH. replace (a + 1 + Z.of_nat n)%Z with (a + Z.of_nat (S n))%Z by lia. ring.
Qed.
Lemma sum_nonneg g : forall n a, (forall j, (a <= j < a + Z.of_nat n)%Z -> 0 <= g j) -> 0 <= sum_line g a n.
Proof.
  induction n as [|n IH]; intros a H; cbn [sum_line]; [lra|]. assert (0 <= g a) by (apply H; lia).
  assert (0 <= sum_line g (a + 1)%Z n) by (apply IH; intros; apply H; lia). lra.
Qed.
Lemma kg_dissipates y g K f : good_metric g -> (forall j, 0 <= K j) -> (ystart y <= yend y)%Z ->
  firstY y = true -> lastY y = true -> periodicY y = false ->
  sum_line (fun j => f j * (K_Grad_par y g K f false j * volume g j)) (ystart y) (Z.to_nat (yend y + 1 - ystart y)) <= 0.
Proof.
  intros G HK LE E1 E2 E3. set (a := ystart y). set (n := Z.to_nat (yend y + 1 - a)). set (F := kg_face y g K f false).
  assert (X : forall n' a', (a <= a')%Z -> (a' + Z.of_nat n' <= yend y + 1)%Z -> sum_line (fun j => f j * (K_Grad_par y g K f false j * volume g j)) a' n' = sum_line (fun j => f j * (F (j + 1)%Z - F j)) a' n').
  { induction n' as [|n' IH]; intros a' L1 L2; cbn [sum_line]; [reflexivity|]. rewrite IH by lia. f_equal. f_equal.
    apply (kg_flux_form y g K f false G LE). unfold a in L1. lia. }
  rewrite X by (unfold a, n; lia). rewrite sum_by_parts.
  replace (a + Z.of_nat n)%Z with (yend y + 1)%Z by (unfold a, n; lia).
  assert (F0 : F a = 0) by (unfold F, kg_face, a; rewrite E1, E3, Z.eqb_refl; reflexivity).
  assert (F1 : F (yend y + 1)%Z = 0) by (unfold F, kg_face; rewrite E1, E2, E3, Z.eqb_refl, orb_true_r; reflexivity).
  rewrite F0, F1.
  assert (0 <= sum_line (fun j => F (j + 1)%Z * (f (j + 1)%Z - f j)) a n); [|lra].
  apply sum_nonneg. intros j _. unfold F, kg_face. replace (j + 1 - 1)%Z with j by lia. destruct (_ && _); [lra|].
  destruct (G j) as (G1 & G2 & G3), (G (j + 1)%Z) as (P1 & P2 & P3).
  set (C := (K j + K (j + 1)%Z) * (mJ g j + mJ g (j + 1)%Z) / (mg22 g j + mg22 g (j + 1)%Z)).
  assert (0 <= C).
  { unfold C. apply Rle_mult_inv_pos; [|lra]. apply Rmult_le_pos; [|lra]. pose proof (HK j). pose proof (HK (j + 1)%Z). lra. }
  replace (C * (f (j + 1)%Z - f j) / (mdy g j + mdy g (j + 1)%Z) * (f (j + 1)%Z - f j)) with (C * ((f (j + 1)%Z - f j) * (f (j + 1)%Z - f j)) / (mdy g j + mdy g (j + 1)%Z)) by (field; lra).
  apply Rle_mult_inv_pos; [|lra]. apply Rmult_le_pos; [assumption|exact (Rle_0_sqr _)].
Qed.

(** * D4DY4 *)
Lemma d4_flux_form y g d f : good_metric g -> (ystart y <= yend y)%Z ->
  flux_form g (ystart y) (yend y) (d4_face y g d f) (D4DY4 y g d f).
Proof.
  intros G LE j Hj. unfold D4DY4.
  set (a := if negb (periodicY y) && firstY y then ystart y else (ystart y - 1)%Z).
  set (b := if negb (periodicY y) && lastY y then (yend y - 1)%Z else yend y).
  set (Fx := fun j => 1 / 2 * (d j + d (j + 1)%Z) * (mJ g j + mJ g (j + 1)%Z) * ((f (j + 2)%Z - 3 * f (j + 1)%Z + 3 * f j - f (j - 1)%Z) / (SQ (mdy g j) * mdy g j))).
  rewrite (loop_at (fun j => Fx j / (mJ g j * mdy g j)) (fun j => - (Fx j / (mJ g (j + 1)%Z * mdy g (j + 1)%Z))) (fun _ => 0)).
  2:{ intros i res x. rewrite !add_at. unfold when, Fx. destruct (Z.eqb x i), (Z.eqb x (i + 1)), (Z.eqb x (i - 1)); ring. }
  replace (j - 1 + 1)%Z with j by lia. destruct (G j) as (GJ & Gdy & _). unfold zero, volume.
  assert (LO : when (inr a b (j - 1)) (Fx (j - 1)%Z) = d4_face y g d f j).
  { unfold d4_face. destruct (inr a b (j - 1)) eqn:E; cbn [when].
    - apply inr_spec in E. destruct (negb (periodicY y) && (firstY y && Z.eqb j (ystart y) || lastY y && Z.eqb j (yend y + 1))) eqn:E1.
      + exfalso. apply andb_true_iff in E1; destruct E1 as [E1 E4]; apply negb_true_iff in E1; apply orb_true_iff in E4; rewrite !andb_true_iff, !Z.eqb_eq in E4. destruct E4 as [[E2 E3]|[E2 E3]]; [|lia].
        unfold a in E. rewrite E1, E2 in E. cbn in E. lia.
      + unfold Fx. replace (j - 1 + 1)%Z with j by lia. replace (j - 1 + 2)%Z with (j + 1)%Z by lia. replace (j - 1 - 1)%Z with (j - 2)%Z by lia.
        unfold SQ. replace (mdy g (j - 1)%Z ^ 3) with (mdy g (j - 1)%Z * mdy g (j - 1)%Z * mdy g (j - 1)%Z) by ring. reflexivity.
    - destruct (negb (periodicY y) && (firstY y && Z.eqb j (ystart y) || lastY y && Z.eqb j (yend y + 1))) eqn:E1; [reflexivity|].
      exfalso. assert (inr a b (j - 1) = true); [|congruence]. apply inr_spec. unfold a, b.
      destruct (periodicY y), (firstY y), (lastY y); cbn [negb andb orb] in *; try lia;
      rewrite ?orb_false_iff, ?Z.eqb_neq in E1; lia. }
  assert (UP : when (inr a b j) (Fx j) = d4_face y g d f (j + 1)).
  { unfold d4_face. destruct (inr a b j) eqn:E; cbn [when].
    - apply inr_spec in E. destruct (negb (periodicY y) && (firstY y && Z.eqb (j + 1) (ystart y) || lastY y && Z.eqb (j + 1) (yend y + 1))) eqn:E1.
      + exfalso. apply andb_true_iff in E1; destruct E1 as [E1 E4]; apply negb_true_iff in E1; apply orb_true_iff in E4; rewrite !andb_true_iff, !Z.eqb_eq in E4. destruct E4 as [[E2 E3]|[E2 E3]]; [lia|].
        unfold b in E. rewrite E1, E2 in E. cbn in E. lia.
      + unfold Fx. replace (j + 1 - 1)%Z with j by lia. replace (j + 1 + 1)%Z with (j + 2)%Z by lia. replace (j + 1 - 2)%Z with (j - 1)%Z by lia.
        unfold SQ. replace (mdy g j ^ 3) with (mdy g j * mdy g j * mdy g j) by ring. reflexivity.
    - destruct (negb (periodicY y) && (firstY y && Z.eqb (j + 1) (ystart y) || lastY y && Z.eqb (j + 1) (yend y + 1))) eqn:E1; [reflexivity|].
      exfalso. assert (inr a b j = true); [|congruence]. apply inr_spec. unfold a, b.
      destruct (periodicY y), (firstY y), (lastY y); cbn [negb andb orb] in *; try lia;
      rewrite ?orb_false_iff, ?Z.eqb_neq in E1; lia. }
  rewrite <- LO, <- UP. unfold when. destruct (inr a b j), (inr a b (j - 1)), (inr a b (j + 1)); field; lra.
Qed.

(** * Div_a_Grad_perp, X direction *)
Lemma dagp_flux_form xs xe J dx g11 a f : (forall i, 0 < J i /\ 0 < dx i) -> (xs <= xe)%Z ->
  forall i, (xs <= i <= xe)%Z -> Div_a_Grad_perp_X xs xe J dx g11 a f i * (dx i * J i) = dagp_face J dx g11 a f (i + 1) - dagp_face J dx g11 a f i.
Proof.
  intros P LE i Hi. unfold Div_a_Grad_perp_X.
  set (Fx := fun i => 1 / 2 * (a i + a (i + 1)%Z) * (J i * g11 i + J (i + 1)%Z * g11 (i + 1)%Z) * (f (i + 1)%Z - f i) / (dx i + dx (i + 1)%Z)).
  rewrite (loop_at (fun i => Fx i / (dx i * J i)) (fun i => - (Fx i / (dx (i + 1)%Z * J (i + 1)%Z))) (fun _ => 0)).
  2:{ intros k res x. rewrite !add_at. unfold when, Fx. destruct (Z.eqb x k), (Z.eqb x (k + 1)), (Z.eqb x (k - 1)); ring. }
  replace (i - 1 + 1)%Z with i by lia. unfold zero, dagp_face. replace (i + 1 - 1)%Z with i by lia.
  replace (inr (xs - 1) xe i) with true by (symmetry; apply inr_spec; lia).
  replace (inr (xs - 1) xe (i - 1)) with true by (symmetry; apply inr_spec; lia).
  destruct (P i), (P (i + 1)%Z), (P (i - 1)%Z). unfold when, Fx. replace (i - 1 + 1)%Z with i by lia. destruct (inr (xs - 1) xe (i + 1)); field; lra.
Qed.
