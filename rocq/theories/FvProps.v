(** Properties C40-C44: finite-volume operators. *)
From Coq Require Import Reals ZArith List Bool Lia Lra Psatz.
From Verif Require Import DerivModel DerivSpec DerivProofs2 DerivProps FvModel FvSpec FvProofs.
Local Open Scope R_scope.

(** A line cut in two between cells k and k+1 (two processors). *)
Definition lower_part (y : yline) (k : Z) : yline := YLine (ystart y) k (firstY y) false (periodicY y).
Definition upper_part (y : yline) (k : Z) : yline := YLine (k + 1) (yend y) false (lastY y) (periodicY y).
Definition metric_periodic (n : Z) (g : metric) : Prop := periodic n (mJ g) /\ periodic n (mdy g) /\ periodic n (mg22 g).
Definition uniform (J0 h g0 : R) : metric := Metric (fun _ => J0) (fun _ => h) (fun _ => g0).

Lemma eqb_shift a b k : Z.eqb (a + k) (b + k) = Z.eqb a b.
Proof. destruct (Z.eqb_spec a b), (Z.eqb_spec (a + k) (b + k)); lia || reflexivity. Qed.
Lemma vol_pos g j : good_metric g -> volume g j <> 0.
Proof. intros G. destruct (G j) as (A & B & _). unfold volume. nra. Qed.
Lemma flux_eq g a b a' b' F F' r r' j : good_metric g -> flux_form g a b F r -> flux_form g a' b' F' r' ->
  (a <= j <= b)%Z -> (a' <= j <= b')%Z -> F (j + 1)%Z = F' (j + 1)%Z -> F j = F' j -> r j = r' j.
Proof.
  intros G H H' L L' E1 E2. pose proof (H j L) as A. pose proof (H' j L') as B. rewrite E1, E2, <- B in A.
  apply Rmult_eq_reg_r with (volume g j); [exact A|now apply vol_pos].
Qed.

(** * C40: Div_par *)
(** Each cell of the line receives exactly (flux through its upper face - flux through its lower face) / volume, with one flux per face,
    and so the total content changes only by the fluxes through the two end faces. *)
Theorem C40_Div_par_flux_form : forall y g lim f v w fixflux, good_metric g -> (forall j, 0 <= w j) -> (ystart y <= yend y)%Z ->
  flux_form g (ystart y) (yend y) (dp_face y g lim f v w fixflux) (Div_par y g lim f v w fixflux) /\
  total g (ystart y) (yend y) (Div_par y g lim f v w fixflux) =
    dp_face y g lim f v w fixflux (yend y + 1) - dp_face y g lim f v w fixflux (ystart y).
Proof.
  intros y g lim f v w ff G W L. pose proof (dp_flux_form y g lim f v w ff G W L) as H. split; [exact H|].
  apply total_flux_form; [lia|exact H].
Qed.
Print Assumptions C40_Div_par_flux_form.
(** On a closed (periodic) line the total content does not change at all. *)
Theorem C40_Div_par_periodic : forall y g lim f v w fixflux, good_metric g -> (forall j, 0 <= w j) -> (ystart y <= yend y)%Z ->
  periodicY y = true -> let n := (yend y + 1 - ystart y)%Z in
  metric_periodic n g -> periodic n f -> periodic n v -> periodic n w ->
  total g (ystart y) (yend y) (Div_par y g lim f v w fixflux) = 0.
Proof.
  intros y g lim f v w ff G W L P n (M1 & M2 & M3) Pf Pv Pw.
  rewrite (proj2 (C40_Div_par_flux_form y g lim f v w ff G W L)).
  assert (E : forall (q : Z -> R) k, periodic n q -> q (yend y + 1 + k)%Z = q (ystart y + k)%Z).
  { intros q k H. rewrite <- (H (ystart y + k)%Z). f_equal. unfold n. lia. }
  unfold dp_face. rewrite P. cbn [negb]. rewrite !andb_false_r. cbn [andb].
  unfold face_factor, upwind_face_flux, populate.
  replace (yend y + 1)%Z with (yend y + 1 + 0)%Z by lia. replace (ystart y) with (ystart y + 0)%Z by lia.
  assert (S : forall q a b, periodic n q -> (q (yend y + 1 + 0 - a - b) = q (ystart y + 0 - a - b) /\ q (yend y + 1 + 0 - a + b) = q (ystart y + 0 - a + b) /\
     q (yend y + 1 + 0 - a) = q (ystart y + 0 - a) /\ q (yend y + 1 + 0 + a) = q (ystart y + 0 + a))%Z).
  { intros q a b H. replace (yend y + 1 + 0 - a - b)%Z with (yend y + 1 + (- a - b))%Z by lia. replace (yend y + 1 + 0 - a + b)%Z with (yend y + 1 + (- a + b))%Z by lia.
    replace (yend y + 1 + 0 - a)%Z with (yend y + 1 + (- a))%Z by lia. replace (yend y + 1 + 0 + a)%Z with (yend y + 1 + a)%Z by lia.
    rewrite !E by assumption. repeat split; f_equal; lia. }
  assert (S1 : forall q, periodic n q -> q (yend y + 1 + 0)%Z = q (ystart y + 0)%Z) by (intros; now apply E).
  rewrite !(S1 f), !(S1 v), !(S1 w), !(S1 (mJ g)), !(S1 (mg22 g)) by assumption.
  rewrite !(proj1 (proj2 (proj2 (S v 1%Z 1%Z Pv)))), !(proj1 (proj2 (proj2 (S w 1%Z 1%Z Pw)))), !(proj1 (proj2 (proj2 (S (mJ g) 1%Z 1%Z M1)))), !(proj1 (proj2 (proj2 (S (mg22 g) 1%Z 1%Z M3)))).
  rewrite !(proj1 (proj2 (proj2 (S f 1%Z 1%Z Pf)))), !(proj1 (proj2 (proj2 (S f 2%Z 1%Z Pf)))).
  destruct (S f 1%Z 2%Z Pf) as (A1 & A2 & _ & A4). destruct (S f 1%Z 1%Z Pf) as (B1 & B2 & _ & _). destruct (S f 2%Z 2%Z Pf) as (_ & _ & _ & D4).
  rewrite A1, A2, A4, B1, B2, D4. ring.
Qed.
Print Assumptions C40_Div_par_periodic.
(** Cutting the line between two processors does not change any cell's value. *)
Theorem C40_Div_par_decomposition : forall y g lim f v w fixflux k j, good_metric g -> (forall i, 0 <= w i) ->
  (ystart y <= k < yend y)%Z ->
  ((ystart y <= j <= k)%Z -> Div_par (lower_part y k) g lim f v w fixflux j = Div_par y g lim f v w fixflux j) /\
  ((k < j <= yend y)%Z -> Div_par (upper_part y k) g lim f v w fixflux j = Div_par y g lim f v w fixflux j).
Proof.
  intros y g lim f v w ff k j G W L. split; intros Lj.
  - eapply (flux_eq g); [exact G|apply (dp_flux_form (lower_part y k) g lim f v w ff G W); cbn; lia|apply (dp_flux_form y g lim f v w ff G W); lia| | | |]; cbn [lower_part ystart yend]; try lia.
    + unfold dp_face, lower_part; cbn [ystart yend firstY lastY periodicY andb].
      replace (Z.eqb (j + 1) (ystart y)) with false by (symmetry; apply Z.eqb_neq; lia).
      replace (Z.eqb (j + 1) (yend y + 1)) with false by (symmetry; apply Z.eqb_neq; lia). now rewrite !andb_false_r.
    + unfold dp_face, lower_part; cbn [ystart yend firstY lastY periodicY andb].
      replace (Z.eqb j (yend y + 1)) with false by (symmetry; apply Z.eqb_neq; lia). now rewrite !andb_false_r.
  - eapply (flux_eq g); [exact G|apply (dp_flux_form (upper_part y k) g lim f v w ff G W); cbn; lia|apply (dp_flux_form y g lim f v w ff G W); lia| | | |]; cbn [upper_part ystart yend]; try lia.
    + unfold dp_face, upper_part; cbn [ystart yend firstY lastY periodicY andb].
      replace (Z.eqb (j + 1) (ystart y)) with false by (symmetry; apply Z.eqb_neq; lia). now rewrite !andb_false_r.
    + unfold dp_face, upper_part; cbn [ystart yend firstY lastY periodicY andb].
      replace (Z.eqb j (ystart y)) with false by (symmetry; apply Z.eqb_neq; lia). now rewrite !andb_false_r.
Qed.
Print Assumptions C40_Div_par_decomposition.
(** A uniform flow of a uniform field through faces of equal size has no divergence; with fixflux the flux through an end of an open
    line is the product of the average field and the average velocity there. *)
Theorem C40_Div_par_consistent : forall y g lim k u w fixflux j, good_metric g -> (forall i, 0 <= w i) -> (ystart y <= j <= yend y)%Z ->
  (lim = Upwind \/ lim = Fromm \/ lim = MinMod \/ lim = MC) -> face_factor g j = face_factor g (j + 1) ->
  Div_par y g lim (fun _ => k) (fun _ => u) w fixflux j = 0.
Proof.
  intros y g lim k u w ff j G W L HL E.
  assert (HC : lim (const_st k) = Edges k k) by (destruct (C30_consistent k 0) as ((A & B & C & D) & _); destruct HL as [->|[->|[->| ->]]]; assumption).
  assert (HF : forall i, dp_face y g lim (fun _ => k) (fun _ => u) w ff i = face_factor g i * (k * u)).
  { intros i. unfold dp_face, lower_boundary_flux, upper_boundary_flux, upwind_face_flux, populate. fold (const_st k). rewrite HC; cbn [eL eR].
    replace ((u + u) / 2) with u by field. replace ((k + k) / 2) with k by field.
    destruct (firstY y && negb (periodicY y) && Z.eqb i (ystart y)), (lastY y && negb (periodicY y) && Z.eqb i (yend y + 1)), ff;
      try (destruct (Rlt_dec _ u); [|destruct (Rlt_dec u _)]); field. }
  pose proof (dp_flux_form y g lim (fun _ => k) (fun _ => u) w ff G W ltac:(lia) j L) as H. rewrite !HF, E in H.
  apply Rmult_eq_reg_r with (volume g j); [|now apply vol_pos]. rewrite H. ring.
Qed.
Print Assumptions C40_Div_par_consistent.
Example C40_case : let y := YLine 2 4 true true false in let g := uniform 1 1 1 in
  let f := fun j => IZR j in good_metric g /\ (forall i : Z, 0 <= 1) /\ (ystart y <= 3 < yend y)%Z /\
  total g 2 4 (Div_par y g Upwind f (fun _ => 2) (fun _ => 1) true) = 9 / 2 * 2 - 3 / 2 * 2.
Proof.
  intros y g f. assert (G : good_metric g) by (intros j; cbn; lra). split; [exact G|]. split; [intros; lra|]. split; [cbn; lia|].
  destruct (C40_Div_par_flux_form y g Upwind f (fun _ => 2) (fun _ => 1) true G ltac:(intros; lra) ltac:(cbn; lia)) as [_ E].
  cbn [ystart yend y] in E. rewrite E. unfold dp_face, lower_boundary_flux, upper_boundary_flux, face_factor, y, g, f, uniform.
  cbn -[sqrt IZR]. rewrite sqrt_1. lra.
Qed.

(** * C41: Div_par_K_Grad_par *)
Theorem C41_K_Grad_par_flux_form : forall y g K f bndry_flux, good_metric g -> (ystart y <= yend y)%Z ->
  flux_form g (ystart y) (yend y) (kg_face y g K f bndry_flux) (K_Grad_par y g K f bndry_flux) /\
  total g (ystart y) (yend y) (K_Grad_par y g K f bndry_flux) =
    kg_face y g K f bndry_flux (yend y + 1) - kg_face y g K f bndry_flux (ystart y).
Proof.
  intros y g K f bf G L. pose proof (kg_flux_form y g K f bf G L) as H. split; [exact H|]. apply total_flux_form; [lia|exact H].
Qed.
Print Assumptions C41_K_Grad_par_flux_form.
(** Without boundary fluxes an open line neither gains nor loses content, and the diffusion never increases the mean square. *)
Theorem C41_K_Grad_par_conserves_and_dissipates : forall y g K f, good_metric g -> (ystart y <= yend y)%Z ->
  firstY y = true -> lastY y = true -> periodicY y = false ->
  total g (ystart y) (yend y) (K_Grad_par y g K f false) = 0 /\
  ((forall j, 0 <= K j) ->
   sum_line (fun j => f j * (K_Grad_par y g K f false j * volume g j)) (ystart y) (Z.to_nat (yend y + 1 - ystart y)) <= 0).
Proof.
  intros y g K f G L E1 E2 E3. split; [|intros HK; now apply kg_dissipates].
  rewrite (proj2 (C41_K_Grad_par_flux_form y g K f false G L)). unfold kg_face. rewrite E1, E2, E3, !Z.eqb_refl. cbn [negb andb orb].
  rewrite orb_true_r. ring.
Qed.
Print Assumptions C41_K_Grad_par_conserves_and_dissipates.
Theorem C41_K_Grad_par_decomposition : forall y g K f bf k j, good_metric g -> (ystart y <= k < yend y)%Z ->
  ((ystart y <= j <= k)%Z -> K_Grad_par (lower_part y k) g K f bf j = K_Grad_par y g K f bf j) /\
  ((k < j <= yend y)%Z -> K_Grad_par (upper_part y k) g K f bf j = K_Grad_par y g K f bf j).
Proof.
  intros y g K f bf k j G L. unfold K_Grad_par, lower_part, upper_part; cbn [ystart yend firstY lastY periodicY]. split; intros Lj.
  - replace (negb (Z.eqb j (yend y))) with true by (symmetry; apply negb_true_iff, Z.eqb_neq; lia). cbn [negb]. now rewrite !orb_true_r.
  - replace (negb (Z.eqb j (ystart y))) with true by (symmetry; apply negb_true_iff, Z.eqb_neq; lia). cbn [negb]. now rewrite !orb_true_r.
Qed.
Print Assumptions C41_K_Grad_par_decomposition.
(** Exact for K constant on a uniform line: K/g_22 times the second difference (interior faces, or boundary fluxes included). *)
Theorem C41_K_Grad_par_uniform : forall y J0 h g0 K0 f j, 0 < J0 -> 0 < h -> 0 < g0 ->
  K_Grad_par y (uniform J0 h g0) (fun _ => K0) f true j = K0 / g0 * (f (j + 1)%Z - 2 * f j + f (j - 1)%Z) / (h * h).
Proof. intros. unfold K_Grad_par, uniform; cbn -[IZR]. field. lra. Qed.
Print Assumptions C41_K_Grad_par_uniform.
Example C41_case : let y := YLine 0 1 true true false in
  K_Grad_par y (uniform 1 1 1) (fun _ => 1) (fun j => IZR (j * j)) false 0 = 1 /\
  K_Grad_par y (uniform 1 1 1) (fun _ => 1) (fun j => IZR (j * j)) false 1 = -1.
Proof. unfold K_Grad_par, uniform; cbn. split; lra. Qed.

(** * C42: Div_a_Grad_perp, radial part *)
Theorem C42_Div_a_Grad_perp_X_flux_form : forall xs xe J dx g11 a f, (forall i, 0 < J i /\ 0 < dx i) -> (xs <= xe)%Z ->
  forall i, (xs <= i <= xe)%Z ->
    Div_a_Grad_perp_X xs xe J dx g11 a f i * (dx i * J i) = dagp_face J dx g11 a f (i + 1) - dagp_face J dx g11 a f i.
Proof. exact dagp_flux_form. Qed.
Print Assumptions C42_Div_a_Grad_perp_X_flux_form.
(** The total over the line changes only through its ends, and the value in a cell does not depend on where the line is cut. *)
Theorem C42_conserves_and_decomposes : forall xs xe J dx g11 a f, (forall i, 0 < J i /\ 0 < dx i) -> (xs <= xe)%Z ->
  sum_line (fun i => Div_a_Grad_perp_X xs xe J dx g11 a f i * (dx i * J i)) xs (Z.to_nat (xe + 1 - xs)) =
    dagp_face J dx g11 a f (xe + 1) - dagp_face J dx g11 a f xs /\
  (forall xs' xe' i, (xs <= i <= xe)%Z -> (xs' <= i <= xe')%Z ->
    Div_a_Grad_perp_X xs xe J dx g11 a f i = Div_a_Grad_perp_X xs' xe' J dx g11 a f i).
Proof.
  intros xs xe J dx g11 a f P L. set (g := Metric J dx (fun _ => 1)). assert (G : good_metric g) by (intros i; destruct (P i); cbn; repeat split; lra).
  assert (FF : forall xs xe, (xs <= xe)%Z -> flux_form g xs xe (dagp_face J dx g11 a f) (Div_a_Grad_perp_X xs xe J dx g11 a f)).
  { intros. intros i Hi. unfold volume; cbn. now apply dagp_flux_form. }
  split; [apply (total_flux_form g xs xe (dagp_face J dx g11 a f)); [lia|now apply FF]|].
  intros xs' xe' i H H'. apply (flux_eq g xs xe xs' xe' (dagp_face J dx g11 a f) (dagp_face J dx g11 a f)); auto; apply FF; lia.
Qed.
Print Assumptions C42_conserves_and_decomposes.
Example C42_case : Div_a_Grad_perp_X 1 3 (fun _ => 1) (fun _ => 1) (fun _ => 1) (fun _ => 1) (fun i => IZR (i * i)) 2 = 2.
Proof.
  pose proof (C42_Div_a_Grad_perp_X_flux_form 1 3 (fun _ => 1) (fun _ => 1) (fun _ => 1) (fun _ => 1) (fun i => IZR (i * i))
    ltac:(intros; lra) ltac:(lia) 2%Z ltac:(lia)) as H. unfold dagp_face in H. cbn -[Div_a_Grad_perp_X] in H. lra.
Qed.

(** * C43: D4DY4 and D4DY4_Index *)
(** D4DY4 is conservative, with no flux through the ends of an open line, and independent of the decomposition. *)
Theorem C43_D4DY4_conserves : forall y g d f, good_metric g -> (ystart y <= yend y)%Z ->
  flux_form g (ystart y) (yend y) (d4_face y g d f) (D4DY4 y g d f) /\
  (firstY y = true -> lastY y = true -> periodicY y = false -> total g (ystart y) (yend y) (D4DY4 y g d f) = 0).
Proof.
  intros y g d f G L. pose proof (d4_flux_form y g d f G L) as H. split; [exact H|]. intros E1 E2 E3.
  rewrite (total_flux_form g (ystart y) (yend y) (d4_face y g d f) (D4DY4 y g d f) ltac:(lia) H). unfold d4_face. rewrite E1, E2, E3, !Z.eqb_refl. cbn [negb andb orb]. rewrite orb_true_r. ring.
Qed.
Print Assumptions C43_D4DY4_conserves.
Theorem C43_D4DY4_decomposition : forall y g d f k j, good_metric g -> (ystart y <= k < yend y)%Z ->
  ((ystart y <= j <= k)%Z -> D4DY4 (lower_part y k) g d f j = D4DY4 y g d f j) /\
  ((k < j <= yend y)%Z -> D4DY4 (upper_part y k) g d f j = D4DY4 y g d f j).
Proof.
  intros y g d f k j G L. split; intros Lj.
  - eapply (flux_eq g); [exact G|apply (d4_flux_form (lower_part y k) g d f G); cbn; lia|apply (d4_flux_form y g d f G); lia| | | |]; cbn [lower_part ystart yend]; try lia.
    + unfold d4_face, lower_part; cbn [ystart yend firstY lastY periodicY andb].
      replace (Z.eqb (j + 1) (ystart y)) with false by (symmetry; apply Z.eqb_neq; lia).
      replace (Z.eqb (j + 1) (yend y + 1)) with false by (symmetry; apply Z.eqb_neq; lia). now rewrite !andb_false_r.
    + unfold d4_face, lower_part; cbn [ystart yend firstY lastY periodicY andb].
      replace (Z.eqb j (yend y + 1)) with false by (symmetry; apply Z.eqb_neq; lia). now rewrite !andb_false_r.
  - eapply (flux_eq g); [exact G|apply (d4_flux_form (upper_part y k) g d f G); cbn; lia|apply (d4_flux_form y g d f G); lia| | | |]; cbn [upper_part ystart yend]; try lia.
    + unfold d4_face, upper_part; cbn [ystart yend firstY lastY periodicY andb].
      replace (Z.eqb (j + 1) (ystart y)) with false by (symmetry; apply Z.eqb_neq; lia). now rewrite !andb_false_r.
    + unfold d4_face, upper_part; cbn [ystart yend firstY lastY periodicY andb].
      replace (Z.eqb j (ystart y)) with false by (symmetry; apply Z.eqb_neq; lia). now rewrite !andb_false_r.
Qed.
Print Assumptions C43_D4DY4_decomposition.
(** What it computes on a uniform line is twice d f'''' ... *)
Theorem C43_D4DY4_uniform : forall y J0 h g0 d0 f j, 0 < J0 -> 0 < h -> 0 < g0 -> (ystart y < j < yend y)%Z ->
  D4DY4 y (uniform J0 h g0) (fun _ => d0) f j = 2 * (d0 * D4DX4_C2 (populate SNone f j) / h ^ 4).
Proof.
  intros y J0 h g0 d0 f j HJ Hh Hg L. assert (G : good_metric (uniform J0 h g0)) by (intros i; cbn; lra).
  pose proof (d4_flux_form y (uniform J0 h g0) (fun _ => d0) f G ltac:(lia) j ltac:(lia)) as H.
  unfold d4_face in H. replace (Z.eqb j (ystart y)) with false in H by (symmetry; apply Z.eqb_neq; lia).
  replace (Z.eqb j (yend y + 1)) with false in H by (symmetry; apply Z.eqb_neq; lia).
  replace (Z.eqb (j + 1) (ystart y)) with false in H by (symmetry; apply Z.eqb_neq; lia).
  replace (Z.eqb (j + 1) (yend y + 1)) with false in H by (symmetry; apply Z.eqb_neq; lia).
  rewrite !andb_false_r in H. cbn [orb] in H. rewrite ?andb_false_r in H. unfold volume, uniform in H; cbn [mJ mdy mg22] in H.
  replace (j + 1 - 1)%Z with j in H by lia. replace (j + 1 + 1)%Z with (j + 2)%Z in H by lia. replace (j + 1 - 2)%Z with (j - 1)%Z in H by lia.
  apply Rmult_eq_reg_r with (h * J0); [|apply Rgt_not_eq; nra]. unfold uniform in *. rewrite H. unfold D4DX4_C2, populate; cbn [mm m c p pp]. field. lra.
Qed.
Print Assumptions C43_D4DY4_uniform.
(** ... so the claim that it is d times the fourth derivative is false. *)
Theorem C43_D4DY4_consistent_refuted :
  ~ forall y h d0 f j, 0 < h -> (ystart y < j < yend y)%Z ->
      D4DY4 y (uniform 1 h 1) (fun _ => d0) f j = d0 * D4DX4_C2 (populate SNone f j) / h ^ 4.
Proof.
  intros H. specialize (H (YLine 0 4 true true false) 1 1 (fun i => IZR (i * i * i * i)) 2%Z ltac:(lra) ltac:(cbn; lia)).
  rewrite (C43_D4DY4_uniform (YLine 0 4 true true false) 1 1 1 1 _ 2%Z ltac:(lra) ltac:(lra) ltac:(lra) ltac:(cbn; lia)) in H.
  unfold D4DX4_C2, populate in H; cbn in H. lra.
Qed.
Print Assumptions C43_D4DY4_consistent_refuted.
(** D4DY4_Index adds the flux through every face inside the processor twice and the flux through a processor boundary once: on a
    uniform line an inner cell gets twice the fourth difference, and cutting the line elsewhere changes the answer. *)
Lemma d4i_body y g f bf : forall x,
  D4DY4_Index y g f bf x =
  let U := fun j => if bf || negb (Z.eqb j (yend y)) || negb (negb (periodicY y) && lastY y) then
     (if negb (Z.eqb j (yend y)) || negb (negb (periodicY y) && lastY y) then f (j + 2)%Z - 3 * f (j + 1)%Z + 3 * f j - f (j - 1)%Z
      else - (16 / 5 * (1 / 2) * (f (j + 1)%Z + f j) - 6 * f j + 4 * f (j - 1)%Z - 6 / 5 * f (j - 2)%Z)) * (1 / 4 * (mdy g j + mdy g (j + 1)%Z) * (mJ g j + mJ g (j + 1)%Z)) else 0 in
  let D := fun j => if bf || negb (Z.eqb j (ystart y)) || negb (negb (periodicY y) && firstY y) then
     (if negb (Z.eqb j (ystart y)) || negb (negb (periodicY y) && firstY y) then f (j + 1)%Z - 3 * f j + 3 * f (j - 1)%Z - f (j - 2)%Z
      else - (- (16 / 5) * (1 / 2) * (f (j - 1)%Z + f j) + 6 * f j - 4 * f (j + 1)%Z + 6 / 5 * f (j + 2)%Z)) * (1 / 4 * (mdy g j + mdy g (j + 1)%Z) * (mJ g j + mJ g (j - 1)%Z)) else 0 in
  0 + when (inr (ystart y) (yend y) x) (U x / (mJ g x * mdy g x) - D x / (mJ g x * mdy g x))
    + when (inr (ystart y) (yend y) (x - 1)) (- (U (x - 1)%Z / (mJ g (x - 1 + 1)%Z * mdy g (x - 1 + 1)%Z)))
    + when (inr (ystart y) (yend y) (x + 1)) (D (x + 1)%Z / (mJ g (x + 1 - 1)%Z * mdy g (x + 1 - 1)%Z)).
Proof.
  intros x. cbv zeta. unfold D4DY4_Index.
  set (U := fun j => if bf || negb (Z.eqb j (yend y)) || negb (negb (periodicY y) && lastY y) then
     (if negb (Z.eqb j (yend y)) || negb (negb (periodicY y) && lastY y) then f (j + 2)%Z - 3 * f (j + 1)%Z + 3 * f j - f (j - 1)%Z
      else - (16 / 5 * (1 / 2) * (f (j + 1)%Z + f j) - 6 * f j + 4 * f (j - 1)%Z - 6 / 5 * f (j - 2)%Z)) * (1 / 4 * (mdy g j + mdy g (j + 1)%Z) * (mJ g j + mJ g (j + 1)%Z)) else 0).
  set (D := fun j => if bf || negb (Z.eqb j (ystart y)) || negb (negb (periodicY y) && firstY y) then
     (if negb (Z.eqb j (ystart y)) || negb (negb (periodicY y) && firstY y) then f (j + 1)%Z - 3 * f j + 3 * f (j - 1)%Z - f (j - 2)%Z
      else - (- (16 / 5) * (1 / 2) * (f (j - 1)%Z + f j) + 6 * f j - 4 * f (j + 1)%Z + 6 / 5 * f (j + 2)%Z)) * (1 / 4 * (mdy g j + mdy g (j + 1)%Z) * (mJ g j + mJ g (j - 1)%Z)) else 0).
  rewrite (loop_at (fun j => U j / (mJ g j * mdy g j) - D j / (mJ g j * mdy g j)) (fun j => - (U j / (mJ g (j + 1)%Z * mdy g (j + 1)%Z))) (fun j => D j / (mJ g (j - 1)%Z * mdy g (j - 1)%Z))).
  - reflexivity.
  - intros j res z. unfold U, D.
    destruct (bf || negb (Z.eqb j (yend y)) || negb (negb (periodicY y) && lastY y)), (bf || negb (Z.eqb j (ystart y)) || negb (negb (periodicY y) && firstY y));
    rewrite ?add_at; unfold when; destruct (Z.eqb z j), (Z.eqb z (j + 1)), (Z.eqb z (j - 1)); unfold Rdiv; ring.
Qed.
Theorem C43_D4DY4_Index_decomposition_refuted :
  ~ forall y f bf k j, (ystart y <= k < yend y)%Z -> (k < j <= yend y)%Z ->
      D4DY4_Index (upper_part y k) (uniform 1 1 1) f bf j = D4DY4_Index y (uniform 1 1 1) f bf j.
Proof.
  intros H. specialize (H (YLine 0 7 true true false) (fun i => IZR (i * i * i)) false 3%Z 4%Z ltac:(cbn; lia) ltac:(cbn; lia)).
  rewrite !d4i_body in H. cbn in H. lra.
Qed.
Print Assumptions C43_D4DY4_Index_decomposition_refuted.
(** It is also not the fourth difference inside a processor. *)
Theorem C43_D4DY4_Index_consistent_refuted :
  ~ forall y f bf j, (ystart y + 1 < j < yend y - 1)%Z ->
       D4DY4_Index y (uniform 1 1 1) f bf j = D4DX4_C2 (populate SNone f j).
Proof.
  intros H. specialize (H (YLine 0 7 true true false) (fun i => IZR (i * i * i * i)) false 3%Z ltac:(cbn; lia)).
  rewrite !d4i_body in H. unfold D4DX4_C2, populate in H. cbn in H. lra.
Qed.
Print Assumptions C43_D4DY4_Index_consistent_refuted.
(** The one-sided boundary flux has the wrong sign: for every cubic given on the cells and by its value on the end face, what switching
    bndry_flux on adds to the last cell is minus the third derivative there. *)
Definition cubic_line (a : list R) (last : Z) (i : Z) : R :=
  if Z.leb i last then peval a (IZR (i - last) - 1 / 2) else 2 * peval a 0 - peval a (- (1 / 2)).
Theorem C43_D4DY4_Index_boundary_flux : forall y a, degree_le 3 a -> (ystart y + 2 < yend y)%Z ->
  firstY y = true -> lastY y = true -> periodicY y = false -> let f := cubic_line a (yend y) in
  D4DY4_Index y (uniform 1 1 1) f true (yend y) - D4DY4_Index y (uniform 1 1 1) f false (yend y) = - peval (Nat.iter 3 pderiv a) 0.
Proof.
  intros y a Ha L E1 E2 E3 f. rewrite !d4i_body. cbv zeta. rewrite E1, E2, E3, Z.eqb_refl. cbn [negb andb orb uniform mJ mdy mg22].
  replace (Z.eqb (yend y) (ystart y)) with false by (symmetry; apply Z.eqb_neq; lia).
  replace (Z.eqb (yend y - 1) (yend y)) with false by (symmetry; apply Z.eqb_neq; lia).
  replace (inr (ystart y) (yend y) (yend y)) with true by (symmetry; apply inr_spec; lia).
  replace (inr (ystart y) (yend y) (yend y - 1)) with true by (symmetry; apply inr_spec; lia).
  replace (inr (ystart y) (yend y) (yend y + 1)) with false.
  2:{ symmetry. destruct (inr (ystart y) (yend y) (yend y + 1)) eqn:X; [|reflexivity]. apply inr_spec in X. lia. }
  cbn [when negb orb].
  assert (F0 : f (yend y) = peval a (- (1 / 2))). { unfold f, cubic_line. rewrite Z.leb_refl, Z.sub_diag. f_equal. lra. }
  assert (F1 : f (yend y - 1)%Z = peval a (- (3 / 2))).
  { unfold f, cubic_line. replace (Z.leb (yend y - 1) (yend y)) with true by (symmetry; apply Z.leb_le; lia). replace (yend y - 1 - yend y)%Z with (-1)%Z by lia. f_equal. lra. }
  assert (F2 : f (yend y - 2)%Z = peval a (- (5 / 2))).
  { unfold f, cubic_line. replace (Z.leb (yend y - 2) (yend y)) with true by (symmetry; apply Z.leb_le; lia). replace (yend y - 2 - yend y)%Z with (-2)%Z by lia. f_equal. lra. }
  assert (FP : f (yend y + 1)%Z = 2 * peval a 0 - peval a (- (1 / 2))).
  { unfold f, cubic_line. replace (Z.leb (yend y + 1) (yend y)) with false by (symmetry; apply Z.leb_gt; lia). reflexivity. }
  rewrite F0, F1, F2, FP. clear F0 F1 F2 FP.
  match goal with |- ?X = _ => ring_simplify X end.
  unfold degree_le in Ha. destruct a as [|a0 [|a1 [|a2 [|a3 [|a4 a]]]]]; cbn [length] in Ha; try lia; cbn [Nat.iter nat_rect pderiv pderiv_from peval]; field.
Qed.
Print Assumptions C43_D4DY4_Index_boundary_flux.
Example C43_case : good_metric (uniform 1 1 1) /\ (0 < 2 < 4)%Z /\ D4DY4 (YLine 0 4 true true false) (uniform 1 1 1) (fun _ => 1) (fun i => IZR (i * i * i * i)) 2 = 48.
Proof.
  split; [intros i; cbn; lra|]. split; [lia|].
  rewrite (C43_D4DY4_uniform (YLine 0 4 true true false) 1 1 1 1 _ 2%Z ltac:(lra) ltac:(lra) ltac:(lra) ltac:(cbn; lia)).
  unfold D4DX4_C2, populate; cbn. lra.
Qed.

(** * C44: Div_Perp_Lap *)
(** On a uniform z line it computes a g^33 / dz^2 times the difference of the two neighbours, i.e. a first derivative (the flux through the lower face is added, not
    subtracted), ... *)
Theorem C44_Div_Perp_Lap_uniform : forall nz J0 h g0 a0 f k, 0 < J0 -> 0 < h ->
  Div_Perp_Lap_Z nz (fun _ => J0) (fun _ => h) (fun _ => g0) (fun _ => a0) f k =
  a0 * g0 * (f ((k + 1) mod nz)%Z - f ((k - 1 + nz) mod nz)%Z) / (h * h).
Proof. intros. unfold Div_Perp_Lap_Z. field. lra. Qed.
Print Assumptions C44_Div_Perp_Lap_uniform.
(** ... so it is neither consistent with the Laplacian nor conservative. *)
Theorem C44_Div_Perp_Lap_refuted :
  ~ (forall nz f k, (0 <= k < nz)%Z -> Div_Perp_Lap_Z nz (fun _ => 1) (fun _ => 1) (fun _ => 1) (fun _ => 1) f k =
       f ((k + 1) mod nz)%Z - 2 * f k + f ((k - 1) mod nz)%Z) /\
  ~ (forall (nz : nat) a f, sum_line (Div_Perp_Lap_Z (Z.of_nat nz) (fun _ => 1) (fun _ => 1) (fun _ => 1) a f) 0 nz = 0).
Proof.
  split; intros H.
  - specialize (H 4%Z (fun i => IZR (i * i)) 1%Z ltac:(lia)). rewrite C44_Div_Perp_Lap_uniform in H by lra. cbn in H. lra.
  - specialize (H 3%nat (fun i => if Z.eqb i 2 then 3 else 1) (fun i => if Z.eqb i 1 then 1 else 0)).
    unfold sum_line, Div_Perp_Lap_Z in H. cbn in H. lra.
Qed.
Print Assumptions C44_Div_Perp_Lap_refuted.
Example C44_case : Div_Perp_Lap_Z 4 (fun _ => 1) (fun _ => 1) (fun _ => 1) (fun _ => 1) (fun i => IZR (i * i)) 1 = 4.
Proof. rewrite C44_Div_Perp_Lap_uniform by lra. cbn. lra. Qed.
