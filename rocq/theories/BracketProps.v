(* C52, C53: Poisson brackets. *)
From Coq Require Import Reals ZArith List Bool Lia Lra.
From Verif Require Import Base BracketModel BracketSpec BracketProofs BracketProofs2.
Import ListNotations.
Local Open Scope R_scope.

Definition spacings (dx dz : field2) : Prop := forall x y, dx x y <> 0 /\ dz x y <> 0.

(* ---------- C52 ---------- *)
(** Both Arakawa methods set every interior cell to Arakawa's Jacobian with periodic z, and nothing else. *)
Theorem C52_arakawa : forall old gnx gnz m dx dz f g, (gnx <> 1)%Z -> (gnz <> 1)%Z -> (2 <= LocalNz m)%Z -> spacings dx dz ->
  exists o, arakawa33 old gnx gnz m dx dz f g = Ok o /\
    (forall x y z, interior m x y z ->
       o x y z = Some (jacobian (dx x y) (dz x y) (wrapz (LocalNz m) f y) (wrapz (LocalNz m) g y) x z)) /\
    (forall x y z, ~ interior m x y z -> o x y z = None).
Proof.
  intros old gnx gnz m dx dz f g Hx Hz Hn Hd. destruct (arakawa33_ok old gnx gnz m dx dz f g Hx Hz Hn) as [o [E [A B]]].
  exists o. split; [exact E|]. split; [|exact B]. intros x y z I. rewrite A by exact I. f_equal.
  destruct (Hd x y). rewrite <- arakawa_jacobian by assumption.
  unfold cell33, wrapz, arakawa_cell. rewrite (Z.mod_small z) by (destruct I; lia). reflexivity.
Qed.
Print Assumptions C52_arakawa.

(** Exchanging the arguments changes the sign; the bracket of a field with itself is zero. *)
Theorem C52_antisymmetric : forall old gnx gnz m dx dz f g o o', (2 <= LocalNz m)%Z ->
  arakawa33 old gnx gnz m dx dz f g = Ok o -> arakawa33 old gnx gnz m dx dz g f = Ok o' ->
  forall x y z, o x y z = option_map Ropp (o' x y z).
Proof.
  intros old gnx gnz m dx dz f g o o' Hn E E' x y z.
  destruct (Z.eq_dec gnx 1) as [H1|H1]; [|destruct (Z.eq_dec gnz 1) as [H2|H2]].
  1,2: unfold arakawa33 in E, E'; replace ((gnx =? 1) || (gnz =? 1))%Z%bool with true in E, E' by (symmetry; rewrite orb_true_iff; lia);
    injection E as <-; injection E' as <-; cbn [option_map]; f_equal; ring.
  destruct (arakawa33_ok old gnx gnz m dx dz f g H1 H2 Hn) as [p [F [A B]]].
  destruct (arakawa33_ok old gnx gnz m dx dz g f H1 H2 Hn) as [p' [F' [A' B']]].
  rewrite F in E. injection E as <-. rewrite F' in E'. injection E' as <-.
  assert (D : interior m x y z \/ ~ interior m x y z) by (unfold interior; lia).
  destruct D as [I|I]; [|rewrite B, B' by exact I; reflexivity].
  rewrite A, A' by exact I. cbn [option_map]. f_equal. apply arakawa_anti.
Qed.
Print Assumptions C52_antisymmetric.
Theorem C52_self : forall old gnx gnz m dx dz f o, (2 <= LocalNz m)%Z -> arakawa33 old gnx gnz m dx dz f f = Ok o ->
  forall x y z, val (o x y z) = 0.
Proof.
  intros old gnx gnz m dx dz f o Hn E x y z. pose proof (C52_antisymmetric old gnx gnz m dx dz f f o o Hn E E x y z) as H.
  destruct (o x y z) as [v|]; cbn [option_map val] in *; [|reflexivity]. injection H as H. lra.
Qed.
Print Assumptions C52_self.

(** On a domain periodic in x and z the sums over a plane are conserved for every spacing: the bracket moves the weight
    a around, sum a [f,g] = sum f [g,a] (volumes dx dz), hence the integral of [f,g], of f [f,g] and of g [f,g] vanish. *)
Theorem C52_cyclic : forall old gnx gnz m dx dz a f g o o' y, (gnx <> 1)%Z -> (gnz <> 1)%Z -> (2 <= LocalNz m)%Z -> spacings dx dz ->
  (xstart m <= xend m)%Z -> (ystart m <= y <= yend m)%Z ->
  periodic_x m a -> periodic_x m f -> periodic_x m g ->
  arakawa33 old gnx gnz m dx dz f g = Ok o -> arakawa33 old gnx gnz m dx dz g a = Ok o' ->
  plane_sum m (fun x z => a x y z * (dx x y * dz x y) * val (o x y z))
  = plane_sum m (fun x z => f x y z * (dx x y * dz x y) * val (o' x y z)).
Proof.
  intros old gnx gnz m dx dz a f g o o' y H1 H2 Hn Hd Hx Hy Pa Pf Pg E E'.
  destruct (arakawa33_ok old gnx gnz m dx dz f g H1 H2 Hn) as [p [F [A _]]].
  destruct (arakawa33_ok old gnx gnz m dx dz g a H1 H2 Hn) as [p' [F' [A' _]]].
  rewrite F in E. injection E as <-. rewrite F' in E'. injection E' as <-.
  transitivity (plane_sum m (fun x z => a x y z * (dx x y * dz x y) * cell33 m dx dz f g x y z)).
  { unfold plane_sum. apply sumR_ext. intros x Ix. apply sumR_ext. intros z Iz. rewrite A by (unfold interior; lia). reflexivity. }
  rewrite (cell33_cyclic m y Hx Hn dx dz a f g Hd Pa Pf Pg).
  unfold plane_sum. apply sumR_ext. intros x Ix. apply sumR_ext. intros z Iz. rewrite A' by (unfold interior; lia). reflexivity.
Qed.
Print Assumptions C52_cyclic.

Lemma plane_zero m h : (forall x z, (xstart m <= x <= xend m)%Z -> (0 <= z < LocalNz m)%Z -> h x z = 0) -> plane_sum m h = 0.
Proof.
  intros H. unfold plane_sum. rewrite (sumR_ext _ _ _ (fun x => 0 * 0)).
  - rewrite sumR_scale. ring.
  - intros x Ix. rewrite (sumR_ext _ _ _ (fun z => 0 * 0)) by (intros; rewrite H by lia; ring). rewrite sumR_scale. ring.
Qed.
Theorem C52_conserves : forall old gnx gnz m dx dz f g o y, (gnx <> 1)%Z -> (gnz <> 1)%Z -> (2 <= LocalNz m)%Z -> spacings dx dz ->
  (xstart m <= xend m)%Z -> (ystart m <= y <= yend m)%Z -> periodic_x m f -> periodic_x m g ->
  arakawa33 old gnx gnz m dx dz f g = Ok o ->
  plane_sum m (fun x z => dx x y * dz x y * val (o x y z)) = 0 /\
  plane_sum m (fun x z => f x y z * (dx x y * dz x y) * val (o x y z)) = 0 /\
  plane_sum m (fun x z => g x y z * (dx x y * dz x y) * val (o x y z)) = 0.
Proof.
  intros old gnx gnz m dx dz f g o y H1 H2 Hn Hd Hx Hy Pf Pg E.
  assert (X : forall u v, exists p, arakawa33 old gnx gnz m dx dz u v = Ok p).
  { intros u v. destruct (arakawa33_ok old gnx gnz m dx dz u v H1 H2 Hn) as [p [F _]]. now exists p. }
  assert (S : forall u v p, periodic_x m u -> periodic_x m v -> arakawa33 old gnx gnz m dx dz u v = Ok p ->
    plane_sum m (fun x z => u x y z * (dx x y * dz x y) * val (p x y z)) = 0).
  { (* sum u [u,v] = sum u [v,u] = - sum u [u,v] *)
    intros u v p Pu Pv F. destruct (X v u) as [q Q].
    pose proof (C52_cyclic old gnx gnz m dx dz u u v p q y H1 H2 Hn Hd Hx Hy Pu Pu Pv F Q) as C.
    assert (N : plane_sum m (fun x z => u x y z * (dx x y * dz x y) * val (q x y z))
              = - 1 * plane_sum m (fun x z => u x y z * (dx x y * dz x y) * val (p x y z))).
    { unfold plane_sum. rewrite <- sumR_scale. apply sumR_ext. intros x _. rewrite <- sumR_scale. apply sumR_ext. intros z _.
      rewrite (C52_antisymmetric old gnx gnz m dx dz v u q p Hn Q F x y z). destruct (p x y z); cbn [option_map val]; ring. }
    lra. }
  split; [|split].
  - (* a = 1 *)
    destruct (X g (fun _ _ _ => 1)) as [q Q].
    pose proof (C52_cyclic old gnx gnz m dx dz (fun _ _ _ => 1) f g o q y H1 H2 Hn Hd Hx Hy ltac:(split; reflexivity) Pf Pg E Q) as C.
    transitivity (plane_sum m (fun x z => 1 * (dx x y * dz x y) * val (o x y z))).
    { unfold plane_sum. apply sumR_ext. intros; apply sumR_ext; intros; ring. }
    rewrite C. apply plane_zero. intros x z Ix Iz.
    destruct (C52_arakawa old gnx gnz m dx dz g (fun _ _ _ => 1) H1 H2 Hn Hd) as [q' [Q' [A _]]].
    rewrite Q' in Q. injection Q as <-. rewrite A by (unfold interior; lia). cbn [val]. unfold jacobian, dX, dZ, wrapz. destruct (Hd x y). field. auto.
  - now apply (S f g o).
  - destruct (X g f) as [q Q]. pose proof (S g f q Pg Pf Q) as Z0.
    assert (N : plane_sum m (fun x z => g x y z * (dx x y * dz x y) * val (o x y z))
              = - 1 * plane_sum m (fun x z => g x y z * (dx x y * dz x y) * val (q x y z))).
    { unfold plane_sum. rewrite <- sumR_scale. apply sumR_ext. intros x _. rewrite <- sumR_scale. apply sumR_ext. intros z _.
      rewrite (C52_antisymmetric old gnx gnz m dx dz f g o q Hn E Q x y z). destruct (q x y z); cbn [option_map val]; ring. }
    rewrite N, Z0. ring.
Qed.
Print Assumptions C52_conserves.

(** The operators on two-dimensional fields agree with the one on their three-dimensional copies: in every interior cell. *)
Theorem C52_field2d : forall old gnx gnz m dx dz f3 f2 g3 g2, (gnx <> 1)%Z -> (gnz <> 1)%Z -> (2 <= LocalNz m)%Z -> spacings dx dz ->
  (exists o o', arakawa32 old m dx dz f3 g2 = Ok o /\ arakawa33 old gnx gnz m dx dz f3 (lift g2) = Ok o' /\ forall x y z, o x y z = o' x y z) /\
  (exists o o', arakawa23 m dx dz f2 g3 = Ok o /\ arakawa33 false gnx gnz m dx dz (lift f2) g3 = Ok o' /\ forall x y z, o x y z = o' x y z) /\
  (exists o', arakawa33 old gnx gnz m dx dz (lift f2) (lift g2) = Ok o' /\ forall x y z, interior m x y z -> o' x y z = arakawa22 x y z).
Proof.
  intros old gnx gnz m dx dz f3 f2 g3 g2 H1 H2 Hn Hd.
  assert (D : forall x y z, interior m x y z \/ ~ interior m x y z) by (unfold interior; lia).
  split; [|split].
  - destruct (arakawa32_ok old m dx dz f3 g2 Hd Hn) as [o [E [A B]]].
    destruct (arakawa33_ok old gnx gnz m dx dz f3 (lift g2) H1 H2 Hn) as [o' [E' [A' B']]].
    exists o, o'. split; [exact E|]. split; [exact E'|]. intros x y z. destruct (D x y z) as [I|I]; [rewrite A, A'|rewrite B, B']; easy.
  - destruct (arakawa32_ok false m dx dz g3 f2 Hd Hn) as [o [E [A B]]].
    destruct (arakawa33_ok false gnx gnz m dx dz (lift f2) g3 H1 H2 Hn) as [o' [E' [A' B']]].
    exists (fun x y z => option_map Ropp (o x y z)), o'. unfold arakawa23. rewrite E. split; [reflexivity|]. split; [exact E'|].
    intros x y z. destruct (D x y z) as [I|I]; [rewrite A, A' by exact I|rewrite B, B' by exact I; reflexivity].
    cbn [option_map]. f_equal. unfold cell33. symmetry. apply arakawa_anti.
  - destruct (arakawa33_ok old gnx gnz m dx dz (lift f2) (lift g2) H1 H2 Hn) as [o' [E' [A' B']]].
    exists o'. split; [exact E'|]. intros x y z I. rewrite A' by exact I. unfold arakawa22. f_equal. unfold cell33, arakawa_cell, lift. ring.
Qed.
Print Assumptions C52_field2d.

(** Second order: exact when one field is quadratic and the other linear in the coordinates X = X0 + i hx, Z = Z0 + k hz. *)
Definition quad (c0 cx cz cxx cxz czz X Z : R) : R := c0 + cx * X + cz * Z + cxx * X * X + cxz * X * Z + czz * Z * Z.
Theorem C52_order : forall hx hz X0 Z0 a0 ax az axx axz azz b0 bx bz i k, hx <> 0 -> hz <> 0 ->
  let f := fun i k => quad a0 ax az axx axz azz (X0 + IZR i * hx) (Z0 + IZR k * hz) in
  let g := fun i k => quad b0 bx bz 0 0 0 (X0 + IZR i * hx) (Z0 + IZR k * hz) in
  let X := X0 + IZR i * hx in let Z := Z0 + IZR k * hz in
  let fx := ax + 2 * axx * X + axz * Z in let fz := az + axz * X + 2 * azz * Z in
  jacobian hx hz f g i k = fz * bx - fx * bz /\ jacobian hx hz g f i k = bz * fx - bx * fz.
Proof.
  intros. unfold fx, fz, X, Z, f, g, jacobian, dX, dZ, quad. rewrite !plus_IZR, !minus_IZR. split; field; auto.
Qed.
Print Assumptions C52_order.

(** Not claimed for a single z point: the bracket of two 3D fields is then 0, but with a 2D second argument the code reads
    outside the row. *)
Theorem C52_one_z_point_refuted : forall gnx dx dz f g2 m, (gnx <> 1)%Z -> LocalNz m = 1%Z -> (xstart m <= xend m)%Z -> (ystart m <= yend m)%Z ->
  arakawa33 false gnx 1 m dx dz f (lift g2) = Ok (fun _ _ _ => Some 0) /\ arakawa32 false m dx dz f g2 = UB.
Proof.
  intros gnx dx dz f g2 m Hg Hm Hx Hy. split.
  - unfold arakawa33. now rewrite Z.eqb_refl, orb_true_r.
  - unfold arakawa32, nobndry. rewrite (zrange_cons (xstart m) (xend m + 1)) by lia. cbn [flat_map].
    rewrite (zrange_cons (ystart m) (yend m + 1)) by lia. cbn [map app over_xy]. rewrite Hm. reflexivity.
Qed.
Print Assumptions C52_one_z_point_refuted.

(* a 3 x 4 plane with unequal dx, f and g not constant: the hypotheses hold, and the bracket is not zero *)
Definition m34 := PMesh 2 4 2 2 4.
Definition per34 (h : Z -> Z -> R) : field3 := fun x y z => h ((x - 2) mod 3)%Z z.
Example C52_case : spacings (fun x _ => IZR (x * x + 1)) (fun _ _ => 1 / 2) /\ (forall h, periodic_x m34 (per34 h)) /\
  val ((match arakawa33 false 7 4 m34 (fun _ _ => 1) (fun _ _ => 1) (per34 (fun i _ => if (i =? 0)%Z then 1 else 0)) (per34 (fun _ k => if (k =? 1)%Z then 1 else 0))
   with Ok o => o | _ => unset end) 3%Z 2%Z 2%Z) = - (1 / 4).
Proof.
  split; [|split].
  - intros x y. split; [|lra]. apply not_0_IZR. nia.
  - intros h y z. split; reflexivity.
  - destruct (C52_arakawa false 7 4 m34 (fun _ _ => 1) (fun _ _ => 1) (per34 (fun i _ => if (i =? 0)%Z then 1 else 0)) (per34 (fun _ k => if (k =? 1)%Z then 1 else 0)))
      as [o [E [A _]]]; try lia; [cbn [LocalNz m34]; lia|split; lra|].
    rewrite E, A by (unfold interior, m34; cbn [xstart xend ystart yend LocalNz]; lia). cbn [val].
    unfold jacobian, dX, dZ, wrapz, per34. cbn. lra.
Qed.

(* ---------- C53 ---------- *)
Lemma rem_mod_up z n : (0 <= z < n)%Z -> Z.rem (z + 1) n = ((z + 1) mod n)%Z.
Proof. intros. apply Z.rem_mod_nonneg; lia. Qed.
Lemma rem_mod_down z n : (0 <= z < n)%Z -> Z.rem (z - 1 + n) n = ((z - 1) mod n)%Z.
Proof. intros. rewrite Z.rem_mod_nonneg by lia. replace (z - 1 + n)%Z with (z - 1 + 1 * n)%Z by ring. apply Z.mod_add. lia. Qed.
Lemma courant_gen v h dt e : 0 < e -> 0 < h -> dt <= h / (Rabs v + e) -> 0 <= dt -> Rabs v * dt / h <= 1.
Proof.
  intros He Hh Hl Hd. pose proof (Rabs_pos v). assert (P : 0 < Rabs v + e) by lra.
  apply (Rmult_le_reg_r h); [exact Hh|]. replace (Rabs v * dt / h * h) with (Rabs v * dt) by (field; lra).
  apply (Rmult_le_compat_r (Rabs v + e)) in Hl; [|lra]. replace (h / (Rabs v + e) * (Rabs v + e)) with h in Hl by (field; lra).
  assert (0 <= dt * e) by (apply Rmult_le_pos; lra). nra.
Qed.
Lemma courant v h dt : 0 < h -> dt <= h / (Rabs v + 1 / 10 ^ 16) -> 0 <= dt -> Rabs v * dt / h <= 1.
Proof. apply courant_gen. lra. Qed.
Lemma convex4 lo hi c d a b e f : 0 <= c <= 1 -> 0 <= d <= 1 -> lo <= a <= hi -> lo <= b <= hi -> lo <= e <= hi -> lo <= f <= hi ->
  lo <= (1 - c) * (1 - d) * a + c * (1 - d) * b + (1 - c) * d * e + c * d * f <= hi.
Proof.
  intros C D A B E F.
  assert (P : forall p q r, 0 <= p <= 1 -> lo <= q <= hi -> lo <= r <= hi -> lo <= (1 - p) * q + p * r <= hi) by (intros; nra).
  pose proof (P c a b C A B) as U. pose proof (P c e f C E F) as V. pose proof (P d _ _ D U V) as W.
  replace ((1 - c) * (1 - d) * a + c * (1 - d) * b + (1 - c) * d * e + c * d * f)
    with ((1 - d) * ((1 - c) * a + c * b) + d * ((1 - c) * e + c * f)) by ring. exact W.
Qed.

(** Corner transport upwind: an explicit step dg/dt = -[f,g] no longer than the limits given to the solver stays within the
    bounds of the neighbouring values. *)
Theorem C53_ctu_maximum_principle : forall ncz dx dz dt f g x y z lo hi, (0 <= z < ncz)%Z -> 0 < dx x y -> 0 < dz x y -> 0 <= dt ->
  (forall l, In l (ctu_limits ncz dx dz f x y z) -> dt <= l) ->
  (forall x' z', (x - 1 <= x' <= x + 1)%Z -> (0 <= z' < ncz)%Z -> lo <= g x' y z' <= hi) ->
  lo <= g x y z - dt * ctu_cell ncz dx dz dt f g x y z <= hi.
Proof.
  intros ncz dx dz dt f g x y z lo hi Hz Hdx Hdz Hdt HL HB. unfold ctu_cell.
  rewrite !rem_mod_up, !rem_mod_down by lia. set (zp := ((z + 1) mod ncz)%Z). set (zm := ((z - 1) mod ncz)%Z).
  assert (Bp : (0 <= zp < ncz)%Z) by (apply Z.mod_pos_bound; lia). assert (Bm : (0 <= zm < ncz)%Z) by (apply Z.mod_pos_bound; lia).
  assert (LX : Rabs (ctu_vx ncz dz f x y z) * dt / dx x y <= 1).
  { apply courant; auto. replace (dx x y) with (Rabs (dx x y)) by (apply Rabs_pos_eq; lra). apply HL. now left. }
  assert (LZ : Rabs (ctu_vz dx f x y z) * dt / dz x y <= 1) by (apply courant; auto; apply HL; right; now left).
  set (vx := ctu_vx ncz dz f x y z) in *. set (vz := ctu_vz dx f x y z) in *.
  assert (PX : forall v, 0 <= v -> 0 <= v * dt / dx x y) by (intros; apply Rmult_le_pos; [nra|left; now apply Rinv_0_lt_compat]).
  assert (PZ : forall v, 0 <= v -> 0 <= v * dt / dz x y) by (intros; apply Rmult_le_pos; [nra|left; now apply Rinv_0_lt_compat]).
  assert (G : forall x' z', (x - 1 <= x' <= x + 1)%Z -> (z' = z \/ z' = zp \/ z' = zm) -> lo <= g x' y z' <= hi).
  { intros x' z' Hx' Hz'. apply HB; [exact Hx'|]. destruct Hz' as [->|[->| ->]]; lia. }
  destruct (Rgt_dec vx 0) as [X|X], (Rgt_dec vz 0) as [Z0|Z0].
  - rewrite (Rabs_pos_eq vx) in LX by lra. rewrite (Rabs_pos_eq vz) in LZ by lra.
    pose proof (convex4 lo hi (vx * dt / dx x y) (vz * dt / dz x y) (g x y z) (g (x - 1)%Z y z) (g x y zm) (g (x - 1)%Z y zm)
      (conj (PX vx ltac:(lra)) LX) (conj (PZ vz ltac:(lra)) LZ) (G x z ltac:(lia) ltac:(tauto)) (G (x - 1)%Z z ltac:(lia) ltac:(tauto))
      (G x zm ltac:(lia) ltac:(tauto)) (G (x - 1)%Z zm ltac:(lia) ltac:(tauto))) as C.
    match type of C with _ <= ?E <= _ => match goal with |- _ <= ?F <= _ => replace F with E by (field; lra) end end. exact C.
  - rewrite (Rabs_pos_eq vx) in LX by lra. rewrite (Rabs_left1 vz) in LZ by lra.
    pose proof (convex4 lo hi (vx * dt / dx x y) (- vz * dt / dz x y) (g x y z) (g (x - 1)%Z y z) (g x y zp) (g (x - 1)%Z y zp)
      (conj (PX vx ltac:(lra)) LX) (conj (PZ (- vz) ltac:(lra)) LZ) (G x z ltac:(lia) ltac:(tauto)) (G (x - 1)%Z z ltac:(lia) ltac:(tauto))
      (G x zp ltac:(lia) ltac:(tauto)) (G (x - 1)%Z zp ltac:(lia) ltac:(tauto))) as C.
    match type of C with _ <= ?E <= _ => match goal with |- _ <= ?F <= _ => replace F with E by (field; lra) end end. exact C.
  - rewrite (Rabs_left1 vx) in LX by lra. rewrite (Rabs_pos_eq vz) in LZ by lra.
    pose proof (convex4 lo hi (- vx * dt / dx x y) (vz * dt / dz x y) (g x y z) (g (x + 1)%Z y z) (g x y zm) (g (x + 1)%Z y zm)
      (conj (PX (- vx) ltac:(lra)) LX) (conj (PZ vz ltac:(lra)) LZ) (G x z ltac:(lia) ltac:(tauto)) (G (x + 1)%Z z ltac:(lia) ltac:(tauto))
      (G x zm ltac:(lia) ltac:(tauto)) (G (x + 1)%Z zm ltac:(lia) ltac:(tauto))) as C.
    match type of C with _ <= ?E <= _ => match goal with |- _ <= ?F <= _ => replace F with E by (field; lra) end end. exact C.
  - rewrite (Rabs_left1 vx) in LX by lra. rewrite (Rabs_left1 vz) in LZ by lra.
    pose proof (convex4 lo hi (- vx * dt / dx x y) (- vz * dt / dz x y) (g x y z) (g (x + 1)%Z y z) (g x y zp) (g (x + 1)%Z y zp)
      (conj (PX (- vx) ltac:(lra)) LX) (conj (PZ (- vz) ltac:(lra)) LZ) (G x z ltac:(lia) ltac:(tauto)) (G (x + 1)%Z z ltac:(lia) ltac:(tauto))
      (G x zp ltac:(lia) ltac:(tauto)) (G (x + 1)%Z zp ltac:(lia) ltac:(tauto))) as C.
    match type of C with _ <= ?E <= _ => match goal with |- _ <= ?F <= _ => replace F with E by (field; lra) end end. exact C.
Qed.
Print Assumptions C53_ctu_maximum_principle.

(** For every time step it is exact where g is linear in x and z on the nine points: vx g_x + vz g_z. *)
Theorem C53_ctu_linear : forall ncz dx dz dt f g x y z a b c, (0 <= z < ncz)%Z -> dx x y <> 0 -> dz x y <> 0 ->
  (forall i, (-1 <= i <= 1)%Z -> g (x + i)%Z y z = a + IZR i * b * dx x y /\
     g (x + i)%Z y ((z + 1) mod ncz)%Z = a + IZR i * b * dx x y + c * dz x y /\
     g (x + i)%Z y ((z - 1) mod ncz)%Z = a + IZR i * b * dx x y - c * dz x y) ->
  ctu_cell ncz dx dz dt f g x y z = ctu_vx ncz dz f x y z * b + ctu_vz dx f x y z * c.
Proof.
  intros ncz dx dz dt f g x y z a b c Hz Hdx Hdz H. unfold ctu_cell. rewrite !rem_mod_up, !rem_mod_down by lia.
  destruct (H (-1)%Z ltac:(lia)) as [A1 [A2 A3]]. destruct (H 0%Z ltac:(lia)) as [B1 [B2 B3]]. destruct (H 1%Z ltac:(lia)) as [C1 [C2 C3]].
  rewrite Z.add_0_r in B1, B2, B3. change (x - 1)%Z with (x + -1)%Z.
  set (vx := ctu_vx ncz dz f x y z). set (vz := ctu_vz dx f x y z).
  destruct (Rgt_dec vx 0), (Rgt_dec vz 0); rewrite ?A1, ?A2, ?A3, ?B1, ?B2, ?B3, ?C1, ?C2, ?C3; field; auto.
Qed.
Print Assumptions C53_ctu_linear.

(** With a two-dimensional g the two versions agree for every time step. *)
Theorem C53_ctu_field2d : forall ncz dx dz dt f g x y z, (0 <= z < ncz)%Z -> dx x y <> 0 -> dz x y <> 0 ->
  ctu32_cell ncz dx dz f g x y z = ctu_cell ncz dx dz dt f (lift g) x y z.
Proof.
  intros ncz dx dz dt f g x y z Hz Hdx Hdz. unfold ctu32_cell, ctu_cell, lift.
  set (vx := ctu_vx ncz dz f x y z). set (vz := ctu_vz dx f x y z).
  destruct (Rgt_dec vx 0), (Rgt_dec vz 0); field; auto.
Qed.
Print Assumptions C53_ctu_field2d.

(* f = z at nz = 3 around z = 1: vx = 1, vz = 0; dt = 1/2 below the limits *)
Example C53_case : let f := fun _ _ z => IZR z : R in
  ctu_vx 3 (fun _ _ => 1) f 2 2 1 = 1 /\ ctu_vz (fun _ _ => 1) f 2 2 1 = 0 /\
  (forall l, In l (ctu_limits 3 (fun _ _ => 1) (fun _ _ => 1) f 2 2 1) -> 1 / 2 <= l).
Proof.
  cbv zeta. assert (X : ctu_vx 3 (fun _ _ => 1) (fun _ _ z => IZR z) 2 2 1 = 1).
  { unfold ctu_vx. replace (Z.rem (1 + 1) 3) with 2%Z by reflexivity. replace (Z.rem (1 - 1 + 3) 3) with 0%Z by reflexivity. lra. }
  assert (Z0 : ctu_vz (fun _ _ => 1) (fun _ _ z => IZR z) 2 2 1 = 0) by (unfold ctu_vz; lra).
  split; [exact X|]. split; [exact Z0|]. intros l [<- |[<- |[]]].
  - rewrite X, !Rabs_R1. lra.
  - rewrite Z0, Rabs_R0. lra.
Qed.
