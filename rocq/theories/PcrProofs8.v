(** The whole solver. *)
From Coq Require Import List Arith Bool Lia ZArith Field.
From Verif Require Import MpiModel MpiProofs MpiRounds PcrModel SptSpec PcrProofs PcrProofs2 PcrProofs3 PcrProofs4 PcrProofs5 PcrProofs6.
Import ListNotations.

Section S.
Variable F : Type.
Variables (f0 f1 : F) (fadd fmul fsub fdiv : F -> F -> F) (fopp finv : F -> F).
Hypothesis FT : field_theory f0 f1 fadd fmul fsub fopp fdiv finv (@eq F).
Add Field FF8 : FT.
Local Infix "+!" := fadd (at level 50, left associativity).
Local Infix "-!" := fsub (at level 50, left associativity).
Local Infix "*!" := fmul (at level 40, left associativity).
Local Infix "/!" := fdiv (at level 40, left associativity).
Variable is_zero : F -> bool.
Hypothesis is_zero_spec : forall x, is_zero x = true <-> x = f0.
Notation matrix := (matrix F).
Notation vector := (vector F).
Notation msg := (msg F).

(** Values at the boundaries, given that the rows hold for [y]. *)
Lemma bc_in_ok nsys (d : matrix) (y : vector) m : forall x : vector,
  (forall kz k, kz < nsys -> k < m -> cb F (d kz k) <> f0 /\ cb F (d kz k) *! y kz k +! cc F (d kz k) *! y kz (k + 1) = cr F (d kz k)) ->
  (forall kz, kz < nsys -> x kz m = y kz m) ->
  exists x', bc_in F fmul fsub fdiv is_zero nsys m d x = Ret x' /\ forall kz k, kz < nsys -> x' kz k = if k <? m then y kz k else x kz k.
Proof.
  induction m as [|m IH]; intros x HR HX.
  - exists x. split; [reflexivity|]. intros kz k _. reflexivity.
  - cbn [bc_in]. rewrite (nonzero_ok F f0 is_zero is_zero_spec) by (intros kz Hk; apply HR; [exact Hk|lia]). cbn [must bind].
    match goal with |- exists x', bc_in _ _ _ _ _ _ _ _ ?v = _ /\ _ => set (x1 := v) end.
    assert (V : forall kz, kz < nsys -> x1 kz m = y kz m).
    { intros kz Hk. unfold x1, set_x. rewrite Nat.eqb_refl. replace (m + 1) with (S m) by lia. rewrite (HX kz Hk). destruct (HR kz m Hk ltac:(lia)) as [P E]. rewrite <- E. replace (m + 1) with (S m) by lia. field. exact P. }
    destruct (IH x1) as (x' & E & V'); [intros kz k Hk Hm; apply HR; [exact Hk|lia]|exact V|]. exists x'. split; [exact E|]. intros kz k Hk. rewrite V' by exact Hk.
    destruct (Nat.ltb_spec k m), (Nat.ltb_spec k (S m)); try lia; try reflexivity.
    + replace k with m by lia. apply V. exact Hk.
    + unfold x1, set_x. destruct (Nat.eqb_spec k m); [lia|reflexivity].
Qed.
Lemma bc_out_ok nsys (d : matrix) (y : vector) m : forall ix (x : vector), 1 <= ix ->
  (forall kz k, kz < nsys -> ix <= k < ix + m -> cb F (d kz k) <> f0 /\ ca F (d kz k) *! y kz (k - 1) +! cb F (d kz k) *! y kz k = cr F (d kz k)) ->
  (forall kz, kz < nsys -> x kz (ix - 1) = y kz (ix - 1)) ->
  exists x', bc_out F fmul fsub fdiv is_zero nsys m ix d x = Ret x' /\ forall kz k, kz < nsys -> x' kz k = if (ix <=? k) && (k <? ix + m) then y kz k else x kz k.
Proof.
  induction m as [|m IH]; intros ix x Hi HR HX.
  - exists x. split; [reflexivity|]. intros kz k _. destruct (Nat.leb_spec ix k), (Nat.ltb_spec k (ix + 0)); cbn [andb]; try reflexivity; lia.
  - cbn [bc_out]. rewrite (nonzero_ok F f0 is_zero is_zero_spec) by (intros kz Hk; apply HR; [exact Hk|lia]). cbn [must bind].
    match goal with |- exists x', bc_out _ _ _ _ _ _ _ _ _ ?v = _ /\ _ => set (x1 := v) end.
    assert (V : forall kz, kz < nsys -> x1 kz ix = y kz ix).
    { intros kz Hk. unfold x1, set_x. rewrite Nat.eqb_refl. rewrite (HX kz Hk). destruct (HR kz ix Hk ltac:(lia)) as [P E]. rewrite <- E. field. exact P. }
    destruct (IH (S ix) x1) as (x' & E & V'); [lia|intros kz k Hk Hm; apply HR; [exact Hk|lia]|intros kz Hk; replace (S ix - 1) with ix by lia; apply V; exact Hk|]. exists x'. split; [exact E|]. intros kz k Hk. rewrite V' by exact Hk.
    destruct (Nat.leb_spec (S ix) k), (Nat.leb_spec ix k), (Nat.ltb_spec k (S ix + m)), (Nat.ltb_spec k (ix + S m)); cbn [andb]; try lia; try reflexivity.
    all: first [unfold x1, set_x; destruct (Nat.eqb_spec k ix); [lia|reflexivity] | replace k with ix by lia; apply V; exact Hk].
Qed.

Variables (nsys kn kN xs : nat).
Hypothesis Hxs : 1 <= xs.
Let n := 2 ^ kn.
Let N := 2 ^ kN.
Notation T := (N * n).
Notation nx := (N * n + 2 * xs).
Variable G : nat -> nat -> cell F.
Notation E1 kz := (after_in F f0 fmul fsub fdiv (G kz) xs).
Notation E2 kz := (after_out F f0 fmul fsub fdiv (E1 kz) (nx - 1) xs).
Notation el := (el F f0 fmul fsub fdiv).
Notation eo := (eo F f0 fmul fsub fdiv).
Hypothesis pin : forall kz k, kz < nsys -> k < xs -> cb F (el (G kz) k) <> f0.
Hypothesis pout : forall kz k, kz < nsys -> k < xs -> cb F (eo (E1 kz) (nx - 1) k) <> f0.
Definition base (kz : nat) (z : Z) : cell F := if ((1 <=? z) && (z <=? Z.of_nat T))%Z then E2 kz (xs + Z.to_nat z - 1) else unit_row F f0 f1.
Hypothesis fa : forall kz, kz < nsys -> ca F (E2 kz xs) = f0.
Hypothesis lc : forall kz, kz < nsys -> cc F (E2 kz (xs + T - 1)) = f0.
Hypothesis pivots : forall kz l g, kz < nsys -> l <= kn + kN -> cb F (red F fadd fmul fdiv fopp (base kz) l g) <> f0.
Variable eager : chan -> nat -> bool.
Notation offset := (offset xs).
Notation nrows := (nrows xs n N).
Definition first_of (p : nat) : nat := if p =? 0 then 0 else p * n + xs.
Variable d : nat -> matrix.
Hypothesis rep : forall p kz j, p < N -> kz < nsys -> j < nrows p -> d p kz j = G kz (first_of p + j).

Lemma n1 : 1 <= n. Proof. exact (pow2_pos kn). Qed.
Lemma N1 : 1 <= N. Proof. exact (pow2_pos kN). Qed.
Lemma T1 : 1 <= T. Proof. pose proof n1. pose proof N1. nia. Qed.
Lemma base_in kz p k : p < N -> 1 <= k <= n -> base kz (Z.of_nat (p * n + k)) = E2 kz (p * n + xs + k - 1).
Proof.
  intros Hp Hk. unfold base. assert (p * n + k <= T) by nia. destruct (Z.leb_spec 1 (Z.of_nat (p * n + k))), (Z.leb_spec (Z.of_nat (p * n + k)) (Z.of_nat T)); try lia. cbn [andb]. rewrite Nat2Z.id. f_equal. lia.
Qed.
Lemma outside kz g : kz < nsys -> (g < 1 \/ Z.of_nat T < g)%Z -> base kz g = unit_row F f0 f1.
Proof. intros _ H. unfold base. destruct (Z.leb_spec 1 g), (Z.leb_spec g (Z.of_nat T)); cbn [andb]; try reflexivity; lia. Qed.
Lemma first_row kz : kz < nsys -> ca F (base kz 1) = f0.
Proof. intros Hk. pose proof T1. unfold base. destruct (Z.leb_spec 1 (Z.of_nat T)); [|lia]. cbn [Z.leb Z.compare Pos.compare Pos.compare_cont andb]. replace (xs + Z.to_nat 1 - 1) with xs by lia. apply fa. exact Hk. Qed.
Lemma last_row kz : kz < nsys -> cc F (base kz (Z.of_nat T)) = f0.
Proof. intros Hk. pose proof T1. unfold base. destruct (Z.leb_spec 1 (Z.of_nat T)), (Z.leb_spec (Z.of_nat T) (Z.of_nat T)); try lia. cbn [andb]. rewrite Nat2Z.id. apply lc. exact Hk. Qed.

(** Elimination on processor [p]. *)
Notation elim p := (eliminate_boundary_rows F f0 fmul fsub fdiv is_zero nsys xs n N p (d p)).
Definition dE (p : nat) : matrix := got F (d p) (elim p).
Lemma in_part p : p < N -> exists d1, (if firstX p then elim_in F f0 fmul fsub fdiv is_zero nsys xs 1 (d p) else Ret (d p)) = Ret d1 /\ forall kz j, kz < nsys -> j < nrows p -> d1 kz j = E1 kz (first_of p + j).
Proof.
  intros Hp. pose proof n1 as Hn. unfold firstX. destruct (Nat.eqb_spec p 0) as [E0|NE].
  - assert (RW : forall kz k, kz < nsys -> k <= xs -> el (d p kz) k = el (G kz) k).
    { intros kz k Hk Hm. apply el_ext. intros g Hg. rewrite rep; [|exact Hp|exact Hk|unfold PcrModel.nrows, PcrModel.offset, firstX; rewrite (proj2 (Nat.eqb_eq p 0) E0); lia]. unfold first_of. rewrite (proj2 (Nat.eqb_eq p 0) E0). reflexivity. }
    destruct (elim_in_ok F f0 fmul fsub fdiv is_zero is_zero_spec nsys (d p) xs 0 (d p)) as (d1 & E & V).
    + intros kz k. unfold after_in. destruct (Nat.leb_spec k 0); [|reflexivity]. replace k with 0 by lia. reflexivity.
    + intros kz k Hk Hm. cbn [Nat.add] in Hm. rewrite RW by (assumption || lia). apply pin; assumption.
    + exists d1. split; [exact E|]. intros kz j Hk Hj. rewrite V. unfold after_in. unfold first_of. rewrite (proj2 (Nat.eqb_eq p 0) E0). cbn [Nat.add].
      destruct (Nat.leb_spec j xs); [apply RW; assumption|]. rewrite rep by assumption. unfold first_of. rewrite (proj2 (Nat.eqb_eq p 0) E0). reflexivity.
  - exists (d p). split; [reflexivity|]. intros kz j Hk Hj. rewrite rep by assumption. unfold first_of, after_in. destruct (Nat.eqb_spec p 0); [lia|]. destruct (Nat.leb_spec (p * n + xs + j) xs); [nia|reflexivity].
Qed.
Lemma top_row p : p < N -> p = N - 1 -> first_of p + (nrows p - 1) = nx - 1 /\ xs < nrows p.
Proof.
  intros Hp E. pose proof n1 as Hn. unfold first_of, PcrModel.nrows, PcrModel.offset, firstX, lastX. rewrite (proj2 (Nat.eqb_eq p (N - 1)) E). destruct (Nat.eqb_spec p 0) as [E0|NE].
  - assert (N = 1) by lia. replace (N * n) with n by nia. lia.
  - replace (N * n) with (p * n + n) by nia. lia.
Qed.
Lemma elim_ok p : p < N -> elim p = Ret (dE p) /\ forall kz j, kz < nsys -> j < nrows p -> dE p kz j = E2 kz (first_of p + j).
Proof.
  intros Hp. pose proof n1 as Hn. destruct (in_part p Hp) as (d1 & E & V). unfold dE, eliminate_boundary_rows. rewrite E. cbn [bind]. unfold lastX at 1 2 3. destruct (Nat.eqb_spec p (N - 1)) as [EL|NE].
  - destruct (top_row p Hp EL) as [TR NR]. set (t := nrows p - 1) in *.
    assert (RW : forall kz k, kz < nsys -> k <= xs -> eo (d1 kz) t k = eo (E1 kz) (nx - 1) k).
    { intros kz k Hk Hm. apply eo_ext. intros j Hj. rewrite V by (unfold t; lia). f_equal. lia. }
    destruct (elim_out_ok F f0 fmul fsub fdiv is_zero is_zero_spec nsys d1 t xs 0 d1) as (d2 & E' & V').
    + intros kz k. unfold after_out. destruct (Nat.leb_spec (t - 0) k), (Nat.leb_spec k t); cbn [andb]; try reflexivity. replace k with t by lia. rewrite Nat.sub_diag. reflexivity.
    + unfold t. lia.
    + intros kz k Hk Hm. cbn [Nat.add] in Hm. rewrite RW by (assumption || lia). apply pout; assumption.
    + replace (nrows p - 2) with (t - 1) by (unfold t; lia). rewrite E'. cbn [got]. split; [reflexivity|]. intros kz j Hk Hj. rewrite V'. cbn [Nat.add]. unfold after_out.
      destruct (Nat.leb_spec (t - xs) j), (Nat.leb_spec j t), (Nat.leb_spec (nx - 1 - xs) (first_of p + j)), (Nat.leb_spec (first_of p + j) (nx - 1)); try (exfalso; unfold t in *; lia); cbn [andb].
      * rewrite RW by (assumption || lia). f_equal. lia.
      * apply V; assumption.
  - cbn [got]. split; [reflexivity|]. intros kz j Hk Hj. rewrite V by assumption. unfold after_out. assert (B : first_of p + j < nx - 1 - xs).
    { unfold PcrModel.nrows, PcrModel.offset, firstX, lastX, first_of in *. destruct (Nat.eqb_spec p (N - 1)); [lia|]. destruct (Nat.eqb_spec p 0); nia. }
    destruct (Nat.leb_spec (nx - 1 - xs) (first_of p + j)); [lia|reflexivity].
Qed.
Lemma off_first p : first_of p + offset p = p * n + xs.
Proof. unfold first_of, PcrModel.offset, firstX. destruct (Nat.eqb_spec p 0) as [->|]; lia. Qed.
Lemma off_rows p : offset p + n <= nrows p.
Proof. unfold PcrModel.nrows. lia. Qed.
Notation inter p := (interior F f0 f1 xs n p (dE p)).
Lemma inter_inv : level_inv F f0 f1 fadd fmul fdiv fopp nsys kn kN base 0 (fun p => inter p).
Proof.
  intros p kz Hp Hk. pose proof n1 as Hn. split; [|split].
  - intros j k H1 H2 _ _. replace j with 0 by lia. cbn [red]. fold n in H1 |- *. unfold interior. destruct (Nat.eqb_spec k 0), (Nat.eqb_spec k (n + 1)); try lia. cbn [orb].
    destruct (elim_ok p Hp) as [_ V]. rewrite V; [|exact Hk|pose proof (off_rows p); lia]. rewrite base_in by assumption. f_equal. pose proof (off_first p). lia.
  - intros _. reflexivity.
  - intros _. unfold interior. fold n. rewrite Nat.eqb_refl, orb_true_r. reflexivity.
Qed.

(** The solution. *)
Notation solves kz y := (tri_solution F f0 fadd fmul nx (fun g => ca F (G kz g)) (fun g => cb F (G kz g)) (fun g => cc F (G kz g)) (fun g => cr F (G kz g)) y).
Notation solves2 kz y := (tri_solution F f0 fadd fmul nx (fun g => ca F (E2 kz g)) (fun g => cb F (E2 kz g)) (fun g => cc F (E2 kz g)) (fun g => cr F (E2 kz g)) y).
Lemma equiv kz y : kz < nsys -> (solves kz y <-> solves2 kz y).
Proof.
  intros Hk. pose proof T1. rewrite (in_equiv F f0 f1 fadd fmul fsub fdiv fopp finv FT nx y (G kz) xs); [|lia|intros; apply pin; assumption].
  apply (out_equiv F f0 f1 fadd fmul fsub fdiv fopp finv FT nx y (E1 kz) xs); [lia|intros; apply pout; assumption].
Qed.
Lemma E2_guard_in kz g : g < xs -> E2 kz g = el (G kz) g.
Proof. intros H. pose proof T1. unfold after_out. destruct (Nat.leb_spec (nx - 1 - xs) g); [lia|]. cbn [andb]. unfold after_in. destruct (Nat.leb_spec g xs); [reflexivity|lia]. Qed.
Lemma E2_guard_out kz g : xs + T <= g < nx -> E2 kz g = eo (E1 kz) (nx - 1) (nx - 1 - g).
Proof. intros H. unfold after_out. destruct (Nat.leb_spec (nx - 1 - xs) g), (Nat.leb_spec g (nx - 1)); try lia. reflexivity. Qed.
Lemma guard_in kz y g : g < xs -> (lhs F f0 fadd fmul nx y (E2 kz) g = cb F (E2 kz g) *! y g +! cc F (E2 kz g) *! y (g + 1)).
Proof.
  intros H. pose proof T1. unfold lhs. destruct (Nat.ltb_spec (S g) nx); [|lia]. replace (g + 1) with (S g) by lia. destruct g as [|h]; [ring|].
  assert (CA : ca F (E2 kz (S h)) = f0). { rewrite (E2_guard_in kz (S h) H). reflexivity. }
  rewrite CA. ring.
Qed.
Lemma guard_out kz y g : xs + T <= g < nx -> (lhs F f0 fadd fmul nx y (E2 kz) g = ca F (E2 kz g) *! y (g - 1) +! cb F (E2 kz g) *! y g).
Proof.
  intros H. pose proof T1. unfold lhs. destruct g as [|h]; [lia|]. replace (S h - 1) with h by lia. destruct (Nat.ltb_spec (S (S h)) nx); [|ring].
  assert (CC : cc F (E2 kz (S h)) = f0). { rewrite (E2_guard_out kz (S h) H). replace (nx - 1 - S h) with (S (nx - 1 - S h - 1)) by lia. reflexivity. }
  rewrite CC. ring.
Qed.
Definition XZ (y : nat -> nat -> F) (kz : nat) (z : Z) : F := if ((1 <=? z) && (z <=? Z.of_nat T))%Z then y kz (xs + Z.to_nat z - 1) else f0.
Lemma XZ_in y kz p k : p < N -> 1 <= k <= n -> XZ y kz (Z.of_nat (p * n + k)) = y kz (p * n + xs + k - 1).
Proof.
  intros Hp Hk. unfold XZ. assert (p * n + k <= T) by nia. destruct (Z.leb_spec 1 (Z.of_nat (p * n + k))), (Z.leb_spec (Z.of_nat (p * n + k)) (Z.of_nat T)); try lia. cbn [andb]. rewrite Nat2Z.id. f_equal. lia.
Qed.
Lemma XZ_zero y kz : zero_outside F f0 (Z.of_nat T) (XZ y kz).
Proof. intros g H. unfold XZ. destruct (Z.leb_spec 1 g), (Z.leb_spec g (Z.of_nat T)); cbn [andb]; try reflexivity; lia. Qed.
(** Row z of the interior system. *)
Lemma inner_row y kz z : kz < nsys -> (1 <= z <= Z.of_nat T)%Z -> let g := xs + Z.to_nat z - 1 in
  eqn F fadd fmul fsub fdiv fopp (base kz) 0 (XZ y kz) z = lhs F f0 fadd fmul nx (y kz) (E2 kz) g -! cr F (E2 kz g).
Proof.
  intros Hk Hz. cbv zeta. unfold eqn. cbn [red]. assert (D0 : dist 0 = 1%Z) by reflexivity. rewrite D0. unfold base at 1 2 3 4. destruct (Z.leb_spec 1 z), (Z.leb_spec z (Z.of_nat T)); try lia. cbn [andb].
  set (g := xs + Z.to_nat z - 1). unfold lhs. destruct (Nat.ltb_spec (S g) nx); [|unfold g in *; lia]. destruct g as [|h] eqn:Eg; [unfold g in *; lia|]. f_equal. f_equal; [f_equal|].
  - destruct (Z.eq_dec z 1) as [->|N1'].
    + assert (S h = xs) by (unfold g in Eg; lia). rewrite <- Eg. replace g with xs by (unfold g; lia). rewrite fa by exact Hk. ring.
    + f_equal. unfold XZ. destruct (Z.leb_spec 1 (z - 1)), (Z.leb_spec (z - 1) (Z.of_nat T)); try lia. cbn [andb]. f_equal. unfold g in Eg. lia.
  - f_equal. unfold XZ. destruct (Z.leb_spec 1 z), (Z.leb_spec z (Z.of_nat T)); try lia. cbn [andb]. f_equal. exact Eg.
  - destruct (Z.eq_dec z (Z.of_nat T)) as [->|N1'].
    + rewrite <- Eg. replace g with (xs + T - 1) by (unfold g; lia). rewrite lc by exact Hk. ring.
    + f_equal. unfold XZ. destruct (Z.leb_spec 1 (z + 1)), (Z.leb_spec (z + 1) (Z.of_nat T)); try lia. cbn [andb]. f_equal. unfold g in Eg. lia.
Qed.
Lemma sub0 a b : a = b -> a -! b = f0. Proof. intros ->. ring. Qed.
Lemma sub0' a b : a -! b = f0 -> a = b. Proof. intros H. transitivity ((a -! b) +! b); [ring|rewrite H; ring]. Qed.
Lemma XZ_solution y kz : kz < nsys -> solves kz (y kz) -> solution F f0 fadd fmul fsub fdiv fopp (Z.of_nat T) (base kz) (XZ y kz).
Proof. intros Hk HS z Hz. rewrite inner_row by assumption. apply sub0. apply (proj1 (equiv kz (y kz) Hk) HS). lia. Qed.

(** A solution exists. *)
Section Exists.
Variables (kz : nat) (X : Z -> F).
Fixpoint back_in (i : nat) : F := match i with O => X 1%Z | S h => (cr F (E2 kz (xs - S h)) -! cc F (E2 kz (xs - S h)) *! back_in h) /! cb F (E2 kz (xs - S h)) end.
Fixpoint back_out (i : nat) : F := match i with O => X (Z.of_nat T) | S h => (cr F (E2 kz (xs + T + h)) -! ca F (E2 kz (xs + T + h)) *! back_out h) /! cb F (E2 kz (xs + T + h)) end.
Definition full (g : nat) : F := if g <? xs then back_in (xs - g) else if g <? xs + T then X (Z.of_nat (g - xs + 1)) else back_out (g - (xs + T) + 1).
Lemma full_solves : kz < nsys -> zero_outside F f0 (Z.of_nat T) X -> solution F f0 fadd fmul fsub fdiv fopp (Z.of_nat T) (base kz) X -> solves kz full.
Proof.
  intros Hk X0 XS. apply (equiv kz full Hk). intros g Hg. change (lhs F f0 fadd fmul nx full (E2 kz) g = cr F (E2 kz g)). pose proof T1. destruct (Nat.ltb_spec g xs) as [B|B].
  - rewrite guard_in by exact B. assert (P : cb F (E2 kz g) <> f0) by (rewrite E2_guard_in by exact B; apply pin; assumption).
    assert (V : full g = (cr F (E2 kz g) -! cc F (E2 kz g) *! full (g + 1)) /! cb F (E2 kz g)).
    { unfold full at 1. destruct (Nat.ltb_spec g xs); [|lia]. replace (xs - g) with (S (xs - g - 1)) by lia. cbn [back_in]. replace (xs - S (xs - g - 1)) with g by lia. f_equal. f_equal. f_equal.
      unfold full. destruct (Nat.ltb_spec (g + 1) xs); [f_equal; lia|]. destruct (Nat.ltb_spec (g + 1) (xs + T)); [|lia]. replace (xs - g - 1) with 0 by lia. cbn [back_in]. f_equal. lia. }
    rewrite V. field. exact P.
  - destruct (Nat.ltb_spec g (xs + T)) as [B2|B2].
    + pose proof (XS (Z.of_nat (g - xs + 1)) ltac:(lia)) as E. assert (EX : eqn F fadd fmul fsub fdiv fopp (base kz) 0 (XZ (fun _ => full) kz) (Z.of_nat (g - xs + 1)) = f0).
      { rewrite <- E. unfold eqn. assert (XX : forall z, XZ (fun _ => full) kz z = X z).
        { intros z. unfold XZ. destruct (Z.leb_spec 1 z), (Z.leb_spec z (Z.of_nat T)); cbn [andb]; try (symmetry; apply X0; lia). unfold full. destruct (Nat.ltb_spec (xs + Z.to_nat z - 1) xs), (Nat.ltb_spec (xs + Z.to_nat z - 1) (xs + T)); try lia. f_equal. lia. }
        rewrite !XX. reflexivity. }
      rewrite inner_row in EX by (assumption || lia). apply sub0' in EX. replace (xs + Z.to_nat (Z.of_nat (g - xs + 1)) - 1) with g in EX by lia. exact EX.
    + rewrite guard_out by lia. assert (P : cb F (E2 kz g) <> f0) by (rewrite E2_guard_out by lia; apply pout; [exact Hk|lia]).
      assert (V : full g = (cr F (E2 kz g) -! ca F (E2 kz g) *! full (g - 1)) /! cb F (E2 kz g)).
      { unfold full at 1. destruct (Nat.ltb_spec g xs), (Nat.ltb_spec g (xs + T)); try lia. replace (g - (xs + T) + 1) with (S (g - (xs + T))) by lia. cbn [back_out]. replace (xs + T + (g - (xs + T))) with g by lia. f_equal. f_equal. f_equal.
        unfold full. destruct (Nat.ltb_spec (g - 1) xs); [lia|]. destruct (Nat.ltb_spec (g - 1) (xs + T)).
        - replace (g - (xs + T)) with 0 by lia. cbn [back_out]. f_equal. lia.
        - f_equal. lia. }
      rewrite V. field. exact P.
Qed.
End Exists.
Lemma exists_all kz : kz < nsys -> exists y, solves kz y.
Proof.
  intros Hk. destruct (exists_solution F f0 f1 fadd fmul fsub fdiv fopp finv FT (Z.of_nat T) (base kz)) with (L := kn + kN) as (X & X0 & XS).
  - intros; apply outside; assumption.
  - apply first_row; exact Hk.
  - apply last_row; exact Hk.
  - intros; apply pivots; assumption.
  - rewrite dist_nat, Nat.pow_add_r. unfold N, n. f_equal. lia.
  - exists (full kz X). apply full_solves; assumption.
Qed.

(** One execution. *)
Notation solver p := (cr_pcr_solver F f0 f1 fadd fmul fsub fdiv fopp is_zero nsys xs n N p).
Variable x0 : nat -> vector.
Notation start := (initial msg vector (fun p => solver p (d p) (x0 p))).
Lemma runs y : (forall kz, kz < nsys -> solves kz (y kz)) ->
  exists st xf, reach msg vector N eager start st /\ quiet msg vector N st (fun p => Ret (xf p)) /\
    forall p kz j, p < N -> (kz < nsys -> j < nrows p -> xf p kz j = y kz (first_of p + j)) /\ (nsys <= kz -> xf p kz j = x0 p kz j).
Proof.
  intros HY. pose proof n1 as Hn. pose proof N1 as HN.
  set (k4 := fun p (y1 : vector) => bind (apply_boundary_conditions F fmul fsub fdiv is_zero nsys xs n N p (dE p) (copy_back F xs n p y1 (x0 p)))
    (fun z => Ret (fun kz j => if kz <? nsys then z kz j else x0 p kz j))).
  set (k3 := fun p (s : matrix * vector) => bind (cr_backward F fmul fsub fdiv is_zero nsys n N p (fst s) (snd s)) (k4 p)).
  set (k2 := fun p (w : matrix) => bind (solve_pair F fmul fsub fdiv is_zero nsys n N p w (interior_x F f0 xs n p (x0 p))) (k3 p)).
  set (k1 := fun p (w : matrix) => bind (pcr_forward F f0 fadd fmul fdiv fopp is_zero nsys n N p (Nat.log2 N - 1) 1 w) (k2 p)).
  assert (Q0 : quiet msg vector N start (fun p => bind (cr_forward F fadd fmul fdiv fopp is_zero nsys n N p kn (2 ^ 0) (inter p)) (k1 p))).
  { split; [|intros c; split; reflexivity]. intros p Hp. cbn [initial procs]. unfold cr_pcr_solver. destruct (elim_ok p Hp) as [E _]. rewrite E. cbn [bind]. assert (LG : Nat.log2 n = kn) by (unfold n; apply Nat.log2_pow2; lia). rewrite LG. reflexivity. }
  destruct (cr_stage F f0 f1 fadd fmul fsub fdiv fopp finv FT is_zero is_zero_spec nsys kn kN vector eager base outside last_row pivots kn 0 (fun p => inter p) k1 start ltac:(lia) inter_inv Q0) as (s1 & d1 & R1 & Q1 & I1).
  assert (LG : Nat.log2 N = kN) by (unfold N; apply Nat.log2_pow2; lia). unfold k1 in Q1. rewrite LG in Q1.
  destruct (pcr_stage F f0 f1 fadd fmul fsub fdiv fopp finv FT is_zero is_zero_spec nsys kn kN vector eager base outside first_row last_row pivots (kN - 1) 0 d1 k2 s1 ltac:(lia) (start_inv F f0 f1 fadd fmul fdiv fopp nsys kn kN base d1 I1) Q1) as (s2 & d2 & R2 & Q2 & I2).
  unfold k2 in Q2. pose proof (fun kz (_ : kz < nsys) => XZ_zero y kz) as X0. pose proof (fun kz Hk => XZ_solution y kz Hk (HY kz Hk)) as XS.
  destruct (pair_round F f0 f1 fadd fmul fsub fdiv fopp finv FT is_zero is_zero_spec nsys kn kN vector eager base outside first_row last_row pivots (XZ y) X0 XS d2 (fun p => interior_x F f0 xs n p (x0 p)) k3 I2 s2 Q2) as (s3 & R3 & Q3).
  unfold k3 in Q3. cbn [fst snd] in Q3.
  pose proof (fun p kz => sd_inner F f0 f1 fadd fmul fdiv fopp nsys kn kN base d2 I2 p kz) as HI.
  pose proof (fun p kz => sx_val F f0 f1 fadd fmul fsub fdiv fopp finv FT nsys kn kN base outside first_row last_row pivots (XZ y) X0 XS d2 (fun p => interior_x F f0 xs n p (x0 p)) I2 p kz) as HX.
  destruct (back_round F f0 f1 fadd fmul fsub fdiv fopp finv FT is_zero is_zero_spec nsys kn kN vector eager base outside first_row pivots (XZ y) X0 XS _ _ k4 HI HX s3 Q3) as (s4 & R4 & Q4).
  set (xb := x_back F fmul fsub fdiv is_zero nsys kn (sd F kn kN d2) (sx F fmul fsub fdiv kn kN d2 (fun p => interior_x F f0 xs n p (x0 p)))) in *.
  assert (XB : forall p kz k0, p < N -> kz < nsys -> 1 <= k0 <= n -> xb p kz k0 = y kz (p * n + xs + k0 - 1)).
  { intros p kz k0 Hp Hk H0. rewrite <- XZ_in by assumption.
    destruct (x_back_ok F f0 f1 fadd fmul fsub fdiv fopp finv FT is_zero is_zero_spec nsys kn kN base outside first_row pivots (XZ y) X0 XS _ _ HI HX p Hp) as [_ V]. apply V; assumption. }
  assert (FIN : forall p, p < N -> exists xf, k4 p (xb p) = Ret xf /\ forall kz j, (kz < nsys -> j < nrows p -> xf kz j = y kz (first_of p + j)) /\ (nsys <= kz -> xf kz j = x0 p kz j)).
  { intros p Hp. enough (K : exists xf, apply_boundary_conditions F fmul fsub fdiv is_zero nsys xs n N p (dE p) (copy_back F xs n p (xb p) (x0 p)) = Ret xf /\ forall kz j, kz < nsys -> j < nrows p -> xf kz j = y kz (first_of p + j)).
    { destruct K as (xf & E & V). unfold k4. rewrite E. cbn [bind]. eexists. split; [reflexivity|]. intros kz j. cbv beta. destruct (Nat.ltb_spec kz nsys); split; intros; try lia; [apply V; assumption|reflexivity]. }
    unfold apply_boundary_conditions. set (yl := fun kz j => y kz (first_of p + j)). set (xc := copy_back F xs n p (xb p) (x0 p)). destruct (elim_ok p Hp) as [_ DE]. pose proof (off_first p) as OF. pose proof (off_rows p) as OR.
    assert (XC : forall kz j, kz < nsys -> offset p <= j < offset p + n -> xc kz j = yl kz j).
    { intros kz j Hk Hj. unfold xc, copy_back, yl. destruct (Nat.leb_spec (offset p) j), (Nat.ltb_spec j (offset p + n)); try lia. cbn [andb]. rewrite XB by (assumption || lia). f_equal. lia. }
    assert (A : exists x1, (if firstX p then bc_in F fmul fsub fdiv is_zero nsys xs (dE p) xc else Ret xc) = Ret x1 /\ forall kz j, kz < nsys -> j < offset p + n -> x1 kz j = yl kz j).
    { destruct (firstX p) eqn:FX.
      - assert (OX : offset p = xs) by (unfold PcrModel.offset; rewrite FX; reflexivity). assert (F0 : first_of p = 0) by (unfold first_of; unfold firstX in FX; rewrite FX; reflexivity).
        destruct (bc_in_ok nsys (dE p) yl xs xc) as (x1 & E & V).
        + intros kz k0 Hk H0. rewrite DE by (assumption || lia). rewrite F0. cbn [Nat.add]. split; [rewrite E2_guard_in by exact H0; apply pin; assumption|].
          unfold yl. rewrite F0. cbn [Nat.add]. rewrite <- guard_in by exact H0. apply (proj1 (equiv kz (y kz) Hk) (HY kz Hk)). lia.
        + intros kz Hk. apply XC; [exact Hk|lia].
        + exists x1. split; [exact E|]. intros kz j Hk Hj. rewrite V by exact Hk. destruct (Nat.ltb_spec j xs); [reflexivity|]. apply XC; [exact Hk|lia].
      - exists xc. split; [reflexivity|]. intros kz j Hk Hj. apply XC; [exact Hk|]. unfold PcrModel.offset in *. rewrite FX in *. lia. }
    destruct A as (x1 & E & V). rewrite E. cbn [bind]. destruct (lastX N p) eqn:LX.
    - assert (NR : nrows p = offset p + n + xs) by (unfold PcrModel.nrows; rewrite LX; reflexivity).
      assert (TR : first_of p + (nrows p - 1) = nx - 1) by (apply top_row; [exact Hp|unfold lastX in LX; apply Nat.eqb_eq; exact LX]).
      destruct (bc_out_ok nsys (dE p) yl xs (nrows p - xs) x1) as (x2 & E' & V').
      + lia.
      + intros kz k0 Hk H0. rewrite DE by (assumption || lia). split; [rewrite E2_guard_out by lia; apply pout; [exact Hk|lia]|].
        unfold yl. replace (first_of p + (k0 - 1)) with (first_of p + k0 - 1) by lia. rewrite <- guard_out by lia. apply (proj1 (equiv kz (y kz) Hk) (HY kz Hk)). lia.
      + intros kz Hk. apply V; [exact Hk|lia].
      + exists x2. split; [exact E'|]. intros kz j Hk Hj. rewrite V' by exact Hk. destruct (Nat.leb_spec (nrows p - xs) j), (Nat.ltb_spec j (nrows p - xs + xs)); cbn [andb]; try lia; try reflexivity; (apply V; [exact Hk|lia]).
    - exists x1. split; [reflexivity|]. intros kz j Hk Hj. apply V; [exact Hk|]. unfold PcrModel.nrows in Hj. rewrite LX in Hj. lia. }
  exists s4, (fun p => got F (xb p) (k4 p (xb p))). split; [|split].
  - eapply reach_trans; [exact R1|]. eapply reach_trans; [exact R2|]. eapply reach_trans; eassumption.
  - eapply quiet_ext; [|exact Q4]. intros p Hp. destruct (FIN p Hp) as (xf & E & _). rewrite E. reflexivity.
  - intros p kz j Hp. destruct (FIN p Hp) as (xf & E & V). rewrite E. cbn [got]. apply V.
Qed.
End S.
