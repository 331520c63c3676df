From Coq Require Import List Arith Reals Bool Lia Lra.
From Verif Require Import AbSpec AbModel.
Import ListNotations.
Local Open Scope R_scope.

(** ** Sums *)
Lemma sum_ext : forall n f g, (forall i, (i < n)%nat -> f i = g i) -> sum_to n f = sum_to n g.
Proof. induction n as [|n IH]; intros f g H; cbn [sum_to]; [reflexivity|]. rewrite (IH f g), H by (intros; try apply H; lia). reflexivity. Qed.
Lemma sum_scal : forall n c f, sum_to n (fun i => c * f i) = c * sum_to n f.
Proof. induction n as [|n IH]; intros c f; cbn [sum_to]; [ring|]. rewrite IH. ring. Qed.
Lemma sum_plus : forall n f g, sum_to n (fun i => f i + g i) = sum_to n f + sum_to n g.
Proof. induction n as [|n IH]; intros f g; cbn [sum_to]; [ring|]. rewrite IH. ring. Qed.
Lemma sum_swap : forall n m f, sum_to n (fun i => sum_to m (fun j => f i j)) = sum_to m (fun j => sum_to n (fun i => f i j)).
Proof.
  induction n as [|n IH]; intros m f; cbn [sum_to].
  - induction m as [|m IHm]; cbn [sum_to]; [reflexivity|]. rewrite <- IHm. ring.
  - rewrite IH, <- sum_plus. reflexivity.
Qed.
Lemma sum_zero : forall n f, (forall i, (i < n)%nat -> f i = 0) -> sum_to n f = 0.
Proof. induction n as [|n IH]; intros f H; cbn [sum_to]; [reflexivity|]. rewrite IH, H by (intros; try apply H; lia). ring. Qed.
Lemma sum_first : forall n f, sum_to (S n) f = f 0%nat + sum_to n (fun k => f (S k)).
Proof.
  induction n as [|n IH]; intros f; [cbn [sum_to]; ring|]. change (sum_to (S (S n)) f) with (sum_to (S n) f + f (S n)).
  rewrite IH. cbn [sum_to]. ring.
Qed.
Lemma sum_one : forall n f j, (j < n)%nat -> (forall i, (i < n)%nat -> i <> j -> f i = 0) -> sum_to n f = f j.
Proof.
  induction n as [|n IH]; intros f j Hj H; [lia|]. cbn [sum_to]. destruct (Nat.eq_dec j n) as [->|Hne].
  - rewrite sum_zero; [ring|]. intros i Hi. apply H; lia.
  - rewrite (IH f j) by (try lia; intros; apply H; lia). rewrite (H n) by lia. ring.
Qed.

(** ** Polynomials *)
Fixpoint padd (p q : list R) : list R :=
  match p, q with [], _ => q | _, [] => p | a :: p', b :: q' => (a + b) :: padd p' q' end.
Lemma padd_pol : forall p q x, pol (padd p q) x = pol p x + pol q x.
Proof.
  induction p as [|a p IH]; intros q x; [cbn [padd pol]; ring|]. destruct q as [|b q]; cbn [padd pol]; [ring|]. rewrite IH. ring.
Qed.
Lemma padd_length : forall p q, length (padd p q) = Nat.max (length p) (length q).
Proof. induction p as [|a p IH]; intros q; [reflexivity|]. destruct q as [|b q]; cbn [padd length]; [reflexivity|]. rewrite IH. reflexivity. Qed.
Lemma pscal_pol : forall c p x, pol (map (fun a => c * a) p) x = c * pol p x.
Proof. intros c. induction p as [|a p IH]; intros x; cbn [map pol]; [ring|]. rewrite IH. ring. Qed.

Definition isP (n : nat) (f : R -> R) : Prop := exists p, (length p <= n)%nat /\ forall x, f x = pol p x.

Lemma isP_const : forall c n, isP (S n) (fun _ => c).
Proof. intros c n. exists [c]. split; [cbn; lia|]. intros x. cbn [pol]. ring. Qed.
Lemma isP_le : forall n m f, (n <= m)%nat -> isP n f -> isP m f.
Proof. intros n m f H (p & Hl & Hp). exists p. split; [lia|exact Hp]. Qed.
Lemma isP_ext : forall n f g, (forall x, f x = g x) -> isP n f -> isP n g.
Proof. intros n f g E (p & Hl & Hp). exists p. split; [exact Hl|]. intros x. rewrite <- E. apply Hp. Qed.
Lemma isP_add : forall n f g, isP n f -> isP n g -> isP n (fun x => f x + g x).
Proof.
  intros n f g (p & Hp & Ep) (q & Hq & Eq). exists (padd p q). split; [rewrite padd_length; lia|].
  intros x. rewrite padd_pol, Ep, Eq. reflexivity.
Qed.
Lemma isP_scal : forall n c f, isP n f -> isP n (fun x => c * f x).
Proof. intros n c f (p & Hp & Ep). exists (map (fun a => c * a) p). split; [rewrite map_length; exact Hp|]. intros x. rewrite pscal_pol, Ep. reflexivity. Qed.
Lemma isP_lin : forall n f c, isP n f -> isP (S n) (fun x => f x * (x - c)).
Proof.
  intros n f c (p & Hp & Ep). exists (padd (0 :: p) (map (fun a => (- c) * a) p)). split.
  - rewrite padd_length, map_length. cbn [length]. lia.
  - intros x. rewrite padd_pol, pscal_pol. cbn [pol]. rewrite Ep. ring.
Qed.
Lemma isP_sum : forall n m (f : nat -> R -> R), (forall i, (i < m)%nat -> isP n (f i)) -> isP n (fun x => sum_to m (fun i => f i x)).
Proof.
  induction m as [|m IH]; intros f H; cbn [sum_to]; [exists []; split; [cbn; lia|reflexivity]|].
  apply isP_add; [apply IH; intros; apply H; lia|apply H; lia].
Qed.

(** A polynomial with as many distinct roots as coefficients vanishes. *)
Fixpoint pdiv (r : R) (p : list R) : list R :=
  match p with [] => [] | a :: q => match q with [] => [] | _ => pol q r :: pdiv r q end end.
Lemma pdiv_pol : forall r p x, pol p x = pol p r + (x - r) * pol (pdiv r p) x.
Proof.
  intros r. induction p as [|a q IH]; intros x; [cbn [pol pdiv]; ring|]. cbn [pdiv]. destruct q as [|b q].
  - cbn [pol]. ring.
  - change (pol (a :: b :: q) x) with (a + x * pol (b :: q) x). change (pol (a :: b :: q) r) with (a + r * pol (b :: q) r).
    change (pol (pol (b :: q) r :: pdiv r (b :: q)) x) with (pol (b :: q) r + x * pol (pdiv r (b :: q)) x).
    rewrite (IH x). ring.
Qed.
Lemma pdiv_length : forall r p, length (pdiv r p) = (length p - 1)%nat.
Proof.
  intros r. induction p as [|a q IH]; [reflexivity|]. cbn [pdiv]. destruct q as [|b q]; [reflexivity|].
  change (length (pol (b :: q) r :: pdiv r (b :: q))) with (S (length (pdiv r (b :: q)))). rewrite IH. cbn [length]. lia.
Qed.
Lemma roots : forall n p (r : nat -> R), (length p <= n)%nat -> (forall i j, (i < j)%nat -> (j < n)%nat -> r i <> r j) ->
  (forall i, (i < n)%nat -> pol p (r i) = 0) -> forall x, pol p x = 0.
Proof.
  induction n as [|n IH]; intros p r Hl Hd Hr x.
  - destruct p; [reflexivity|cbn in Hl; lia].
  - rewrite (pdiv_pol (r n) p x). rewrite (Hr n) by lia.
    rewrite (IH (pdiv (r n) p) r); [ring| | |].
    + rewrite pdiv_length. lia.
    + intros i j Hi Hj. apply Hd; lia.
    + intros i Hi. pose proof (Hr i ltac:(lia)) as E. rewrite (pdiv_pol (r n) p (r i)) in E. rewrite (Hr n) in E by lia.
      rewrite Rplus_0_l in E. apply Rmult_integral in E. destruct E as [E|E]; [|exact E].
      exfalso. apply (Hd i n); [lia|lia|lra].
Qed.

(** ** Lagrange polynomials *)
Section Lagrange.
Variable grid : list R.
Variable k : nat.
Hypothesis distinct : forall i j, (i < j)%nat -> (j < k)%nat -> nth i grid 0 <> nth j grid 0.

Lemma numerator_isP : forall pos n, isP (if (pos <? n)%nat then n else S n) (fun x => lagrange_numerator x grid pos n).
Proof.
  intros pos. induction n as [|n IH]; cbn [lagrange_numerator].
  - destruct (Nat.ltb_spec pos 0); [lia|]. apply isP_const.
  - destruct (Nat.eqb_spec n pos) as [->|Hne].
    + destruct (Nat.ltb_spec pos (S pos)); [|lia]. destruct (Nat.ltb_spec pos pos) as [?|_]; [lia|].
      apply (isP_ext _ (fun x => lagrange_numerator x grid pos pos)); [intros; ring|exact IH].
    + destruct (Nat.ltb_spec pos (S n)); destruct (Nat.ltb_spec pos n); try lia; apply isP_lin; exact IH.
Qed.
Lemma numerator_zero : forall pos n j, (j < n)%nat -> j <> pos -> lagrange_numerator (nth j grid 0) grid pos n = 0.
Proof.
  intros pos. induction n as [|n IH]; intros j Hj Hne; [lia|]. cbn [lagrange_numerator].
  destruct (Nat.eq_dec j n) as [->|Hn].
  - destruct (Nat.eqb_spec n pos); [lia|]. ring.
  - rewrite IH by lia. ring.
Qed.
Lemma numerator_one : forall pos n, (pos < k)%nat -> (n <= k)%nat ->
  lagrange_numerator (nth pos grid 0) grid pos n * lagrange_denominator grid pos n = 1.
Proof.
  intros pos. induction n as [|n IH]; intros Hp Hn; cbn [lagrange_numerator lagrange_denominator]; [ring|].
  specialize (IH Hp ltac:(lia)). destruct (Nat.eqb_spec n pos) as [->|Hne].
  - unfold Rdiv. rewrite Rinv_1, !Rmult_1_r. exact IH.
  - assert (D : nth pos grid 0 - nth n grid 0 <> 0).
    { destruct (Nat.lt_total n pos) as [H|[H|H]]; [|lia|].
      - pose proof (distinct n pos H Hp). lra.
      - pose proof (distinct pos n H ltac:(lia)). lra. }
    etransitivity; [|exact IH]. field. exact D.
Qed.

Definition L (i : nat) (x : R) : R := lagrange_numerator x grid i k * lagrange_denominator grid i k.
Lemma interpolation : forall q, (length q <= k)%nat -> forall x, sum_to k (fun i => pol q (nth i grid 0) * L i x) = pol q x.
Proof.
  intros q Hq x.
  assert (HP : isP k (fun x => sum_to k (fun i => pol q (nth i grid 0) * L i x) + (-1) * pol q x)).
  { apply isP_add; [|apply isP_scal; exists q; split; [exact Hq|reflexivity]].
    apply (isP_sum k k (fun i x => pol q (nth i grid 0) * L i x)). intros i Hi. apply isP_scal.
    apply (isP_ext _ (fun x => lagrange_denominator grid i k * lagrange_numerator x grid i k)); [intros; unfold L; ring|].
    apply isP_scal. pose proof (numerator_isP i k) as H. destruct (Nat.ltb_spec i k); [exact H|lia]. }
  destruct HP as (p & Hl & Hp).
  assert (Z : pol p x = 0).
  { apply (roots k p (fun i => nth i grid 0) Hl distinct). intros j Hj. rewrite <- Hp.
    rewrite (sum_one k _ j Hj).
    - unfold L. rewrite numerator_one by lia. ring.
    - intros i Hi Hne. unfold L. rewrite numerator_zero by lia. ring. }
  rewrite <- Hp in Z. lra.
Qed.
End Lagrange.

(** ** Newton-Cotes rules *)
Definition NC (facs : list R) (a b : R) (g : R -> R) : R :=
  let h := (b - a) / (INR (length facs) - 1) in
  h * sum_to (length facs) (fun i => nth i facs 0 * g (a + INR i * h)).

Lemma NC_monomial : forall k d a b, (1 <= k <= 8)%nat -> (d < S k)%nat ->
  NC (rule k) a b (fun x => x ^ d) = (b ^ S d - a ^ S d) / INR (S d).
Proof.
  intros k d a b Hk Hd.
  assert (H : forall h, INR k * h = b - a -> h * sum_to (S k) (fun i => nth i (rule k) 0 * (a + INR i * h) ^ d) = (b ^ S d - a ^ S d) / INR (S d)).
  { intros h Hh. assert (b = a + INR k * h) as -> by lra. clear Hh.
    assert (Ek : (k = 1 \/ k = 2 \/ k = 3 \/ k = 4 \/ k = 5 \/ k = 6 \/ k = 7 \/ k = 8)%nat) by lia.
    repeat match type of Ek with _ \/ _ => destruct Ek as [Ek|Ek] end; subst k;
    cbn [rule]; unfold nc2, nc3, nc4, nc5, nc6, nc7, nc8, nc9, scaled; cbn [map];
    repeat (destruct d as [|d]; [cbn [sum_to nth INR pow]; field|]); exfalso; lia. }
  unfold NC.
  assert (El : length (rule k) = S k) by (do 9 (destruct k as [|k]; [try lia; reflexivity|]); lia).
  rewrite El. apply H. rewrite S_INR. field. pose proof (lt_0_INR k ltac:(lia)). lra.
Qed.

Lemma NC_linear : forall facs a b n (c : nat -> R) (g : nat -> R -> R),
  NC facs a b (fun x => sum_to n (fun d => c d * g d x)) = sum_to n (fun d => c d * NC facs a b (g d)).
Proof.
  intros facs a b n c g. unfold NC. set (h := (b - a) / _).
  rewrite (sum_ext n (fun d => c d * (h * sum_to (length facs) (fun i => nth i facs 0 * g d (a + INR i * h))))
             (fun d => h * sum_to (length facs) (fun i => c d * (nth i facs 0 * g d (a + INR i * h))))).
  - rewrite sum_scal. f_equal. rewrite sum_swap. apply sum_ext. intros i Hi. rewrite <- sum_scal. apply sum_ext. intros. ring.
  - intros d Hd. rewrite <- sum_scal. rewrite <- !sum_scal. apply sum_ext. intros. ring.
Qed.
Lemma NC_ext : forall facs a b f g, (forall x, f x = g x) -> NC facs a b f = NC facs a b g.
Proof. intros facs a b f g H. unfold NC. f_equal. apply sum_ext. intros i Hi. rewrite H. reflexivity. Qed.

Lemma pol_sum : forall p x, pol p x = sum_to (length p) (fun d => nth d p 0 * x ^ d).
Proof.
  induction p as [|a q IH]; intros x; [reflexivity|]. cbn [length]. rewrite sum_first. cbn [nth pow pol]. rewrite IH, <- sum_scal.
  rewrite Rmult_1_r. f_equal. apply sum_ext. intros. ring.
Qed.
Lemma sum_deriv : forall n (c : nat -> R) x,
  derivable_pt_lim (fun y => sum_to n (fun d => c d * (y ^ S d / INR (S d)))) x (sum_to n (fun d => c d * x ^ d)).
Proof.
  induction n as [|n IH]; intros c x; cbn [sum_to]; [apply derivable_pt_lim_const|].
  apply (derivable_pt_lim_plus (fun y => sum_to n (fun d => c d * (y ^ S d / INR (S d)))) (fun y => c n * (y ^ S n / INR (S n)))); [apply IH|].
  apply (derivable_pt_lim_ext (fun y => (c n / INR (S n)) * y ^ S n)); [intros; field; apply not_0_INR; lia|].
  replace (c n * x ^ n) with ((c n / INR (S n)) * (INR (S n) * x ^ Nat.pred (S n))) by (cbn [Nat.pred]; field; apply not_0_INR; lia).
  apply (derivable_pt_lim_scal (fun y => y ^ S n)). apply derivable_pt_lim_pow.
Qed.
Lemma same_derivative : forall F G f, antiderivative_of F f -> antiderivative_of G f -> forall a b, F b - F a = G b - G a.
Proof.
  intros F G f HF HG.
  assert (H : forall a b, a < b -> F b - F a = G b - G a).
  { intros a b Hab. destruct (MVT_cor2 (fun x => F x - G x) (fun _ => 0) a b Hab) as (c & Hc & _); [|lra].
    intros x _. replace 0 with (f x - f x) by ring. apply (derivable_pt_lim_minus F G); [apply HF|apply HG]. }
  intros a b. destruct (Rtotal_order a b) as [Hl|[->|Hg]]; [apply H; exact Hl|ring|]. pose proof (H b a Hg). lra.
Qed.
Lemma NC_exact : forall k q Q a b, (1 <= k <= 8)%nat -> (length q <= S k)%nat -> antiderivative_of Q (pol q) ->
  NC (rule k) a b (pol q) = Q b - Q a.
Proof.
  intros k q Q a b Hk Hq HQ.
  rewrite (same_derivative Q (fun y => sum_to (length q) (fun d => nth d q 0 * (y ^ S d / INR (S d)))) (pol q) HQ).
  - rewrite (NC_ext _ _ _ (pol q) (fun x => sum_to (length q) (fun d => nth d q 0 * x ^ d))) by (apply pol_sum).
    rewrite (NC_linear (rule k) a b (length q) (fun d => nth d q 0) (fun d x => x ^ d)).
    transitivity (sum_to (length q) (fun d => nth d q 0 * (b ^ S d / INR (S d)) + (-1) * (nth d q 0 * (a ^ S d / INR (S d))))).
    + apply sum_ext. intros d Hd. rewrite NC_monomial by lia. field. apply not_0_INR. lia.
    + rewrite sum_plus, sum_scal. ring.
  - intros x. rewrite pol_sum. apply sum_deriv.
Qed.

(** ** The coefficients *)
Lemma interpolate_loop_sum : forall start h points pos facs Nm1 n,
  interpolate_loop start h points pos facs Nm1 n = sum_to n (fun i => nth i facs 0 * lagrange_numerator (start + INR i * h) points pos Nm1).
Proof. intros. induction n as [|n IH]; cbn [interpolate_loop sum_to]; [reflexivity|]. rewrite IH. reflexivity. Qed.

Lemma rule_length : forall k, (1 <= k <= 8)%nat -> length (rule k) = S k.
Proof. intros k Hk. do 9 (destruct k as [|k]; [try lia; reflexivity|]). lia. Qed.

Lemma curve_NC : forall a b points i k, (1 <= k <= 8)%nat ->
  integrate_lagrange_curve a b points i k = NC (rule k) a b (L points k i).
Proof.
  intros a b points i k Hk. unfold integrate_lagrange_curve, lagrange_interpolate, NC. cbv zeta.
  rewrite interpolate_loop_sum, rule_length by exact Hk. replace (S k - 1)%nat with k by lia.
  set (h := (b - a) / _).
  rewrite (sum_ext (S k) (fun i0 => nth i0 (rule k) 0 * L points k i (a + INR i0 * h))
    (fun j => lagrange_denominator points i k * (nth j (rule k) 0 * lagrange_numerator (a + INR j * h) points i k))).
  - rewrite sum_scal. ring.
  - intros j Hj. unfold L. ring.
Qed.

Lemma coeffs_nth : forall nextp points k i, (i < k)%nat ->
  nth i (get_adams_bashforth_coefficients nextp points k) 0 = integrate_lagrange_curve (nth 0 points 0) nextp points i k.
Proof.
  intros nextp points k i Hi. unfold get_adams_bashforth_coefficients.
  rewrite (nth_indep _ 0 (integrate_lagrange_curve (nth 0 points 0) nextp points 0 k)) by (rewrite map_length, seq_length; exact Hi).
  rewrite (map_nth (fun i => integrate_lagrange_curve (nth 0 points 0) nextp points i k) (seq 0 k) 0%nat i).
  rewrite seq_nth by exact Hi. reflexivity.
Qed.

Theorem coefficients_exact : forall k points nextp q Q, (1 <= k <= 8)%nat ->
  (forall i j, (i < j)%nat -> (j < k)%nat -> nth i points 0 <> nth j points 0) ->
  (length q <= k)%nat -> antiderivative_of Q (pol q) ->
  sum_to k (fun i => nth i (get_adams_bashforth_coefficients nextp points k) 0 * pol q (nth i points 0))
  = Q nextp - Q (nth 0 points 0).
Proof.
  intros k points nextp q Q Hk Hd Hq HQ.
  rewrite (sum_ext k _ (fun i => pol q (nth i points 0) * NC (rule k) (nth 0 points 0) nextp (L points k i))).
  - rewrite <- NC_linear. rewrite <- (NC_exact k q Q _ _ Hk ltac:(lia) HQ). apply NC_ext. intros x.
    apply interpolation; assumption.
  - intros i Hi. rewrite coeffs_nth, curve_NC by (exact Hi || exact Hk). ring.
Qed.

Lemma update_loop_sum : forall coeffs history n update i,
  update_loop coeffs history n update i = update i + sum_to n (fun j => nth j history (fun _ => 0) i * nth j coeffs 0).
Proof. intros coeffs history. induction n as [|n IH]; intros update i; cbn [update_loop sum_to]; [ring|]. rewrite IH. ring. Qed.

(** ** The history *)
Definition hist_ok (mx : nat) (h : hist) : Prop :=
  (1 <= h_order h <= length (h_times h))%nat /\ length (h_times h) = length (h_derivs h) /\ (length (h_times h) <= mx)%nat /\
  newest_first (h_times h) /\ hd_error (h_times h) = Some (h_simtime h).

Lemma newest_tail : forall n l, newest_first l -> newest_first (firstn n l).
Proof.
  induction n as [|n IH]; intros l H; [exact I|]. destruct l as [|a r]; [exact I|]. cbn [firstn newest_first] in *.
  destruct H as (H1 & H2). split; [|apply IH; exact H2]. destruct r as [|b r]; [destruct n; exact I|]. destruct n; [exact I|exact H1].
Qed.
Lemma before_step_ok : forall mx t0 derivs lower dts n, (1 <= mx)%nat -> (forall m, 0 < dts m) ->
  hist_ok mx (before_step mx t0 derivs lower dts n) /\
  length (h_times (before_step mx t0 derivs lower dts n)) = Nat.min (S n) mx.
Proof.
  intros mx t0 derivs lower dts n Hmx Hd. induction n as [|n ((Ho & Hl & Hm & Hn & Hh) & Hlen)].
  - cbn [before_step push h_times]. split; [|cbn [length]; lia]. unfold hist_ok.
    cbn [push h_order h_times h_derivs h_simtime length newest_first hd_error].
    split; [lia|]. split; [reflexivity|]. split; [lia|]. split; [split; exact I|reflexivity].
  - cbn [before_step]. set (h := before_step mx t0 derivs lower dts n) in *.
    set (h' := finish mx h (lower n) (dts n)).
    assert (A1 : length (h_times h') = (Nat.min (S (S n)) mx - 1)%nat).
    { unfold h', finish. cbn [h_times]. destruct (Nat.eqb_spec (length (h_times h)) mx); [unfold pop_back; rewrite firstn_length|]; lia. }
    assert (A2 : length (h_derivs h') = length (h_times h')).
    { unfold h', finish. cbn [h_times h_derivs]. rewrite <- Hl.
      destruct (Nat.eqb_spec (length (h_times h)) mx); [unfold pop_back; rewrite !firstn_length, <- Hl|]; lia. }
    assert (A3 : newest_first (h_times h')).
    { unfold h', finish. cbn [h_times]. destruct (_ =? _)%nat; [unfold pop_back; apply newest_tail|]; exact Hn. }
    assert (A4 : match h_times h' with [] => True | b :: _ => b < h_simtime h' end).
    { unfold h', finish. cbn [h_times h_simtime]. specialize (Hd n). destruct (h_times h) as [|a r] eqn:E; [discriminate|].
      injection Hh as <-. destruct (_ =? _)%nat; [|lra]. unfold pop_back. cbn [length]. replace (S (length r) - 1)%nat with (length r) by lia.
      destruct r as [|b r]; [exact I|]. cbn [length firstn]. lra. }
    assert (A5 : (1 <= h_order h' <= Nat.min (S (S n)) mx)%nat).
    { unfold h', finish. cbn [h_order]. destruct (lower n); cbn [andb].
      - destruct (Nat.ltb_spec 1 (h_order h)); [destruct (Nat.ltb_spec (h_order h - 1) mx)|destruct (Nat.ltb_spec (h_order h) mx)]; lia.
      - destruct (Nat.ltb_spec (h_order h) mx); lia. }
    assert (Hp : length (h_times (push h' (derivs (S n)))) = Nat.min (S (S n)) mx) by (cbn [push h_times length]; lia).
    split; [|exact Hp]. unfold hist_ok. rewrite Hp. cbn [push h_order h_times h_derivs length h_simtime newest_first hd_error].
    split; [lia|]. split; [lia|]. split; [lia|]. split; [split; assumption|reflexivity].
Qed.

Lemma newest_lt : forall l i j, newest_first l -> (i < j)%nat -> (j < length l)%nat -> nth j l 0 < nth i l 0.
Proof.
  induction l as [|a r IH]; intros i j H Hij Hj; [cbn in Hj; lia|]. destruct j as [|j]; [lia|]. cbn [newest_first] in H.
  destruct H as (H1 & H2). cbn [nth length] in *. destruct i as [|i]; [|apply IH; [exact H2|lia|lia]].
  destruct r as [|b r]; [cbn in Hj; lia|]. destruct j as [|j]; [exact H1|].
  pose proof (IH 0%nat (S j) H2 ltac:(lia) ltac:(lia)) as H3. cbn [nth] in H3 |- *. lra.
Qed.
