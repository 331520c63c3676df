(** Local error of an explicit Runge-Kutta method whose tableau satisfies the order conditions, for right hand sides that
    are polynomial in time and state. *)
From Coq Require Import List Arith Bool Lia Reals QArith Qreals Lra FunctionalExtensionality.
From Verif Require Import RkSpec RkModel RkProofs RkOrder.
Import ListNotations.
Local Open Scope R_scope.

(** ** Course-of-values recursion *)
Section Rec.
Context {A : Type} (dflt : A) (step : nat -> (nat -> A) -> A).
Fixpoint upto (n : nat) : nat -> A :=
  match n with
  | O => fun _ => dflt
  | S n' => fun j => if (j =? n')%nat then step n' (upto n') else upto n' j
  end.
Definition rec (n : nat) : A := upto (S n) n.
Lemma upto_rec : forall n j, (j < n)%nat -> upto n j = rec j.
Proof.
  induction n as [|n IH]; intros j Hj; [lia|]. unfold rec. cbn [upto]. rewrite Nat.eqb_refl.
  destruct (Nat.eqb_spec j n) as [->|Hne]; [reflexivity|]. rewrite IH by lia. unfold rec. cbn [upto]. rewrite Nat.eqb_refl. reflexivity.
Qed.
Hypothesis local : forall n k k', (forall j, (j < n)%nat -> k j = k' j) -> step n k = step n k'.
Lemma rec_eq : forall n, rec n = step n rec.
Proof. intros n. unfold rec at 1. cbn [upto]. rewrite Nat.eqb_refl. apply local. intros j Hj. apply upto_rec. exact Hj. Qed.
End Rec.

(** ** Expansions in the step size on an interval *)
Section Asy.
Variable d : R.

Definition bounded (g : R -> R) : Prop := exists B, forall h, 0 < h <= d -> Rabs (g h) <= B.

Fixpoint asy (N : nat) (s : nat -> R) (g : R -> R) : Prop :=
  match N with
  | O => bounded g
  | S N' => exists g1, (forall h, 0 < h <= d -> g h = s 0%nat + h * g1 h) /\ asy N' (fun n => s (S n)) g1
  end.

Lemma bounded_plus : forall f g, bounded f -> bounded g -> bounded (fun h => f h + g h).
Proof.
  intros f g (A & HA) (B & HB). exists (A + B). intros h Hh. pose proof (HA h Hh). pose proof (HB h Hh).
  pose proof (Rabs_triang (f h) (g h)). lra.
Qed.
Lemma bounded_mult : forall f g, bounded f -> bounded g -> bounded (fun h => f h * g h).
Proof.
  intros f g (A & HA) (B & HB). exists (A * B). intros h Hh. rewrite Rabs_mult.
  apply Rmult_le_compat; try apply Rabs_pos; [apply HA|apply HB]; exact Hh.
Qed.
Lemma bounded_const : forall c, bounded (fun _ => c).
Proof. intros c. exists (Rabs c). intros. lra. Qed.
Lemma bounded_id : bounded (fun h => h).
Proof. exists d. intros h Hh. rewrite Rabs_right; lra. Qed.
Lemma bounded_ext : forall f g, (forall h, 0 < h <= d -> f h = g h) -> bounded f -> bounded g.
Proof. intros f g E (A & HA). exists A. intros h Hh. rewrite <- E by exact Hh. apply HA. exact Hh. Qed.

Lemma asy_ext : forall N s t f g, (forall n, (n < N)%nat -> s n = t n) -> (forall h, 0 < h <= d -> f h = g h) ->
  asy N s f -> asy N t g.
Proof.
  induction N as [|N IH]; intros s t f g Es Ef H; cbn [asy] in *.
  - eapply bounded_ext; eassumption.
  - destruct H as (g1 & H1 & H2). exists g1. split.
    + intros h Hh. rewrite <- Ef, <- Es by (exact Hh || lia). apply H1. exact Hh.
    + apply (IH (fun n => s (S n)) _ g1); [intros; apply Es; lia|reflexivity|exact H2].
Qed.
Lemma asy_bounded : forall N s g, asy N s g -> bounded g.
Proof.
  induction N as [|N IH]; intros s g H; cbn [asy] in *; [exact H|]. destruct H as (g1 & H1 & H2).
  apply (bounded_ext (fun h => s 0%nat + h * g1 h)); [intros; symmetry; apply H1; assumption|].
  apply bounded_plus; [apply bounded_const|]. apply bounded_mult; [apply bounded_id|]. exact (IH _ _ H2).
Qed.
Lemma asy_S : forall N s g, asy (S N) s g -> asy N s g.
Proof.
  induction N as [|N IH]; intros s g H; [exact (asy_bounded _ _ _ H)|].
  destruct H as (g1 & H1 & H2). exists g1. split; [exact H1|]. apply IH. exact H2.
Qed.
Lemma asy_le : forall N M s g, (N <= M)%nat -> asy M s g -> asy N s g.
Proof.
  intros N M s g H. induction H as [|M H IH]; intros HM; [exact HM|]. apply IH. apply asy_S. exact HM.
Qed.
Lemma asy_plus : forall N s t f g, asy N s f -> asy N t g -> asy N (fun n => s n + t n) (fun h => f h + g h).
Proof.
  induction N as [|N IH]; intros s t f g Hf Hg; cbn [asy] in *; [apply bounded_plus; assumption|].
  destruct Hf as (f1 & F1 & F2), Hg as (g1 & G1 & G2). exists (fun h => f1 h + g1 h). split.
  - intros h Hh. rewrite F1, G1 by exact Hh. ring.
  - apply (IH _ _ _ _ F2 G2).
Qed.
Lemma asy_scal : forall N c s f, asy N s f -> asy N (fun n => c * s n) (fun h => c * f h).
Proof.
  induction N as [|N IH]; intros c s f Hf; cbn [asy] in *.
  - apply bounded_mult; [apply bounded_const|exact Hf].
  - destruct Hf as (f1 & F1 & F2). exists (fun h => c * f1 h). split.
    + intros h Hh. rewrite F1 by exact Hh. ring.
    + apply (IH c _ _ F2).
Qed.
Lemma asy_zero : forall N, asy N (fun _ => 0) (fun _ => 0).
Proof.
  induction N as [|N IH]; cbn [asy]; [apply bounded_const|]. exists (fun _ => 0). split; [intros; ring|exact IH].
Qed.
Lemma asy_one : forall N, asy N sone (fun _ => 1).
Proof.
  intros [|N]; cbn [asy]; [apply bounded_const|]. exists (fun _ => 0). split; [intros; cbn [sone]; ring|].
  apply (asy_ext N (fun _ => 0) _ (fun _ => 0)); [reflexivity|reflexivity|apply asy_zero].
Qed.
Definition sh (s : nat -> R) : nat -> R := fun n => match n with O => 0 | S k => s k end.
Lemma asy_shift : forall N s f, asy N s f -> asy (S N) (sh s) (fun h => h * f h).
Proof. intros N s f H. cbn [asy]. exists f. split; [intros; cbn [sh]; ring|exact H]. Qed.

Lemma rsum_first : forall n (f : nat -> R), rsum (S n) f = f 0%nat + rsum n (fun k => f (S k)).
Proof.
  induction n as [|n IH]; intros f; [cbn [rsum]; lra|]. change (rsum (S (S n)) f) with (rsum (S n) f + f (S n)).
  rewrite IH. cbn [rsum]. lra.
Qed.
Lemma smul_0 : forall s t, smul s t 0%nat = s 0%nat * t 0%nat.
Proof. intros. unfold smul. cbn [rsum]. cbn [Nat.sub]. lra. Qed.
Lemma smul_S : forall s t n, smul s t (S n) = s 0%nat * t (S n) + smul (fun k => s (S k)) t n.
Proof.
  intros. unfold smul at 1. rewrite rsum_first. cbn [Nat.sub]. unfold smul. reflexivity.
Qed.
Lemma asy_mult : forall N s t f g, asy N s f -> asy N t g -> asy N (smul s t) (fun h => f h * g h).
Proof.
  induction N as [|N IH]; intros s t f g Hf Hg; [cbn [asy] in *; apply bounded_mult; assumption|].
  pose proof (asy_S _ _ _ Hg) as Hg'.
  destruct Hf as (f1 & F1 & F2), Hg as (g1 & G1 & G2). exists (fun h => s 0%nat * g1 h + f1 h * g h). split.
  - intros h Hh. rewrite smul_0. rewrite F1 by exact Hh.
    replace ((s 0%nat + h * f1 h) * g h) with (s 0%nat * g h + h * (f1 h * g h)) by ring. rewrite (G1 h Hh) at 1. ring.
  - apply (asy_ext N (fun n => s 0%nat * t (S n) + smul (fun k => s (S k)) t n) _
             (fun h => s 0%nat * g1 h + f1 h * g h)); [intros; symmetry; apply smul_S|reflexivity|].
    apply asy_plus; [apply (asy_scal N _ _ _ G2)|]. apply IH; assumption.
Qed.

Lemma asy_rsum : forall N n (s : nat -> nat -> R) (f : nat -> R -> R),
  (forall i, (i < n)%nat -> asy N (s i) (f i)) -> asy N (fun k => rsum n (fun i => s i k)) (fun h => rsum n (fun i => f i h)).
Proof.
  induction n as [|n IH]; intros s f H; cbn [rsum]; [apply asy_zero|].
  apply asy_plus; [apply IH; intros; apply H; lia|apply H; lia].
Qed.

Lemma asy_sprod : forall N U (u : nat -> R -> R), (forall v, asy N (U v) (u v)) ->
  forall l, asy N (sprod U l) (fun h => vprod (fun v => u v h) l).
Proof.
  intros N U u H. induction l as [|v l IH]; [apply asy_one|].
  unfold sprod, vprod. cbn [fold_right]. apply asy_mult; [apply H|exact IH].
Qed.
Lemma asy_seval : forall N U (u : nat -> R -> R), (forall v, asy N (U v) (u v)) ->
  forall p, asy N (sevalp U p) (fun h => evalp (fun v => u v h) p).
Proof.
  intros N U u H. unfold sevalp, evalp. induction p as [|[c l] p IH]; cbn [lsum fst snd]; [apply asy_zero|].
  apply asy_plus; [|exact IH]. apply asy_scal. apply asy_sprod. exact H.
Qed.

(** Explicit form. *)
Lemma asy_bound : forall N s g, asy N s g ->
  exists B, 0 <= B /\ forall h, 0 < h <= d -> Rabs (g h - rsum N (fun n => s n * h ^ n)) <= B * h ^ N.
Proof.
  induction N as [|N IH]; intros s g H; cbn [asy] in *.
  - destruct H as (B & HB). exists (Rabs B). split; [apply Rabs_pos|]. intros h Hh. cbn [rsum pow]. rewrite Rminus_0_r, Rmult_1_r.
    eapply Rle_trans; [apply HB; exact Hh|apply RRle_abs].
  - destruct H as (g1 & H1 & H2). destruct (IH _ _ H2) as (B & HB0 & HB). exists B. split; [exact HB0|]. intros h Hh.
    rewrite rsum_first, (H1 h Hh). cbn [pow].
    rewrite (rsum_ext N (fun k => s (S k) * (h * h ^ k)) (fun k => h * (s (S k) * h ^ k))) by (intros; ring).
    rewrite rsum_scal.
    replace (s 0%nat + h * g1 h - (s 0%nat * 1 + h * rsum N (fun k => s (S k) * h ^ k)))
      with (h * (g1 h - rsum N (fun k => s (S k) * h ^ k))) by ring.
    rewrite Rabs_mult, (Rabs_right h) by lra. pose proof (HB h Hh).
    replace (B * (h * h ^ N)) with (h * (B * h ^ N)) by ring. apply Rmult_le_compat_l; [lra|assumption].
Qed.
Lemma asy_of_bound : forall N s g B,
  (forall h, 0 < h <= d -> Rabs (g h - rsum N (fun n => s n * h ^ n)) <= B * h ^ N) -> asy N s g.
Proof.
  induction N as [|N IH]; intros s g B H; cbn [asy].
  - exists B. intros h Hh. specialize (H h Hh). cbn [rsum pow] in H. rewrite Rminus_0_r, Rmult_1_r in H. exact H.
  - exists (fun h => (g h - s 0%nat) / h). split; [intros; field; lra|].
    apply (IH _ _ B). intros h Hh. specialize (H h Hh). rewrite rsum_first in H. cbn [pow] in H.
    rewrite (rsum_ext N (fun k => s (S k) * (h * h ^ k)) (fun k => h * (s (S k) * h ^ k))) in H by (intros; ring).
    rewrite rsum_scal in H.
    replace (g h - (s 0%nat * 1 + h * rsum N (fun k => s (S k) * h ^ k)))
      with (h * ((g h - s 0%nat) / h - rsum N (fun k => s (S k) * h ^ k))) in H by (field; lra).
    rewrite Rabs_mult, (Rabs_right h) in H by lra.
    apply (Rmult_le_reg_l h); [lra|]. eapply Rle_trans; [exact H|]. right. ring.
Qed.

(** Integration. *)
Lemma rsum_deriv : forall N (s : nat -> R) x,
  derivable_pt_lim (fun y => rsum N (fun n => s n / INR (S n) * y ^ S n)) x (rsum N (fun n => s n * x ^ n)).
Proof.
  induction N as [|N IH]; intros s x; cbn [rsum]; [apply derivable_pt_lim_const|].
  apply (derivable_pt_lim_plus (fun y => rsum N (fun n => s n / INR (S n) * y ^ S n)) (fun y => s N / INR (S N) * y ^ S N));
    [apply IH|].
  replace (s N * x ^ N) with (s N / INR (S N) * (INR (S N) * x ^ Nat.pred (S N)))
    by (cbn [Nat.pred]; field; apply not_0_INR; lia).
  apply (derivable_pt_lim_scal (fun y => y ^ S N)). apply derivable_pt_lim_pow.
Qed.
Lemma asy_integrate : forall N s u w,
  u 0 = 0 -> (forall x, 0 <= x <= d -> derivable_pt_lim u x (w x)) -> asy N s w ->
  asy (S N) (sh (fun n => s n / INR (S n))) u.
Proof.
  intros N s u w U0 HU Hw. destruct (asy_bound _ _ _ Hw) as (B & HB0 & HB).
  apply (asy_of_bound _ _ _ B). intros h Hh.
  rewrite rsum_first. cbn [sh]. rewrite Rmult_0_l, Rplus_0_l.
  set (phi := fun x => u x - rsum N (fun n => s n / INR (S n) * x ^ S n)).
  set (dphi := fun x => w x - rsum N (fun n => s n * x ^ n)).
  destruct (MVT_cor2 phi dphi 0 h) as (c & Hc & Hc1); [lra| |].
  - intros x Hx. apply (derivable_pt_lim_minus u (fun x => rsum N (fun n => s n / INR (S n) * x ^ S n))); [apply HU; lra|].
    apply rsum_deriv.
  - assert (P0 : phi 0 = 0).
    { unfold phi. rewrite U0. rewrite (rsum_0 N); [lra|]. intros i Hi. rewrite pow_i by lia. ring. }
    assert (Hphi : phi h = dphi c * h) by lra.
    unfold phi in Hphi. rewrite Hphi, Rabs_mult, (Rabs_right h) by lra.
    cbn [pow]. replace (B * (h * h ^ N)) with (B * h ^ N * h) by ring. apply Rmult_le_compat_r; [lra|].
    eapply Rle_trans; [apply HB; lra|]. apply Rmult_le_compat_l; [exact HB0|].
    apply pow_incr. lra.
Qed.
End Asy.

(** ** The formal solution exists *)
Lemma smul_local : forall s s' t t' n, (forall k, (k <= n)%nat -> s k = s' k) -> (forall k, (k <= n)%nat -> t k = t' k) ->
  smul s t n = smul s' t' n.
Proof. intros s s' t t' n Hs Ht. unfold smul. apply rsum_ext. intros k Hk. rewrite Hs, Ht by lia. reflexivity. Qed.
Lemma sprod_local : forall U U' l n, (forall v k, (k <= n)%nat -> U v k = U' v k) -> sprod U l n = sprod U' l n.
Proof.
  intros U U'. induction l as [|v l IH]; intros n H; [reflexivity|]. unfold sprod. cbn [fold_right].
  apply smul_local; [intros; apply H; assumption|]. intros k Hk. apply IH. intros w j Hj. apply H. lia.
Qed.
Lemma sevalp_local : forall U U' p n, (forall v k, (k <= n)%nat -> U v k = U' v k) -> sevalp U p n = sevalp U' p n.
Proof. intros U U' p n H. unfold sevalp. apply lsum_ext. intros cl _. f_equal. apply sprod_local. exact H. Qed.

Lemma formal_exists : forall G, exists ex, formal_solution G ex.
Proof.
  intros G.
  set (step := fun (n : nat) (k : nat -> vec) => fun m : nat =>
    match n with O => 0 | S n' => sevalp (fun v j => if (j <=? n')%nat then k j v else 0) (G m) n' / INR (S n') end).
  set (e := rec (fun _ => 0) step).
  assert (He : forall n, e n = step n e).
  { apply rec_eq. intros n k k' H. unfold step. extensionality m. destruct n as [|n]; [reflexivity|].
    f_equal. apply sevalp_local. intros v j Hj. destruct (Nat.leb_spec j n); [|reflexivity]. rewrite H by lia. reflexivity. }
  exists (fun m n => e n m). split.
  - intros m. rewrite He. reflexivity.
  - intros m n. cbv beta. rewrite (He (S n)). unfold step at 1.
    replace (INR (S n) * (sevalp (fun v j => if (j <=? n)%nat then e j v else 0) (G m) n / INR (S n)))
      with (sevalp (fun v j => if (j <=? n)%nat then e j v else 0) (G m) n) by (field; apply not_0_INR; lia).
    apply sevalp_local. intros v k Hk. destruct (Nat.leb_spec k n); [reflexivity|lia].
Qed.

Lemma stage_series_exists : forall G T, exists K, stage_series G T K.
Proof.
  intros G T.
  set (step := fun (i : nat) (K : nat -> nat -> nat -> R) => fun m n : nat =>
    sevalp (fun v k => match k with O => 0 | S k' => rsum i (fun j => Q2R (ba T i j) * K j v k') end) (G m) n).
  set (e := rec (fun _ _ => 0) step).
  assert (He : forall n, e n = step n e).
  { apply rec_eq. intros i k k' H. unfold step. extensionality m. extensionality n. apply sevalp_local.
    intros v j Hj. destruct j as [|j]; [reflexivity|]. apply rsum_ext. intros q Hq. rewrite H by exact Hq. reflexivity. }
  exists e. intros i Hi m n. rewrite He. reflexivity.
Qed.

Lemma poly_value_evalp : forall z p, poly_value z p = evalp z p.
Proof. intros z. induction p as [|cl p IH]; [reflexivity|]. cbn [poly_value fold_right]. unfold evalp. cbn [lsum]. unfold vprod. f_equal. exact IH. Qed.

(** ** Numerical solution of an autonomous polynomial system *)
Section Core.
Variable F : nat -> poly.
Variable z0 : vec.
Variable T : butcher.
Variable d : R.
Let G : nat -> poly := fun m => shift z0 (F m).

Lemma numeric_asy : forall K (k : R -> nat -> vec), stage_series G T K ->
  (forall h i v, 0 < h <= d -> (i < bs T)%nat ->
     k h i v = evalp (fun w => z0 w + h * rsum i (fun j => Q2R (ba T i j) * k h j w)) (F v)) ->
  forall N i, (i < bs T)%nat -> forall v, asy d N (K i v) (fun h => k h i v).
Proof.
  intros K k HK Hk N.
  assert (H : forall b i, (i <= b)%nat -> (i < bs T)%nat -> forall v, asy d N (K i v) (fun h => k h i v)).
  { induction b as [b IH] using lt_wf_ind. intros i Hb Hi v.
    apply (asy_ext d N (sevalp (fun v k => match k with O => 0 | S k' => rsum i (fun j => Q2R (ba T i j) * K j v k') end) (G v)) _
             (fun h => evalp (fun w => h * rsum i (fun j => Q2R (ba T i j) * k h j w)) (G v))).
    - intros n _. symmetry. apply HK. exact Hi.
    - intros h Hh. rewrite Hk by assumption. unfold G. apply shift_eval.
    - apply asy_seval. intros w.
      apply (asy_ext d N (sh (fun n => rsum i (fun j => Q2R (ba T i j) * K j w n))) _
               (fun h => h * rsum i (fun j => Q2R (ba T i j) * k h j w))); [intros [|n] _; reflexivity|reflexivity|].
      apply asy_S. apply asy_shift.
      apply (asy_rsum d N i (fun j n => Q2R (ba T i j) * K j w n) (fun j h => Q2R (ba T i j) * k h j w)).
      intros j Hj. apply asy_scal. apply (IH j); lia. }
  intros i Hi v. apply (H i); [lia|exact Hi].
Qed.

Lemma exact_asy : forall ex (u : nat -> R -> R), formal_solution G ex ->
  (forall v, u v 0 = 0) -> (forall v, bounded d (u v)) ->
  (forall v x, 0 <= x <= d -> derivable_pt_lim (u v) x (evalp (fun w => z0 w + u w x) (F v))) ->
  forall N v, asy d N (ex v) (u v).
Proof.
  intros ex u (E0 & ES) U0 UB UD. induction N as [|N IH]; intros v; [apply UB|].
  apply (asy_ext d (S N) (sh (fun n => sevalp ex (G v) n / INR (S n))) _ (u v)).
  - intros [|n] _; cbn [sh]; [symmetry; apply E0|]. rewrite <- ES. field. apply not_0_INR. lia.
  - reflexivity.
  - apply (asy_integrate d N _ (u v) (fun x => evalp (fun w => u w x) (G v))); [apply U0| |].
    + intros x Hx. unfold G. rewrite shift_eval. apply UD. exact Hx.
    + apply asy_seval; exact IH.
Qed.

Lemma core_error : forall p (k : R -> nat -> vec) (u : nat -> R -> R), has_order T p ->
  (forall h i v, 0 < h <= d -> (i < bs T)%nat ->
     k h i v = evalp (fun w => z0 w + h * rsum i (fun j => Q2R (ba T i j) * k h j w)) (F v)) ->
  (forall v, u v 0 = 0) -> (forall v, bounded d (u v)) ->
  (forall v x, 0 <= x <= d -> derivable_pt_lim (u v) x (evalp (fun w => z0 w + u w x) (F v))) ->
  forall v, exists C, forall h, 0 < h <= d ->
    Rabs (h * rsum (bs T) (fun i => Q2R (bb T i) * k h i v) - u v h) <= C * h ^ S p.
Proof.
  intros p k u Hp Hk U0 UB UD v.
  destruct (stage_series_exists G T) as (K & HK). destruct (formal_exists G) as (ex & Hex).
  assert (A1 : asy d (S p) (ex v) (u v)) by (apply exact_asy; assumption).
  assert (A2 : asy d (S p) (sh (fun n => rsum (bs T) (fun i => Q2R (bb T i) * K i v n)))
                 (fun h => h * rsum (bs T) (fun i => Q2R (bb T i) * k h i v))).
  { apply asy_shift.
    apply (asy_rsum d p (bs T) (fun i n => Q2R (bb T i) * K i v n) (fun i h => Q2R (bb T i) * k h i v)).
    intros i Hi. apply asy_scal. apply numeric_asy; assumption. }
  apply (asy_ext d (S p) _ (ex v) _ (fun h => h * rsum (bs T) (fun i => Q2R (bb T i) * k h i v))) in A2.
  - destruct (asy_bound d _ _ _ A1) as (B1 & _ & H1). destruct (asy_bound d _ _ _ A2) as (B2 & _ & H2).
    exists (B1 + B2). intros h Hh. specialize (H1 h Hh). specialize (H2 h Hh).
    set (a := h * rsum (bs T) (fun i => Q2R (bb T i) * k h i v)) in *. set (b := u v h) in *.
    set (c := rsum (S p) (fun n => ex v n * h ^ n)) in *.
    replace (a - b) with ((a - c) + (c - b)) by ring.
    eapply Rle_trans; [apply Rabs_triang|]. rewrite (Rabs_minus_sym c b). lra.
  - intros [|n] Hn; cbn [sh].
    + symmetry. apply (proj1 Hex).
    + apply (coefficients_agree G T K ex p HK Hex Hp). lia.
  - reflexivity.
Qed.
End Core.

(** ** Uniqueness of the stages *)
Lemma stages_unique : forall T f t h y (k k' : nat -> vec),
  (forall i, (i < bs T)%nat -> k i = f (t + Q2R (bc T i) * h) (fun m => y m + h * rsum i (fun j => Q2R (ba T i j) * k j m))) ->
  (forall i, (i < bs T)%nat -> k' i = f (t + Q2R (bc T i) * h) (fun m => y m + h * rsum i (fun j => Q2R (ba T i j) * k' j m))) ->
  forall i, (i < bs T)%nat -> k i = k' i.
Proof.
  intros T f t h y k k' Hk Hk'. induction i as [i IH] using lt_wf_ind. intros Hi. rewrite Hk, Hk' by exact Hi. f_equal.
  extensionality m. f_equal. f_equal. apply rsum_ext. intros j Hj. rewrite IH by lia. reflexivity.
Qed.
Lemma stages_exist : forall T f t h y, exists k : nat -> vec,
  forall i, k i = f (t + Q2R (bc T i) * h) (fun m => y m + h * rsum i (fun j => Q2R (ba T i j) * k j m)).
Proof.
  intros T f t h y.
  exists (rec (fun _ => 0) (fun i k => f (t + Q2R (bc T i) * h) (fun m => y m + h * rsum i (fun j => Q2R (ba T i j) * k j m)))).
  apply (rec_eq (fun _ => 0) (fun i k => f (t + Q2R (bc T i) * h) (fun m => y m + h * rsum i (fun j => Q2R (ba T i j) * k j m)))).
  intros n k k' H. f_equal. extensionality m. f_equal. f_equal. apply rsum_ext. intros j Hj. rewrite H by exact Hj. reflexivity.
Qed.
Lemma rk_method_total : forall T f t h y, exists y', rk_method T f t h y y'.
Proof.
  intros T f t h y. destruct (stages_exist T f t h y) as (k & Hk). eexists. exists k. split; [intros; apply Hk|reflexivity].
Qed.
Lemma rk_method_functional : forall T f t h y y1 y2, rk_method T f t h y y1 -> rk_method T f t h y y2 -> y1 = y2.
Proof.
  intros T f t h y y1 y2 (k1 & H1 & ->) (k2 & H2 & ->). extensionality m. f_equal. f_equal. apply rsum_ext. intros i Hi.
  rewrite (stages_unique T f t h y k1 k2 H1 H2) by exact Hi. reflexivity.
Qed.

(** ** The main theorem *)
Lemma derivable_shift : forall g t0 x l, derivable_pt_lim g (t0 + x) l -> derivable_pt_lim (fun s => g (t0 + s)) x l.
Proof.
  intros g t0 x l H eps He. destruct (H eps He) as (de & Hd). exists de. intros h H0 Hh.
  replace (t0 + (x + h)) with (t0 + x + h) by ring. apply Hd; assumption.
Qed.

Theorem local_error : forall T p f step, has_order T p -> polynomial_rhs f ->
  (forall t h y, rk_method T f t h y (step t h y)) -> local_error_order p f step.
Proof.
  intros T p f step Hp (F & HF) Hstep t0 y0 delta sol m d (S0 & SD) Hd.
  set (F' := fun v : nat => match v with O => [(1, [])] | S m => F m end).
  set (z0 := time_state t0 y0).
  set (u := fun v x => time_state (t0 + x) (sol (t0 + x)) v - z0 v).
  set (kf := fun h => rec (fun _ => 0) (fun i k => f (t0 + Q2R (bc T i) * h) (fun m => y0 m + h * rsum i (fun j => Q2R (ba T i j) * k j m)))).
  assert (Hkf : forall h i, kf h i = f (t0 + Q2R (bc T i) * h) (fun m => y0 m + h * rsum i (fun j => Q2R (ba T i j) * kf h j m))).
  { intros h. unfold kf.
    apply (rec_eq (fun _ => 0) (fun i k => f (t0 + Q2R (bc T i) * h) (fun m => y0 m + h * rsum i (fun j => Q2R (ba T i j) * k j m)))).
    intros n k k' H. f_equal. extensionality q. f_equal. f_equal. apply rsum_ext. intros j Hj. rewrite H by exact Hj. reflexivity. }
  set (k := fun h i => time_state 1 (kf h i)).
  destruct (core_error F' z0 T d p k u Hp) with (v := S m) as (C & HC).
  - intros h i v Hh Hi. destruct v as [|v].
    + cbn. lra.
    + change (k h i (S v)) with (kf h i v). rewrite (Hkf h i). rewrite HF, poly_value_evalp. cbn [F']. f_equal.
      extensionality w. destruct w as [|w]; cbn [time_state z0 k]; [|reflexivity].
      destruct Hp as (Hrow & _). rewrite (Qeq_eqR _ _ (Hrow i Hi)), Q2R_qsum.
      rewrite (rsum_ext i (fun j => Q2R (ba T i j) * 1) (fun j => Q2R (ba T i j))) by (intros; ring). ring.
  - intros v. unfold u, z0. destruct v as [|v]; cbn [time_state]; [ring|]. rewrite Rplus_0_r, S0. ring.
  - intros v. unfold u, z0. destruct v as [|v]; cbn [time_state].
    + exists d. intros h Hh. replace (t0 + h - t0) with h by ring. rewrite Rabs_right; lra.
    + assert (Hc : forall x, t0 <= x <= t0 + d -> continuity_pt (fun s => sol s v) x).
      { intros x Hx. apply derivable_continuous_pt. eexists. apply (SD x v). rewrite Rabs_right; lra. }
      destruct (continuity_ab_maj (fun s => sol s v) t0 (t0 + d) ltac:(lra) Hc) as (Mx & HM & _).
      destruct (continuity_ab_min (fun s => sol s v) t0 (t0 + d) ltac:(lra) Hc) as (mx & Hm & _).
      exists (Rabs (sol Mx v) + Rabs (sol mx v) + Rabs (y0 v)). intros h Hh.
      specialize (HM (t0 + h) ltac:(lra)). specialize (Hm (t0 + h) ltac:(lra)).
      cbv beta in HM, Hm.
      pose proof (Rle_abs (sol Mx v)). pose proof (Rle_abs (- sol mx v)) as Q1. rewrite Rabs_Ropp in Q1.
      pose proof (Rle_abs (y0 v)). pose proof (Rle_abs (- y0 v)) as Q2. rewrite Rabs_Ropp in Q2.
      pose proof (Rabs_pos (sol Mx v)). pose proof (Rabs_pos (sol mx v)).
      apply Rabs_le. split; lra.
  - intros v x Hx. unfold u. destruct v as [|v].
    + match goal with |- derivable_pt_lim _ _ ?l => replace l with (1 - 0)
        by (unfold F', evalp, vprod; cbn [lsum fst snd fold_right]; ring) end.
      cbn [time_state z0].
      apply (derivable_pt_lim_minus (fun y => t0 + y) (fun _ => t0)); [|apply derivable_pt_lim_const].
      replace 1 with (0 + 1) by ring. apply (derivable_pt_lim_plus (fun _ => t0) (fun y => y)); [apply derivable_pt_lim_const|apply derivable_pt_lim_id].
    + cbn [time_state z0 F'].
      match goal with |- derivable_pt_lim _ _ ?l => replace l with (f (t0 + x) (sol (t0 + x)) v - 0) end.
      * apply (derivable_pt_lim_minus (fun y => sol (t0 + y) v) (fun _ => y0 v)); [|apply derivable_pt_lim_const].
        apply (derivable_shift (fun s => sol s v)). apply SD. replace (t0 + x - t0) with x by ring. rewrite Rabs_right; lra.
      * rewrite HF, poly_value_evalp, Rminus_0_r. f_equal. extensionality w. ring.
  - exists C. intros h Hh.
    destruct (Req_dec h 0) as [->|Hne].
    + rewrite Rplus_0_r, S0. rewrite pow_i by lia. rewrite Rmult_0_r.
      destruct (Hstep t0 0 y0) as (kk & _ & ->). rewrite Rmult_0_l, Rplus_0_r, Rminus_diag_eq by reflexivity. rewrite Rabs_R0. lra.
    + specialize (HC h ltac:(lra)).
      assert (E : step t0 h y0 = (fun q => y0 q + h * rsum (bs T) (fun i => Q2R (bb T i) * kf h i q))).
      { apply (rk_method_functional T f t0 h y0); [apply Hstep|]. exists (kf h). split; [intros; apply Hkf|reflexivity]. }
      rewrite E. unfold u, z0 in HC. cbn [time_state k] in HC.
      match goal with |- Rabs ?a <= _ => match type of HC with Rabs ?b <= _ => replace a with b by ring end end. exact HC.
Qed.

(** ** Right hand sides that depend on time only *)
Lemma peval_shift : forall t q, exists r : nat -> R, forall x, peval q (t + x) = rsum (length q) (fun k => r k * x ^ k).
Proof.
  intros t. induction q as [|a q (r & IH)]; [exists (fun _ => 0); reflexivity|].
  set (n := length q) in *.
  exists (fun k => sh r k + (if (k <? n)%nat then t * r k else 0) + a * sone k). intros x. cbn [peval length]. fold n. rewrite IH.
  transitivity (rsum (S n) (fun k => sh r k * x ^ k) + rsum (S n) (fun k => (if (k <? n)%nat then t * r k else 0) * x ^ k)
                + rsum (S n) (fun k => a * sone k * x ^ k)).
  - rewrite (rsum_first n (fun k => sh r k * x ^ k)). cbn [sh pow].
    rewrite (rsum_ext n (fun k => r k * (x * x ^ k)) (fun k => x * (r k * x ^ k))) by (intros; ring). rewrite rsum_scal.
    rewrite (rsum_first n (fun k => a * sone k * x ^ k)). cbn [sone pow].
    rewrite (rsum_0 n (fun k => a * 0 * (x * x ^ k))) by (intros; ring).
    cbn [rsum]. rewrite Nat.ltb_irrefl.
    rewrite (rsum_ext n (fun k => (if (k <? n)%nat then t * r k else 0) * x ^ k) (fun k => t * (r k * x ^ k))).
    + rewrite rsum_scal. ring.
    + intros i Hi. destruct (Nat.ltb_spec i n); [ring|lia].
  - rewrite <- !rsum_plus. apply rsum_ext. intros. ring.
Qed.

Lemma rsum_extend : forall n p (r : nat -> R), (n <= p)%nat ->
  exists r', forall x, rsum n (fun k => r k * x ^ k) = rsum p (fun k => r' k * x ^ k).
Proof.
  intros n p r H. exists (fun k => if (k <? n)%nat then r k else 0). intros x. induction H as [|p H IH].
  - apply rsum_ext. intros i Hi. destruct (Nat.ltb_spec i n); [reflexivity|lia].
  - cbn [rsum]. rewrite IH. destruct (Nat.ltb_spec p n); [lia|]. ring.
Qed.

Definition bush (k : nat) : tree := Node (repeat (Node []) k).
Lemma bush_forder : forall k, forder (repeat (Node []) k) = k.
Proof. induction k as [|k IH]; [reflexivity|]. cbn [repeat]. change (forder (Node [] :: repeat (Node []) k)) with (1 + forder (repeat (Node []) k))%nat. rewrite IH. reflexivity. Qed.
Fixpoint qpow (q : Q) (k : nat) : Q := match k with O => 1%Q | S k => (q * qpow q k)%Q end.
Lemma bush_weight : forall T k i, (weight T (bush k) i == qpow (qsum i (ba T i)) k)%Q.
Proof.
  intros T k i. unfold bush. cbn [weight]. induction k as [|k IH]; [reflexivity|].
  cbn [repeat fold_right qpow]. rewrite IH.
  assert (E : (qsum i (fun j => ba T i j * weight T (Node []) j) == qsum i (ba T i))%Q).
  { assert (H : forall n g, (qsum n (fun j => g j * weight T (Node []) j) == qsum n g)%Q).
    { induction n as [|n IHn]; intros g; cbn [qsum]; [reflexivity|]. rewrite IHn. cbn [weight fold_right]. ring. }
    apply H. }
  rewrite E. reflexivity.
Qed.
Lemma bush_gamma : forall k, (gamma (bush k) == inject_Z (Z.of_nat (S k)))%Q.
Proof.
  intros k. unfold bush. cbn [gamma]. change (order (Node (repeat (Node []) k))) with (S (forder (repeat (Node []) k))).
  rewrite bush_forder.
  assert (E : (fold_right (fun u q => gamma u * q) 1 (repeat (Node []) k) == 1)%Q).
  { induction k as [|k IH]; [reflexivity|]. cbn [repeat fold_right]. rewrite IH. reflexivity. }
  rewrite E. ring.
Qed.
Lemma Q2R_power : forall q k, Q2R (qpow q k) = Q2R q ^ k.
Proof. intros q. induction k as [|k IH]; cbn [qpow pow]; [apply Q2R_1|]. rewrite Q2R_mult, IH. reflexivity. Qed.
Lemma quadrature : forall T p k, has_order T p -> (k < p)%nat ->
  rsum (bs T) (fun i => Q2R (bb T i) * Q2R (bc T i) ^ k) = / INR (S k).
Proof.
  intros T p k (Hr & Ho) Hk. specialize (Ho (bush k)).
  assert (Hle : (order (bush k) <= p)%nat).
  { change (order (bush k)) with (S (forder (repeat (Node []) k))). rewrite bush_forder. lia. }
  specialize (Ho Hle). apply Qeq_eqR in Ho. rewrite Q2R_qsum in Ho.
  assert (E : Q2R (/ gamma (bush k)) = / INR (S k)).
  { rewrite Q2R_inv by (pose proof (gamma_pos (bush k)); intros E; rewrite E in H; discriminate).
    rewrite (Qeq_eqR _ _ (bush_gamma k)). f_equal. unfold Q2R, inject_Z. cbn [Qnum Qden]. rewrite INR_IZR_INZ. lra. }
  rewrite E in Ho. rewrite <- Ho. apply rsum_ext. intros i Hi. rewrite Q2R_mult. f_equal.
  rewrite (Qeq_eqR _ _ (bush_weight T k i)), Q2R_power. f_equal. apply Qeq_eqR. apply Hr. exact Hi.
Qed.

Theorem time_polynomial_exact : forall T p f t h y y' sol, has_order T p -> poly_rhs p f ->
  is_solution f t y sol -> 0 <= h -> rk_method T f t h y y' -> forall m, y' m = sol (t + h) m.
Proof.
  intros T p f t h y y' sol Hp Hf (S0 & SD) Hh (k & Hk & ->) m.
  destruct (Hf m) as (q & Hl & Hq).
  destruct (peval_shift t q) as (r0 & Hr0). destruct (rsum_extend (length q) p r0 Hl) as (r & Hr).
  assert (HR : forall x yy, f (t + x) yy m = rsum p (fun k => r k * x ^ k)).
  { intros x yy. rewrite Hq, Hr0. apply Hr. }
  assert (Hex : sol (t + h) m = y m + rsum p (fun n => r n / INR (S n) * h ^ S n)).
  { set (phi := fun x => sol (t + x) m - rsum p (fun n => r n / INR (S n) * x ^ S n)).
    destruct (Req_dec h 0) as [->|Hne].
    - rewrite Rplus_0_r, S0. rewrite (rsum_0 p); [ring|]. intros i Hi. rewrite pow_i by lia. ring.
    - destruct (MVT_cor2 phi (fun _ => 0) 0 h) as (c & Hc & _); [lra| |].
      + intros x Hx. replace 0 with (f (t + x) (sol (t + x)) m - rsum p (fun k => r k * x ^ k)) by (rewrite HR; ring).
        apply (derivable_pt_lim_minus (fun x => sol (t + x) m) (fun x => rsum p (fun n => r n / INR (S n) * x ^ S n))).
        * apply (derivable_shift (fun s => sol s m)). apply SD.
        * apply rsum_deriv.
      + unfold phi in Hc. rewrite Rplus_0_r, S0 in Hc.
        rewrite (rsum_0 p (fun n => r n / INR (S n) * 0 ^ S n)) in Hc; [lra|]. intros i Hi. rewrite pow_i by lia. ring. }
  rewrite Hex. f_equal.
  rewrite (rsum_ext (bs T) _ (fun i => rsum p (fun n => r n * h ^ n * (Q2R (bb T i) * Q2R (bc T i) ^ n)))).
  - rewrite rsum_swap. rewrite <- rsum_scal. apply rsum_ext. intros n Hn. rewrite rsum_scal.
    rewrite (quadrature T p n Hp Hn). cbn [pow]. field. apply not_0_INR. lia.
  - intros i Hi. rewrite (Hk i Hi). rewrite HR. rewrite <- rsum_scal. apply rsum_ext. intros n Hn.
    rewrite Rpow_mult_distr. ring.
Qed.
