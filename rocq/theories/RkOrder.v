(** From the order conditions to the order of accuracy, for polynomial right hand sides: power series in the step size,
    summed over rooted (ordered) trees. *)
From Coq Require Import List Arith Bool Lia Reals QArith Qreals Lra FunctionalExtensionality.
From Verif Require Import RkSpec RkModel RkProofs.
Import ListNotations.
Local Open Scope R_scope.

(** ** Sums over lists *)
Fixpoint lsum {A} (g : A -> R) (l : list A) : R := match l with [] => 0 | a :: t => g a + lsum g t end.

Lemma lsum_ext : forall {A} (g h : A -> R) l, (forall a, In a l -> g a = h a) -> lsum g l = lsum h l.
Proof.
  intros A g h. induction l as [|a t IH]; intros H; [reflexivity|]. cbn [lsum].
  rewrite H by (left; reflexivity). rewrite IH; [reflexivity|]. intros b Hb. apply H. right. exact Hb.
Qed.
Lemma lsum_app : forall {A} (g : A -> R) l1 l2, lsum g (l1 ++ l2) = lsum g l1 + lsum g l2.
Proof. intros A g. induction l1 as [|a t IH]; intros l2; cbn [lsum app]; [lra|]. rewrite IH. lra. Qed.
Lemma lsum_flat : forall {A B} (g : B -> R) (f : A -> list B) l, lsum g (flat_map f l) = lsum (fun a => lsum g (f a)) l.
Proof. intros A B g f. induction l as [|a t IH]; cbn [lsum flat_map]; [reflexivity|]. rewrite lsum_app, IH. reflexivity. Qed.
Lemma lsum_map : forall {A B} (g : B -> R) (f : A -> B) l, lsum g (map f l) = lsum (fun a => g (f a)) l.
Proof. intros A B g f. induction l as [|a t IH]; cbn [lsum map]; [reflexivity|]. rewrite IH. reflexivity. Qed.
Lemma lsum_scal : forall {A} c (g : A -> R) l, lsum (fun a => c * g a) l = c * lsum g l.
Proof. intros A c g. induction l as [|a t IH]; cbn [lsum]; [lra|]. rewrite IH. lra. Qed.
Lemma lsum_plus : forall {A} (g h : A -> R) l, lsum (fun a => g a + h a) l = lsum g l + lsum h l.
Proof. intros A g h. induction l as [|a t IH]; cbn [lsum]; [lra|]. rewrite IH. lra. Qed.
Lemma lsum_zero : forall {A} (g : A -> R) l, (forall a, In a l -> g a = 0) -> lsum g l = 0.
Proof.
  intros A g l H. rewrite (lsum_ext g (fun _ => 0)) by exact H. clear H.
  induction l as [|a t IH]; cbn [lsum]; [reflexivity|]. rewrite IH. lra.
Qed.
Lemma lsum_swap : forall {A B} (g : A -> B -> R) l1 l2,
  lsum (fun a => lsum (g a) l2) l1 = lsum (fun b => lsum (fun a => g a b) l1) l2.
Proof.
  intros A B g. induction l1 as [|a t IH]; intros l2; cbn [lsum].
  - symmetry. apply lsum_zero. reflexivity.
  - rewrite IH, lsum_plus. reflexivity.
Qed.
Lemma lsum_rsum : forall {A} n (g : nat -> A -> R) l,
  rsum n (fun i => lsum (g i) l) = lsum (fun a => rsum n (fun i => g i a)) l.
Proof.
  intros A n g. induction l as [|a t IH]; cbn [lsum].
  - apply rsum_0. reflexivity.
  - rewrite rsum_plus, IH. reflexivity.
Qed.
Lemma rsum_lsum : forall n (f : nat -> R), rsum n f = lsum f (seq 0 n).
Proof.
  induction n as [|n IH]; intros f; [reflexivity|]. cbn [rsum]. rewrite seq_S, lsum_app, <- IH. cbn [lsum Nat.add]. lra.
Qed.
Lemma lsum_seq_S : forall n (f : nat -> R), lsum f (seq 1 n) = lsum (fun k => f (S k)) (seq 0 n).
Proof. intros n f. rewrite <- seq_shift, lsum_map. reflexivity. Qed.

(** ** Power series *)
Definition smul (s t : nat -> R) : nat -> R := fun n => rsum (S n) (fun k => s k * t (n - k)%nat).
Definition sone : nat -> R := fun n => match n with O => 1 | _ => 0 end.

(** Monomials [(c, [v1; ...; vk])] stand for [c * y v1 * ... * y vk]; a polynomial is a list of them. *)
Notation poly := (list (R * list nat)).
Definition vprod (y : vec) (l : list nat) : R := fold_right (fun v q => y v * q) 1 l.
Definition evalp (y : vec) (p : poly) : R := lsum (fun cl => fst cl * vprod y (snd cl)) p.

Definition sprod (U : nat -> nat -> R) (l : list nat) : nat -> R := fold_right (fun v q => smul (U v) q) sone l.
Definition sevalp (U : nat -> nat -> R) (p : poly) : nat -> R := fun n => lsum (fun cl => fst cl * sprod U (snd cl) n) p.

(** Expansion around [y0]. *)
Fixpoint expand (y0 : vec) (l : list nat) : poly :=
  match l with
  | [] => [(1, [])]
  | v :: r => map (fun cl => (y0 v * fst cl, snd cl)) (expand y0 r) ++ map (fun cl => (fst cl, v :: snd cl)) (expand y0 r)
  end.
Definition shift (y0 : vec) (p : poly) : poly :=
  flat_map (fun cl => map (fun dl => (fst cl * fst dl, snd dl)) (expand y0 (snd cl))) p.

Lemma expand_eval : forall y0 u l, evalp u (expand y0 l) = vprod (fun m => y0 m + u m) l.
Proof.
  intros y0 u. induction l as [|v r IH]; unfold evalp in *; cbn [expand].
  - cbn [lsum fst snd]. unfold vprod. cbn [fold_right]. lra.
  - rewrite lsum_app, !lsum_map.
    rewrite (lsum_ext _ (fun cl => y0 v * (fst cl * vprod u (snd cl)))) by (intros; cbn [fst snd]; lra).
    rewrite lsum_scal.
    rewrite (lsum_ext (fun a => fst (fst a, v :: snd a) * vprod u (snd (fst a, v :: snd a)))
               (fun cl => u v * (fst cl * vprod u (snd cl))))
      by (intros; cbn [fst snd]; unfold vprod at 1; cbn [fold_right]; unfold vprod; lra).
    rewrite lsum_scal, IH. unfold vprod. cbn [fold_right]. lra.
Qed.
Lemma shift_eval : forall y0 u p, evalp u (shift y0 p) = evalp (fun m => y0 m + u m) p.
Proof.
  intros y0 u p. unfold shift, evalp. rewrite lsum_flat. apply lsum_ext. intros [c l] _. cbn [fst snd].
  rewrite lsum_map. cbn [fst snd].
  rewrite (lsum_ext _ (fun dl => c * (fst dl * vprod u (snd dl)))) by (intros; lra).
  rewrite lsum_scal. pose proof (expand_eval y0 u l) as H. unfold evalp in H. rewrite H. reflexivity.
Qed.

(** ** Forests *)
Lemma forests_fuel : forall fu n, (n <= fu)%nat -> forests fu n = forests n n.
Proof.
  assert (H : forall b fu n, (n <= b)%nat -> (n <= fu)%nat -> forests fu n = forests n n).
  { induction b as [|b IH]; intros fu n Hb Hn.
    - assert (n = 0)%nat as -> by lia. destruct fu; reflexivity.
    - destruct fu as [|fu]; [assert (n = 0)%nat as -> by lia; reflexivity|].
      destruct n as [|n]; [reflexivity|]. cbn [forests].
      assert (E : forall k, In k (seq 1 (S n)) ->
        flat_map (fun c => map (cons (Node c)) (forests fu (S n - k))) (forests fu (k - 1))
        = flat_map (fun c => map (cons (Node c)) (forests n (S n - k))) (forests n (k - 1))).
      { intros k Hk. apply in_seq in Hk. rewrite (IH fu (k - 1)%nat), (IH n (k - 1)%nat) by lia.
        rewrite (IH fu (S n - k)%nat), (IH n (S n - k)%nat) by lia. reflexivity. }
      revert E. generalize (seq 1 (S n)) as l. induction l as [|k l IHl]; intros E; [reflexivity|].
      cbn [flat_map]. rewrite E by (left; reflexivity). f_equal. apply IHl. intros k' Hk'. apply E. right. exact Hk'. }
  intros fu n Hn. exact (H n fu n (le_n n) Hn).
Qed.

Definition Fo (n : nat) : list (list tree) := forests n n.

Lemma Fo_0 : Fo 0 = [[]].
Proof. reflexivity. Qed.

Lemma Fo_sum : forall n (g : list tree -> R),
  lsum g (Fo (S n)) = rsum (S n) (fun k => lsum (fun c => lsum (fun r => g (Node c :: r)) (Fo (n - k))) (Fo k)).
Proof.
  intros n g. unfold Fo at 1. cbn [forests]. rewrite lsum_flat, lsum_seq_S, rsum_lsum.
  apply lsum_ext. intros k Hk. apply in_seq in Hk. rewrite lsum_flat.
  replace (S k - 1)%nat with k by lia. replace (S n - S k)%nat with (n - k)%nat by lia.
  rewrite (forests_fuel n k), (forests_fuel n (n - k)) by lia. unfold Fo.
  apply lsum_ext. intros c _. rewrite lsum_map. reflexivity.
Qed.

Lemma Fo_forder : forall n ts, In ts (Fo n) -> forder ts = n.
Proof.
  assert (H : forall b n ts, (n <= b)%nat -> In ts (Fo n) -> forder ts = n).
  { induction b as [|b IH]; intros n ts Hb Hin.
    - assert (n = 0)%nat as -> by lia. destruct Hin as [<-|[]]. reflexivity.
    - destruct n as [|n]; [destruct Hin as [<-|[]]; reflexivity|].
      unfold Fo in Hin. cbn [forests] in Hin. apply in_flat_map in Hin. destruct Hin as (k & Hk & Hin).
      apply in_seq in Hk. apply in_flat_map in Hin. destruct Hin as (c & Hc & Hin).
      apply in_map_iff in Hin. destruct Hin as (r & <- & Hr).
      rewrite forests_fuel in Hc, Hr by lia.
      change (forder (Node c :: r)) with (S (forder c) + forder r)%nat.
      rewrite (IH (k - 1)%nat c ltac:(lia) Hc), (IH (S n - k)%nat r ltac:(lia) Hr). lia. }
  intros n ts. apply (H n). lia.
Qed.

Section Trees.
(** The vector field, expanded around the starting point. *)
Variable G : nat -> poly.

(** Elementary differentials. *)
Fixpoint ed (t : tree) (m : nat) : R :=
  match t with
  | Node ts =>
      lsum (fun cl => fst cl *
        (fix mp (ts : list tree) (l : list nat) {struct ts} : R :=
           match ts, l with
           | [], [] => 1
           | t :: ts', v :: l' => ed t v * mp ts' l'
           | _, _ => 0
           end) ts (snd cl)) (G m)
  end.
Fixpoint mp (ts : list tree) (l : list nat) {struct ts} : R :=
  match ts, l with
  | [], [] => 1
  | t :: ts', v :: l' => ed t v * mp ts' l'
  | _, _ => 0
  end.
Lemma ed_eq : forall ts m, ed (Node ts) m = lsum (fun cl => fst cl * mp ts (snd cl)) (G m).
Proof. reflexivity. Qed.

Definition aprod (al : tree -> R) (ts : list tree) : R := fold_right (fun t q => al t * q) 1 ts.

Lemma sprod_trees : forall al U N,
  (forall v, U v 0%nat = 0) ->
  (forall v k, (S k <= N)%nat -> U v (S k) = lsum (fun c => al (Node c) * ed (Node c) v) (Fo k)) ->
  forall l n, (n <= N)%nat -> sprod U l n = lsum (fun ts => aprod al ts * mp ts l) (Fo n).
Proof.
  intros al U N H0 HS. induction l as [|v l IH]; intros n Hn.
  - cbn [sprod fold_right]. destruct n as [|n].
    + cbn. lra.
    + cbn [sone]. symmetry. rewrite Fo_sum. apply rsum_0. intros k Hk. apply lsum_zero. intros c _.
      apply lsum_zero. intros r _. cbn [mp]. lra.
  - unfold sprod. cbn [fold_right]. change (fold_right (fun v q => smul (U v) q) sone l) with (sprod U l).
    destruct n as [|n].
    + unfold smul. cbn [rsum]. rewrite H0. cbn. lra.
    + unfold smul. rewrite rsum_lsum. change (seq 0 (S (S n))) with (0%nat :: seq 1 (S n)). cbn [lsum]. rewrite H0. rewrite lsum_seq_S, <- rsum_lsum.
      rewrite Fo_sum. rewrite Rmult_0_l, Rplus_0_l. apply rsum_ext. intros k Hk.
      replace (S n - S k)%nat with (n - k)%nat by lia.
      rewrite HS by lia. rewrite IH by lia.
      rewrite Rmult_comm. rewrite <- lsum_scal. apply lsum_ext. intros c _.
      rewrite Rmult_comm. rewrite <- lsum_scal. apply lsum_ext. intros r _.
      cbn [aprod fold_right mp]. unfold aprod. lra.
Qed.

Lemma seval_trees : forall al U N,
  (forall v, U v 0%nat = 0) ->
  (forall v k, (S k <= N)%nat -> U v (S k) = lsum (fun c => al (Node c) * ed (Node c) v) (Fo k)) ->
  forall m n, (n <= N)%nat -> sevalp U (G m) n = lsum (fun ts => aprod al ts * ed (Node ts) m) (Fo n).
Proof.
  intros al U N H0 HS m n Hn. unfold sevalp.
  rewrite (lsum_ext _ (fun cl => lsum (fun ts => fst cl * (aprod al ts * mp ts (snd cl))) (Fo n))).
  - rewrite lsum_swap. apply lsum_ext. intros ts _. rewrite ed_eq. rewrite <- lsum_scal.
    apply lsum_ext. intros cl _. lra.
  - intros cl _. rewrite (sprod_trees al U N H0 HS) by exact Hn. rewrite lsum_scal. reflexivity.
Qed.

(** ** The exact solution *)
(** [ex] is the formal solution of [u' = G u], [u 0 = 0]. *)
Definition formal_solution (ex : nat -> nat -> R) : Prop :=
  (forall m, ex m 0%nat = 0) /\ (forall m n, INR (S n) * ex m (S n) = sevalp ex (G m) n).

Lemma gamma_pos : forall t, (0 < gamma t)%Q.
Proof.
  fix IH 1. intros [l]. cbn [gamma].
  apply Qmult_lt_0_compat.
  - change 0%Q with (inject_Z 0). rewrite <- Zlt_Qlt. change (order (Node l)) with (S (forder l)). lia.
  - induction l as [|t l IHl]; cbn [fold_right]; [reflexivity|]. apply Qmult_lt_0_compat; [apply IH|exact IHl].
Qed.
Lemma gammaR_pos : forall t, 0 < Q2R (gamma t).
Proof. intros t. rewrite <- Q2R_0. apply Qlt_Rlt. apply gamma_pos. Qed.

Definition gR (t : tree) : R := / Q2R (gamma t).

Lemma gR_node : forall ts, INR (S (forder ts)) * gR (Node ts) = aprod gR ts.
Proof.
  intros ts. unfold gR at 1. cbn [gamma].
  assert (Hp : Q2R (fold_right (fun u q => gamma u * q)%Q 1%Q ts) * aprod gR ts = 1).
  { induction ts as [|t ts IH]; cbn [fold_right aprod]; [rewrite Q2R_1; lra|].
    rewrite Q2R_mult. change (fold_right (fun t q => gR t * q) 1 ts) with (aprod gR ts).
    unfold gR at 1. pose proof (gammaR_pos t).
    replace (Q2R (gamma t) * Q2R (fold_right (fun u q => gamma u * q)%Q 1%Q ts) * (/ Q2R (gamma t) * aprod gR ts))
      with (Q2R (fold_right (fun u q => gamma u * q)%Q 1%Q ts) * aprod gR ts) by (field; lra). exact IH. }
  rewrite Q2R_mult.
  replace (Q2R (inject_Z (Z.of_nat (order (Node ts))))) with (INR (S (forder ts))).
  - pose proof (lt_0_INR (S (forder ts)) ltac:(lia)).
    set (P := Q2R (fold_right (fun u q => gamma u * q)%Q 1%Q ts)) in *.
    assert (P <> 0) by (intros E; rewrite E in Hp; lra).
    rewrite Rinv_mult. rewrite <- Rmult_assoc, Rinv_r, Rmult_1_l by lra.
    apply (Rmult_eq_reg_l P); [|assumption]. rewrite Rinv_r by assumption. symmetry. exact Hp.
  - change (order (Node ts)) with (S (forder ts)). unfold Q2R, inject_Z. cbn [Qnum Qden].
    rewrite INR_IZR_INZ. lra.
Qed.

Lemma exact_trees : forall ex, formal_solution ex ->
  forall n m, ex m (S n) = lsum (fun c => gR (Node c) * ed (Node c) m) (Fo n).
Proof.
  intros ex (H0 & HS).
  assert (H : forall b n m, (n <= b)%nat -> ex m (S n) = lsum (fun c => gR (Node c) * ed (Node c) m) (Fo n)).
  { induction b as [|b IH]; intros n m Hb.
    - assert (n = 0)%nat as -> by lia. pose proof (HS m 0%nat) as E.
      rewrite (seval_trees gR ex 0 H0) in E by lia.
      apply (Rmult_eq_reg_l (INR 1)); [|apply not_0_INR; lia]. rewrite E. rewrite <- lsum_scal.
      apply lsum_ext. intros ts Hts. apply Fo_forder in Hts. rewrite <- (gR_node ts), Hts. lra.
    - pose proof (HS m n) as E. rewrite (seval_trees gR ex n H0) in E; [| |lia].
      + apply (Rmult_eq_reg_l (INR (S n))); [|apply not_0_INR; lia]. rewrite E. rewrite <- lsum_scal.
        apply lsum_ext. intros ts Hts. apply Fo_forder in Hts. rewrite <- (gR_node ts), Hts. lra.
      + intros v k Hk. apply IH. lia. }
  intros n m. apply (H n). lia.
Qed.

(** ** The numerical solution *)
Variable T : butcher.

(** Coefficients of the stage derivatives. *)
Definition stage_series (K : nat -> nat -> nat -> R) : Prop :=
  forall i, (i < bs T)%nat -> forall m n,
    K i m n = sevalp (fun v k => match k with O => 0 | S k' => rsum i (fun j => Q2R (ba T i j) * K j v k') end) (G m) n.

Lemma Q2R_qsum : forall n f, Q2R (qsum n f) = rsum n (fun i => Q2R (f i)).
Proof. induction n as [|n IH]; intros f; cbn [qsum rsum]; [apply Q2R_0|]. rewrite Q2R_plus, IH. reflexivity. Qed.

Lemma stage_trees : forall K, stage_series K ->
  forall i, (i < bs T)%nat -> forall n m,
    K i m n = lsum (fun c => Q2R (weight T (Node c) i) * ed (Node c) m) (Fo n).
Proof.
  intros K HK.
  assert (H : forall b i, (i <= b)%nat -> (i < bs T)%nat -> forall n m,
    K i m n = lsum (fun c => Q2R (weight T (Node c) i) * ed (Node c) m) (Fo n)).
  { induction b as [b IH] using lt_wf_ind. intros i Hb Hi n m. rewrite (HK i Hi).
    set (al := fun t => rsum i (fun j => Q2R (ba T i j) * Q2R (weight T t j))).
    rewrite (seval_trees al _ n); [| |intros v k Hk|lia].
    - apply lsum_ext. intros ts _. f_equal. cbn [weight].
      induction ts as [|t ts IHts]; cbn [aprod fold_right]; [rewrite Q2R_1; reflexivity|].
      rewrite Q2R_mult. rewrite Q2R_qsum.
      change (fold_right (fun t q => al t * q) 1 ts) with (aprod al ts). rewrite IHts. f_equal. unfold al.
      apply rsum_ext. intros j _. rewrite Q2R_mult. reflexivity.
    - reflexivity.
    - unfold al.
      rewrite (rsum_ext i _ (fun j => lsum (fun c => Q2R (ba T i j) * (Q2R (weight T (Node c) j) * ed (Node c) v)) (Fo k))).
      + rewrite lsum_rsum. apply lsum_ext. intros c _.
        rewrite (rsum_ext i _ (fun j => ed (Node c) v * (Q2R (ba T i j) * Q2R (weight T (Node c) j)))) by (intros; lra).
        rewrite rsum_scal. lra.
      + intros j Hj. rewrite lsum_scal. f_equal. apply (IH j); lia. }
  intros i Hi n m. apply (H i); [lia|exact Hi].
Qed.

(** The order conditions make the coefficients agree. *)
Lemma coefficients_agree : forall K ex p, stage_series K -> formal_solution ex -> has_order T p ->
  forall m n, (S n <= p)%nat -> rsum (bs T) (fun i => Q2R (bb T i) * K i m n) = ex m (S n).
Proof.
  intros K ex p HK Hex (_ & Hp) m n Hn.
  rewrite (exact_trees ex Hex).
  rewrite (rsum_ext (bs T) _ (fun i => lsum (fun c => Q2R (bb T i) * (Q2R (weight T (Node c) i) * ed (Node c) m)) (Fo n))).
  - rewrite lsum_rsum. apply lsum_ext. intros c Hc. apply Fo_forder in Hc.
    rewrite (rsum_ext (bs T) _ (fun i => ed (Node c) m * (Q2R (bb T i) * Q2R (weight T (Node c) i)))) by (intros; lra).
    rewrite rsum_scal. rewrite Rmult_comm. f_equal.
    rewrite (rsum_ext (bs T) _ (fun i => Q2R (bb T i * weight T (Node c) i)%Q)) by (intros; rewrite Q2R_mult; reflexivity).
    rewrite <- Q2R_qsum. unfold gR. rewrite <- Q2R_inv by (pose proof (gamma_pos (Node c)); intros E; rewrite E in H; discriminate).
    apply Qeq_eqR. apply Hp. change (order (Node c)) with (S (forder c)). lia.
  - intros i Hi. rewrite lsum_scal. f_equal. apply stage_trees; assumption.
Qed.
End Trees.
