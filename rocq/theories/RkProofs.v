(** The implemented steps are Runge-Kutta methods; the order conditions of their tableaus. *)
From Coq Require Import List Arith Bool Lia Reals QArith Qreals Lra FunctionalExtensionality.
From Verif Require Import RkSpec RkModel.
Import ListNotations.
Local Open Scope R_scope.

Ltac q2r := unfold Q2R; cbn [Qnum Qden]; lra.

Lemma Q2R_0 : Q2R 0 = 0. Proof. q2r. Qed.
Lemma Q2R_1 : Q2R 1 = 1. Proof. q2r. Qed.

Lemma rsum_ext : forall n f g, (forall i, (i < n)%nat -> f i = g i) -> rsum n f = rsum n g.
Proof.
  induction n as [|n IH]; intros f g H; [reflexivity|]. cbn [rsum]. rewrite (IH f g) by (intros; apply H; lia).
  rewrite H by lia. reflexivity.
Qed.
Lemma rsum_scal : forall n c f, rsum n (fun i => c * f i) = c * rsum n f.
Proof. induction n as [|n IH]; intros c f; cbn [rsum]; [lra|]. rewrite IH. lra. Qed.
Lemma rsum_plus : forall n f g, rsum n (fun i => f i + g i) = rsum n f + rsum n g.
Proof. induction n as [|n IH]; intros f g; cbn [rsum]; [lra|]. rewrite IH. lra. Qed.
Lemma rsum_0 : forall n f, (forall i, (i < n)%nat -> f i = 0) -> rsum n f = 0.
Proof.
  induction n as [|n IH]; intros f H; cbn [rsum]; [lra|]. rewrite IH by (intros; apply H; lia). rewrite H by lia. lra.
Qed.
Lemma rsum_swap : forall n m f, rsum n (fun i => rsum m (fun j => f i j)) = rsum m (fun j => rsum n (fun i => f i j)).
Proof.
  induction n as [|n IH]; intros m f; cbn [rsum].
  - symmetry. apply rsum_0. reflexivity.
  - rewrite IH, rsum_plus. reflexivity.
Qed.

(** ** The hand-written steps *)
Lemma euler_is : forall f t h y, rk_method forward_euler f t h y (euler_step f t h y).
Proof.
  intros f t h y. exists (fun _ => f t y). split.
  - intros i Hi. cbn [forward_euler tableau bs length] in Hi. assert (i = 0%nat) as -> by lia.
    cbn [rsum forward_euler tableau bc nth]. rewrite Q2R_0. f_equal; [lra|].
    extensionality m. lra.
  - extensionality m. unfold euler_step. cbn [forward_euler tableau bs bb length rsum nth]. rewrite Q2R_1. lra.
Qed.

Lemma half : 0.5 = 1 / 2. Proof. lra. Qed.

Lemma rk4_is : forall f t h y, rk_method classical_rk4 f t h y (rk4_step f t h y).
Proof.
  intros f t h y. unfold rk4_step. cbv zeta.
  set (k1 := f t y).
  set (k2 := f (t + 0.5 * h) (fun i => y i + 0.5 * h * k1 i)).
  set (k3 := f (t + 0.5 * h) (fun i => y i + 0.5 * h * k2 i)).
  set (k4 := f (t + h) (fun i => y i + h * k3 i)).
  exists (fun i => match i with 0%nat => k1 | 1%nat => k2 | 2%nat => k3 | _ => k4 end). split.
  - intros i Hi. cbn [classical_rk4 tableau bs length] in Hi.
    destruct i as [|[|[|[|i]]]]; [| | | |lia];
      cbn [classical_rk4 tableau bc ba lower nth rsum].
    + unfold k1. f_equal; [rewrite Q2R_0; lra|]. extensionality m. lra.
    + unfold k2 at 1. f_equal; [q2r|]. extensionality m. q2r.
    + unfold k3 at 1. f_equal; [q2r|]. extensionality m. q2r.
    + unfold k4 at 1. f_equal; [q2r|]. extensionality m. q2r.
  - extensionality m. cbn [classical_rk4 tableau bs bb length rsum nth]. q2r.
Qed.

Lemma rk3ssp_is : forall f t h y, rk_method ssp_rk3 f t h y (rk3ssp_step f t h y).
Proof.
  intros f t h y. unfold rk3ssp_step. cbv zeta.
  set (k1 := f t y).
  set (k2 := f (t + h) (fun i => y i + h * k1 i)).
  set (k3 := f (t + 0.5 * h) (fun i => 0.75 * y i + 0.25 * (y i + h * k1 i) + 0.25 * h * k2 i)).
  exists (fun i => match i with 0%nat => k1 | 1%nat => k2 | _ => k3 end). split.
  - intros i Hi. cbn [ssp_rk3 tableau bs length] in Hi.
    destruct i as [|[|[|i]]]; [| | |lia]; cbn [ssp_rk3 tableau bc ba lower nth rsum].
    + unfold k1. f_equal; [rewrite Q2R_0; lra|]. extensionality m. lra.
    + unfold k2 at 1. f_equal; [q2r|]. extensionality m. q2r.
    + unfold k3 at 1. f_equal; [q2r|]. extensionality m. q2r.
  - extensionality m. cbn [ssp_rk3 tableau bs bb length rsum nth]. q2r.
Qed.

(** ** The generic solver *)
(** No non-zero stage coefficient is below the tolerance. *)
Definition atol_ok (s : scheme) (atol : R) : Prop :=
  forall i j, (j < i)%nat -> (i < numStages s)%nat -> Q2R (stageC s i j) = 0 \/ atol <= Rabs (Q2R (stageC s i j)).

Lemma setCurState_eq : forall s atol steps dt cur start, atol_ok s atol -> (cur < numStages s)%nat ->
  setCurState s atol steps start cur dt
  = (fun m => start m + dt * rsum cur (fun j => Q2R (stageC s cur j) * steps j m)).
Proof.
  intros s atol steps dt cur start Hok Hc. unfold setCurState.
  assert (H : forall j, (j <= cur)%nat -> setCurState_loop s atol steps dt cur j start
              = (fun m => start m + dt * rsum j (fun j => Q2R (stageC s cur j) * steps j m))).
  { induction j as [|j IH]; intros Hj.
    - cbn [setCurState_loop rsum]. extensionality m. lra.
    - cbn [setCurState_loop rsum]. rewrite IH by lia.
      destruct (Rlt_dec _ _) as [Hlt|Hge].
      + destruct (Hok cur j ltac:(lia) Hc) as [H0|Hle]; [|lra]. extensionality m. rewrite H0. lra.
      + extensionality m. lra. }
  apply H. lia.
Qed.

Lemma stage_loop_fix : forall s atol f t h y n m steps j, (j < n)%nat ->
  stage_loop s atol f t h y (n + m) steps j = stage_loop s atol f t h y n steps j.
Proof.
  intros s atol f t h y n m steps j Hj. induction m as [|m IH]; [rewrite Nat.add_0_r; reflexivity|].
  rewrite Nat.add_succ_r. cbn [stage_loop].
  destruct (Nat.eqb_spec j (n + m)) as [E|_]; [lia|]. exact IH.
Qed.

Lemma rsum_f_equal : forall n a (g k : nat -> vec) m, (forall j, (j < n)%nat -> g j = k j) ->
  rsum n (fun j => a j * g j m) = rsum n (fun j => a j * k j m).
Proof. intros n a g k m H. apply rsum_ext. intros i Hi. rewrite H by exact Hi. reflexivity. Qed.

Lemma stages_ok : forall s atol f t h y steps0, atol_ok s atol ->
  let k := stage_loop s atol f t h y (numStages s) steps0 in
  forall i, (i < numStages s)%nat ->
    k i = f (t + Q2R (timeC s i) * h) (fun m => y m + h * rsum i (fun j => Q2R (stageC s i j) * k j m)).
Proof.
  intros s atol f t h y steps0 Hok k i Hi. unfold k.
  replace (numStages s) with (S i + (numStages s - S i))%nat by lia.
  rewrite (stage_loop_fix s atol f t h y (S i)) by lia.
  cbn [stage_loop]. rewrite Nat.eqb_refl. unfold setCurTime. rewrite setCurState_eq by assumption.
  f_equal; [lra|]. extensionality m. f_equal. f_equal. apply rsum_f_equal. intros j Hj.
  replace (S i + (numStages s - S i))%nat with (i + S (numStages s - S i))%nat by lia.
  symmetry. apply stage_loop_fix. exact Hj.
Qed.

Lemma constructOutput_eq : forall s steps start dt index,
  constructOutput s steps start dt index
  = (fun m => start m + dt * rsum (numStages s) (fun i => Q2R (resultC s i index) * steps i m)).
Proof.
  intros s steps start dt index. unfold constructOutput. generalize (numStages s) as n.
  induction n as [|n IH]; cbn [constructOutput_loop rsum].
  - extensionality m. lra.
  - rewrite IH. destruct (Req_EM_T _ _) as [E|E]; extensionality m; [rewrite E|]; lra.
Qed.

(** A scheme whose output is formed by the generic code. *)
Lemma generic_is : forall s follow adaptive atol f t h y steps0 y' alt, atol_ok s atol ->
  take_step s false follow adaptive atol f t h y steps0 = (y', alt) ->
  rk_method (tableau_of s (if follow then 0 else 1)) f t h y y' /\
  (if adaptive then exists a, alt = Some a /\ rk_method (tableau_of s (if follow then 1 else 0)) f t h y a else alt = None).
Proof.
  intros s follow adaptive atol f t h y steps0 y' alt Hok H. unfold take_step, setOutputStates in H. cbv zeta in H.
  injection H as <- <-. split.
  - exists (stage_loop s atol f t h y (numStages s) steps0). split.
    + exact (stages_ok s atol f t h y steps0 Hok).
    + apply constructOutput_eq.
  - destruct adaptive; [|reflexivity]. eexists. split; [reflexivity|].
    exists (stage_loop s atol f t h y (numStages s) steps0). split.
    + exact (stages_ok s atol f t h y steps0 Hok).
    + apply constructOutput_eq.
Qed.

Lemma rk4simple_small_eq : forall steps start dt,
  rk4simple_small rk4simple steps start dt = constructOutput rk4simple steps start dt 0.
Proof.
  intros. rewrite constructOutput_eq. extensionality m. unfold rk4simple_small.
  cbn [rk4simple numStages rsum resultC resultCoeffs nth fst snd]. rewrite Q2R_0. lra.
Qed.
Lemma rk4simple_large_eq : forall steps start dt,
  rk4simple_large rk4simple steps start dt = constructOutput rk4simple steps start dt 1.
Proof.
  intros. rewrite constructOutput_eq. extensionality m. unfold rk4simple_large.
  cbn [rk4simple numStages rsum resultC resultCoeffs nth fst snd]. rewrite Q2R_0. lra.
Qed.
Lemma rk4simple_take : forall follow adaptive atol f t h y steps0,
  take_step rk4simple true follow adaptive atol f t h y steps0 = take_step rk4simple false follow adaptive atol f t h y steps0.
Proof.
  intros. unfold take_step, rk4simple_setOutputStates, setOutputStates. cbv zeta.
  destruct follow; rewrite rk4simple_small_eq, rk4simple_large_eq; reflexivity.
Qed.

(** ** Order conditions *)
Definition forder (l : list tree) : nat := fold_right (fun u n => (order u + n)%nat) 0%nat l.

Fixpoint forests (fuel n : nat) : list (list tree) :=
  match fuel with
  | O => match n with O => [[]] | _ => [] end
  | S fu =>
      match n with
      | O => [[]]
      | _ => flat_map (fun k => flat_map (fun c => map (cons (Node c)) (forests fu (n - k))) (forests fu (k - 1))) (seq 1 n)
      end
  end.

Lemma order_pos : forall t, (1 <= order t)%nat.
Proof. intros [l]. cbn [order]. lia. Qed.

Lemma forests_complete : forall fuel l, (forder l <= fuel)%nat -> In l (forests fuel (forder l)).
Proof.
  induction fuel as [|fu IH]; intros l Hl.
  - destruct l as [|t r]; [left; reflexivity|]. cbn [forder fold_right] in Hl. pose proof (order_pos t). lia.
  - destruct l as [|t r]; [left; reflexivity|].
    pose proof (order_pos t) as Ht. destruct t as [c].
    assert (E : forder (Node c :: r) = (S (forder c) + forder r)%nat) by reflexivity.
    rewrite E in Hl |- *. cbn [forests Nat.add].
    apply in_flat_map. exists (S (forder c)). split; [apply in_seq; lia|].
    apply in_flat_map. exists c. split.
    + replace (S (forder c) - 1)%nat with (forder c) by lia. apply IH. lia.
    + apply in_map. replace (S (forder c + forder r) - S (forder c))%nat with (forder r) by lia. apply IH. lia.
Qed.

Definition cond_ok (T : butcher) (t : tree) : bool :=
  Qeq_bool (qsum (bs T) (fun i => bb T i * weight T t i)%Q) (/ gamma t).
Definition rows_ok (T : butcher) : bool :=
  forallb (fun i => Qeq_bool (bc T i) (qsum i (ba T i))) (seq 0 (bs T)).
Definition order_ok (T : butcher) (p : nat) : bool :=
  rows_ok T && forallb (fun n => forallb (fun c => cond_ok T (Node c)) (forests p n)) (seq 0 p).

Lemma order_ok_sound : forall T p, order_ok T p = true -> has_order T p.
Proof.
  intros T p H. unfold order_ok in H. apply andb_prop in H. destruct H as (Hr & Ht). split.
  - intros i Hi. unfold rows_ok in Hr. rewrite forallb_forall in Hr. apply Qeq_bool_eq. apply Hr. apply in_seq. lia.
  - intros [c] Hc. rewrite forallb_forall in Ht.
    assert (Hn : (forder c < p)%nat).
    { change (order (Node c)) with (S (forder c)) in Hc. lia. }
    specialize (Ht (forder c)). rewrite forallb_forall in Ht.
    apply Qeq_bool_eq. apply Ht.
    + apply in_seq. lia.
    + apply forests_complete. lia.
Qed.
