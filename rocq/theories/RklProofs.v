From Coq Require Import List Arith Bool Lia Reals QArith Qreals Lra FunctionalExtensionality.
From Verif Require Import RkSpec RkModel RkProofs RkOrder RkLocal RklModel.
Import ListNotations.
Local Open Scope R_scope.

Definition qn (j : nat) : Q := inject_Z (Z.of_nat j).
Lemma Q2R_qn : forall j, Q2R (qn j) = INR j.
Proof. intros j. unfold Q2R, qn, inject_Z. cbn [Qnum Qden]. rewrite INR_IZR_INZ. lra. Qed.

(** The coefficients, as rationals. *)
Definition qb (j : nat) : Q := match j with 0%nat | 1%nat => (1#3)%Q | _ => ((qn j * qn j + qn j - 2) / (2 * qn j * (qn j + 1)))%Q end.
Definition qmu (j : nat) : Q := ((2 * qn j - 1) / qn j * qb j / qb (j - 1))%Q.
Definition qnu (j : nat) : Q := (- (qn j - 1) / qn j * qb j / qb (j - 2))%Q.
Definition qw (s : nat) : Q := (4 / (qn s * qn s + qn s - 2))%Q.
Definition unit (i k : nat) : Q := if (k =? i)%nat then 1%Q else 0%Q.

(** Row [j]: stage [j] is [start + dt * sum_k row j k * f(stage k)]; [rows j] holds rows [j] and [j + 1]. *)
Fixpoint rows (s j : nat) : (nat -> Q) * (nat -> Q) :=
  match j with
  | O => ((fun _ => 0%Q), (fun k => qw s / 3 * unit 0 k)%Q)
  | S i =>
      let '(r0, r1) := rows s i in
      (r1, fun k => (qmu (S (S i)) * (r1 k + qw s * (unit (S i) k - (1 - qb (S i)) * unit 0 k)) + qnu (S (S i)) * r0 k)%Q)
  end.
Definition row (s j : nat) : nat -> Q := fst (rows s j).
Lemma row_0 : forall s, row s 0 = fun _ => 0%Q. Proof. reflexivity. Qed.
Lemma rows_snd : forall s j, snd (rows s j) = row s (S j).
Proof. intros s j. unfold row. cbn [rows]. destruct (rows s j). reflexivity. Qed.
Lemma row_1 : forall s, row s 1 = fun k => (qw s / 3 * unit 0 k)%Q. Proof. reflexivity. Qed.
Lemma row_SS : forall s j, row s (S (S j)) = fun k => (qmu (S (S j)) * (row s (S j) k + qw s * (unit (S j) k - (1 - qb (S j)) * unit 0 k)) + qnu (S (S j)) * row s j k)%Q.
Proof.
  intros s j. rewrite <- rows_snd. cbn [rows]. rewrite <- (rows_snd s j). unfold row. destruct (rows s j) as [r0 r1]. reflexivity.
Qed.

Definition Rb (j : nat) : R := match j with 0%nat | 1%nat => 1/3 | _ => b_coef j end.
Definition Rmu (j : nat) : R := (2 * INR j - 1) / INR j * Rb j / Rb (j - 1).
Definition Rnu (j : nat) : R := - (INR j - 1) / INR j * Rb j / Rb (j - 2).
Definition Rw (s : nat) : R := 4 / (INR s * INR s + INR s - 2).
Definition e (i k : nat) : R := if (k =? i)%nat then 1 else 0.

Lemma INR_ge : forall n m, (n <= m)%nat -> INR n <= INR m. Proof. apply le_INR. Qed.
Lemma INR_2 : forall j, (2 <= j)%nat -> 2 <= INR j.
Proof. intros j H. apply le_INR in H. exact H. Qed.
Lemma INR_1' : forall j, (1 <= j)%nat -> 1 <= INR j.
Proof. intros j H. apply le_INR in H. exact H. Qed.

Lemma Rb_pos : forall j, 0 < Rb j.
Proof.
  intros [|[|j]]; cbn [Rb]; try lra. unfold b_coef. pose proof (INR_2 (S (S j)) ltac:(lia)) as H. set (x := INR (S (S j))) in *.
  apply Rdiv_lt_0_compat; nra.
Qed.
Lemma Rden_pos : forall s, (2 <= s)%nat -> 0 < INR s * INR s + INR s - 2.
Proof. intros s H. apply INR_2 in H. nra. Qed.

Ltac qr := repeat (rewrite ?Q2R_mult, ?Q2R_plus, ?Q2R_minus, ?Q2R_opp, ?Q2R_qn).
Lemma Qne : forall q, Q2R q <> 0 -> ~ (q == 0)%Q.
Proof. intros q H E. apply H. rewrite (Qeq_eqR _ _ E). unfold Q2R. cbn. lra. Qed.
Lemma Q2R_lit2 : Q2R 2 = 2. Proof. unfold Q2R. cbn. lra. Qed.
Lemma Q2R_lit3 : Q2R 3 = 3. Proof. unfold Q2R. cbn. lra. Qed.
Lemma Q2R_lit4 : Q2R 4 = 4. Proof. unfold Q2R. cbn. lra. Qed.

Lemma Q2R_qb : forall j, Q2R (qb j) = Rb j.
Proof.
  intros [|[|j]]; [unfold Q2R; cbn; lra|unfold Q2R; cbn; lra|]. cbn [qb Rb]. unfold b_coef.
  pose proof (INR_2 (S (S j)) ltac:(lia)) as H.
  rewrite Q2R_div.
  - qr. rewrite Q2R_lit2, Q2R_1. reflexivity.
  - apply Qne. qr. rewrite Q2R_lit2, Q2R_1. nra.
Qed.
Lemma Q2R_qmu : forall j, (2 <= j)%nat -> Q2R (qmu j) = Rmu j.
Proof.
  intros j Hj. pose proof (INR_2 j Hj). unfold qmu, Rmu. rewrite Q2R_div.
  - qr. rewrite Q2R_div by (apply Qne; rewrite Q2R_qn; lra). qr. rewrite Q2R_lit2, Q2R_1, !Q2R_qb. reflexivity.
  - apply Qne. rewrite Q2R_qb. pose proof (Rb_pos (j - 1)). lra.
Qed.
Lemma Q2R_qnu : forall j, (2 <= j)%nat -> Q2R (qnu j) = Rnu j.
Proof.
  intros j Hj. pose proof (INR_2 j Hj). unfold qnu, Rnu. rewrite Q2R_div.
  - qr. rewrite Q2R_div by (apply Qne; rewrite Q2R_qn; lra). qr. rewrite Q2R_1, !Q2R_qb. reflexivity.
  - apply Qne. rewrite Q2R_qb. pose proof (Rb_pos (j - 2)). lra.
Qed.
Lemma Q2R_qw : forall s, (2 <= s)%nat -> Q2R (qw s) = Rw s.
Proof.
  intros s Hs. pose proof (Rden_pos s Hs). unfold qw, Rw. rewrite Q2R_div.
  - qr. rewrite Q2R_lit2, Q2R_lit4. reflexivity.
  - apply Qne. qr. rewrite Q2R_lit2. lra.
Qed.
Lemma Q2R_unit : forall i k, Q2R (unit i k) = e i k.
Proof. intros i k. unfold unit, e. destruct (k =? i)%nat; [apply Q2R_1|apply Q2R_0]. Qed.

Definition rr (s j k : nat) : R := Q2R (row s j k).
Lemma rr_0 : forall s k, rr s 0 k = 0. Proof. intros. unfold rr. rewrite row_0. apply Q2R_0. Qed.
Lemma rr_1 : forall s k, (2 <= s)%nat -> rr s 1 k = Rw s / 3 * e 0 k.
Proof.
  intros s k Hs. unfold rr. rewrite row_1. qr. rewrite Q2R_div by (intros E; discriminate E).
  rewrite Q2R_qw, Q2R_unit, Q2R_lit3 by exact Hs. reflexivity.
Qed.
Lemma rr_SS : forall s j k, (2 <= s)%nat ->
  rr s (S (S j)) k = Rmu (S (S j)) * (rr s (S j) k + Rw s * (e (S j) k - (1 - Rb (S j)) * e 0 k)) + Rnu (S (S j)) * rr s j k.
Proof.
  intros s j k Hs. unfold rr. rewrite row_SS. qr. rewrite Q2R_1, Q2R_qmu, Q2R_qnu, Q2R_qw, Q2R_qb, !Q2R_unit by lia. reflexivity.
Qed.

Lemma rr_zero : forall s j k, (2 <= s)%nat -> (j <= k)%nat -> rr s j k = 0.
Proof.
  intros s j k Hs. assert (H : ((j <= k)%nat -> rr s j k = 0) /\ ((S j <= k)%nat -> rr s (S j) k = 0)).
  { induction j as [|j (IH1 & IH2)].
    - split; intros H; [apply rr_0|]. rewrite rr_1 by exact Hs. unfold e. destruct (Nat.eqb_spec k 0); [lia|]. ring.
    - split; [exact IH2|]. intros H. rewrite rr_SS, IH1, IH2 by lia. unfold e.
      destruct (Nat.eqb_spec k (S j)); [lia|]. destruct (Nat.eqb_spec k 0); [lia|]. ring. }
  apply H.
Qed.

Lemma rsum_e : forall N i (g : nat -> R), (i < N)%nat -> rsum N (fun k => e i k * g k) = g i.
Proof.
  induction N as [|N IH]; intros i g Hi; [lia|]. cbn [rsum]. destruct (Nat.eq_dec i N) as [->|Hne].
  - rewrite (rsum_0 N); [unfold e; rewrite Nat.eqb_refl; ring|]. intros k Hk. unfold e. destruct (Nat.eqb_spec k N); [lia|]. ring.
  - rewrite IH by lia. unfold e. destruct (Nat.eqb_spec N i); [lia|]. ring.
Qed.

(** Weighted row sums. *)
Definition RS (s N j : nat) (g : nat -> R) : R := rsum N (fun k => rr s j k * g k).
Lemma RS_0 : forall s N g, RS s N 0 g = 0.
Proof. intros. unfold RS. apply rsum_0. intros. rewrite rr_0. ring. Qed.
Lemma RS_1 : forall s N g, (2 <= s)%nat -> (0 < N)%nat -> RS s N 1 g = Rw s / 3 * g 0%nat.
Proof.
  intros s N g Hs HN. unfold RS. rewrite (rsum_ext N _ (fun k => Rw s / 3 * (e 0 k * g k))).
  - rewrite rsum_scal, rsum_e by exact HN. reflexivity.
  - intros. rewrite rr_1 by exact Hs. ring.
Qed.
Lemma RS_SS : forall s N j g, (2 <= s)%nat -> (S j < N)%nat ->
  RS s N (S (S j)) g = Rmu (S (S j)) * (RS s N (S j) g + Rw s * (g (S j) - (1 - Rb (S j)) * g 0%nat)) + Rnu (S (S j)) * RS s N j g.
Proof.
  intros s N j g Hs HN. unfold RS.
  rewrite (rsum_ext N _ (fun k => (Rmu (S (S j)) * (rr s (S j) k * g k) + Rnu (S (S j)) * (rr s j k * g k))
      + (Rmu (S (S j)) * Rw s * (e (S j) k * g k) + Rmu (S (S j)) * Rw s * - (1 - Rb (S j)) * (e 0 k * g k)))).
  - rewrite !rsum_plus, !rsum_scal, !rsum_e by lia. ring.
  - intros. rewrite rr_SS by exact Hs. ring.
Qed.
Lemma rsum_trunc : forall N i (f : nat -> R), (i <= N)%nat -> (forall k, (i <= k)%nat -> f k = 0) -> rsum N f = rsum i f.
Proof.
  intros N i f H Hz. induction H as [|N H IH]; [reflexivity|]. cbn [rsum]. rewrite IH, Hz by lia. ring.
Qed.
Lemma RS_trunc : forall s N j g, (2 <= s)%nat -> (j <= N)%nat -> RS s N j g = rsum j (fun k => rr s j k * g k).
Proof. intros s N j g Hs HN. unfold RS. apply rsum_trunc; [exact HN|]. intros k Hk. rewrite rr_zero by assumption. ring. Qed.

(** Nodes and second order sums. *)
Definition cnode (s j : nat) : R := match j with 0%nat => 0 | 1%nat => Rw s / 3 | _ => (INR j * INR j + INR j - 2) * Rw s / 4 end.

(** [b_j / b_{j-1}] etc. times the values: the products that appear in the recurrences. *)
Lemma Rb_val : forall j, (2 <= j)%nat -> Rb j = (INR j * INR j + INR j - 2) / (2 * INR j * (INR j + 1)).
Proof. intros [|[|j]] H; try lia. reflexivity. Qed.

Lemma nodes : forall s N j, (2 <= s)%nat -> (j < N)%nat ->
  RS s N j (fun _ => 1) = cnode s j /\ RS s N (S j) (fun _ => 1) = cnode s (S j).
Proof.
  intros s N j Hs. induction j as [|j IH]; intros Hj.
  - rewrite RS_0, RS_1 by lia. cbn [cnode]. split; ring.
  - destruct (IH ltac:(lia)) as (H1 & H2). split; [exact H2|]. rewrite RS_SS by lia. rewrite H1, H2. rewrite Rmult_1_r.
    destruct j as [|[|j]].
    + cbn [cnode]. unfold Rmu, Rnu. cbn [Nat.sub Rb]. unfold b_coef. cbn [INR]. field.
    + cbn [cnode]. unfold Rmu, Rnu. cbn [Nat.sub Rb]. unfold b_coef. cbn [INR]. field.
    + cbn [cnode]. unfold Rmu, Rnu. replace (S (S (S (S j))) - 1)%nat with (S (S (S j))) by lia.
      replace (S (S (S (S j))) - 2)%nat with (S (S j)) by lia.
      rewrite !Rb_val by lia. rewrite !S_INR. pose proof (pos_INR j). field. repeat split; nra.
Qed.

Lemma seconds : forall s N j, (2 <= s)%nat -> (S j < N)%nat ->
  RS s N j (cnode s) = (match j with 1%nat => 0 | _ => cnode s j * cnode s j / 2 end) /\
  RS s N (S j) (cnode s) = (match S j with 1%nat => 0 | _ => cnode s (S j) * cnode s (S j) / 2 end).
Proof.
  intros s N j Hs. induction j as [|j IH]; intros Hj.
  - rewrite RS_0, RS_1 by lia. cbn [cnode]. split; [field|ring].
  - destruct (IH ltac:(lia)) as (H1 & H2). split; [exact H2|]. rewrite RS_SS by lia. rewrite H1, H2.
    destruct j as [|[|j]].
    + cbn [cnode]. unfold Rmu, Rnu. cbn [Nat.sub Rb]. unfold b_coef. cbn [INR]. field.
    + cbn [cnode]. unfold Rmu, Rnu. cbn [Nat.sub Rb]. unfold b_coef. cbn [INR]. field.
    + cbn [cnode]. unfold Rmu, Rnu. replace (S (S (S (S j))) - 1)%nat with (S (S (S j))) by lia.
      replace (S (S (S (S j))) - 2)%nat with (S (S j)) by lia.
      rewrite !Rb_val by lia. rewrite !S_INR. pose proof (pos_INR j). field. repeat split; nra.
Qed.

(** The tableau. *)
Definition rkl2 (s : nat) : butcher :=
  {| bs := s; ba := row s; bb := row s s; bc := fun i => qsum i (row s i) |}.
Lemma cnode_s : forall s, (2 <= s)%nat -> cnode s s = 1.
Proof. intros s Hs. pose proof (Rden_pos s Hs). destruct s as [|[|s]]; try lia. cbn [cnode]. unfold Rw. field. lra. Qed.

Lemma seconds_s : forall s, (2 <= s)%nat -> RS s (S s) s (cnode s) = 1 / 2.
Proof.
  intros s Hs. destruct s as [|[|s]]; try lia.
  destruct (seconds (S (S s)) (S (S (S s))) (S s) Hs ltac:(lia)) as (_ & H). rewrite H. rewrite cnode_s by exact Hs. field.
Qed.

Lemma rkl2_order : forall s, (2 <= s)%nat -> has_order (rkl2 s) 2.
Proof.
  intros s Hs. split; [intros; reflexivity|]. intros t Ht. apply eqR_Qeq. rewrite Q2R_qsum. cbn [rkl2 bs ba bb].
  assert (C : forall i, (i <= s)%nat -> rsum i (rr s i) = cnode s i).
  { intros i Hi. destruct (nodes s (S i) i Hs ltac:(lia)) as (H & _). rewrite RS_trunc in H by lia. rewrite <- H.
    apply rsum_ext. intros. ring. }
  destruct t as [l]. destruct l as [|[l1] l].
  - cbn [weight gamma fold_right order].
    rewrite (rsum_ext s _ (rr s s)) by (intros; qr; rewrite Q2R_1; unfold rr; ring).
    rewrite C, cnode_s by lia. unfold Q2R. cbn. lra.
  - assert (l1 = [] /\ l = []) as (-> & ->).
    { cbn [order fold_right] in Ht. split.
      - destruct l1 as [|[x] ?]; [reflexivity|]. cbn [fold_right order] in Ht. lia.
      - destruct l as [|[x] ?]; [reflexivity|]. cbn [fold_right order] in Ht. lia. }
    cbn [weight fold_right].
    rewrite (rsum_ext s _ (fun i => rr s s i * cnode s i)).
    + pose proof (seconds_s s Hs) as H. rewrite RS_trunc in H by lia. rewrite H. unfold Q2R. cbn. lra.
    + intros i Hi. qr. rewrite Q2R_1, Q2R_qsum, Rmult_1_r. unfold rr at 1. f_equal. rewrite <- C by lia.
      apply rsum_ext. intros j Hj. qr. rewrite Q2R_1. unfold rr. cbn [rkl2 ba]. ring.
Qed.

(** ** The code computes the tableau's method *)
Section Code.
Variable s : nat.
Hypothesis Hs : (2 <= s)%nat.
Variable f : rhs.
Hypothesis autonomous : forall t t' y, f t y = f t' y.
Variable t h : R.
Variable y : vec.

(** The stages of the method. *)
Definition U (k : nat -> vec) (j : nat) : vec := fun m => y m + h * rsum j (fun i => rr s j i * k i m).

Lemma U_SS : forall k j, U k (S (S j)) = fun m =>
  Rmu (S (S j)) * (U k (S j) m + h * Rw s * (k (S j) m - (1 - Rb (S j)) * k 0%nat m)) + Rnu (S (S j)) * U k j m
  + (1 - Rmu (S (S j)) - Rnu (S (S j))) * y m.
Proof.
  intros k j. extensionality m. unfold U.
  pose proof (RS_SS s (S (S j)) j (fun i => k i m) Hs ltac:(lia)) as H. rewrite !RS_trunc in H by lia.
  rewrite H. ring.
Qed.

Lemma cycle_ok : forall k, (forall i, (i < s)%nat -> k i = f t (U k i)) ->
  forall n j, (3 <= j)%nat -> (n + j = S s)%nat ->
  stage_cycle f t (h * Rw s) y (k 0%nat) n j (Rb (j - 2)) (Rb (j - 1)) (U k (j - 1)) (U k (j - 2)) = U k s.
Proof.
  intros k Hk. induction n as [|n IH]; intros j Hj Hn; cbn [stage_cycle].
  - f_equal. lia.
  - destruct j as [|[|[|j]]]; try lia.
    replace (S (S (S j)) - 1)%nat with (S (S j)) in * by lia. replace (S (S (S j)) - 2)%nat with (S j) in * by lia.
    rewrite <- (Hk (S (S j)) ltac:(lia)).
    specialize (IH (S (S (S (S j)))) ltac:(lia) ltac:(lia)).
    replace (S (S (S (S j))) - 1)%nat with (S (S (S j))) in IH by lia. replace (S (S (S (S j))) - 2)%nat with (S (S j)) in IH by lia.
    rewrite <- IH. change (b_coef (S (S (S j)))) with (Rb (S (S (S j)))). f_equal.
    rewrite (U_SS k (S j)). reflexivity.
Qed.

Lemma diffusion_is : rk_method (rkl2 s) f t h y (take_diffusion_step s f t h y).
Proof.
  destruct (stages_exist (rkl2 s) f t h y) as (k & Hk).
  assert (Hk' : forall i, k i = f t (U k i)).
  { intros i. rewrite (Hk i). rewrite (autonomous _ t). reflexivity. }
  exists k. split; [intros; apply Hk|].
  assert (E : take_diffusion_step s f t h y = U k s).
  { unfold take_diffusion_step. cbv zeta.
    replace (h * 4 / (INR s * INR s + INR s - 2)) with (h * Rw s) by (unfold Rw; field; pose proof (Rden_pos s Hs); lra).
    rewrite (autonomous (t + h * Rw s / 3 * h) t).
    assert (K0 : f t y = k 0%nat).
    { rewrite (Hk' 0%nat). f_equal. unfold U. extensionality m. cbn [rsum]. ring. }
    rewrite K0.
    assert (E1 : (fun i => y i + h * Rw s / 3 * k 0%nat i) = U k 1).
    { unfold U. extensionality m. cbn [rsum]. rewrite rr_1 by exact Hs. unfold e. cbn [Nat.eqb]. field. }
    rewrite E1. rewrite <- (Hk' 1%nat).
    assert (E2 : (fun i => 1.5 * (U k 1 i + h * Rw s * k 1%nat i) - 0.5 * y i - h * Rw s * k 0%nat i) = U k 2).
    { rewrite (U_SS k 0). extensionality m. unfold Rmu, Rnu. cbn [Nat.sub Rb]. unfold b_coef. cbn [INR].
      replace (U k 0 m) with (y m) by (unfold U; cbn [rsum]; ring). replace 1.5 with (3 / 2) by lra. replace 0.5 with (1 / 2) by lra. field. }
    match goal with |- stage_cycle _ _ _ _ _ _ _ _ _ ?u _ = _ => replace u with (U k 2) end.
    - destruct (Nat.eq_dec s 2) as [->|Hne].
      + cbn [Nat.sub stage_cycle]. reflexivity.
      + pose proof (cycle_ok k (fun i _ => Hk' i) (s - 2) 3 ltac:(lia) ltac:(lia)) as G.
        assert (B2 : Rb (3 - 1) = 1 / 3) by (cbn [Nat.sub Rb]; unfold b_coef; cbn [INR]; field).
        rewrite B2 in G. exact G.
    - rewrite <- E2, <- E1. reflexivity. }
  rewrite E. unfold U. extensionality m. reflexivity.
Qed.
End Code.
