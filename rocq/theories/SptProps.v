(** C82: the parallel Thomas algorithm of LaplaceSPT. *)
From Coq Require Import List Arith Bool Lia Field QArith Qcanon.
From Verif Require Import Base SptModel SptSpec SptProofs SptProofs2.
Import ListNotations.
Close Scope Q_scope. Close Scope Qc_scope. Open Scope nat_scope.

Section T.
Variable F : Type.
Variables (f0 f1 : F) (fadd fmul fsub fdiv : F -> F -> F) (fopp finv : F -> F).
Hypothesis FT : field_theory f0 f1 fadd fmul fsub fopp fdiv finv (@eq F).
Variable is_zero : F -> bool.
Hypothesis is_zero_spec : forall x, is_zero x = true <-> x = f0.

(** On any number of processors, if no leading minor of the matrix of a mode is zero, every processor gets its part of the
    one and only solution of the global system, for all modes, whatever the work arrays held before. *)
Theorem C82_solves : forall (N mx mxg modes : nat) (A B C R : nat -> nat -> F) (S : nat -> nat -> rows F) junk w,
  2 <= N -> 1 <= mx -> 1 <= mxg ->
  (forall kz, kz < modes -> represents N mx mxg (A kz) (B kz) (C kz) (R kz)
     (fun p => ra F (S p kz)) (fun p => rb F (S p kz)) (fun p => rc F (S p kz)) (fun p => rr F (S p kz))) ->
  (forall kz k, kz < modes -> 1 <= k <= N * mx + 2 * mxg -> minor F f1 fmul fsub (A kz) (B kz) (C kz) k <> f0) ->
  exists w', solve_slice F f0 fmul fsub fdiv is_zero (mx + 2 * mxg) mxg (mx + mxg - 1) modes S N junk w = Ok w' /\
  forall kz, kz < modes -> exists x,
    tri_solution F f0 fadd fmul (N * mx + 2 * mxg) (A kz) (B kz) (C kz) (R kz) x /\
    (forall x', tri_solution F f0 fadd fmul (N * mx + 2 * mxg) (A kz) (B kz) (C kz) (R kz) x' -> forall g, g < N * mx + 2 * mxg -> x' g = x g) /\
    forall p ix, p < N -> holds_point N mx mxg p ix -> xk (w' p kz) ix = x (p * mx + ix).
Proof.
  intros N mx mxg modes A B C R S junk w HN Hmx Hmxg HR HM.
  assert (HB : forall kz g, kz < modes -> g < N * mx + 2 * mxg -> bet F fmul fsub fdiv (A kz) (B kz) (C kz) g <> f0).
  { intros kz g Hk Hg. apply (minor_bet F f0 f1 fadd fmul fsub fdiv fopp finv FT (A kz) (B kz) (C kz) (N * mx + 2 * mxg)); [|exact Hg]. intros h H1 H2. apply HM; [exact Hk|lia]. }
  destruct (slice_ok F f0 f1 fadd fmul fsub fdiv fopp finv FT is_zero is_zero_spec A B C R N mx mxg modes S HN Hmx Hmxg) with (junk := junk) (w := w) as (w' & E & H).
  - intros kz p ix Hk Hp Hh. destruct (HR kz Hk) as (H1 & _). specialize (H1 p ix Hp Hh). tauto.
  - intros kz p ix Hk Hp Hh. destruct (HR kz Hk) as (_ & H2). exact (H2 p ix Hp Hh).
  - exact HB.
  - exists w'. split; [exact E|]. intros kz Hk. exists (xs F f0 fmul fsub fdiv (A kz) (B kz) (C kz) (R kz) (N * mx + 2 * mxg)). split; [|split].
    + apply (xs_solves F f0 f1 fadd fmul fsub fdiv fopp finv FT). intros g Hg. apply HB; assumption.
    + intros x' Hx'. apply (solution_unique F f0 f1 fadd fmul fsub fdiv fopp finv FT); [|exact Hx']. intros g Hg. apply HB; assumption.
    + intros p ix Hp Hh. apply H; assumption.
Qed.

(** One processor in x: refused. *)
Theorem C82_one_processor : forall len xstart xend modes (S : nat -> nat -> rows F) N junk w, N < 2 ->
  solve_slice F f0 fmul fsub fdiv is_zero len xstart xend modes S N junk w = Throw.
Proof. intros. unfold solve_slice, chain. replace (N <? 2) with true by (symmetry; apply Nat.ltb_lt; assumption). reflexivity. Qed.
End T.

(** Rational numbers. *)
Definition qz (x : Qc) : bool := Qc_eq_bool x (Q2Qc 0).
Lemma qz_spec x : qz x = true <-> x = Q2Qc 0.
Proof. unfold qz, Qc_eq_bool. destruct (Qc_eq_dec x (Q2Qc 0)); split; intros; congruence. Qed.
Definition q (n : Z) : Qc := Q2Qc (inject_Z n).
Definition of_list (l : list Z) (g : nat) : Qc := q (nth g l 0%Z).
Definition qrows (A B C R : nat -> Qc) (mx p : nat) : rows Qc := mkRows (fun i => A (p * mx + i)) (fun i => B (p * mx + i)) (fun i => C (p * mx + i)) (fun i => R (p * mx + i)).
Definition qsolve (N mx mxg : nat) (S : nat -> rows Qc) (junk : Z) : res (nat -> local Qc) :=
  solve_slice Qc (Q2Qc 0) Qcmult Qcminus Qcdiv qz (mx + 2 * mxg) mxg (mx + mxg - 1) 1 (fun p _ => S p) N (fun _ => (q junk, q junk)) (fun _ _ => mkWork (fun _ => q junk) (fun _ => q junk)).
(** The value at global point g held by processor p. *)
Definition at_point (r : res (nat -> local Qc)) (p ix : nat) : option Q := match r with Ok w => Some (this (xk (w p 0) ix)) | _ => None end.

(** A case: 8 equations on three processors; the solution is 1, 2, ..., 8. *)
Definition cA := of_list [7; 1; 2; 1; 3; 1; 1; 2]%Z.
Definition cB := of_list [4; 5; 6; 5; 7; 6; 5; 9]%Z.
Definition cC := of_list [1; 2; 1; 1; 2; 3; 1; 7]%Z.
Definition cX (g : nat) : Qc := q (Z.of_nat g + 1).
Definition cR (g : nat) : Qc := ((match g with O => Q2Qc 0 | S h => cA g * cX h end) + cB g * cX g + (if S g <? 8 then cC g * cX (S g) else Q2Qc 0))%Qc.
Example C82_case : represents 3 2 1 cA cB cC cR (fun p => ra Qc (qrows cA cB cC cR 2 p)) (fun p => rb Qc (qrows cA cB cC cR 2 p)) (fun p => rc Qc (qrows cA cB cC cR 2 p)) (fun p => rr Qc (qrows cA cB cC cR 2 p)) /\
  (forall k, 1 <= k <= 8 -> minor Qc (Q2Qc 1) Qcmult Qcminus cA cB cC k <> Q2Qc 0) /\
  let r := qsolve 3 2 1 (qrows cA cB cC cR 2) 77 in
  map (fun pi => at_point r (fst pi) (snd pi)) [(0, 0); (0, 1); (0, 2); (1, 1); (1, 2); (2, 1); (2, 2); (2, 3)] =
  map (fun n => Some (inject_Z n)) [1; 2; 3; 4; 5; 6; 7; 8]%Z.
Proof.
  split; [|split].
  - split; [intros; repeat split; reflexivity|reflexivity].
  - intros k Hk E. assert (T : qz (minor Qc (Q2Qc 1) Qcmult Qcminus cA cB cC k) = false).
    { assert (k = 1 \/ k = 2 \/ k = 3 \/ k = 4 \/ k = 5 \/ k = 6 \/ k = 7 \/ k = 8) as [->|[->|[->|[->|[->|[->|[->| ->]]]]]]] by lia; vm_compute; reflexivity. }
    apply qz_spec in E. congruence.
  - vm_compute. reflexivity.
Qed.

(** The coefficient taken from the guard cell matters (the comment in the code: ASSUMES C NOT CHANGING): if it is not that of
    the neighbour, with everything else right, the result is not a solution. *)
Theorem C82_guard_coefficient_refuted : exists (N mx mxg : nat) (A B C R : nat -> Qc) (S : nat -> rows Qc) w,
  (forall p ix, p < N -> holds_point N mx mxg p ix ->
     ra Qc (S p) ix = A (p * mx + ix) /\ rb Qc (S p) ix = B (p * mx + ix) /\ rr Qc (S p) ix = R (p * mx + ix) /\ rc Qc (S p) ix = C (p * mx + ix)) /\
  (forall k, 1 <= k <= N * mx + 2 * mxg -> minor Qc (Q2Qc 1) Qcmult Qcminus A B C k <> Q2Qc 0) /\
  qsolve N mx mxg S 0 = Ok w /\
  forall x, (forall p ix, p < N -> holds_point N mx mxg p ix -> xk (w p 0) ix = x (p * mx + ix)) ->
    ~ tri_solution Qc (Q2Qc 0) Qcplus Qcmult (N * mx + 2 * mxg) A B C R x.
Proof.
  set (A := of_list [0; 1; 1; 1]%Z). set (B := of_list [3; 3; 3; 3]%Z). set (C := of_list [1; 1; 1; 0]%Z). set (R := of_list [4; 5; 5; 4]%Z).
  set (S := fun p => mkRows (fun i => A (p * 1 + i)) (fun i => B (p * 1 + i)) (fun i => if (p =? 1) && (i =? 0) then q 2 else C (p * 1 + i)) (fun i => R (p * 1 + i))).
  destruct (qsolve 2 1 1 S 0) as [w| |] eqn:E; [|vm_compute in E; discriminate E|vm_compute in E; discriminate E].
  exists 2, 1, 1, A, B, C, R, S, w. split; [|split; [|split]].
  - intros p ix Hp Hh. cbn [S ra rb rc rr]. repeat split; try reflexivity. destruct (Nat.eqb_spec p 1) as [->|]; [|reflexivity]. unfold holds_point in Hh. cbn [Nat.eqb Nat.sub Nat.add Nat.mul] in Hh.
    destruct (Nat.eqb_spec ix 0); [lia|reflexivity].
  - intros k Hk EQ. assert (T : qz (minor Qc (Q2Qc 1) Qcmult Qcminus A B C k) = false).
    { assert (k = 1 \/ k = 2 \/ k = 3 \/ k = 4) as [->|[->|[->| ->]]] by lia; vm_compute; reflexivity. }
    apply qz_spec in EQ. congruence.
  - exact E.
  - intros x Hx HS. specialize (HS 1 ltac:(lia)). cbv iota beta in HS.
    change (2 * 1 + 2 * 1) with 4 in HS. change (2 <? 4) with true in HS. cbv iota in HS.
    pose proof (Hx 0 0 ltac:(lia) ltac:(cbv; lia)) as H0. pose proof (Hx 0 1 ltac:(lia) ltac:(cbv; lia)) as H1. pose proof (Hx 1 1 ltac:(lia) ltac:(cbv; lia)) as H2.
    cbn [Nat.mul Nat.add] in H0, H1, H2. rewrite <- H0, <- H1, <- H2 in HS.
    assert (T : match qsolve 2 1 1 S 0 with Ok w => Qc_eq_bool (Qcplus (Qcplus (Qcmult (A 1) (xk (w 0 0) 0)) (Qcmult (B 1) (xk (w 0 0) 1))) (Qcmult (C 1) (xk (w 1 0) 1))) (R 1) | _ => true end = false) by (vm_compute; reflexivity).
    rewrite E in T. rewrite HS in T. unfold Qc_eq_bool in T. destruct (Qc_eq_dec (R 1) (R 1)); [discriminate|congruence].
Qed.
(** A zero pivot in the first row of a processor is not noticed: no exception, and (a division by zero having taken place)
    no solution. In the other rows it is an exception. *)
Theorem C82_zero_pivot_refuted : exists (N mx mxg : nat) (A B C R : nat -> Qc) w,
  represents N mx mxg A B C R (fun p => ra Qc (qrows A B C R mx p)) (fun p => rb Qc (qrows A B C R mx p)) (fun p => rc Qc (qrows A B C R mx p)) (fun p => rr Qc (qrows A B C R mx p)) /\
  minor Qc (Q2Qc 1) Qcmult Qcminus A B C (N * mx + 2 * mxg) <> Q2Qc 0 /\ minor Qc (Q2Qc 1) Qcmult Qcminus A B C 3 = Q2Qc 0 /\
  qsolve N mx mxg (qrows A B C R mx) 0 = Ok w /\
  forall x, (forall p ix, p < N -> holds_point N mx mxg p ix -> xk (w p 0) ix = x (p * mx + ix)) ->
    ~ tri_solution Qc (Q2Qc 0) Qcplus Qcmult (N * mx + 2 * mxg) A B C R x.
Proof.
  set (A := of_list [0; 0; 1; 1]%Z). set (B := of_list [1; 1; 1; 1]%Z). set (C := of_list [0; 1; 1; 0]%Z). set (R := of_list [1; 2; 3; 4]%Z).
  destruct (qsolve 2 1 1 (qrows A B C R 1) 0) as [w| |] eqn:E; [|vm_compute in E; discriminate E|vm_compute in E; discriminate E].
  exists 2, 1, 1, A, B, C, R, w. split; [|split; [|split; [|split]]].
  - split; [intros; repeat split; reflexivity|reflexivity].
  - intros EQ. assert (T : qz (minor Qc (Q2Qc 1) Qcmult Qcminus A B C (2 * 1 + 2 * 1)) = false) by (vm_compute; reflexivity). apply qz_spec in EQ. congruence.
  - apply qz_spec. vm_compute. reflexivity.
  - exact E.
  - intros x Hx HS. specialize (HS 2 ltac:(lia)). cbv iota beta in HS.
    change (2 * 1 + 2 * 1) with 4 in HS. change (3 <? 4) with true in HS. cbv iota in HS.
    pose proof (Hx 0 1 ltac:(lia) ltac:(cbv; lia)) as H0. pose proof (Hx 1 1 ltac:(lia) ltac:(cbv; lia)) as H1. pose proof (Hx 1 2 ltac:(lia) ltac:(cbv; lia)) as H2.
    cbn [Nat.mul Nat.add] in H0, H1, H2. rewrite <- H0, <- H1, <- H2 in HS.
    assert (T : match qsolve 2 1 1 (qrows A B C R 1) 0 with Ok w => Qc_eq_bool (Qcplus (Qcplus (Qcmult (A 2) (xk (w 0 0) 1)) (Qcmult (B 2) (xk (w 1 0) 1))) (Qcmult (C 2) (xk (w 1 0) 2))) (R 2) | _ => true end = false) by (vm_compute; reflexivity).
    rewrite E in T. rewrite HS in T. unfold Qc_eq_bool in T. destruct (Qc_eq_dec (R 2) (R 2)); [discriminate|congruence].
Qed.

Print Assumptions C82_solves.
Print Assumptions C82_one_processor.
Print Assumptions C82_guard_coefficient_refuted.
Print Assumptions C82_zero_pivot_refuted.
