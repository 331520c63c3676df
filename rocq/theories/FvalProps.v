(** Property theorem C80: Field3D objects behave as independent values. *)
From Coq Require Import List ZArith Lia Bool Arith Permutation.
From Verif Require Import Base FvalModel FvalSpec FvalProofs FvalProofs2 FvalProofs3 FvalProofs4 FvalProofs5.
Import ListNotations.

(** The loops of the operators visit every point of the mesh once, in any order. *)
Definition visits (nx ny nz : nat) (o3 o2 op : list nat) : Prop :=
  Permutation o3 (seq 0 (nx * ny * nz)) /\ Permutation o2 (seq 0 (nx * ny)) /\ Permutation op (seq 0 (nx * nz)).

(** In every reachable state every legal operation succeeds and changes values exactly as FvalSpec.v says. *)
Theorem C80_operations_act_on_values : forall V ar one nx ny nz o3 o2 op s o, visits nx ny nz o3 o2 op ->
  reach V ar one nx ny nz o3 o2 op s -> legal V nx ny nz (observe V s) o -> writes_own V s o ->
  exists s', step V ar one nx ny nz o3 o2 op s o = Ok s' /\ effect V ar one nx ny nz (observe V s) o (observe V s').
Proof.
  intros V ar one nx ny nz o3 o2 op s o (H3 & H2 & Hp) R L W.
  destruct (step_ok V ar one nx ny nz o3 o2 op H3 H2 Hp s o) as (s' & E & _ & F & _); eauto.
  eapply reach_inv; eauto.
Qed.
Print Assumptions C80_operations_act_on_values.

(** A field is changed only by operations on that field: whatever is done to copies, or to fields computed from it. *)
Theorem C80_isolation : forall V ar one nx ny nz o3 o2 op s os s' x, visits nx ny nz o3 o2 op ->
  reach V ar one nx ny nz o3 o2 op s -> history V ar one nx ny nz o3 o2 op s os s' ->
  (forall o, In o os -> ~ target V o x) -> observe V s' x = observe V s x.
Proof. intros V ar one nx ny nz o3 o2 op s os s' x (H3 & H2 & Hp). exact (isolation V ar one nx ny nz o3 o2 op H3 H2 Hp s os s' x). Qed.
Print Assumptions C80_isolation.

(** The result of an update does not depend on which fields share storage, although shared data takes another path. *)
Theorem C80_sharing_irrelevant : forall V ar one nx ny nz o3 o2 op s1 s2 p o r j1 j2, visits nx ny nz o3 o2 op ->
  reach V ar one nx ny nz o3 o2 op s1 -> reach V ar one nx ny nz o3 o2 op s2 -> (forall x, observe V s1 x = observe V s2 x) ->
  legal V nx ny nz (observe V s1) (Update V p o r j1) -> exists s1' s2',
    step V ar one nx ny nz o3 o2 op s1 (Update V p o r j1) = Ok s1' /\
    step V ar one nx ny nz o3 o2 op s2 (Update V p o r j2) = Ok s2' /\ forall x, observe V s1' x = observe V s2' x.
Proof.
  intros V ar one nx ny nz o3 o2 op s1 s2 p o r j1 j2 (H3 & H2 & Hp).
  exact (sharing_irrelevant V ar one nx ny nz o3 o2 op H3 H2 Hp s1 s2 p o r j1 j2).
Qed.
Print Assumptions C80_sharing_irrelevant.

(** No field refers to released storage; after allocate(), an assignment of values or an update, the data is not shared, so
    that single elements may be written. *)
Theorem C80_writable_after : forall V ar one nx ny nz o3 o2 op s o s', visits nx ny nz o3 o2 op ->
  reach V ar one nx ny nz o3 o2 op s -> legal V nx ny nz (observe V s) o ->
  step V ar one nx ny nz o3 o2 op s o = Ok s' ->
  (forall x, observe V s' x <> Dangling V) /\
  match o with
  | SetReal _ p _ _ | Set2D _ p _ _ | SetPerp _ p _ _ _ | Update _ p _ _ _ | Allocate _ p _ => unique V s' p = true
  | NewBinary _ v _ _ _ _ => unique V s' (Var v, Main) = true
  | _ => True
  end.
Proof.
  intros V ar one nx ny nz o3 o2 op s o s' (H3 & H2 & Hp) R L E. split.
  - intros x. eapply no_dangling; [exact H3|exact H2|exact Hp|]. eapply reach_step; eauto.
  - assert (G : wr_ok V o s -> freed V o s').
    { intros W. destruct (step_ok V ar one nx ny nz o3 o2 op H3 H2 Hp s o) as (s1 & E1 & _ & _ & F); eauto; [eapply reach_inv; eauto|].
      assert (s1 = s') by congruence. subst. exact F. }
    destruct o; try exact I; apply G; exact I.
Qed.
Print Assumptions C80_writable_after.

(** Not in general: using a parallel slice of the target as the source. Assignment f = f.yup() reads a destroyed object in
    every state; f += f.yup() does so when the data of f is not shared, and works when it is. *)
Theorem C80_own_slice_refuted : forall V ar one nx ny nz o3 o2 op s p q, slice p q ->
  step V ar one nx ny nz o3 o2 op s (CopyAssign V p q) = UB /\
  (forall o j, unique V s p = true -> step V ar one nx ny nz o3 o2 op s (Update V p o (RField V q) j) = UB).
Proof.
  intros V ar one nx ny nz o3 o2 op s p q S. split; [apply own_slice_assign; exact S|].
  intros o j U. apply own_slice_update; assumption.
Qed.
Print Assumptions C80_own_slice_refuted.

Definition zar (o : bop) (a b : Z) : Z := match o with Add => a + b | Sub => a - b | Mul => a * b | Div => a / b end.
Definition f0 : slot := (Var 0, Main).
Definition f1 : slot := (Var 1, Main).
Definition junk0 : nat -> Z := fun k => (100 + Z.of_nat k)%Z.
Notation run2 l := (run Z zar 1%Z 1 1 2 [1; 0] [0] [0; 1] (init Z) l).

(** Not in general: a single element written through a copy that still shares its data changes the original too. *)
Theorem C80_shared_write_refuted : exists s s',
  reach Z zar 1%Z 1 1 2 [1; 0] [0] [0; 1] s /\ legal Z 1 1 2 (observe Z s) (Write Z f1 0 7%Z) /\
  step Z zar 1%Z 1 1 2 [1; 0] [0] [0; 1] s (Write Z f1 0 7%Z) = Ok s' /\ observe Z s' f0 <> observe Z s f0.
Proof.
  assert (R : exists s, run2 [NewEmpty Z 0; SetReal Z f0 5%Z junk0; NewCopy Z 1 f0] = Ok s /\ reach Z zar 1%Z 1 1 2 [1; 0] [0] [0; 1] s).
  { eexists. split; [vm_compute; reflexivity|].
    eapply reach_step with (o := NewCopy Z 1 f0); [eapply reach_step with (o := SetReal Z f0 5%Z junk0);
      [eapply reach_step with (o := NewEmpty Z 0); [apply reach_init| |vm_compute; reflexivity]| |vm_compute; reflexivity]| |vm_compute; reflexivity].
    - intros q. split; reflexivity.
    - intros H. vm_compute in H. discriminate.
    - split; [|intros H; vm_compute in H; discriminate]. intros q. split; destruct q; reflexivity. }
  destruct R as (s & E & R). vm_compute in E. injection E as <-.
  eexists _, _. split; [exact R|]. split; [|split; [vm_compute; reflexivity|vm_compute; discriminate]].
  split; [eexists; vm_compute; reflexivity|]. lia.
Qed.
Print Assumptions C80_shared_write_refuted.

(** A history with sharing, slices, a time derivative and updates on both paths. *)
Example C80_case : exists s s2,
  run2 [NewEmpty Z 0; SetReal Z f0 5%Z junk0; Split Z f0 1; SetReal Z (Var 0, Up 0) 6%Z junk0; SetReal Z (Var 0, Down 0) 4%Z junk0;
        NewCopy Z 1 f0; Update Z f0 Add (RField Z (Var 0, Up 0)) junk0] = Ok s2 /\ observe Z s2 f0 = Data Z [11; 11]%Z /\
  run2 [NewEmpty Z 0; SetReal Z f0 5%Z junk0; Split Z f0 1; SetReal Z (Var 0, Up 0) 6%Z junk0; SetReal Z (Var 0, Down 0) 4%Z junk0;
        NewCopy Z 1 f0; Update Z f1 Mul (RField Z f0) junk0; TimeDeriv Z 0 junk0; CopyAssign Z (Ddt 0, Main) f1;
        Update Z f0 Add (RField Z (Var 0, Up 0)) junk0] = UB /\
  run2 [NewEmpty Z 0; SetReal Z f0 5%Z junk0; Split Z f0 1; SetReal Z (Var 0, Up 0) 6%Z junk0; SetReal Z (Var 0, Down 0) 4%Z junk0;
        NewCopy Z 1 f0; Update Z f1 Mul (RField Z f0) junk0; TimeDeriv Z 0 junk0; CopyAssign Z (Ddt 0, Main) f1;
        Update Z (Ddt 0, Main) Sub (RField Z (Var 0, Up 0)) junk0; Allocate Z f1 junk0; Write Z f1 1 9%Z] = Ok s /\
  observe Z s f0 = Data Z [5; 5]%Z /\ observe Z s f1 = Data Z [25; 9]%Z /\ observe Z s (Ddt 0, Main) = Data Z [19; 19]%Z /\
  observe Z s (Var 0, Up 0) = Data Z [6; 6]%Z /\ observe Z s (Var 1, Up 0) = Absent Z.
Proof. eexists _, _. vm_compute. repeat split. Qed.
