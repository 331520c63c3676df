(** Property theorems C09, C10. *)
From Coq Require Import List ZArith Lia Bool.
From Verif Require Import Base RangeModel RangeSpec RangeProofs.
Import ListNotations.
Open Scope Z_scope.

(** ** C09. The loop terminates and visits the chain's elements, when at most the first range is null. *)
Theorem C09_iteration_partial : forall chain fuel,
  Forall nonnull (tl chain) -> (length (elements chain) <= fuel)%nat ->
  visit fuel (rfirst chain) = Some (elements chain).
Proof. exact visit_elements. Qed.
Print Assumptions C09_iteration_partial.
(** What is missing: chains with a null range after the first one. There the code visits the null range's start. *)
Theorem C09_null_range_refuted : exists chain, visit 100 (rfirst chain) <> Some (elements chain).
Proof. exact visit_refuted. Qed.
Print Assumptions C09_null_range_refuted.
(** What the loop does for every chain, null ranges included. *)
Theorem C09_iteration_exact : forall chain fuel, (length (seen_from_first chain) <= fuel)%nat ->
  visit fuel (rfirst chain) = Some (seen_from_first chain).
Proof. exact visit_exact. Qed.
Print Assumptions C09_iteration_exact.
Theorem C09_intersects_index : forall chain k, intersects_ind chain k = true <-> In k (elements chain).
Proof. exact intersects_ind_spec. Qed.
Theorem C09_intersects_range : forall chain o, Forall nonnull chain -> nonnull o ->
  (intersects chain o = true <-> exists k, In k (elements chain) /\ In k (ints (is_ o) (ie_ o))).
Proof. exact intersects_spec. Qed.
Theorem C09_add : forall c r, elements (range_plus c r) = elements c ++ elements r.
Proof. exact range_plus_spec. Qed.
Print Assumptions C09_add.
Example C09_case : Forall nonnull (tl [mkN 3 2 false; mkN 0 1 false; mkN 7 9 true]) /\
  visit 10 (rfirst [mkN 3 2 false; mkN 0 1 false; mkN 7 9 true]) = Some [0;1;7;8;9].
Proof. split; [repeat constructor; unfold nonnull; cbn; lia|reflexivity]. Qed.

(** ** C10. Partial: one non-null range is subtracted, and it covers no range of the chain except possibly the first. *)
Theorem C10_subtract_partial : forall r chain fuel, nonnull r -> chain <> [] -> Forall nonnull chain ->
  (forall x, In x (tl chain) -> covers r x = false) ->
  (covers r (hd (mkN 1 0 false) chain) = true -> forall x, In x (tl chain) -> del x = false) ->
  (2 * length chain + 4 <= fuel)%nat ->
  exists c, range_minus fuel chain [r] = Ok c /\ elements c = filter (outside r) (elements chain) /\
    (Forall nonnull (tl c)).
Proof. exact range_minus_one. Qed.
Print Assumptions C10_subtract_partial.
Example C10_case : exists c, range_minus 20 [mkN 0 9 false; mkN 20 30 false] [mkN 3 22 false] = Ok c /\ elements c = [0;1;2;23;24;25;26;27;28;29;30].
Proof. eexists. vm_compute. auto. Qed.

(** The full property is false of the code: [{0,1,5,6} - {5,6}] leaves [{5,6}]; *)
Theorem C10_covered_tail_refuted : exists chain r, Forall nonnull chain /\ Forall nonnull r /\
  exists c, range_minus 100 chain r = Ok c /\ elements c = [5; 6] /\
    filter (fun k => negb (intersects_ind r k)) (elements chain) = [0; 1].
Proof. exact minus_refuted_tail. Qed.
(** [0..10 - {2,3} - 4..12] leaves 4..10; *)
Theorem C10_chain_subtrahend_refuted : exists nd r, nonnull nd /\ Forall nonnull r /\
  exists c, range_minus 100 [nd] r = Ok c /\ elements c = [4;5;6;7;8;9;10] /\
    filter (fun k => negb (intersects_ind r k)) (elements [nd]) = [0; 1].
Proof. exact minus_refuted_chain. Qed.
(** removing the first of three ranges joined with [+=] uses a deleted node; *)
Theorem C10_use_after_free_refuted : exists a b c, nonnull a /\ nonnull b /\ nonnull c /\
  range_minus 100 (range_plus (range_plus [a] [b]) [c]) [a] = UB.
Proof. exact minus_dangling. Qed.
(** and subtracting an empty range can change the result. *)
Theorem C10_null_subtrahend_refuted : exists chain r c, Forall nonnull chain /\ elements r = [] /\
  range_minus 100 chain r = Ok c /\ elements c <> elements chain.
Proof. exact minus_null_range. Qed.
Print Assumptions C10_use_after_free_refuted.
