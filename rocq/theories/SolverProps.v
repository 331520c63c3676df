(* C32: the solver's state vector. *)
Require Import ZArith List Bool Lia.
Require Import Verif.Base Verif.SolverModel Verif.SolverSpec Verif.SolverProofs Verif.SolverProofs2 Verif.SolverProofs3.
Require Verif.RegionModel Verif.RegionSpec Verif.RegionProofs.
Import ListNotations.
Local Open Scope Z_scope.

(** There is one numbering of the evolved places by 0..N-1, N being the local size, that saving,
    loading and the equation types all follow; nothing outside 0..N-1 is written, and nothing but the
    evolved places is loaded. *)
Theorem C32_layout : forall s, good_mesh s ->
  exists at_, layout s (countN s (nz s * Z.of_nat (length (bndry2 s))) (nz s * Z.of_nat (length (bulk2 s)))) at_ /\
  let N := countN s (nz s * Z.of_nat (length (bndry2 s))) (nz s * Z.of_nat (length (bulk2 s))) in
  forall V (zero one : V) m u,
   (forall p, 0 <= p < N -> save_vars V zero one s m u p = value s m (at_ p) /\ save_derivs V zero one s m u p = deriv s m (at_ p)) /\
   (forall p f, 0 <= p < N -> flags_of s (at_ p) = Some f -> set_id V zero one s m u p = if constraint f then zero else one) /\
   (forall p, ~ 0 <= p < N -> save_vars V zero one s m u p = u p /\ save_derivs V zero one s m u p = u p) /\
   (forall p, 0 <= p < N -> value s (load_vars V zero one s u m) (at_ p) = u p /\ deriv s (load_derivs V zero one s u m) (at_ p) = u p) /\
   (forall k i, ~ evolved s (In2 k i) -> value s (load_vars V zero one s u m) (In2 k i) = value s m (In2 k i)) /\
   (forall k i z, 0 <= z < nz s -> ~ evolved s (In3 k i z) -> value s (load_vars V zero one s u m) (In3 k i z) = value s m (In3 k i z)) /\
   (forall w, deriv s (load_vars V zero one s u m) w = deriv s m w /\ value s (load_derivs V zero one s u m) w = value s m w).
Proof.
  intros s G. exists (SolverProofs.at_ s). rewrite countN_eq by apply G. split; [now apply layout_at|]. cbv zeta. intros V zero one m u.
  split; [|split; [|split; [|split; [|split; [|split]]]]].
  - intros p Hp. rewrite save_vars_at, save_derivs_at. destruct (Z.leb_spec 0 p), (Z.ltb_spec p (N s)); try lia. auto.
  - intros p f Hp Hf. now apply set_id_at.
  - intros p Hp. rewrite save_vars_at, save_derivs_at. destruct (Z.leb_spec 0 p), (Z.ltb_spec p (N s)); try lia; auto.
  - intros p Hp. split; [now apply load_vars_spec|now apply load_derivs_spec].
  - intros k i H. apply load_vars_spec; cbn; auto.
  - intros k i z Hz H. apply load_vars_spec; cbn; auto.
  - intros w. split; [now apply load_vars_derivs|now apply load_derivs_vars].
Qed.
Print Assumptions C32_layout.

(** Saving, then loading into any fields, restores every variable wherever it evolves. *)
Theorem C32_round_trip : forall V (zero one : V) s m m' u w, good_mesh s -> evolved s w ->
  value s (load_vars V zero one s (save_vars V zero one s m u) m') w = value s m w.
Proof. intros. now apply round_trip. Qed.
Print Assumptions C32_round_trip.

(** Whatever is done, the traversal passes over exactly the local size. *)
Theorem C32_length : forall V (zero one : V) s o u m, 1 <= nz s ->
  fst (fst (loop_vars V zero one s o u m)) = countN s (nz s * Z.of_nat (length (bndry2 s))) (nz s * Z.of_nat (length (bulk2 s))).
Proof. intros. rewrite countN_eq by assumption. apply count_any. Qed.
Print Assumptions C32_length.

(** The sizes getLocalN takes from the 3D regions are nz times those of the 2D regions the vector is
    laid out by, for boundaries made of any boxes. *)
Theorem C32_region_sizes : forall sortf ny nz maxsz bs, RegionSpec.std_sort_contract sortf -> 0 < ny -> 0 < nz -> 0 < maxsz ->
  (forall b, In b bs -> 0 <= by0 b /\ by1 b < ny) ->
  exists r3 r2, bndry3d sortf ny nz maxsz bs = Ok r3 /\ bndry2d sortf ny maxsz bs = Ok r2 /\
    NoDup (map RegionModel.ind (RegionModel.indices r2)) /\ NoDup (map RegionModel.ind (RegionModel.indices r3)) /\
    (forall k, In k (map RegionModel.ind (RegionModel.indices r3)) <->
       exists i z, In i (map RegionModel.ind (RegionModel.indices r2)) /\ 0 <= z < nz /\ k = i * nz + z) /\
    Z.of_nat (length (RegionModel.indices r3)) = nz * Z.of_nat (length (RegionModel.indices r2)).
Proof. exact bndry_sizes. Qed.
Print Assumptions C32_region_sizes.

(** globalIndex agrees with the layout: from the number it gives to a point, the 2D variables (at
    z = 0) and then the 3D variables evolving there follow one another in the state vector; points
    that do not evolve get -1, and all numbers are used. *)
Theorem C32_global_index : forall s start, good_mesh s ->
  fst (globalIndex s start) = start + countN s (nz s * Z.of_nat (length (bndry2 s))) (nz s * Z.of_nat (length (bulk2 s))) /\
  exists at_, (forall V (zero one : V) m u p, 0 <= p < fst (globalIndex s start) - start -> save_vars V zero one s m u p = value s m (at_ p)) /\
  (forall i z, 0 <= z < nz s -> In i (bulk2 s) \/ (In i (bndry2 s) /\ 0 < count_bndry (f2d s) + count_bndry (f3d s)) ->
    exists bnd, bnd = negb (if in_dec Z.eq_dec i (bulk2 s) then true else false) /\
    let p0 := snd (globalIndex s start) (i * nz s + z) - start in
    (z = 0 -> forall k f, nth_error (f2d s) k = Some f -> evolves_at s f i -> at_ (p0 + before s (f2d s) bnd k) = In2 k i) /\
    (forall k f, nth_error (f3d s) k = Some f -> evolves_at s f i ->
       at_ (p0 + (if z =? 0 then before s (f2d s) bnd (length (f2d s)) else 0) + before s (f3d s) bnd k) = In3 k i z)) /\
  (forall i z, 0 <= z < nz s -> ~ In i (bulk2 s) -> ~ In i (bndry2 s) -> snd (globalIndex s start) (i * nz s + z) = -1).
Proof.
  intros s start G. destruct (global_index s start G) as (A & B & C). rewrite countN_eq by apply G. split; [exact A|].
  exists (SolverProofs.at_ s). split; [|split; [exact B|exact C]]. intros V zero one m u p Hp. rewrite save_vars_at.
  destruct (Z.leb_spec 0 p), (Z.ltb_spec p (N s)); try lia. reflexivity.
Qed.
Print Assumptions C32_global_index.

(** A model split into two parts: both parts see the same variables wherever these evolve, and the
    time derivative handed on is the sum of the two. *)
Theorem C32_split_rhs : forall V (zero one : V) add s conv diff g m w, good_mesh s -> evolved s w ->
  exists m2, (forall v, evolved s v -> value s m2 v = value s m v) /\
  deriv s (run_rhs_split V zero one add s (countN s (nz s * Z.of_nat (length (bndry2 s))) (nz s * Z.of_nat (length (bulk2 s)))) conv diff g m) w
    = add (deriv s (conv m) w) (deriv s (diff m2) w).
Proof.
  intros V zero one add s conv diff g m w G Hw. rewrite countN_eq by apply G.
  destruct (split_rhs V zero one add s conv diff g m w G Hw) as (A & _ & B). eexists. split; [exact A|exact B].
Qed.
Print Assumptions C32_split_rhs.

(** getLocalN keeps its answer in a static variable: a second solver is told the first one's size. *)
Theorem C32_second_solver_refuted : exists s1 s2 a1 b1 a2 b2,
  let (n1, cache) := getLocalN (-1) s1 a1 b1 in let (n2, _) := getLocalN cache s2 a2 b2 in
  n1 = countN s1 a1 b1 /\ n2 <> countN s2 a2 b2.
Proof.
  exists (mkSolver [mkVar false false] [] [] [0; 1] 1), (mkSolver [mkVar false false; mkVar false false] [] [] [0; 1] 1), 0, 2, 0, 2.
  vm_compute. split; [reflexivity|discriminate].
Qed.
Print Assumptions C32_second_solver_refuted.

(* two 2D and two 3D variables on six cells, two of them boundary; the first of each kind evolves its boundary *)
Definition demo : solver := mkSolver [mkVar true false; mkVar false true] [mkVar false false; mkVar true false] [0; 5] [1; 2; 3; 4] 3.
Example C32_case : good_mesh demo /\ evolved demo (In3 1 5 2) /\ ~ evolved demo (In3 0 5 2) /\
  countN demo 6 12 = 40 /\
  map (set_id Z 0 1 demo (mkStore Z (fun _ _ => 0) (fun _ _ => 0) (fun _ _ => 0) (fun _ _ => 0)) (fun _ => 7)) [-1; 0; 1; 2; 3; 4; 8; 9; 10; 40] = [7; 1; 1; 1; 1; 1; 1; 0; 1; 7].
Proof.
  split; [|split; [|split; [|split]]].
  - repeat split; cbn; try lia; repeat constructor; cbn; intuition discriminate.
  - exists (mkVar true false). repeat split; cbn; try lia. right. cbn. auto.
  - intros (f & E & [H|[H B]] & _); cbn in E; injection E as <-; cbn in *; [intuition discriminate|discriminate].
  - reflexivity.
  - vm_compute. reflexivity.
Qed.
