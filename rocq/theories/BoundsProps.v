(** Property theorems C66 (y-boundary iterators), C67 (boundary regions), C68 (standard regions). *)
From Coq Require Import ZArith List Bool String Lia Sorted.
From Verif Require Import Base MeshModel MeshSpec MeshProofs TopoModel TopoSpec TopoProofs TopoProofs4 TopoProps CommProofs3
  RegionModel RegionSpec BndryModel BndrySpec RangeModel BoundsModel BoundsSpec BoundsProofs BoundsProofs2 BoundsProofs3 BoundsProofs4 BoundsProofs5.
Import ListNotations.
Open Scope Z_scope.

(** ** C66. Loops over iterateBndryLowerY / UpperY visit exactly the target columns of this processor, once each. *)
Theorem C66_lower_upper npes nx ny mxg myg s user ix1 ix2 per M C core :
  loaded npes nx ny mxg myg s user ix1 ix2 per M C core ->
  regular ny (MYSUB (M 0)) (seps (M 0)) ->
  forall r cc, 0 <= r < npes ->
  walks (M r) (lower_y (M r) (C r) cc) (target_columns (M r) cc (leaves_below (M r) ix1 ix2)) /\
  walks (M r) (upper_y (M r) (C r) cc) (target_columns (M r) cc (leaves_above (M r) ix1 ix2)).
Proof.
  intros L R r cc Hr. split; apply (walks_limits npes M r _ _ Hr).
  - intros x. exact (lower_columns _ _ _ _ _ _ _ _ _ _ _ _ _ L R r cc x Hr).
  - intros x. exact (target_range _ _ _ _ _ _ _ _ _ _ _ _ _ L r cc _ x Hr).
  - intros x. exact (upper_columns _ _ _ _ _ _ _ _ _ _ _ _ _ L R r cc x Hr).
  - intros x. exact (target_range _ _ _ _ _ _ _ _ _ _ _ _ _ L r cc _ x Hr).
Qed.
(** The inner and outer iterators split them by the position of the processor in y. *)
Theorem C66_inner_outer npes nx ny mxg myg s user ix1 ix2 per M C core :
  loaded npes nx ny mxg myg s user ix1 ix2 per M C core ->
  regular ny (MYSUB (M 0)) (seps (M 0)) ->
  forall r cc, 0 <= r < npes ->
  let low := target_columns (M r) cc (leaves_below (M r) ix1 ix2) in
  let upp := target_columns (M r) cc (leaves_above (M r) ix1 ix2) in
  walks (M r) (lower_inner (M r) (C r) cc) (fun x => PE_YIND (M r) = 0 /\ low x) /\
  walks (M r) (lower_outer (M r) (C r) cc) (fun x => PE_YIND (M r) <> 0 /\ low x) /\
  walks (M r) (upper_inner (M r) (C r) cc) (fun x => PE_YIND (M r) <> NYPE (M r) - 1 /\ upp x) /\
  walks (M r) (upper_outer (M r) (C r) cc) (fun x => PE_YIND (M r) = NYPE (M r) - 1 /\ upp x).
Proof.
  intros L R r cc Hr low upp.
  pose proof (fun x => lower_columns _ _ _ _ _ _ _ _ _ _ _ _ _ L R r cc x Hr) as HL.
  pose proof (fun x => upper_columns _ _ _ _ _ _ _ _ _ _ _ _ _ L R r cc x Hr) as HU.
  assert (RL : forall x, low x -> 0 <= x < LocalNx (M r)) by (intros x; exact (target_range _ _ _ _ _ _ _ _ _ _ _ _ _ L r cc _ x Hr)).
  assert (RU : forall x, upp x -> 0 <= x < LocalNx (M r)) by (intros x; exact (target_range _ _ _ _ _ _ _ _ _ _ _ _ _ L r cc _ x Hr)).
  split; [|split; [|split]]; apply (walks_limits npes M r _ _ Hr); try (intros x [_ Q]; auto; fail).
  - exact (li_spec (M r) (C r) cc low upp HL HU (fun x q => proj1 (RL x q)) (fun x q => proj1 (RU x q))).
  - exact (lo_spec (M r) (C r) cc low upp HL HU (fun x q => proj1 (RL x q)) (fun x q => proj1 (RU x q))).
  - exact (ui_spec (M r) (C r) cc low upp HL HU (fun x q => proj1 (RL x q)) (fun x q => proj1 (RU x q))).
  - exact (uo_spec (M r) (C r) cc low upp HL HU (fun x q => proj1 (RL x q)) (fun x q => proj1 (RU x q))).
Qed.
Print Assumptions C66_lower_upper.
Print Assumptions C66_inner_outer.

(** Meshes of the examples below: one processor with one interior column, one with four. *)
Definition s_lim : yseps := mkyseps (-1) 1 1 3 2.
Definition M_n := mesh_of 1 5 4 2 2 s_lim (Some (inl 1)).
Definition C_n r := fst (conn_of 1 r (M_n r) 0 0 false).
Definition k_n r := snd (conn_of 1 r (M_n r) 0 0 false).
Lemma loaded_n : loaded 1 5 4 2 2 s_lim (Some (inl 1)) 0 0 false M_n C_n k_n /\ regular 4 (MYSUB (M_n 0)) (seps (M_n 0)).
Proof.
  split.
  - repeat (split; [lia|]). intros r Hr. replace r with 0 by lia. split; vm_compute; reflexivity.
  - change (MYSUB (M_n 0)) with 4. change (seps (M_n 0)) with s_lim. constructor; cbn; lia.
Qed.
Definition M_c := mesh_of 1 8 4 2 2 s_lim (Some (inl 1)).
Definition C_c r := fst (conn_of 1 r (M_c r) 2 2 false).
Definition k_c r := snd (conn_of 1 r (M_c r) 2 2 false).
Lemma loaded_c : loaded 1 8 4 2 2 s_lim (Some (inl 1)) 2 2 false M_c C_c k_c /\ regular 4 (MYSUB (M_c 0)) (seps (M_c 0)).
Proof.
  split.
  - repeat (split; [lia|]). intros r Hr. replace r with 0 by lia. split; vm_compute; reflexivity.
  - change (MYSUB (M_c 0)) with 4. change (seps (M_c 0)) with s_lim. constructor; cbn; lia.
Qed.

(** With include_corner_cells the corner columns are not those whose field lines leave the domain: with one interior
    column per processor they are left out, *)
Theorem C66_narrow_corner_refuted : exists npes nx ny mxg myg s user ix1 ix2 per M C core r x,
  loaded npes nx ny mxg myg s user ix1 ix2 per M C core /\ regular ny (MYSUB (M 0)) (seps (M 0)) /\ 0 <= r < npes /\
  0 <= x < xstart (M r) /\ PE_XIND (M r) = 0 /\ (forall x', 0 <= x' < LocalNx (M r) -> leaves_below (M r) ix1 ix2 x') /\
  lower_y (M r) (C r) true = (xstart (M r), xend (M r)).
Proof.
  exists 1, 5, 4, 2, 2, s_lim, (Some (inl 1)), 0, 0, false, M_n, C_n, k_n, 0, 0.
  destruct loaded_n as [A B]. split; [exact A|]. split; [exact B|]. split; [lia|].
  split; [vm_compute; intuition congruence|]. split; [reflexivity|]. split; [|reflexivity].
  intros x' Hx. change (LocalNx (M_n 0)) with 5 in Hx.
  assert (Q : x' = 0 \/ x' = 1 \/ x' = 2 \/ x' = 3 \/ x' = 4) by lia. repeat (destruct Q as [->|Q]; [reflexivity|]). subst x'. reflexivity.
Qed.
(** and when the separatrix runs along the inner edge of the domain they are visited although their lines do not leave it. *)
Theorem C66_connected_corner_refuted : exists npes nx ny mxg myg s user ix1 ix2 per M C core r x,
  loaded npes nx ny mxg myg s user ix1 ix2 per M C core /\ regular ny (MYSUB (M 0)) (seps (M 0)) /\ 0 <= r < npes /\
  0 <= x < xstart (M r) /\ ~ leaves_below (M r) ix1 ix2 x /\ ~ leaves_above (M r) ix1 ix2 x /\
  fst (lower_y (M r) (C r) true) <= x <= snd (lower_y (M r) (C r) true) /\ fst (upper_y (M r) (C r) true) <= x <= snd (upper_y (M r) (C r) true).
Proof.
  exists 1, 8, 4, 2, 2, s_lim, (Some (inl 1)), 2, 2, false, M_c, C_c, k_c, 0, 0.
  destruct loaded_c as [A B]. split; [exact A|]. split; [exact B|]. split; [lia|].
  split; [vm_compute; intuition congruence|]. split; [discriminate|]. split; [discriminate|]. vm_compute. intuition congruence.
Qed.
Print Assumptions C66_narrow_corner_refuted.
Print Assumptions C66_connected_corner_refuted.

(** Non-vacuity: the double-null mesh of C21 on 12 processors; processor 5 (outer column) sees half of its columns leave. *)
Definition C_x r := fst (conn_of 12 r (mesh_of 12 12 24 2 2 s_ex (Some (inl 2)) r) 5 7 false).
Example C66_case : map (fun r => lower_y (mesh_of 12 12 24 2 2 s_ex (Some (inl 2)) r) (C_x r) true) [0; 1; 6; 7] = [(0, 5); (2, 7); (0, 5); (2, 7)]
  /\ lower_y (M_c 0) (C_c 0) false = (2, 5) /\ lower_y (mesh_of 1 8 4 2 2 s_lim (Some (inl 1)) 0) (fst (conn_of 1 0 (M_c 0) 4 4 false)) true = (4, 7).
Proof. vm_compute. auto. Qed.

(** ** C67. Which boundary region a cell belongs to. *)
Theorem C67_membership npes nx ny mxg myg s user ix1 ix2 per M C core :
  loaded npes nx ny mxg myg s user ix1 ix2 per M C core ->
  regular ny (MYSUB (M 0)) (seps (M 0)) ->
  forall r nz cc x y lab, 0 <= r < npes ->
  (* corners only where they are meant to be included *)
  (inx (M r) x \/ iny_ (M r) y \/ (cc = true /\ (beyond_inner (M r) per x \/ beyond_outer (M r) per x))) ->
  (in_labelled (lmesh_of (M r) nz) (boundaries (M r) (C r) nz cc per) (x, y) lab <-> boundary_label (M r) cc per ix1 ix2 x y lab).
Proof. intros L R r nz cc x y lab Hr. exact (labels_spec _ _ _ _ _ _ _ _ _ _ _ _ _ L R r nz cc Hr x y lab). Qed.
(** No cell, corners included, is in two regions. *)
Theorem C67_disjoint npes nx ny mxg myg s user ix1 ix2 per M C core :
  loaded npes nx ny mxg myg s user ix1 ix2 per M C core ->
  regular ny (MYSUB (M 0)) (seps (M 0)) ->
  forall r nz cc, 0 <= r < npes ->
  ForallOrdPairs (fun a b => forall p, in_boundary (lmesh_of (M r) nz) (snd a) p -> in_boundary (lmesh_of (M r) nz) (snd b) p -> False)
    (boundaries (M r) (C r) nz cc per).
Proof. intros L R r nz cc Hr. exact (all_apart _ _ _ _ _ _ _ _ _ _ _ _ _ L r nz cc Hr). Qed.
(** The x boundaries come first, so that corner cells get the y condition of cells that have been set. *)
Theorem C67_x_before_y m c nz cc per : exists bx by_, boundaries m c nz cc per = bx ++ by_ /\
  Forall (fun b => b_side (snd b) = XIn \/ b_side (snd b) = XOut) bx /\ Forall (fun b => b_side (snd b) = YUp \/ b_side (snd b) = YDown) by_.
Proof.
  exists (createXBoundaries m nz per), (createYBoundaries m c nz cc). split; [reflexivity|].
  assert (MK : forall L sd a b, b_side (mk_region L sd a b) = sd) by (intros; unfold mk_region; destruct (_ <? _); reflexivity).
  split; apply Forall_forall; intros [lab b] Hin; cbn [snd].
  - unfold createXBoundaries in Hin. destruct per; [destruct Hin|]. destruct (MXG m <=? 0); [destruct Hin|]. apply in_app_iff in Hin.
    destruct Hin as [Hin|Hin].
    + destruct (PE_XIND m =? 0); [|destruct Hin]. cbv zeta in Hin. left. destruct (_ || _); destruct Hin as [Hin|[]]; injection Hin as <- <-; apply MK.
    + destruct (PE_XIND m =? NXPE m - 1); [|destruct Hin]. right. destruct Hin as [Hin|[]]; injection Hin as <- <-; apply MK.
  - unfold createYBoundaries in Hin. destruct (MYG m <=? 0); [destruct Hin|]. cbv zeta in Hin. rewrite !in_app_iff in Hin.
    destruct Hin as [Hin|[Hin|[Hin|Hin]]]; (match type of Hin with In _ (if ?b then _ else _) => destruct b end; [|destruct Hin]);
      destruct Hin as [Hin|[]]; injection Hin as <- <-; rewrite MK; auto.
Qed.
Print Assumptions C67_membership.
Print Assumptions C67_disjoint.
Print Assumptions C67_x_before_y.

(** Without include_corner_cells the corners next to open field lines are in the y regions all the same. *)
Theorem C67_corners_excluded_refuted : exists npes nx ny mxg myg s user ix1 ix2 per M C core r x y lab,
  loaded npes nx ny mxg myg s user ix1 ix2 per M C core /\ regular ny (MYSUB (M 0)) (seps (M 0)) /\ 0 <= r < npes /\
  ~ inx (M r) x /\ ~ iny_ (M r) y /\ in_labelled (lmesh_of (M r) 1) (boundaries (M r) (C r) 1 false per) (x, y) lab.
Proof.
  exists 1, 5, 4, 2, 2, s_lim, (Some (inl 1)), 0, 0, false, M_n, C_n, k_n, 0, 0, 0, "lower_target"%string.
  destruct loaded_n as [A B]. split; [exact A|]. split; [exact B|]. split; [lia|].
  split; [vm_compute; tauto|]. split; [vm_compute; tauto|].
  exists (mkB YDown 0 2 2). split; [vm_compute; tauto|]. exists 1, 0. split; [vm_compute; intuition congruence|]. split; [vm_compute; intuition congruence|]. reflexivity.
Qed.
Print Assumptions C67_corners_excluded_refuted.

(** getPossibleBoundaries never fails, and names only boundaries that some processor has. *)
Theorem C67_possible_sound npes nx ny mxg myg s user ix1 ix2 per M C core :
  loaded npes nx ny mxg myg s user ix1 ix2 per M C core ->
  regular ny (MYSUB (M 0)) (seps (M 0)) ->
  forall nz, exists l, getPossibleBoundaries M C nz per = Ok l /\
  forall lab, In lab l -> exists r, 0 <= r < npes /\ In lab (map fst (boundaries (M r) (C r) nz true per)).
Proof.
  intros L R nz. destruct (possible_in _ _ _ _ _ _ _ _ _ _ _ _ _ L nz) as (l & E & _). exists l. split; [exact E|].
  intros lab. exact (sound _ _ _ _ _ _ _ _ _ _ _ _ _ L nz lab l E).
Qed.
(** It names them all when there is one processor in x, or divertor legs, or a second X-point. *)
Theorem C67_possible_complete_partial npes nx ny mxg myg s user ix1 ix2 per M C core :
  loaded npes nx ny mxg myg s user ix1 ix2 per M C core ->
  regular ny (MYSUB (M 0)) (seps (M 0)) ->
  NXPE (M 0) = 1 \/ 0 <= j11 (seps (M 0)) \/ j21 (seps (M 0)) <> j12 (seps (M 0)) ->
  forall nz l r cc lab, getPossibleBoundaries M C nz per = Ok l -> 0 <= r < npes ->
    In lab (map fst (boundaries (M r) (C r) nz cc per)) -> In lab l.
Proof. intros L R H nz l r cc lab E Hr. exact (complete _ _ _ _ _ _ _ _ _ _ _ _ _ L R nz lab l r cc H E Hr). Qed.
(** In limiter geometry on several processors in x and y it misses a boundary. *)
Definition M_l := mesh_of 4 12 8 2 2 (mkyseps (-1) 3 3 7 4) (Some (inl 2)).
Definition C_l r := fst (conn_of 4 r (M_l r) 7 7 false).
Definition k_l r := snd (conn_of 4 r (M_l r) 7 7 false).
Theorem C67_possible_refuted : exists npes nx ny mxg myg s user ix1 ix2 per M C core l r,
  loaded npes nx ny mxg myg s user ix1 ix2 per M C core /\ regular ny (MYSUB (M 0)) (seps (M 0)) /\ 0 <= r < npes /\
  getPossibleBoundaries M C 1 per = Ok l /\ In "upper_target"%string (map fst (boundaries (M r) (C r) 1 true per)) /\ ~ In "upper_target"%string l.
Proof.
  exists 4, 12, 8, 2, 2, (mkyseps (-1) 3 3 7 4), (Some (inl 2)), 7, 7, false, M_l, C_l, k_l, ["sol"; "lower_target"; "core"; "core"; "core"; "core"; "core"; "core"; "core"]%string, 3.
  split.
  { repeat (split; [lia|]). intros r Hr. assert (C : r = 0 \/ r = 1 \/ r = 2 \/ r = 3) by lia.
    repeat (destruct C as [->|C]; [split; vm_compute; reflexivity|]). subst r. split; vm_compute; reflexivity. }
  split. { change (MYSUB (M_l 0)) with 4. change (seps (M_l 0)) with (mkyseps (-1) 3 3 7 4). constructor; cbn; lia. }
  split; [lia|]. split; [vm_compute; reflexivity|]. split; [vm_compute; tauto|]. cbn. intuition discriminate.
Qed.
Print Assumptions C67_possible_sound.
Print Assumptions C67_possible_complete_partial.
Print Assumptions C67_possible_refuted.

Example C67_case : map fst (boundaries (M_l 3) (C_l 3) 1 true false) = ["sol"; "upper_target"]%string /\
  exists l, getPossibleBoundaries (mesh_of 12 12 24 2 2 s_ex (Some (inl 2))) C_x 1 false = Ok l /\
    In "pf"%string l /\ In "core"%string l /\ In "sol"%string l /\ In "upper_target"%string l /\ In "lower_target"%string l.
Proof. split; [vm_compute; reflexivity|]. eexists. split; [vm_compute; reflexivity|]. cbn. tauto. Qed.

(** ** C68. The standard regions exist under their names and hold exactly the points their name says, each once. *)
Theorem C68_standard_regions npes nx ny mxg myg s user ix1 ix2 per M C core :
  loaded npes nx ny mxg myg s user ix1 ix2 per M C core ->
  regular ny (MYSUB (M 0)) (seps (M 0)) ->
  forall sortf nz zs ze mb cc r, 0 <= r < npes ->
  std_sort_contract sortf -> 0 < nz -> 0 <= zs -> zs <= ze + 1 -> ze < nz -> 0 < mb ->
  exists rs, mesh_regions sortf nz zs ze mb (M r) (C r) cc per = Ok rs /\
  forall n P, In (n, P) (standard_regions (M r) nz zs ze
       (target_columns (M r) cc (leaves_below (M r) ix1 ix2)) (target_columns (M r) cc (leaves_above (M r) ix1 ix2))
       (PE_XIND (M r) = 0 /\ per = false) (PE_XIND (M r) = NXPE (M r) - 1 /\ per = false)) ->
    exists g, getRegion n rs = Ok g /\ enumerates g (LocalNy (M r)) nz P.
Proof. intros L R sortf nz zs ze mb cc r Hr. exact (std_regions _ _ _ _ _ _ _ _ _ _ _ _ _ L R sortf nz zs ze mb cc r Hr). Qed.
Print Assumptions C68_standard_regions.

(** Non-vacuity: the hypotheses hold for the meshes above with the sort of C05, and the regions are not trivial. *)
Example C68_case : std_sort_contract RegionProofs.isort /\ exists rs, mesh_regions RegionProofs.isort 3 0 2 8 (M_c 0) (C_c 0) true false = Ok rs /\
  exists g, getRegion "RGN_BNDRY" rs = Ok g /\ List.length (indices g) = 144%nat.
Proof. split; [exact RegionProofs.isort_contract|]. eexists. split; [vm_compute; reflexivity|]. eexists. split; [vm_compute; reflexivity|]. vm_compute. reflexivity. Qed.
