(** C72, the two predefined stencils: which neighbours they contain. *)
From Coq Require Import ZArith List Bool Lia.
From Verif Require Import MeshModel MeshSpec TopoModel TopoSpec RegionModel RegionSpec BoundsSpec IndexerModel IndexerSpec RegionProofs.
Import ListNotations.
Open Scope Z_scope.

Lemma test_here m nz x y z : 0 < nz -> 0 <= x < LocalNx m -> 0 <= y < LocalNy m -> 0 <= z < nz ->
  interior_test m 0 (nz - 1) (pt (LocalNy m) nz x y z) = true <-> interior m nz x y z.
Proof.
  intros Hz Hx Hy Hzz. unfold interior_test, interior, inx, iny_, pt. destruct (flat_coords (LocalNy m) nz x y z ltac:(lia) Hy Hzz) as (A & B & C).
  rewrite A, B, C, !andb_true_iff, !Z.leb_le. lia.
Qed.
Lemma parts offs m nz x y z part : 0 < nz -> 0 <= x < LocalNx m -> 0 <= y < LocalNy m -> 0 <= z < nz ->
  offsets_at (with_interior offs m 0 (nz - 1)) (pt (LocalNy m) nz x y z) part ->
  (interior m nz x y z /\ part = offs) \/ (~ interior m nz x y z /\ part = [mkoff 0 0 0]).
Proof.
  intros Hz Hx Hy Hzz (n & t & E & Ht & Hb). rewrite <- (test_here m nz x y z Hz Hx Hy Hzz). unfold with_interior in *. destruct n as [|[|n]].
  - injection E as <- <-. left. split; [exact Ht|reflexivity].
  - injection E as <- <-. right. split; [|reflexivity]. specialize (Hb 0%nat _ _ ltac:(lia) eq_refl). rewrite Hb. discriminate.
  - destruct n; discriminate E.
Qed.
(** In the interior: the point and its six nearest neighbours (star), or also the twelve next nearest (square: at most two of the
    three indices change, each by at most one). Elsewhere: the point itself. No neighbour occurs twice. *)
Theorem C72_stencils : forall (m : mesh) nz x y z part, 0 < nz -> 0 <= x < LocalNx m -> 0 <= y < LocalNy m -> 0 <= z < nz ->
  (offsets_at (starStencil m 0 (nz - 1)) (pt (LocalNy m) nz x y z) part ->
     NoDup part /\ forall o, In o part <-> (interior m nz x y z /\ Z.abs (odx o) + Z.abs (ody o) + Z.abs (odz o) <= 1) \/ (odx o = 0 /\ ody o = 0 /\ odz o = 0)) /\
  (offsets_at (squareStencil m 0 (nz - 1)) (pt (LocalNy m) nz x y z) part ->
     NoDup part /\ forall o, In o part <-> (interior m nz x y z /\ Z.abs (odx o) <= 1 /\ Z.abs (ody o) <= 1 /\ Z.abs (odz o) <= 1 /\ odx o * ody o * odz o = 0) \/ (odx o = 0 /\ ody o = 0 /\ odz o = 0)).
Proof.
  intros m nz x y z part Hz Hx Hy Hzz.
  assert (Z3 : forall a, Z.abs a <= 1 -> a = -1 \/ a = 0 \/ a = 1) by (intros; lia).
  split; intros HP; apply parts in HP; try assumption; destruct HP as [[HI ->]|[HI ->]].
  - split; [repeat constructor; cbn [In star_offsets]; intuition discriminate|]. intros [a b c]. cbn [odx ody odz]. split.
    + intros H. left. split; [exact HI|]. cbn [In star_offsets] in H. decompose [or] H; try contradiction; match goal with E : mkoff _ _ _ = _ |- _ => injection E as <- <- <- end; cbn; lia.
    + intros H. assert (K : (a = 0 /\ b = 0 /\ c = 0) \/ (a = 1 /\ b = 0 /\ c = 0) \/ (a = -1 /\ b = 0 /\ c = 0) \/ (a = 0 /\ b = 1 /\ c = 0) \/ (a = 0 /\ b = -1 /\ c = 0) \/ (a = 0 /\ b = 0 /\ c = 1) \/ (a = 0 /\ b = 0 /\ c = -1)) by lia.
      cbn [In star_offsets]. decompose [or] K; repeat match goal with E : _ /\ _ |- _ => destruct E end; subst; tauto.
  - split; [repeat constructor; cbn [In]; tauto|]. intros [a b c]. cbn [odx ody odz In]. split.
    + intros [H|H]; [|contradiction]. injection H as <- <- <-. right. lia.
    + intros [[H _]|(-> & -> & ->)]; [contradiction|left; reflexivity].
  - split; [repeat constructor; cbn [In square_offsets]; intuition discriminate|]. intros [a b c]. cbn [odx ody odz]. split.
    + intros H. left. split; [exact HI|]. cbn [In square_offsets] in H. decompose [or] H; try contradiction; match goal with E : mkoff _ _ _ = _ |- _ => injection E as <- <- <- end; cbn; lia.
    + intros H. assert (K : Z.abs a <= 1 /\ Z.abs b <= 1 /\ Z.abs c <= 1 /\ a * b * c = 0) by (destruct H as [H|(-> & -> & ->)]; [tauto|cbn; lia]). destruct K as (Ka & Kb & Kc & Kp).
      cbn [In square_offsets]. destruct (Z3 a Ka) as [->|[->| ->]], (Z3 b Kb) as [->|[->| ->]], (Z3 c Kc) as [->|[->| ->]]; try (exfalso; lia); tauto.
  - split; [repeat constructor; cbn [In]; tauto|]. intros [a b c]. cbn [odx ody odz In]. split.
    + intros [H|H]; [|contradiction]. injection H as <- <- <-. right. lia.
    + intros [[H _]|(-> & -> & ->)]; [contradiction|left; reflexivity].
Qed.
Print Assumptions C72_stencils.
