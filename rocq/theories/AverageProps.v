(** Property theorems C78 (averages over x, y and the plane) and C79 (non-linear filter). *)
From Coq Require Import ZArith Reals List Bool Lia Lra.
From Verif Require Import Base MeshModel MeshProofs TopoModel TopoSpec YcommModel YcommSpec YcommProps ReduceSpec ReduceProofs AverageModel AverageSpec AverageProofs AverageProofs2 AverageProofs3.
Import ListNotations.
Open Scope Z_scope.

(** ** C78. averageX: at every point (guard cells included) of every rank, the mean over all the x points of the grid, without
    boundaries, of that row. *)
Theorem C78_averageX npes nx ny mxg myg s user ix1 ix2 per M C core st f r x y z (F : Z -> R) :
  loaded npes nx ny mxg myg s user ix1 ix2 per M C core -> regular ny (MYSUB (M 0)) (seps (M 0)) ->
  (forall q, 0 <= q < npes -> createCommunicators npes q (M q) ix1 ix2 = Ok (st q)) -> 0 <= r < npes ->
  (forall q k, 0 <= q < npes -> PE_YIND (M q) = PE_YIND (M r) -> xstart (M q) <= k <= xend (M q) -> f q k y z = F (getGlobalXIndexNoBoundaries (M q) k)) ->
  exists v, averageX M st f r x y z = Ok v /\ is_mean (map F (ReduceSpec.upto (nx - 2 * mxg))) v.
Proof. intros L RG ST Hr HF. exact (averageX_ok npes nx ny mxg myg s user ix1 ix2 per M C core st L RG ST f r x y z F Hr HF). Qed.
(** averageY: the mean along the field line through the point, where no separatrix is between the point and the first column
    of its processor. *)
Theorem C78_averageY npes nx ny mxg myg s user ix1 ix2 per M C core st f r xl y z :
  loaded npes nx ny mxg myg s user ix1 ix2 per M C core -> regular ny (MYSUB (M 0)) (seps (M 0)) ->
  (forall q, 0 <= q < npes -> createCommunicators npes q (M q) ix1 ix2 = Ok (st q)) -> 0 <= r < npes -> 0 <= xl < LocalNx (M r) ->
  (forall c, In c [ix1; x_upper (seps (M 0)) ix1 ix2] -> (getGlobalXIndex (M r) 0 < c <-> getGlobalXIndex (M r) xl < c)) ->
  exists v l, averageY M ix1 ix2 st f r xl y z = Ok v /\ line_procs npes ny M ix1 ix2 (getGlobalXIndex (M r) xl) r l /\ is_mean (line_values M f l xl z) v.
Proof. intros L RG ST Hr Hx H. exact (averageY_ok npes nx ny mxg myg s user ix1 ix2 per M C core st L RG ST f r xl y z Hr Hx H). Qed.
(** Average_XY and Vol_Integral: the mean and 2 pi times the integral over the whole grid, on a grid without X-points: with only
    open or only closed lines. *)
Definition no_xpoint (npes : Z) (M : Z -> mesh) (ix1 : Z) : Prop :=
  j21 (seps (M 0)) = j12 (seps (M 0)) /\ (ix1 <= 0 \/ j11 (seps (M 0)) = -1 /\ forall q, 0 <= q < npes -> getGlobalXIndex (M q) 0 < ix1).
Theorem C78_average_xy npes nx ny mxg myg s user ix1 ix2 per M C core st f (F : Z -> Z -> R) r :
  loaded npes nx ny mxg myg s user ix1 ix2 per M C core -> regular ny (MYSUB (M 0)) (seps (M 0)) ->
  (forall q, 0 <= q < npes -> createCommunicators npes q (M q) ix1 ix2 = Ok (st q)) -> 0 <= r < npes -> no_xpoint npes M ix1 ->
  (forall q x y, 0 <= q < npes -> xstart (M q) <= x <= xend (M q) -> ystart (M q) <= y <= yend (M q) ->
     f q x y 0 = F (getGlobalXIndexNoBoundaries (M q) x) (getGlobalYIndexNoBoundaries (M q) y)) ->
  exists v, Average_XY M ix1 ix2 st f r = Ok v /\ is_mean (flat_map (fun gx => map (F gx) (ReduceSpec.upto ny)) (ReduceSpec.upto (nx - 2 * mxg))) v.
Proof.
  intros L RG ST Hr [S NX] HF. apply (Average_XY_ok npes nx ny mxg myg s user ix1 ix2 per M C core st L RG ST); auto.
  destruct NX as [H|[H1 H2]]; [now apply (all_through_sol npes nx ny mxg myg s user ix1 ix2 per M C core st L RG ST)|now apply (all_through_core npes nx ny mxg myg s user ix1 ix2 per M C core st L RG ST)].
Qed.
Theorem C78_vol_integral npes nx ny mxg myg s user ix1 ix2 per M C core st J dx dy var (F : Z -> Z -> R) r :
  loaded npes nx ny mxg myg s user ix1 ix2 per M C core -> regular ny (MYSUB (M 0)) (seps (M 0)) ->
  (forall q, 0 <= q < npes -> createCommunicators npes q (M q) ix1 ix2 = Ok (st q)) -> 0 <= r < npes -> no_xpoint npes M ix1 ->
  (forall q x y, 0 <= q < npes -> xstart (M q) <= x <= xend (M q) -> ystart (M q) <= y <= yend (M q) ->
     (J q x y * var q x y * dx q x y * dy q x y)%R = F (getGlobalXIndexNoBoundaries (M q) x) (getGlobalYIndexNoBoundaries (M q) y)) ->
  Vol_Integral M ix1 ix2 st J dx dy var r = Ok (2 * PI * total (flat_map (fun gx => map (F gx) (ReduceSpec.upto ny)) (ReduceSpec.upto (nx - 2 * mxg))))%R.
Proof.
  intros L RG ST Hr NX HF. unfold Vol_Integral.
  destruct (C78_average_xy npes nx ny mxg myg s user ix1 ix2 per M C core st (fun q x y _ => J q x y * var q x y * dx q x y * dy q x y)%R F r L RG ST Hr NX HF) as (v & -> & _ & E).
  cbn [bind]. f_equal. destruct (mesh_nx npes nx ny mxg myg s user ix1 ix2 per M C core st L RG ST r Hr) as (DX & E1 & E2 & E3 & E4).
  rewrite <- E. rewrite E1, E4, E2.
  assert (LEN : INR (length (flat_map (fun gx => map (F gx) (ReduceSpec.upto ny)) (ReduceSpec.upto (nx - 2 * mxg)))) = IZR ((nx - 2 * mxg) * ny)).
  { pose proof L as (_ & Hny & _). rewrite (flat_length _ _ (Z.to_nat ny)).
    - unfold ReduceSpec.upto. rewrite map_length, seq_length, INR_IZR_INZ, Nat2Z.inj_mul, !Z2Nat.id; [reflexivity|lia|].
      pose proof (YcommProofs3.sizes _ _ _ _ _ _ _ _ _ _ _ _ _ L RG) as (S1 & _). destruct (hd_all _ _ _ _ _ _ _ _ _ _ _ _ _ L RG r Hr) as (D & _ & X). pose proof (d_mxsub _ _ _ D). nia.
    - intros q _. unfold ReduceSpec.upto. rewrite !map_length, seq_length. reflexivity. }
  rewrite LEN. lra.
Qed.
(** With an X-point: a column beyond the separatrix from the first column of the processor gets the mean over the processors of
    another line, and Average_XY gives different values on different processors, none of them the mean. The grid is a single
    null on four processors with the separatrix inside; the field is 1 on rank 0 and 0 on the others. *)
Definition st_sn (r : Z) : comms := match createCommunicators 4 r (M_sn r) 4 4 with Ok s => s | _ => mkcomms None None None None end.
Definition f_sn (q x y z : Z) : R := if q =? 0 then 1%R else 0%R.
Lemma st_sn_ok : forall q, 0 <= q < 4 -> createCommunicators 4 q (M_sn q) 4 4 = Ok (st_sn q).
Proof. intros q Hq. assert (q = 0 \/ q = 1 \/ q = 2 \/ q = 3) as [->|[->|[->| ->]]] by lia; vm_compute; reflexivity. Qed.
Lemma local_sn q x z : 0 <= q < 4 -> local_y M_sn f_sn q x z = if q =? 0 then 1%R else 0%R.
Proof.
  intros Hq. unfold local_y. assert (q = 0 \/ q = 1 \/ q = 2 \/ q = 3) as [->|[->|[->| ->]]] by lia.
  all: match goal with |- context [ystart (M_sn ?k)] => replace (ystart (M_sn k)) with 2 by (vm_compute; reflexivity); replace (yend (M_sn k)) with 5 by (vm_compute; reflexivity) end.
  all: unfold sum_from_to, f_sn; change (map (fun k => 2 + Z.of_nat k) (seq 0 (Z.to_nat (5 - 2 + 1)))) with [2; 3; 4; 5]; change (5 - 2 + 1) with 4; cbn [fold_left Z.eqb]; lra.
Qed.
Lemma averageY_sn q x : 0 <= q < 4 -> averageY M_sn 4 4 st_sn f_sn q x 0 0 = Ok (if (q =? 0) || (q =? 3) then 0.5 else 0)%R.
Proof.
  intros Hq. unfold averageY. assert (q = 0 \/ q = 1 \/ q = 2 \/ q = 3) as [->|[->|[->| ->]]] by lia.
  - replace (getYcomm (M_sn 0) 4 4 (st_sn 0) 0) with (Some [0; 3]) by (vm_compute; reflexivity). cbv zeta. match goal with |- context [Z.of_nat ?n] => change (Z.of_nat n) with 2 end. cbn [Z.eqb Pos.eqb sum_over map fold_left]. rewrite !local_sn by lia. cbn [Z.eqb Pos.eqb orb]. f_equal. lra.
  - replace (getYcomm (M_sn 1) 4 4 (st_sn 1) 0) with (Some [1; 2]) by (vm_compute; reflexivity). cbv zeta. match goal with |- context [Z.of_nat ?n] => change (Z.of_nat n) with 2 end. cbn [Z.eqb Pos.eqb sum_over map fold_left]. rewrite !local_sn by lia. cbn [Z.eqb Pos.eqb orb]. f_equal. lra.
  - replace (getYcomm (M_sn 2) 4 4 (st_sn 2) 0) with (Some [1; 2]) by (vm_compute; reflexivity). cbv zeta. match goal with |- context [Z.of_nat ?n] => change (Z.of_nat n) with 2 end. cbn [Z.eqb Pos.eqb sum_over map fold_left]. rewrite !local_sn by lia. cbn [Z.eqb Pos.eqb orb]. f_equal. lra.
  - replace (getYcomm (M_sn 3) 4 4 (st_sn 3) 0) with (Some [0; 3]) by (vm_compute; reflexivity). cbv zeta. match goal with |- context [Z.of_nat ?n] => change (Z.of_nat n) with 2 end. cbn [Z.eqb Pos.eqb sum_over map fold_left]. rewrite !local_sn by lia. cbn [Z.eqb Pos.eqb orb]. f_equal. lra.
Qed.
Lemma values_sn x z : total (line_values M_sn f_sn [0; 1; 2; 3] x z) = 4%R /\ length (line_values M_sn f_sn [0; 1; 2; 3] x z) = 16%nat.
Proof.
  unfold line_values. cbn [flat_map].
  replace (ystart (M_sn 0)) with 2 by (vm_compute; reflexivity). replace (yend (M_sn 0)) with 5 by (vm_compute; reflexivity).
  replace (ystart (M_sn 1)) with 2 by (vm_compute; reflexivity). replace (yend (M_sn 1)) with 5 by (vm_compute; reflexivity).
  replace (ystart (M_sn 2)) with 2 by (vm_compute; reflexivity). replace (yend (M_sn 2)) with 5 by (vm_compute; reflexivity).
  replace (ystart (M_sn 3)) with 2 by (vm_compute; reflexivity). replace (yend (M_sn 3)) with 5 by (vm_compute; reflexivity).
  change (from_to 2 5) with [2; 3; 4; 5]. cbn [map app]. unfold f_sn. cbn [Z.eqb Pos.eqb]. split; [cbn [total]; lra|reflexivity].
Qed.
Theorem C78_branch_cut_refuted :
  (exists v l, averageY M_sn 4 4 st_sn f_sn 1 5 0 0 = Ok v /\ line_procs 4 16 M_sn 4 4 (getGlobalXIndex (M_sn 1) 5) 1 l /\ ~ is_mean (line_values M_sn f_sn l 5 0) v) /\
  (exists a b, Average_XY M_sn 4 4 st_sn f_sn 0 = Ok a /\ Average_XY M_sn 4 4 st_sn f_sn 1 = Ok b /\ a <> b /\
     forall x, ~ is_mean (line_values M_sn f_sn [0; 1; 2; 3] x 0) a /\ ~ is_mean (line_values M_sn f_sn [0; 1; 2; 3] x 0) b).
Proof.
  assert (NM : forall v x, (v <> 0.25)%R -> ~ is_mean (line_values M_sn f_sn [0; 1; 2; 3] x 0) v).
  { intros v x Hv [_ E]. destruct (values_sn x 0) as [T LN]. rewrite T, LN in E. apply Hv. replace (INR 16) with 16%R in E by (cbn; lra). lra. }
  split.
  - exists 0%R, [0; 1; 2; 3]. split; [rewrite averageY_sn by lia; reflexivity|]. split; [|apply NM; lra].
    destruct (C69_ycomm _ _ _ _ _ _ _ _ _ _ _ _ _ (proj1 loaded_sn) (proj2 loaded_sn) 1 ltac:(lia)) as (st1 & A & B).
    destruct (B 5) as (l & E & LP); [vm_compute; split; congruence|]. rewrite st_sn_ok in A by lia. injection A as <-.
    replace (getYcomm (M_sn 1) 4 4 (st_sn 1) 5) with (Some [0; 1; 2; 3]) in E by (vm_compute; reflexivity). injection E as <-. exact LP.
  - assert (A : forall r, 0 <= r < 4 -> Average_XY M_sn 4 4 st_sn f_sn r = Ok (if (r =? 0) || (r =? 3) then 0.5 else 0)%R).
    { intros r Hr. unfold Average_XY. assert (E : comm_x (st_sn r) = Some [r]) by (assert (r = 0 \/ r = 1 \/ r = 2 \/ r = 3) as [->|[->|[->| ->]]] by lia; vm_compute; reflexivity).
      rewrite E. destruct (getYcomm (M_sn r) 4 4 (st_sn r) 0) as [l|] eqn:EY.
      2:{ pose proof (averageY_sn r 0 Hr) as K. unfold averageY in K. rewrite EY in K. discriminate. }
      cbn [forallb]. rewrite EY. cbn [andb sum_over map fold_left].
      replace (GlobalNx (M_sn r) - 2 * xstart (M_sn r)) with 4 by (assert (r = 0 \/ r = 1 \/ r = 2 \/ r = 3) as [->|[->|[->| ->]]] by lia; vm_compute; reflexivity).
      replace (xstart (M_sn r)) with 2 by (assert (r = 0 \/ r = 1 \/ r = 2 \/ r = 3) as [->|[->|[->| ->]]] by lia; vm_compute; reflexivity).
      replace (xend (M_sn r)) with 5 by (assert (r = 0 \/ r = 1 \/ r = 2 \/ r = 3) as [->|[->|[->| ->]]] by lia; vm_compute; reflexivity).
      f_equal. unfold sum_from_to. change (map (fun k => 2 + Z.of_nat k) (seq 0 (Z.to_nat (5 - 2 + 1)))) with [2; 3; 4; 5]. cbn [fold_left].
      rewrite !averageY_sn by exact Hr. cbn [ofR]. destruct ((r =? 0) || (r =? 3)); lra. }
    exists 0.5%R, 0%R. split; [exact (A 0 ltac:(lia))|]. split; [exact (A 1 ltac:(lia))|]. split; [lra|]. intros x. split; apply NM; lra.
Qed.
Print Assumptions C78_averageX.
Print Assumptions C78_averageY.
Print Assumptions C78_average_xy.
Print Assumptions C78_vol_integral.
Print Assumptions C78_branch_cut_refuted.
(** Non-vacuity: the grid above is loaded and regular; columns 0..3 of its core are on one side of the separatrix; and with the
    separatrix at 0 it has no X-point. *)
Example C78_case : loaded 4 8 16 2 2 s_sn (Some (inl 1)) 4 4 false M_sn C_sn k_sn /\ regular 16 (MYSUB (M_sn 0)) (seps (M_sn 0)) /\
  (forall c, In c [4; x_upper (seps (M_sn 0)) 4 4] -> (getGlobalXIndex (M_sn 1) 0 < c <-> getGlobalXIndex (M_sn 1) 3 < c)) /\ no_xpoint 4 M_sn 0.
Proof.
  split; [exact (proj1 loaded_sn)|]. split; [exact (proj2 loaded_sn)|]. split.
  - intros c [<-|[<-|[]]]; vm_compute; split; intros; reflexivity.
  - split; [vm_compute; reflexivity|left; lia].
Qed.

(** ** C79. nl_filter with a weight from 0 to 1 on n > 0 points: keeps the sum, does not leave the range of the values, does not
    increase the sum of the jumps, and changes nothing when there is no strict local extremum. *)
Theorem C79_filter n w f : (0 < n)%nat -> (0 <= w <= 1)%R -> exists g, nl_filter n w f = Ok g /\
  sum_n n g = sum_n n f /\ (variation n g <= variation n f)%R /\
  (forall lo hi, (forall j, (j < n)%nat -> lo <= f j <= hi)%R -> forall j, (j < n)%nat -> (lo <= g j <= hi)%R) /\
  (no_extremum n f -> forall j, g j = f j).
Proof.
  intros Hn Hw. unfold nl_filter. destruct n as [|n]; [lia|]. cbn [Nat.eqb]. eexists. split; [reflexivity|].
  assert (H : forall i, In i (seq 1 (S n - 2)) -> (1 <= i /\ i + 1 < S n)%nat) by (intros i Hi; apply in_seq in Hi; lia).
  destruct (filter_all w (S n) f Hw _ H) as (A & B & D). cbv zeta in *. split; [exact A|]. split; [exact B|]. split; [exact D|].
  intros NE. exact (filter_unchanged w (S n) f Hw NE _ H).
Qed.
(** What it does not do: a strict local extremum can remain after filtering with full weight, as a step changes a neighbour that
    has been filtered before. *)
Definition bumps (j : nat) : R := match j with 2%nat => 2 | 4%nat => 1 | _ => 0 end.
Lemma step_even g i d : (1 <= i)%nat -> (g (i + 1)%nat - g i = d)%R -> (g (i - 1)%nat - g i = d)%R -> d <> 0%R ->
  forall j, nl_step 1 g i j = if (j =? i)%nat then (g i + d / 2)%R else if (j =? i - 1)%nat then (g (i - 1)%nat - d / 2)%R else g j.
Proof.
  intros Hi H1 H2 Hd j. unfold nl_step. cbv zeta. rewrite H1, H2. destruct (Rlt_dec 0 (d * d)); [|exfalso; nra].
  destruct (Rlt_dec (Rabs d) (Rabs d)); [lra|].
  destruct (Rlt_dec (Rabs (1 * 0.5 * d)) (Rabs (1 * d))) as [_|Q].
  - replace (i =? i - 1)%nat with false by (symmetry; apply Nat.eqb_neq; lia). destruct (j =? i)%nat; [lra|]. destruct (j =? i - 1)%nat; [lra|reflexivity].
  - exfalso. apply Q. unfold Rabs. repeat destruct (Rcase_abs _); lra.
Qed.
Theorem C79_extremum_remains_refuted : exists g, nl_filter 5 1 bumps = Ok g /\ ~ no_extremum 5 g.
Proof.
  eexists. split; [reflexivity|]. cbn [seq Nat.sub fold_left].
  assert (U1 : forall j, nl_step 1 bumps 1 j = bumps j). { apply unchanged_step; [lra|lia| |]; unfold bumps; cbn; lra. }
  set (g1 := nl_step 1 bumps 1) in *.
  assert (U2 := step_even g1 2 (-2) ltac:(lia)). rewrite !U1 in U2. cbn [Nat.add Nat.sub bumps] in U2. specialize (U2 ltac:(lra) ltac:(lra) ltac:(lra)).
  set (g2 := nl_step 1 g1 2) in *.
  assert (V1 : g2 1%nat = 1%R) by (rewrite U2; cbn [Nat.eqb]; lra). assert (V2 : g2 2%nat = 1%R) by (rewrite U2; cbn [Nat.eqb]; lra).
  assert (V0 : g2 0%nat = 0%R) by (rewrite U2; cbn [Nat.eqb]; apply U1). assert (V3 : g2 3%nat = 0%R) by (rewrite U2; cbn [Nat.eqb]; apply U1). assert (V4 : g2 4%nat = 1%R) by (rewrite U2; cbn [Nat.eqb]; apply U1).
  assert (U3 := step_even g2 3 1 ltac:(lia)). cbn [Nat.add Nat.sub] in U3. rewrite V2, V3, V4 in U3. specialize (U3 ltac:(lra) ltac:(lra) ltac:(lra)).
  intros NE. destruct (NE 1%nat ltac:(lia) ltac:(lia)) as [Q _]. apply Q. cbn [Nat.add Nat.sub]. rewrite !U3. cbn [Nat.eqb]. rewrite V0, V1. lra.
Qed.
Print Assumptions C79_filter.
Print Assumptions C79_extremum_remains_refuted.
(** Non-vacuity: a spike is spread. *)
Definition spike (j : nat) : R := if (j =? 2)%nat then 4%R else 0%R.
Example C79_case : exists g, nl_filter 5 1 spike = Ok g /\ g 1%nat = 2%R /\ g 2%nat = 2%R /\ variation 5 spike = 8%R.
Proof.
  assert (N : forall g, g 2%nat = 4%R -> g 1%nat = 0%R -> g 3%nat = 0%R -> nl_step 1 g 2 1%nat = 2%R /\ nl_step 1 g 2 2%nat = 2%R /\ nl_step 1 g 2 3%nat = 0%R).
  { intros g G2 G1 G3. unfold nl_step. cbv zeta. replace (2 + 1)%nat with 3%nat by reflexivity. replace (2 - 1)%nat with 1%nat by reflexivity. rewrite G1, G2, G3.
    destruct (Rlt_dec 0 ((0 - 4) * (0 - 4))); [|lra]. destruct (Rlt_dec (Rabs (0 - 4)) (Rabs (0 - 4))); [lra|].
    destruct (Rlt_dec (Rabs (1 * 0.5 * (0 - 4))) (Rabs (1 * (0 - 4)))) as [_|Q].
    - cbn [Nat.eqb]. repeat split; lra.
    - exfalso. apply Q. rewrite !Rabs_left by lra. lra. }
  eexists. split; [reflexivity|]. cbn [seq Nat.sub fold_left].
  assert (U1 : forall j, nl_step 1 spike 1 j = spike j). { apply unchanged_step; [lra|lia| |]; unfold spike; cbn; lra. }
  destruct (N (nl_step 1 spike 1)) as (A & B & D); [rewrite U1; reflexivity|rewrite U1; reflexivity|rewrite U1; reflexivity|].
  assert (U3 : forall j, nl_step 1 (nl_step 1 (nl_step 1 spike 1) 2) 3 j = nl_step 1 (nl_step 1 spike 1) 2 j).
  { apply unchanged_step; [lra|lia| |].
    all: replace (3 - 1)%nat with 2%nat by reflexivity; replace (3 + 1)%nat with 4%nat by reflexivity; rewrite B, D; try lra.
    assert (E : nl_step 1 (nl_step 1 spike 1) 2 4%nat = 0%R).
    { destruct (nl_step_cases 1 (nl_step 1 spike 1) 2 ltac:(lra) ltac:(lia)) as [E|(k & k' & e & K & E & _)]; rewrite E; [rewrite U1; reflexivity|].
      cbn [Nat.eqb]. destruct K as [[-> _]|[-> _]]; cbn [Nat.add Nat.sub Nat.eqb]; rewrite U1; reflexivity. }
    rewrite E. lra. }
  rewrite !U3. split; [exact A|]. split; [exact B|]. unfold variation, spike. cbn. unfold Rabs. repeat destruct (Rcase_abs _); lra.
Qed.
