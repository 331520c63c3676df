(** Proofs for the sparsity pattern of the global numbering. *)
From Coq Require Import ZArith List Bool String Lia Sorted Permutation.
From Verif Require Import Base MeshModel MeshSpec MeshProofs TopoModel TopoSpec CommModel RegionModel RegionSpec RegionProofs BoundsModel BoundsSpec BoundsProofs IndexerModel IndexerSpec IndexerProofs IndexerProofs2.
Import ListNotations.
Open Scope Z_scope.

(** Which stencil part, by number. *)
Lemma number_from_spec st i : forall c, number_from st i c = -1 \/ exists n, number_from st i c = c + Z.of_nat n /\ (n < List.length st)%nat.
Proof.
  induction st as [|[t p] st IH]; intros c; cbn [number_from]; [auto|]. destruct (t i); [right; exists O; cbn [List.length]; split; lia|].
  destruct (IH (c + 1)) as [E|(n & E & H)]; [auto|]. right. exists (S n). cbn [List.length]. split; lia.
Qed.
Lemma number_part st i n c : 0 <= c -> number_from st i c = c + Z.of_nat n <->
  (exists t p, nth_error st n = Some (t, p) /\ t i = true /\ forall k t' p', (k < n)%nat -> nth_error st k = Some (t', p') -> t' i = false).
Proof.
  intros Hc. revert n c Hc. induction st as [|[t p] st IH]; intros n c Hc; cbn [number_from].
  - split; [lia|]. intros (t & p & H & _). destruct n; discriminate.
  - destruct (t i) eqn:E.
    + split.
      * intros H. assert (n = O) by lia. subst. exists t, p. split; [reflexivity|]. split; [exact E|]. intros; lia.
      * intros (t' & p' & H & T & F). destruct n as [|n]; [lia|]. exfalso. rewrite (F O t p) in E; [discriminate|lia|reflexivity].
    + destruct n as [|n].
      * split.
        { intros H. destruct (number_from_spec st i (c + 1)) as [Q|(n & Q & _)]; lia. }
        intros (t' & p' & H & T & _). cbn in H. injection H as <- <-. congruence.
      * assert (Hc' : 0 <= c + 1) by lia. replace (c + Z.of_nat (S n)) with (c + 1 + Z.of_nat n) by lia. rewrite (IH n (c + 1) Hc'). split.
        { intros (t' & p' & H & T & F). exists t', p'. split; [exact H|]. split; [exact T|]. intros k t2 p2 Hk HN.
          destruct k as [|k]; [cbn in HN; injection HN as <- <-; exact E|]. apply (F k t2 p2); [lia|exact HN]. }
        intros (t' & p' & H & T & F). exists t', p'. split; [exact H|]. split; [exact T|]. intros k t2 p2 Hk HN. apply (F (S k) t2 p2); [lia|exact HN].
Qed.

(** getIndicesWithStencilIncluding inverts the stencil. *)
Lemma including_spec all i k : forall st c, (forall n t p, nth_error st n = Some (t, p) -> nth_error all (Z.to_nat c + n) = Some (t, p)) -> 0 <= c ->
  In k (including_from all st i c) <-> exists n t p o, nth_error st n = Some (t, p) /\ In o p /\ k = isub i o /\ getStencilNumber all k = c + Z.of_nat n.
Proof.
  induction st as [|[t p] st IH]; intros c Hst Hc; cbn [including_from].
  - split; [intros []|]. intros (n & t & p & o & H & _). destruct n; discriminate.
  - rewrite in_app_iff, (IH (c + 1)); [| |lia].
    2: { intros n t' p' H. specialize (Hst (S n) t' p' H). rewrite <- Hst. f_equal. lia. }
    rewrite in_flat_map. split.
    + intros [(o & Ho & Hk)|(n & t' & p' & o & H1 & H2 & H3 & H4)].
      * cbv zeta in Hk. destruct (getStencilNumber all (isub i o) =? c) eqn:E; [|destruct Hk]. destruct Hk as [<-|[]]. apply Z.eqb_eq in E.
        exists O, t, p, o. split; [reflexivity|]. split; [exact Ho|]. split; [reflexivity|]. lia.
      * exists (S n), t', p', o. split; [exact H1|]. split; [exact H2|]. split; [exact H3|]. lia.
    + intros (n & t' & p' & o & H1 & H2 & H3 & H4). destruct n as [|n].
      * cbn in H1. injection H1 as <- <-. left. exists o. split; [exact H2|]. cbv zeta. rewrite <- H3, H4.
        replace (c + Z.of_nat 0 =? c) with true by (symmetry; apply Z.eqb_eq; lia). left. reflexivity.
      * right. exists n, t', p', o. split; [exact H1|]. split; [exact H2|]. split; [exact H3|]. lia.
Qed.
Lemma including_in st i k : In k (getIndicesWithStencilIncluding st i) <-> exists p o, offsets_at st k p /\ In o p /\ k = isub i o.
Proof.
  unfold getIndicesWithStencilIncluding. rewrite including_spec; [|intros n t p H; exact H|lia]. split.
  - intros (n & t & p & o & H1 & H2 & H3 & H4). unfold getStencilNumber in H4. apply number_part in H4; [|lia].
    destruct H4 as (t' & p' & H5 & H6 & H7). rewrite H1 in H5. injection H5 as <- <-. exists p, o. split; [exists n, t; auto|]. auto.
  - intros (p & o & (n & t & H1 & H2 & H3) & Ho & ->). exists n, t, p, o. split; [exact H1|]. split; [exact Ho|]. split; [reflexivity|].
    unfold getStencilNumber. apply number_part; [lia|]. exists t, p. auto.
Qed.

Section One.
Context (m : mesh) (nz : Z).
Notation ny := (LocalNy m).
Hypothesis Hnz : 0 < nz. Hypothesis Hny : 0 < ny.
Hypothesis GX : xstart m = MXG m /\ 0 <= MXG m /\ LocalNx m = xend m + 1 + MXG m /\ xstart m <= xend m.
Hypothesis GY : ystart m = MYG m /\ 0 <= MYG m /\ ny = yend m + 1 + MYG m /\ ystart m <= yend m.

Definition infield x y z : Prop := 0 <= x < LocalNx m /\ 0 <= y < ny /\ 0 <= z < nz.
Lemma int_infield x y z : interior m nz x y z -> infield x y z.
Proof. intros (A & B & D). unfold inx, iny_, infield in *. lia. Qed.
Lemma isub_pt x y z o : infield x y z -> isub (pt ny nz x y z) o = pt ny nz (x - odx o) (y - ody o) ((z - odz o) mod nz).
Proof.
  intros (A & B & D). unfold isub, pt. rewrite ioffset_spec by lia. reflexivity.
Qed.
Lemma iadd_pt' x y z o : infield x y z -> iadd (pt ny nz x y z) o = pt ny nz (x + odx o) (y + ody o) ((z + odz o) mod nz).
Proof. intros (A & B & D). unfold iadd, pt. apply ioffset_spec; lia. Qed.
Lemma pt_inj x y z x' y' z' : infield x y z -> infield x' y' z' -> ind (pt ny nz x y z) = ind (pt ny nz x' y' z') -> x = x' /\ y = y' /\ z = z'.
Proof. intros (A & B & D) (A' & B' & D') E. cbn [pt ind] in E. apply (flat_inj ny nz); try lia; auto. Qed.

Lemma mod_sub z d : 0 <= z < nz -> ((z + d) mod nz - d) mod nz = z.
Proof. intros. rewrite Zminus_mod_idemp_l. replace (z + d - d) with z by lia. apply Z.mod_small. assumption. Qed.
Lemma mod_add' z d : 0 <= z < nz -> ((z - d) mod nz + d) mod nz = z.
Proof. intros. rewrite Zplus_mod_idemp_l. replace (z - d + d) with z by lia. apply Z.mod_small. assumption. Qed.

(** The stencil of an interior point [k] contains the cell [i] exactly when [k] is found from [i]. *)
Lemma shift_eq x y z x' y' z' o : infield x y z -> interior m nz x' y' z' -> - MXG m <= odx o <= MXG m -> - MYG m <= ody o <= MYG m ->
  pt ny nz x' y' z' = isub (pt ny nz x y z) o <-> x = x' + odx o /\ y = y' + ody o /\ z = (z' + odz o) mod nz.
Proof.
  intros HF HI HX HY. pose proof (int_infield _ _ _ HI) as HI'. rewrite isub_pt by exact HF. unfold pt.
  destruct HF as (F1 & F2 & F3). destruct HI' as (I1 & I2 & I3). destruct HI as (J1 & J2 & J3). unfold inx, iny_ in *. split.
  - intros E. injection E as E. unfold flat in E.
    pose proof (Z.mod_pos_bound (z - odz o) nz Hnz).
    destruct (Z.div_mod_unique nz (x' * ny + y') ((x - odx o) * ny + (y - ody o)) z' ((z - odz o) mod nz)) as [E2 E1]; [lia|lia|lia|].
    assert (E3 : x = x' + odx o /\ y = y' + ody o) by (apply (Z.div_mod_unique ny); [lia|lia|lia]).
    split; [apply E3|]. split; [apply E3|]. rewrite E1. symmetry. apply mod_add'. exact F3.
  - intros (-> & -> & ->). rewrite mod_sub by exact I3. replace (x' + odx o - odx o) with x' by lia. replace (y' + ody o - ody o) with y' by lia. reflexivity.
Qed.

Lemma inverse st x y z x' y' z' : fits st m nz -> infield x y z -> interior m nz x' y' z' ->
  In (pt ny nz x' y' z') (getIndicesWithStencilIncluding st (pt ny nz x y z)) <->
  exists p o, offsets_at st (pt ny nz x' y' z') p /\ In o p /\ x = x' + odx o /\ y = y' + ody o /\ z = (z' + odz o) mod nz.
Proof.
  intros FT HF HI. rewrite including_in. split; intros (p & o & H1 & H2 & H3); exists p, o; (split; [exact H1|]; split; [exact H2|]);
    destruct (proj1 FT x' y' z' p o HI H1 H2); apply shift_eq; assumption.
Qed.
End One.
