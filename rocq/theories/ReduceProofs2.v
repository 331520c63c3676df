(** The cells of RGN_NOBNDRY on all ranks are the points of the grid. *)
From Coq Require Import ZArith Reals List Bool Permutation Lia Lra Sorting.
From Verif Require Import Base RegionModel RegionSpec RegionProofs MeshModel MeshProofs MeshProps ReduceModel ReduceSpec ReduceProofs.
Import ListNotations.
Open Scope Z_scope.

Section Decomp.
Variables (npes nx ny mxg myg nz maxsz : Z) (s : yseps) (user : option (Z + Z)) (M : Z -> mesh).
Hypothesis Hn : 0 < npes. Hypothesis Hny : 0 < ny. Hypothesis Hmxg : 0 <= mxg. Hypothesis Hmyg : 0 <= myg. Hypothesis Hnz : 0 < nz. Hypothesis Hmb : 0 < maxsz.
Hypothesis HM : forall r, 0 <= r < npes -> load_decomposition npes r nx ny mxg myg s user = Ok (M r).

Lemma nobndry_ok r : 0 <= r < npes -> exists rg, nobndry (M r) nz maxsz = Ok rg /\ good_region rg /\ NoDup (cells rg) /\ cells rg <> [] /\
  forall k, In k (cells rg) <-> exists x y z, xstart (M r) <= x <= xend (M r) /\ ystart (M r) <= y <= yend (M r) /\ 0 <= z < nz /\ k = flat (LocalNy (M r)) nz x y z.
Proof.
  intros Hr. destruct (load_ok _ _ _ _ _ _ _ _ _ Hny Hmxg Hmyg Hr (HM r Hr)) as (D & _ & _ & E3 & E4 & _).
  pose proof (d_lny _ _ _ D). pose proof (d_mysub _ _ _ D). pose proof (d_mxsub _ _ _ D). pose proof (d_ys _ _ _ D). pose proof (d_ye _ _ _ D). pose proof (d_xs _ _ _ D). pose proof (d_xe _ _ _ D).
  unfold nobndry, region_box.
  destruct (box_spec (xstart (M r)) (xend (M r)) (ystart (M r)) (yend (M r)) 0 (nz - 1) (LocalNy (M r)) nz ltac:(lia) Hnz ltac:(lia) ltac:(lia) ltac:(lia) ltac:(lia)) as (l & E & I & K & _).
  rewrite E. cbn [bind]. replace (0 <? maxsz) with true by (symmetry; apply Z.ltb_lt; exact Hmb). cbn [negb].
  eexists. split; [reflexivity|]. unfold good_region, cells. cbn [indices blocks].
  split; [apply (blocks_spec maxsz l Hmb)|]. split.
  - clear - I. unfold increasing in I. induction I as [|a l' I IH F]; constructor; [|exact IH]. intros C. rewrite Forall_forall in F. specialize (F _ C). lia.
  - assert (Q : forall k, In k (map ind l) <-> exists x y z, xstart (M r) <= x <= xend (M r) /\ ystart (M r) <= y <= yend (M r) /\ 0 <= z < nz /\ k = flat (LocalNy (M r)) nz x y z).
    { intros k. rewrite K. split; intros (x & y & z & A & B & C & ->); exists x, y, z; repeat split; try lia. }
    split; [|exact Q]. intros N.
    assert (In (flat (LocalNy (M r)) nz (xstart (M r)) (ystart (M r)) 0) (map ind l)) as C by (apply Q; eexists; eexists; exists 0; repeat split; lia).
    rewrite N in C. exact C.
Qed.

(** The grid point of the cell of rank r at position k. *)
Definition place (r k : Z) : Z * Z * Z :=
  (getGlobalXIndexNoBoundaries (M r) (k / nz / LocalNy (M r)), getGlobalYIndexNoBoundaries (M r) ((k / nz) mod LocalNy (M r)), k mod nz).
Lemma place_flat r x y z : 0 <= r < npes -> ystart (M r) <= y <= yend (M r) -> 0 <= z < nz ->
  place r (flat (LocalNy (M r)) nz x y z) = (getGlobalXIndexNoBoundaries (M r) x, getGlobalYIndexNoBoundaries (M r) y, z).
Proof.
  intros Hr Hy Hz. destruct (load_ok _ _ _ _ _ _ _ _ _ Hny Hmxg Hmyg Hr (HM r Hr)) as (D & _ & _ & E3 & E4 & _).
  pose proof (d_lny _ _ _ D). pose proof (d_ys _ _ _ D). pose proof (d_ye _ _ _ D). pose proof (d_mysub _ _ _ D).
  unfold place, flat. rewrite Z.div_add_l, (Z.div_small z nz), Z.add_0_r by lia.
  rewrite Z.div_add_l, (Z.div_small y), Z.add_0_r by lia.
  f_equal; [f_equal|].
  - rewrite Z.add_comm, Z.mod_add, Z.mod_small by lia. reflexivity.
  - rewrite Z.add_comm, Z.mod_add, Z.mod_small by lia. reflexivity.
Qed.

Lemma places_grid ranks rg : Permutation ranks (upto npes) -> (forall r, 0 <= r < npes -> nobndry (M r) nz maxsz = Ok (rg r)) ->
  Permutation (flat_map (fun r => map (place r) (cells (rg r))) ranks) (grid_points (nx - 2 * mxg) ny nz).
Proof.
  intros P HR.
  assert (RG : forall r, 0 <= r < npes -> NoDup (cells (rg r)) /\
     forall k, In k (cells (rg r)) <-> exists x y z, xstart (M r) <= x <= xend (M r) /\ ystart (M r) <= y <= yend (M r) /\ 0 <= z < nz /\ k = flat (LocalNy (M r)) nz x y z).
  { intros r Hr. destruct (nobndry_ok r Hr) as (g & E & _ & A & _ & B). rewrite (HR r Hr) in E. injection E as <-. split; assumption. }
  assert (IR : forall r, In r ranks <-> 0 <= r < npes).
  { intros r. rewrite <- in_upto. split; apply Permutation_in; [exact P|apply Permutation_sym, P]. }
  assert (PT : forall r k, 0 <= r < npes -> In k (cells (rg r)) -> exists gx gy z x y, place r k = (gx, gy, z) /\ 0 <= gx < nx - 2 * mxg /\ 0 <= gy < ny /\ 0 <= z < nz /\
     xstart (M r) <= x <= xend (M r) /\ ystart (M r) <= y <= yend (M r) /\ gx = getGlobalXIndexNoBoundaries (M r) x /\ gy = getGlobalYIndexNoBoundaries (M r) y /\ k = flat (LocalNy (M r)) nz x y z).
  { intros r k Hr Hk. apply RG in Hk; [|exact Hr]. destruct Hk as (x & y & z & Hx & Hy & Hz & ->). rewrite place_flat by assumption.
    eexists. eexists. exists z, x, y. split; [reflexivity|].
    destruct (load_ok _ _ _ _ _ _ _ _ _ Hny Hmxg Hmyg Hr (HM r Hr)) as (D & E1 & E2 & E3 & E4 & _).
    pose proof (d_x _ _ _ D) as DX. pose proof (d_y _ _ _ D) as DY. pose proof (d_px _ _ _ D). pose proof (d_py _ _ _ D). pose proof (d_ys _ _ _ D). pose proof (d_ye _ _ _ D). pose proof (d_xs _ _ _ D). pose proof (d_xe _ _ _ D).
    rewrite E1, E3 in DX. rewrite E2 in DY. unfold getGlobalXIndexNoBoundaries, getGlobalYIndexNoBoundaries.
    assert (PE_XIND (M r) * MXSUB (M r) + MXSUB (M r) <= NXPE (M r) * MXSUB (M r)) by nia.
    assert (PE_YIND (M r) * MYSUB (M r) + MYSUB (M r) <= NYPE (M r) * MYSUB (M r)) by nia.
    assert (0 <= PE_XIND (M r) * MXSUB (M r)) by nia. assert (0 <= PE_YIND (M r) * MYSUB (M r)) by nia.
    repeat split; try lia. }
  assert (UQ : forall r k r' k', 0 <= r < npes -> 0 <= r' < npes -> In k (cells (rg r)) -> In k' (cells (rg r')) -> place r k = place r' k' -> r = r' /\ k = k').
  { intros r k r' k' Hr Hr' Hk Hk' E. destruct (PT r k Hr Hk) as (gx & gy & z & x & y & E1 & A & B & C & Dx & Dy & Gx & Gy & ->).
    destruct (PT r' k' Hr' Hk') as (gx' & gy' & z' & x' & y' & E2 & A' & B' & C' & Dx' & Dy' & Gx' & Gy' & ->).
    rewrite E1, E2 in E. injection E as <- <- <-.
    destruct (C20_unique_owner npes nx ny mxg myg s user M Hn Hny Hmxg Hmyg HM gx gy A B) as (q & xl & yl & _ & U & _).
    destruct (U r x y Hr Dx Dy (eq_sym Gx) (eq_sym Gy)) as (-> & -> & ->). destruct (U r' x' y' Hr' Dx' Dy' (eq_sym Gx') (eq_sym Gy')) as (-> & -> & ->). split; reflexivity. }
  apply NoDup_Permutation; [|apply NoDup_grid|].
  - apply NoDup_flat.
    + eapply Permutation_NoDup; [apply Permutation_sym, P|apply NoDup_upto].
    + intros r Hr. apply IR in Hr. destruct (RG r Hr) as [ND _]. clear - ND UQ Hr.
      assert (G : forall l, NoDup l -> (forall k, In k l -> In k (cells (rg r))) -> NoDup (map (place r) l)).
      { induction 1 as [|k l N D IH]; intros H; cbn; constructor; [|apply IH; intros; apply H; now right].
        intros C. apply in_map_iff in C. destruct C as (k' & E & C). destruct (UQ r k r k' Hr Hr) as [_ ->]; auto; [apply H; now left|apply H; now right]. }
      apply G; auto.
    + intros r r' p Hr Hr' Hp Hp'. apply IR in Hr, Hr'. apply in_map_iff in Hp, Hp'. destruct Hp as (k & <- & Hk), Hp' as (k' & E & Hk').
      destruct (UQ r k r' k' Hr Hr' Hk Hk' (eq_sym E)). assumption.
  - intros p. rewrite in_flat_map, in_grid. split.
    + intros (r & Hr & Hp). apply IR in Hr. apply in_map_iff in Hp. destruct Hp as (k & <- & Hk).
      destruct (PT r k Hr Hk) as (gx & gy & z & x & y & E1 & A & B & C & _). exists gx, gy, z. auto.
    + intros (gx & gy & z & -> & A & B & C).
      destruct (C20_unique_owner npes nx ny mxg myg s user M Hn Hny Hmxg Hmyg HM gx gy A B) as (q & xl & yl & (Hq & Dx & Dy & Gx & Gy) & _).
      exists q. split; [apply IR, Hq|]. apply in_map_iff. exists (flat (LocalNy (M q)) nz xl yl z). split.
      * rewrite place_flat by assumption. rewrite Gx, Gy. reflexivity.
      * apply RG; [exact Hq|]. exists xl, yl, z. auto.
Qed.

Lemma values_grid ranks rg f (F : Z -> Z -> Z -> R) : Permutation ranks (upto npes) -> (forall r, 0 <= r < npes -> nobndry (M r) nz maxsz = Ok (rg r)) ->
  (forall r x y z, 0 <= r < npes -> xstart (M r) <= x <= xend (M r) -> ystart (M r) <= y <= yend (M r) -> 0 <= z < nz ->
     f r (flat (LocalNy (M r)) nz x y z) = F (getGlobalXIndexNoBoundaries (M r) x) (getGlobalYIndexNoBoundaries (M r) y) z) ->
  Permutation (values ranks rg f) (map (fun p => F (fst (fst p)) (snd (fst p)) (snd p)) (grid_points (nx - 2 * mxg) ny nz)).
Proof.
  intros P HR HF. rewrite <- (places_grid ranks rg P HR).
  assert (IR : forall r, In r ranks -> 0 <= r < npes). { intros r H. apply in_upto. eapply Permutation_in; [exact P|exact H]. }
  unfold values. clear P. induction ranks as [|r t IH]; cbn [flat_map map]; [constructor|].
  rewrite map_app. apply Permutation_app; [|apply IH; intros; apply IR; now right]. rewrite map_map.
  assert (Hr : 0 <= r < npes) by (apply IR; now left).
  replace (map (f r) (cells (rg r))) with (map (fun k => F (fst (fst (place r k))) (snd (fst (place r k))) (snd (place r k))) (cells (rg r))); [reflexivity|].
  symmetry. apply map_ext_in. intros k Hk. destruct (nobndry_ok r Hr) as (g & E & _ & _ & _ & B). rewrite (HR r Hr) in E. injection E as <-.
  apply B in Hk. destruct Hk as (x & y & z & Hx & Hy & Hz & ->). rewrite place_flat by assumption. cbn [fst snd]. now apply HF.
Qed.
End Decomp.
