(** Property theorems C20, C23, C24: domain decomposition. *)
From Coq Require Import ZArith Reals List Bool Lia Lra.
From Verif Require Import Base MeshModel MeshSpec MeshProofs.
Import ListNotations.
Open Scope Z_scope.

(** ** C24: separatrix index sanitisation *)

(** Whatever is accepted is ordered and inside the grid; ny_inner is passed through; the X-point count is what the
    stored indices say. *)
Theorem C24_ordered ny s s' n :
  setYDecompositionIndices ny s = Ok (s', n) ->
  (-1 <= j11 s' /\ j11 s' <= j21 s' /\ j21 s' <= j12 s' /\ j12 s' <= j22 s' /\ j22 s' < ny) /\
  nyin s' = nyin s /\
  (n = 0 <-> (j11 s' = -1 /\ j22 s' = ny - 1)) /\
  (n = 1 <-> (~ (j11 s' = -1 /\ j22 s' = ny - 1) /\ j21 s' = j12 s')) /\
  (n = 2 <-> (~ (j11 s' = -1 /\ j22 s' = ny - 1) /\ j21 s' <> j12 s')).
Proof.
  intros H. destruct (setY_ok _ _ _ _ H) as (A & B & C). split; [exact A|]. split; [exact B|].
  destruct ((j11 s' =? -1) && (j22 s' =? ny - 1)) eqn:E; bz.
  - lia.
  - apply andb_false_iff in E. destruct (j21 s' =? j12 s') eqn:F; destruct E as [E|E]; bz; lia.
Qed.

(** It never goes wrong in another way, and throws exactly when the (sanitised) third index is off the grid. *)
Theorem C24_throws_iff ny s :
  (setYDecompositionIndices ny s = Throw <->
   ny <= Z.max (j12 s) (if j21 s <? Z.max (-1) (j11 s) then Z.max (-1) (j11 s) + 1 else j21 s)) /\
  setYDecompositionIndices ny s <> UB.
Proof.
  destruct (setY_cases ny s) as [[A B]|[A (d & n & B & _)]]; rewrite B; rewrite Z.max_comm in A.
  - split; [split; intros; [exact A|reflexivity]|discriminate].
  - split; [split; intros Q; [discriminate|exfalso; apply (Z.lt_irrefl ny); eapply Z.le_lt_trans; eassumption]|discriminate].
Qed.

(** Already valid indices are left alone, so the function is idempotent. *)
Theorem C24_valid_unchanged ny s :
  -1 <= j11 s -> j11 s <= j21 s -> j21 s <= j12 s -> j12 s <= j22 s -> j22 s < ny ->
  exists n, setYDecompositionIndices ny s = Ok (s, n).
Proof. intros. apply setY_fix. repeat split; assumption. Qed.

Theorem C24_idempotent ny s s' n :
  setYDecompositionIndices ny s = Ok (s', n) -> setYDecompositionIndices ny s' = Ok (s', n).
Proof.
  intros H. destruct (setY_ok _ _ _ _ H) as (A & _ & C).
  destruct (setY_fix _ _ A) as (n' & H'). destruct (setY_ok _ _ _ _ H') as (_ & _ & C').
  rewrite H'. congruence.
Qed.

Example C24_case : setYDecompositionIndices 24 (mkyseps (-7) (-9) (-3) 99 12) = Ok (mkyseps (-1) 0 0 23 12, 0).
Proof. reflexivity. Qed.
Example C24_case_throw : setYDecompositionIndices 24 (mkyseps 3 7 24 19 12) = Throw.
Proof. reflexivity. Qed.

(** ** C23: processor split *)

(** An accepted decomposition, automatic or chosen by the user through NXPE or NYPE. *)
Theorem C23_split_valid npes mype nx ny mxg myg s user m :
  0 < ny -> 0 <= mxg -> 0 <= myg -> 0 <= mype < npes ->
  load_decomposition npes mype nx ny mxg myg s user = Ok m ->
  NXPE m * NYPE m = npes /\ 0 < NXPE m /\ 0 < NYPE m /\
  NXPE m * MXSUB m = nx - 2 * mxg /\ 0 < MXSUB m /\
  NYPE m * MYSUB m = ny /\ 0 < MYSUB m /\
  (forall y, is_cut (seps m) y -> forall py, ~ (py * MYSUB m <= y /\ y + 1 < (py + 1) * MYSUB m)) /\
  (NYPE m = 1 \/ myg <= MYSUB m) /\
  LocalNx m = MXSUB m + 2 * mxg /\ LocalNy m = MYSUB m + 2 * myg.
Proof.
  intros Hny Hmxg Hmyg Hr H.
  destruct (load_ok _ _ _ _ _ _ _ _ _ Hny Hmxg Hmyg Hr H) as (D & E1 & E2 & E3 & E4 & _).
  destruct D. rewrite E1, E2, E3, E4 in *. repeat split; auto; try lia.
  intros y C py [A B]. destruct (d_cuts y C) as [k K].
  assert (py < k) by (apply (Zmult_lt_reg_r _ _ (MYSUB m)); lia).
  assert (k < py + 1) by (apply (Zmult_lt_reg_r _ _ (MYSUB m)); lia). lia.
Qed.

(** The user's choice is honoured. *)
Theorem C23_user_choice npes mype nx ny mxg myg s v m :
  0 < ny -> 0 <= myg -> 0 < npes ->
  (load_decomposition npes mype nx ny mxg myg s (Some (inl v)) = Ok m -> NXPE m = v) /\
  (load_decomposition npes mype nx ny mxg myg s (Some (inr v)) = Ok m -> NYPE m = v).
Proof.
  intros Hny Hmyg Hn.
  assert (G : forall u, load_decomposition npes mype nx ny mxg myg s (Some u) = Ok m ->
     exists x y, (match u with inl v => x = v | inr v => y = v end) /\ NXPE m = x /\ NYPE m = y).
  { intros u H. unfold load_decomposition in H.
    destruct (setYDecompositionIndices ny s) as [[s' n]| |]; [|discriminate|discriminate].
    cbn [bind fst snd] in H.
    destruct (chooseProcessorSplit npes ny myg s' u) as [[x y]| |] eqn:EX; [|discriminate|discriminate].
    cbn [bind fst snd] in H.
    destruct (choose_ok _ _ _ _ _ _ _ Hn Hny Hmyg EX) as (A & B & C & _ & E).
    rewrite cdiv_nz, cmod_nz in H by lia. cbn [bind] in H.
    destruct (derived_ok _ _ _ _ _ _ _ _ _ _ A B Hny H) as (? & ? & _ & _ & _ & _ & ->).
    exists x, y. repeat split; auto. }
  split; intros H; destruct (G _ H) as (x & y & E & E1 & E2); congruence.
Qed.

(** The automatic split: it fails exactly when there is no candidate at all; otherwise it picks a candidate nearest
    to the ideal (the smallest such one). *)
Theorem C23_automatic_optimal npes nx mxg ny myg s : 0 < npes -> 0 < ny ->
  (findProcessorSplit npes nx mxg ny myg s = Throw <-> (forall i, ~ candidate npes nx mxg ny myg s i)) /\
  findProcessorSplit npes nx mxg ny myg s <> UB /\
  (forall x y, findProcessorSplit npes nx mxg ny myg s = Ok (x, y) ->
     x * y = npes /\ candidate npes nx mxg ny myg s x /\
     forall i, candidate npes nx mxg ny myg s i ->
       (Rabs (ideal_nxpe npes nx mxg ny - IZR x) <= Rabs (ideal_nxpe npes nx mxg ny - IZR i))%R /\
       ((Rabs (ideal_nxpe npes nx mxg ny - IZR x) = Rabs (ideal_nxpe npes nx mxg ny - IZR i))%R -> x <= i)).
Proof.
  intros Hn Hny.
  destruct (find_cases npes nx mxg ny myg s Hn Hny) as [[E N]|(x & y & E & C & P & Py & A & O)]; rewrite E.
  - split; [tauto|]. split; [discriminate|]. intros; discriminate.
  - split; [split; [discriminate|intros N; exfalso; exact (N x C)]|]. split; [discriminate|].
    intros x' y' Q. injection Q as <- <-. split; [exact P|]. split; [exact C|].
    intros i Ci. destruct (O i Ci) as [L|[L1 L2]]; split; intros; try lra; auto.
Qed.

(** Every rank reaches the same verdict and the same sizes. *)
Theorem C23_rank_independent npes r1 r2 nx ny mxg myg s user m1 :
  0 < ny -> 0 <= mxg -> 0 <= myg -> 0 <= r1 < npes -> 0 <= r2 < npes ->
  load_decomposition npes r1 nx ny mxg myg s user = Ok m1 ->
  exists m2, load_decomposition npes r2 nx ny mxg myg s user = Ok m2 /\
    NXPE m2 = NXPE m1 /\ NYPE m2 = NYPE m1 /\ MXSUB m2 = MXSUB m1 /\ MYSUB m2 = MYSUB m1 /\ seps m2 = seps m1 /\
    g_nx m2 = g_nx m1 /\ g_ny m2 = g_ny m1 /\ MXG m2 = MXG m1 /\ MYG m2 = MYG m1.
Proof.
  intros Hny Hmxg Hmyg H1 H2 H.
  destruct (load_ok _ _ _ _ _ _ _ _ _ Hny Hmxg Hmyg H1 H) as (D & _).
  assert (HX : NXPE m1 <> 0) by (destruct D; lia). clear D.
  unfold load_decomposition in *.
  destruct (setYDecompositionIndices ny s) as [[s' n]| |]; [|discriminate|discriminate].
  cbn [bind fst snd] in *.
  match type of H with bind ?E _ = _ => destruct E as [[x y]| |] end; [|discriminate|discriminate].
  cbn [bind fst snd] in *.
  destruct (cdiv r1 x) as [q| |] eqn:EQ; [|discriminate|discriminate]. apply cdiv_ok in EQ. destruct EQ as [Nz _].
  rewrite cmod_nz in H by assumption. rewrite cmod_nz, cdiv_nz by assumption. cbn [bind] in *.
  unfold setDerivedGridSizes in *.
  destruct (nx <=? 2 * mxg); [discriminate|]. cbn zeta in *.
  destruct (cdiv (nx - 2 * mxg) x) as [mxs| |]; [|discriminate|discriminate]. cbn [bind] in *.
  destruct (cmod (nx - 2 * mxg) x) as [rx| |]; [|discriminate|discriminate]. cbn [bind] in *.
  destruct (negb (rx =? 0)); [discriminate|].
  destruct (cdiv ny y) as [mys| |]; [|discriminate|discriminate]. cbn [bind] in *.
  destruct (cmod ny y) as [ry| |]; [|discriminate|discriminate]. cbn [bind] in *.
  destruct (negb (ry =? 0)); [discriminate|].
  injection H as <-. eexists. split; [reflexivity|]. repeat split; reflexivity.
Qed.

(** A double null grid, 24 points in y, on 12 processors: NXPE = 2 requested. *)
Example C23_case :
  exists m, load_decomposition 12 5 12 24 2 2 (mkyseps 3 7 15 19 12) (Some (inl 2)) = Ok m /\
            NXPE m = 2 /\ NYPE m = 6 /\ MXSUB m = 4 /\ MYSUB m = 4 /\ PE_XIND m = 1 /\ PE_YIND m = 2.
Proof. eexists. split; [reflexivity|]. repeat split; reflexivity. Qed.
Example C23_case_candidate : candidate 12 12 2 24 2 (mkyseps 3 7 15 19 12) 2.
Proof.
  split; [lia|]. split; [exists 4; reflexivity|]. exists 6. split; [reflexivity|]. split; [lia|]. exists 4.
  split; [lia|]. split; [lia|]. split; [|right; lia].
  intros y [->|[->|[_ [->|[->| ->]]]]]; cbn; [exists 1|exists 5|exists 2|exists 4|exists 3]; reflexivity.
Qed.

(** ** C20: index maps *)

Theorem C20_rank_bijection npes mype nx ny mxg myg s user m :
  0 < ny -> 0 <= mxg -> 0 <= myg -> 0 <= mype < npes ->
  load_decomposition npes mype nx ny mxg myg s user = Ok m ->
  0 <= PE_XIND m < NXPE m /\ 0 <= PE_YIND m < NYPE m /\ PROC_NUM m (PE_XIND m) (PE_YIND m) = mype /\
  (forall x y, 0 <= x < NXPE m -> 0 <= y < NYPE m -> 0 <= PROC_NUM m x y < npes) /\
  (forall x y, ~ (0 <= x < NXPE m /\ 0 <= y < NYPE m) -> PROC_NUM m x y = -1) /\
  (forall x y x' y', 0 <= x < NXPE m -> 0 <= y < NYPE m -> PROC_NUM m x y = PROC_NUM m x' y' -> x = x' /\ y = y').
Proof.
  intros Hny Hmxg Hmyg Hr H.
  destruct (load_ok _ _ _ _ _ _ _ _ _ Hny Hmxg Hmyg Hr H) as (D & _). destruct D.
  assert (P : forall x y, 0 <= x < NXPE m -> 0 <= y < NYPE m -> PROC_NUM m x y = y * NXPE m + x).
  { intros x y Hx Hy. unfold PROC_NUM. rewrite !Z.geb_leb.
    destruct (NXPE m <=? x) eqn:E1; destruct (x <? 0) eqn:E2; destruct (NYPE m <=? y) eqn:E3; destruct (y <? 0) eqn:E4; bz; cbn [orb]; lia. }
  assert (N : forall x y, ~ (0 <= x < NXPE m /\ 0 <= y < NYPE m) -> PROC_NUM m x y = -1).
  { intros x y Hn. unfold PROC_NUM. rewrite !Z.geb_leb.
    destruct (NXPE m <=? x) eqn:E1; destruct (x <? 0) eqn:E2; destruct (NYPE m <=? y) eqn:E3; destruct (y <? 0) eqn:E4; bz; cbn [orb]; lia. }
  split; [lia|]. split; [lia|]. split; [rewrite P; lia|]. split; [intros; rewrite P by lia; nia|]. split; [exact N|].
  intros x y x' y' Hx Hy E. rewrite P in E by lia.
  destruct (Z_le_dec 0 x'); [destruct (Z_lt_dec x' (NXPE m)); [destruct (Z_le_dec 0 y'); [destruct (Z_lt_dec y' (NYPE m))|]|]|];
    try (rewrite N in E by lia; nia).
  rewrite P in E by lia. assert (y = y') by nia. subst. lia.
Qed.

Theorem C20_round_trips m i :
  getLocalXIndex m (getGlobalXIndex m i) = i /\ getGlobalXIndex m (getLocalXIndex m i) = i /\
  getLocalXIndexNoBoundaries m (getGlobalXIndexNoBoundaries m i) = i /\
  getGlobalXIndexNoBoundaries m (getLocalXIndexNoBoundaries m i) = i /\
  getLocalYIndex m (getGlobalYIndex m i) = i /\ getGlobalYIndex m (getLocalYIndex m i) = i /\
  getLocalYIndexNoBoundaries m (getGlobalYIndexNoBoundaries m i) = i /\
  getGlobalYIndexNoBoundaries m (getLocalYIndexNoBoundaries m i) = i /\
  (forall p, YLOCAL m (YGLOBAL m i p) p = i /\ YGLOBAL m (YLOCAL m i p) p = i) /\
  YGLOBAL m i (PE_YIND m) = getGlobalYIndexNoBoundaries m i.
Proof.
  unfold getLocalXIndex, getGlobalXIndex, getLocalXIndexNoBoundaries, getGlobalXIndexNoBoundaries, getLocalYIndex, getGlobalYIndex,
   getLocalYIndexNoBoundaries, getGlobalYIndexNoBoundaries, YLOCAL, YGLOBAL.
  destruct (past_upper_target m); repeat split; try lia; intros; lia.
Qed.

(** The interior points are partitioned over the ranks: [gx] and [gy] belong to exactly one rank and one local
    interior cell, and XPROC / YPROC, evaluated on any rank [r0], name that rank. *)
Theorem C20_unique_owner npes nx ny mxg myg s user (M : Z -> mesh) :
  0 < npes -> 0 < ny -> 0 <= mxg -> 0 <= myg ->
  (forall r, 0 <= r < npes -> load_decomposition npes r nx ny mxg myg s user = Ok (M r)) ->
  forall gx gy, 0 <= gx < nx - 2 * mxg -> 0 <= gy < ny ->
  exists r xl yl,
    (0 <= r < npes /\ xstart (M r) <= xl <= xend (M r) /\ ystart (M r) <= yl <= yend (M r) /\
     getGlobalXIndexNoBoundaries (M r) xl = gx /\ getGlobalYIndexNoBoundaries (M r) yl = gy) /\
    (forall r' xl' yl', 0 <= r' < npes -> xstart (M r') <= xl' <= xend (M r') -> ystart (M r') <= yl' <= yend (M r') ->
       getGlobalXIndexNoBoundaries (M r') xl' = gx -> getGlobalYIndexNoBoundaries (M r') yl' = gy ->
       r' = r /\ xl' = xl /\ yl' = yl) /\
    (forall r0, 0 <= r0 < npes ->
       exists px py, XPROC (M r0) (gx + mxg) = Ok px /\ YPROC (M r0) gy = Ok py /\ PROC_NUM (M r0) px py = r).
Proof.
  intros Hn Hny Hmxg Hmyg HM gx gy Hx Hy.
  pose proof (HM 0 ltac:(lia)) as H0.
  destruct (load_ok _ _ _ _ _ _ _ _ _ Hny Hmxg Hmyg (conj (Z.le_refl 0) Hn) H0) as (D0 & F1 & F2 & F3 & F4 & _).
  set (X := NXPE (M 0)) in *. set (Y := NYPE (M 0)) in *. set (mx := MXSUB (M 0)) in *. set (my := MYSUB (M 0)) in *.
  assert (ALL : forall r, 0 <= r < npes -> decomposed npes r (M r) /\ NXPE (M r) = X /\ NYPE (M r) = Y /\ MXSUB (M r) = mx /\ MYSUB (M r) = my
     /\ MXG (M r) = mxg /\ MYG (M r) = myg /\ g_ny (M r) = ny).
  { intros r Hr. destruct (C23_rank_independent npes 0 r nx ny mxg myg s user (M 0) Hny Hmxg Hmyg ltac:(lia) Hr H0) as (m2 & E & R).
    rewrite (HM r Hr) in E. injection E as <-.
    destruct (load_ok _ _ _ _ _ _ _ _ _ Hny Hmxg Hmyg Hr (HM r Hr)) as (D & ? & ? & ? & ? & _).
    split; [exact D|]. unfold X, Y, mx, my. intuition. }
  assert (HX : 0 < X) by apply D0. assert (HY : 0 < Y) by apply D0.
  assert (Hmx : 0 < mx) by apply D0. assert (Hmy : 0 < my) by apply D0.
  assert (EP : X * Y = npes) by apply D0.
  assert (EX : nx - 2 * mxg = X * mx) by (rewrite <- F1, <- F3; apply D0).
  assert (EY : ny = Y * my) by (rewrite <- F2; apply D0).
  clearbody X Y mx my.
  assert (QX : 0 <= gx / mx < X). { split; [apply Z.div_pos; lia|]. apply Z.div_lt_upper_bound; nia. }
  assert (QY : 0 <= gy / my < Y). { split; [apply Z.div_pos; lia|]. apply Z.div_lt_upper_bound; nia. }
  pose proof (Z.div_mod gx mx ltac:(lia)) as DX. pose proof (Z.mod_pos_bound gx mx ltac:(lia)) as MX0.
  pose proof (Z.div_mod gy my ltac:(lia)) as DY. pose proof (Z.mod_pos_bound gy my ltac:(lia)) as MY0.
  set (px := gx / mx) in *. set (py := gy / my) in *. set (rx := gx mod mx) in *. set (ry := gy mod my) in *.
  assert (EPX : Z.quot gx mx = px) by (apply Z.quot_div_nonneg; lia).
  assert (EPY : Z.quot gy my = py) by (apply Z.quot_div_nonneg; lia).
  clearbody px py rx ry.
  assert (Hr : 0 <= py * X + px < npes) by nia.
  exists (py * X + px), (mxg + rx), (myg + ry).
  destruct (ALL _ Hr) as (D & E1 & E2 & E3 & E4 & E5 & E6 & E7).
  assert (PP : PE_XIND (M (py * X + px)) = px /\ PE_YIND (M (py * X + px)) = py).
  { pose proof (d_px _ _ _ D). pose proof (d_py _ _ _ D). pose proof (d_rank _ _ _ D) as R. rewrite E1, E2 in *.
    assert (PE_YIND (M (py * X + px)) = py) by nia. split; nia. }
  destruct PP as [PX PY].
  split; [|split].
  - pose proof (d_xs _ _ _ D). pose proof (d_xe _ _ _ D). pose proof (d_ys _ _ _ D). pose proof (d_ye _ _ _ D).
    unfold getGlobalXIndexNoBoundaries, getGlobalYIndexNoBoundaries. rewrite PX, PY, E3, E4, E5, E6 in *. lia.
  - intros r' xl' yl' Hr' Hxl Hyl G1 G2.
    destruct (ALL _ Hr') as (D' & E1' & E2' & E3' & E4' & E5' & E6' & E7').
    pose proof (d_xs _ _ _ D'). pose proof (d_xe _ _ _ D'). pose proof (d_ys _ _ _ D'). pose proof (d_ye _ _ _ D').
    pose proof (d_px _ _ _ D'). pose proof (d_py _ _ _ D'). pose proof (d_rank _ _ _ D') as R.
    unfold getGlobalXIndexNoBoundaries, getGlobalYIndexNoBoundaries in *. rewrite E1', E2', E3', E4', E5', E6' in *.
    assert (A : PE_XIND (M r') = px) by nia. assert (B : PE_YIND (M r') = py) by nia.
    rewrite A, B in *. nia.
  - intros r0 Hr0. destruct (ALL _ Hr0) as (D' & E1' & E2' & E3' & E4' & E5' & E6' & E7').
    exists px, py. unfold XPROC, YPROC, PROC_NUM. rewrite E1', E2', E3', E4', E5', E7', !Z.geb_leb.
    replace (mxg <=? gx + mxg) with true by (symmetry; apply Z.leb_le; lia).
    replace (gy <? 0) with false by (symmetry; apply Z.ltb_ge; lia).
    replace (ny <=? gy) with false by (symmetry; apply Z.leb_gt; lia).
    replace (gx + mxg - mxg) with gx by lia.
    rewrite !cdiv_nz by lia. rewrite EPX, EPY. cbn [orb].
    replace (X <=? px) with false by (symmetry; apply Z.leb_gt; lia).
    replace (px <? 0) with false by (symmetry; apply Z.ltb_ge; lia).
    replace (Y <=? py) with false by (symmetry; apply Z.leb_gt; lia).
    replace (py <? 0) with false by (symmetry; apply Z.ltb_ge; lia).
    repeat split; reflexivity.
Qed.

(** The y index that counts boundary cells: [myg] cells before the first point, and in double null [2*myg] more
    after ny_inner points.  This is what getGlobalYIndex returns for interior points PROVIDED each subdomain is longer
    than the two boundary regions together. *)
Definition global_y_with_boundaries (s : yseps) (myg gy : Z) : Z :=
  gy + myg + (if (j12 s >? j21 s) && (gy >=? nyin s) then 2 * myg else 0).

Theorem C20_global_y_partial npes mype nx ny mxg myg s user m :
  0 < ny -> 0 <= mxg -> 0 <= myg -> 0 <= mype < npes ->
  load_decomposition npes mype nx ny mxg myg s user = Ok m ->
  2 * myg < MYSUB m ->
  forall yl, ystart m <= yl <= yend m ->
  getGlobalYIndex m yl = global_y_with_boundaries (seps m) myg (getGlobalYIndexNoBoundaries m yl).
Proof.
  intros Hny Hmxg Hmyg Hr H Hbig yl Hyl.
  destruct (load_ok _ _ _ _ _ _ _ _ _ Hny Hmxg Hmyg Hr H) as (D & E1 & E2 & E3 & E4 & _). destruct D.
  unfold getGlobalYIndex, getGlobalYIndexNoBoundaries, global_y_with_boundaries, past_upper_target.
  rewrite d_ys, d_ye in *. rewrite E4 in *.
  destruct (j12 (seps m) >? j21 (seps m)) eqn:E; cbn [andb]; [|lia].
  bz. destruct (d_cuts (nyin (seps m) - 1)) as [k K].
  { right; right. split; [unfold double_null; lia|auto]. }
  destruct (PE_YIND m * MYSUB m + 2 * myg + 1 >? nyin (seps m)) eqn:F;
  destruct (yl + PE_YIND m * MYSUB m - myg >=? nyin (seps m)) eqn:G; bz; try lia; exfalso.
  - assert (k > PE_YIND m) by nia. nia.
  - assert (k <= PE_YIND m) by nia. nia.
Qed.

(** Without that proviso it is false: 24 points on 6 y processors with 2 guard cells, the processor just below the
    upper targets (points 8..11, ny_inner = 12) numbers its points as if it were past them. *)
Theorem C20_global_y_refuted :
  exists npes mype nx ny mxg myg s user m yl,
  0 < ny /\ 0 <= mxg /\ 0 <= myg /\ 0 <= mype < npes /\
  load_decomposition npes mype nx ny mxg myg s user = Ok m /\ ystart m <= yl <= yend m /\
  getGlobalYIndex m yl <> global_y_with_boundaries (seps m) myg (getGlobalYIndexNoBoundaries m yl).
Proof.
  exists 6, 2, 8, 24, 2, 2, (mkyseps 3 7 15 19 12), (Some (inl 1)). eexists. exists 2.
  split; [lia|]. split; [lia|]. split; [lia|]. split; [lia|]. split; [reflexivity|].
  vm_compute. split; [split; discriminate|discriminate].
Qed.

Example C20_case : exists m, load_decomposition 12 5 12 48 2 2 (mkyseps 7 15 31 39 24) (Some (inl 2)) = Ok m /\ 2 * 2 < MYSUB m.
Proof. eexists. split; [reflexivity|]. vm_compute. reflexivity. Qed.

Print Assumptions C24_ordered.
Print Assumptions C24_throws_iff.
Print Assumptions C24_valid_unchanged.
Print Assumptions C24_idempotent.
Print Assumptions C23_split_valid.
Print Assumptions C23_user_choice.
Print Assumptions C23_automatic_optimal.
Print Assumptions C23_rank_independent.
Print Assumptions C20_rank_bijection.
Print Assumptions C20_round_trips.
Print Assumptions C20_unique_owner.
Print Assumptions C20_global_y_partial.
Print Assumptions C20_global_y_refuted.
