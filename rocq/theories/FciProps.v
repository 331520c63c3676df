(** C86: parallel slices and parallel boundary conditions of the flux coordinate independent method. *)
From Coq Require Import Reals ZArith List Lia Lra Bool.
From Verif Require Import Base DerivModel InterpModel InterpSpec InterpProofs InterpProps FciModel FciSpec FciProofs.
Import ListNotations.
Local Open Scope R_scope.

Lemma transform_exists : forall W (calc : R -> R -> res W) (point : plane -> W -> res R) m g f, fits m -> interpolable calc point m g f ->
  exists t st, FCITransform calc m g = Ok t /\ calcParallelSlices point m t f = Ok st /\ base st = f /\
    forall o l p, (1 <= Z.abs o <= ystart m)%Z -> line_data g o = Some l -> in_domain m p ->
      (stays m l p -> exists v, slice st o (image o p) = Some v /\ interpolated calc point f l o p v) /\
      (~ stays m l p -> slice st o (image o p) = None).
Proof.
  intros W calc point m g f F H. destruct F as (F1 & F2).
  destruct (build_ok W calc m g (Z.to_nat (ystart m)) 1 (mkT [] [] [] [] []) ltac:(lia)) as (t & ks & Et & Ek & G & L).
  { intros o Ho. destruct (H o ltac:(lia)) as (l & El & Hl). exists l. split; [exact El|]. intros p Hp. apply Hl. apply in_interior. exact Hp. }
  exists t. unfold calcParallelSlices. cbn [field_line_maps app] in Ek. rewrite Ek.
  destruct (calc_slices_ok W calc point m g ks 1 (mkField f (fun _ _ => None)) ltac:(lia) G (conj F1 F2) ltac:(lia)) as (st & Es & B & _ & S).
  { intros o l p Ho El Hp St. cbn [base]. destruct (H o ltac:(lia)) as (l' & El' & Hl). assert (l' = l) by congruence. subst l'. apply Hl; [apply in_interior; exact Hp|exact St]. }
  exists st. split; [exact Et|]. split; [exact Es|]. split; [exact B|]. intros o l p Ho El Hp. apply S; [lia|lia|exact El|apply in_interior; exact Hp].
Qed.

(** Every slice, near or far, holds at every point of the domain the interpolated value at the end of its line if the line
    stays in the domain, and nothing if it leaves; the field itself is not changed. *)
Theorem C86_slices : forall W (calc : R -> R -> res W) (point : plane -> W -> res R) m g f, fits m -> interpolable calc point m g f ->
  exists t st, FCITransform calc m g = Ok t /\ calcParallelSlices point m t f = Ok st /\ base st = f /\
    forall o l p, (1 <= Z.abs o <= ystart m)%Z -> line_data g o = Some l -> in_domain m p ->
      (stays m l p -> exists v, slice st o (image o p) = Some v /\ interpolated calc point f l o p v) /\
      (~ stays m l p -> slice st o (image o p) = None).
Proof. exact transform_exists. Qed.
(** With the default interpolation (Hermite splines), or the monotonic one, every grid with all the lines is fine. *)
Theorem C86_splines : forall m g f, has_guards (lm m) -> (forall o, (1 <= Z.abs o <= ystart m)%Z -> exists l, line_data g o = Some l) ->
  interpolable (hermite_weights (lm m)) (spline_point (lm m)) m g f /\ interpolable (hermite_weights (lm m)) (monotonic_point (lm m)) m g f.
Proof.
  intros m g f G H.
  assert (A : forall dx dz, exists w, hermite_weights (lm m) dx dz = Ok w).
  { intros dx dz. destruct (C36_spline_fields_defined (lm m) (fun _ _ => 0) dx dz G) as ((v & E) & _). destruct (hermite_weights (lm m) dx dz) as [w| |]; try discriminate E. exists w. reflexivity. }
  split; intros o Ho; destruct (H o Ho) as (l & El); exists l; (split; [exact El|]); intros [[x y] z] _; (split; [apply A|]); intros _; unfold interpolated; apply C36_spline_fields_defined; exact G.
Qed.
(** The constructor fails if lines are missing in the grid file. *)
Theorem C86_missing : forall W (calc : R -> R -> res W) m g t, FCITransform calc m g = Ok t -> forall o, (1 <= Z.abs o <= ystart m)%Z -> line_data g o <> None.
Proof.
  intros W calc m g t Ht o Ho. unfold FCITransform in Ht.
  assert (A : forall n k t0, build_maps calc m g n k t0 = Ok t -> (1 <= k)%Z -> (k <= Z.abs o < k + Z.of_nat n)%Z -> line_data g o <> None).
  { induction n as [|n IH]; intros k t0 E Hk Hn; [lia|]. cbn [build_maps] in E.
    destruct (FCIMap calc m g k (fwd_in t0) (fwd_out t0)) as [[[fm fi] fo]| |] eqn:E1; cbn [bind] in E; try discriminate E.
    destruct (FCIMap calc m g (- k)%Z (bkwd_in t0) (bkwd_out t0)) as [[[bm bi] bo]| |] eqn:E2; cbn [bind] in E; try discriminate E.
    destruct (Z_lt_le_dec (Z.abs o) (k + 1)) as [Hlt|Hge]; [|eapply IH; [exact E|lia|lia]].
    unfold FCIMap in E1, E2. rewrite (proj2 (Z.eqb_neq k 0)) in E1 by lia. rewrite (proj2 (Z.eqb_neq (- k) 0)) in E2 by lia.
    assert (o = k \/ o = (- k)%Z) as [-> | ->] by lia; intros N; [rewrite N in E1; discriminate E1|rewrite N in E2; discriminate E2]. }
  apply (A _ _ _ Ht); lia.
Qed.

(** With one slice in each direction, the boundary regions hold exactly the points whose lines leave, each once, inner and outer
    by the sign of the index in the grid file. *)
Theorem C86_regions : forall W (calc : R -> R -> res W) m g lf lb t, ystart m = 1%Z -> line_data g 1 = Some lf -> line_data g (-1) = Some lb ->
  FCITransform calc m g = Ok t ->
  let holds (l : lines) (hs : list hit) (inner : bool) := NoDup (map hpt hs) /\ (forall p, In p (map hpt hs) <-> in_domain m p /\ ~ stays m l p /\ (if inner then xt l p < 0 else 0 <= xt l p)) in
  holds lf (fwd_in t) true /\ holds lf (fwd_out t) false /\ holds lb (bkwd_in t) true /\ holds lb (bkwd_out t) false.
Proof.
  intros W calc m g lf lb t one Ef Eb Ht. destruct (transform_one W calc m g one lf lb Ef Eb t Ht) as (-> & -> & -> & ->). cbv zeta.
  assert (I : forall l o, NoDup (map hpt (hits_in m g l o)) /\ (forall p, In p (map hpt (hits_in m g l o)) <-> in_domain m p /\ ~ stays m l p /\ xt l p < 0)).
  { intros l o. split.
    - unfold hits_in. rewrite map_map. rewrite (map_ext _ (fun p => p)) by (intros; apply hpt_make). rewrite map_id. apply NoDup_filter, nodup_interior.
    - intros p. rewrite in_map_iff. split.
      + intros (h & <- & Hh). apply in_hits_in in Hh. destruct Hh as (q & -> & Hq & S & X). rewrite hpt_make. apply in_interior in Hq. apply stays_b_false in S. auto.
      + intros (D & S & X). exists (make_hit m g l o p). split; [apply hpt_make|]. apply in_hits_in. exists p. split; [reflexivity|]. split; [apply in_interior; exact D|]. split; [apply stays_b_false; exact S|exact X]. }
  assert (J : forall l o, NoDup (map hpt (hits_out m g l o)) /\ (forall p, In p (map hpt (hits_out m g l o)) <-> in_domain m p /\ ~ stays m l p /\ 0 <= xt l p)).
  { intros l o. split.
    - unfold hits_out. rewrite map_map. rewrite (map_ext _ (fun p => p)) by (intros; apply hpt_make). rewrite map_id. apply NoDup_filter, nodup_interior.
    - intros p. rewrite in_map_iff. split.
      + intros (h & <- & Hh). apply in_hits_out in Hh. destruct Hh as (q & -> & Hq & S & X). rewrite hpt_make. apply in_interior in Hq. apply stays_b_false in S. repeat split; auto. lra.
      + intros (D & S & X). exists (make_hit m g l o p). split; [apply hpt_make|]. apply in_hits_out. exists p. split; [reflexivity|]. split; [apply in_interior; exact D|]. split; [apply stays_b_false; exact S|lra]. }
  split; [apply I|]. split; [apply J|]. split; [apply I|apply J].
Qed.

(** parallel_dirichlet with one slice in each direction: where the line leaves, the average of the point and of the new point of the
    slice is the value asked for, at the place where the line hits the boundary; all other points are as they were. *)
Theorem C86_dirichlet : forall W (calc : R -> R -> res W) (point : plane -> W -> res R) m g f v, fits m -> ystart m = 1%Z -> interpolable calc point m g f ->
  (forall p, in_domain m p -> dyg g p <> 0) ->
  exists t st st', FCITransform calc m g = Ok t /\ calcParallelSlices point m t f = Ok st /\ applyParallelBoundary m Dirichlet v (dyg g) t st = Ok st' /\ base st' = f /\
    forall o l p, o = 1%Z \/ o = (-1)%Z -> line_data g o = Some l -> in_domain m p ->
      (stays m l p -> exists u, slice st' o (image o p) = Some u /\ interpolated calc point f l o p u) /\
      (~ stays m l p -> exists u sx sy sz, slice st' o (image o p) = Some u /\ foot m g l o p sx sy sz /\ (f p + u) / 2 = value_at v p sx sy sz).
Proof.
  intros W calc point m g f v F one H Hdy. destruct (transform_exists W calc point m g f F H) as (t & st & Et & Es & B & S).
  destruct (H 1%Z ltac:(lia)) as (lf & Ef & _). destruct (H (-1)%Z ltac:(lia)) as (lb & Eb & _).
  destruct (conditions W calc m g one lf lb Ef Eb Dirichlet v (dyg g) t st Et) as (st' & Ea & B' & C).
  { intros o p Ho Hp X. unfold next_value. rewrite hpt_make. destruct p as [[x y] z]. eexists. reflexivity. }
  { intros Hn. discriminate Hn. }
  exists t, st, st'. split; [exact Et|]. split; [exact Es|]. split; [exact Ea|]. split; [congruence|]. intros o l p Ho El Hp.
  assert (l = line_of lf lb o). { unfold line_of. destruct Ho as [-> | ->]; cbn [Z.eqb Pos.eqb]; congruence. } subst l.
  destruct (C o p Ho (proj2 (in_interior m p) Hp)) as (C1 & C2). split.
  - intros St. rewrite (C1 St). apply (S o (line_of lf lb o) p ltac:(lia) El Hp). exact St.
  - intros N. destruct (C2 N) as (r & Er & Ev). set (h := make_hit m g (line_of lf lb o) o p) in *. exists r, (s_x h), (s_y h), (s_z h).
    split; [exact Ev|]. split; [apply foot_make; exact Hp|].
    unfold next_value in Er. replace (hpt h) with p in Er by (symmetry; apply hpt_make). destruct p as [[x y] z] eqn:Ep. injection Er as <-. rewrite B.
    replace (hlength h) with (0.5 * dyg g (x, y, z)) by (symmetry; apply hlength_make).
    replace 0.5 with (1 / 2) by lra.
    replace (getValue_hit v h) with (value_at v (x, y, z) (s_x h) (s_y h) (s_z h)) by (destruct v; reflexivity).
    field. apply Hdy. exact Hp.
Qed.
(** parallel_neumann: the difference quotient in the direction of increasing y is the value asked for. *)
Theorem C86_neumann : forall W (calc : R -> R -> res W) (point : plane -> W -> res R) m g f v, fits m -> ystart m = 1%Z -> interpolable calc point m g f ->
  (forall p, in_domain m p -> dyg g p <> 0) ->
  exists t st st', FCITransform calc m g = Ok t /\ calcParallelSlices point m t f = Ok st /\ applyParallelBoundary m Neumann v (dyg g) t st = Ok st' /\ base st' = f /\
    forall o l x y z, o = 1%Z \/ o = (-1)%Z -> line_data g o = Some l -> in_domain m (x, y, z) ->
      (stays m l (x, y, z) -> exists u, slice st' o (x, (y + o)%Z, z) = Some u /\ interpolated calc point f l o (x, y, z) u) /\
      (~ stays m l (x, y, z) -> exists u, slice st' o (x, (y + o)%Z, z) = Some u /\ IZR o * (u - f (x, y, z)) / dyg g (x, y, z) = value_at v (x, y, z) (IZR x) (IZR y) (IZR z)).
Proof.
  intros W calc point m g f v F one H Hdy. destruct (transform_exists W calc point m g f F H) as (t & st & Et & Es & B & S).
  destruct (H 1%Z ltac:(lia)) as (lf & Ef & _). destruct (H (-1)%Z ltac:(lia)) as (lb & Eb & _).
  destruct (conditions W calc m g one lf lb Ef Eb Neumann v (dyg g) t st Et) as (st' & Ea & B' & C).
  { intros o p Ho Hp X. unfold next_value. rewrite hpt_make. destruct p as [[x y] z]. eexists. reflexivity. }
  { intros Hn. discriminate Hn. }
  exists t, st, st'. split; [exact Et|]. split; [exact Es|]. split; [exact Ea|]. split; [congruence|]. intros o l x y z Ho El Hp.
  assert (l = line_of lf lb o). { unfold line_of. destruct Ho as [-> | ->]; cbn [Z.eqb Pos.eqb]; congruence. } subst l.
  destruct (C o (x, y, z) Ho (proj2 (in_interior m (x, y, z)) Hp)) as (C1 & C2). cbn [image] in C1, C2. split.
  - intros St. rewrite (C1 St). apply (S o (line_of lf lb o) (x, y, z) ltac:(lia) El Hp). exact St.
  - intros N. destruct (C2 N) as (r & Er & Ev). exists r. split; [exact Ev|].
    unfold next_value in Er. rewrite hpt_make in Er. injection Er as <-. rewrite B.
    replace (getValue_index v (x, y, z)) with (value_at v (x, y, z) (IZR x) (IZR y) (IZR z)) by (destruct v; reflexivity).
    assert (IZR o * IZR o = 1) by (destruct Ho as [-> | ->]; lra).
    replace (f (x, y, z) + IZR o * value_at v (x, y, z) (IZR x) (IZR y) (IZR z) * dyg g (x, y, z) - f (x, y, z)) with (IZR o * value_at v (x, y, z) (IZR x) (IZR y) (IZR z) * dyg g (x, y, z)) by lra.
    replace (IZR o * (IZR o * value_at v (x, y, z) (IZR x) (IZR y) (IZR z) * dyg g (x, y, z)) / dyg g (x, y, z)) with ((IZR o * IZR o) * value_at v (x, y, z) (IZR x) (IZR y) (IZR z)); [rewrite H0; lra|field; apply Hdy; exact Hp].
Qed.
(** parallel_dirichlet_O3, if no line leaves in both directions: the parabola through the value on the other side, the point and
    the new value has the value asked for where the line hits the boundary. *)
Theorem C86_dirichlet_o3 : forall W (calc : R -> R -> res W) (point : plane -> W -> res R) m g f v, fits m -> ystart m = 1%Z -> interpolable calc point m g f ->
  (forall p, in_domain m p -> dyg g p <> 0) ->
  (forall lf lb p, line_data g 1 = Some lf -> line_data g (-1) = Some lb -> in_domain m p -> stays m lf p \/ stays m lb p) ->
  exists t st st', FCITransform calc m g = Ok t /\ calcParallelSlices point m t f = Ok st /\ applyParallelBoundary m Dirichlet_O3 v (dyg g) t st = Ok st' /\ base st' = f /\
    forall o l p, o = 1%Z \/ o = (-1)%Z -> line_data g o = Some l -> in_domain m p ->
      (stays m l p -> exists u, slice st' o (image o p) = Some u /\ interpolated calc point f l o p u) /\
      (~ stays m l p -> exists before u sx sy sz, slice st' (- o) (image (- o) p) = Some before /\ slice st' o (image o p) = Some u /\ foot m g l o p sx sy sz /\
         forall a b c, quadratic a b c (- dyg g p) = before -> quadratic a b c 0 = f p -> quadratic a b c (dyg g p) = u -> quadratic a b c (dyg g p / 2) = value_at v p sx sy sz).
Proof.
  intros W calc point m g f v F one H Hdy Hone. destruct (transform_exists W calc point m g f F H) as (t & st & Et & Es & B & S).
  destruct (H 1%Z ltac:(lia)) as (lf & Ef & _). destruct (H (-1)%Z ltac:(lia)) as (lb & Eb & _).
  assert (LD : forall o, o = 1%Z \/ o = (-1)%Z -> line_data g o = Some (line_of lf lb o)). { intros o [-> | ->]; assumption. }
  assert (Opp : forall o p, o = 1%Z \/ o = (-1)%Z -> in_domain m p -> ~ stays m (line_of lf lb o) p -> stays m (line_of lf lb (- o)) p).
  { intros o p Ho Hp N. destruct (Hone lf lb p Ef Eb Hp) as [X|X]; destruct Ho as [-> | ->]; cbn [line_of Z.eqb Pos.eqb Z.opp] in *; unfold line_of in *; cbn [Z.eqb Pos.eqb Z.opp] in *; tauto. }
  destruct (conditions W calc m g one lf lb Ef Eb Dirichlet_O3 v (dyg g) t st Et) as (st' & Ea & B' & C).
  { intros o p Ho Hp X. unfold next_value. rewrite hpt_make. apply in_interior in Hp. apply stays_b_false in X.
    destruct (S (- o)%Z _ p ltac:(lia) (LD (- o)%Z ltac:(lia)) Hp) as (S1 & _). destruct (S1 (Opp o p Ho Hp X)) as (u & Eu & _). destruct p as [[x y] z]. cbn [image] in Eu.
    replace (y - o)%Z with (y + - o)%Z by lia. rewrite Eu. cbn [ofopt bind]. eexists. reflexivity. }
  { intros _ o p Ho Hp X. apply stays_b_spec. apply Opp; [exact Ho|apply in_interior; exact Hp|apply stays_b_false; exact X]. }
  exists t, st, st'. split; [exact Et|]. split; [exact Es|]. split; [exact Ea|]. split; [congruence|]. intros o l p Ho El Hp.
  assert (l = line_of lf lb o). { rewrite LD in El by exact Ho. congruence. } subst l.
  destruct (C o p Ho (proj2 (in_interior m p) Hp)) as (C1 & C2). split.
  - intros St. rewrite (C1 St). apply (S o (line_of lf lb o) p ltac:(lia) El Hp). exact St.
  - intros N. destruct (C2 N) as (r & Er & Ev). set (h := make_hit m g (line_of lf lb o) o p) in *.
    pose proof (Opp o p Ho Hp N) as St. destruct (S (- o)%Z _ p ltac:(lia) (LD (- o)%Z ltac:(lia)) Hp) as (S1 & _). destruct (S1 St) as (u & Eu & _).
    exists u, r, (s_x h), (s_y h), (s_z h). split.
    { destruct (C (- o)%Z p ltac:(lia) (proj2 (in_interior m p) Hp)) as (C1' & _). rewrite (C1' St). exact Eu. }
    split; [exact Ev|]. split; [apply foot_make; exact Hp|].
    unfold next_value in Er. replace (hpt h) with p in Er by (symmetry; apply hpt_make). pose proof (Hdy p Hp) as D. destruct p as [[x y] z] eqn:Ep. cbn [image] in Eu.
    replace (y - o)%Z with (y + - o)%Z in Er by lia. rewrite Eu in Er. cbn [ofopt bind] in Er. injection Er as <-. rewrite B.
    replace (hlength h) with (0.5 * dyg g (x, y, z)) by (symmetry; apply hlength_make).
    replace 0.5 with (1 / 2) by lra.
    replace (getValue_hit v h) with (value_at v (x, y, z) (s_x h) (s_y h) (s_z h)) by (destruct v; reflexivity).
    generalize (value_at v (x, y, z) (s_x h) (s_y h) (s_z h)) (f (x, y, z)). revert D. generalize (dyg g (x, y, z)). clear. intros d D val fp a b c Q1 Q2 Q3. unfold quadratic in *.
    subst u. rewrite <- Q2 in Q3.
    assert (D3 : d * d * d <> 0) by (repeat apply Rmult_integral_contrapositive_currified; exact D).
    match type of Q3 with _ = ?n / ?q => assert (X : (a + b * d + c * d * d) * q = n) by (rewrite Q3; field; intros Y; apply D3; lra) end.
    apply (Rmult_eq_reg_l (2 * d * d * d)); [|assert (0 < d * d) by nra; nra]. lra.
Qed.

(** *** What does not hold *)
(** A mesh with two points in x, one in y and z; lines with the same end for all points. *)
Definition small (ny : Z) (ys : Z) : fmesh := mkFmesh (Mesh 4 ny 1 1 2) ys ys.
Definition all_end (x : R) : lines := mkLines (fun _ => x) (fun _ => 0) (fun _ => 0) (fun _ => 0).
Definition small_grid (ends : Z -> R) : grid := mkGrid (fun _ => 0) (fun _ => 0) (fun _ => 1) (fun o => Some (all_end (ends o))).
Lemma small_splines : forall ny ys ends f, interpolable (hermite_weights (lm (small ny ys))) (spline_point (lm (small ny ys))) (small ny ys) (small_grid ends) f.
Proof. intros ny ys ends f. apply C86_splines; [unfold has_guards; cbn; lia|]. intros o _. eexists. reflexivity. Qed.
Lemma small_hits : forall ny ys ends o (x : R), x = -1 \/ x = 1 \/ x = 5 ->
  hits_in (small ny ys) (small_grid ends) (all_end x) o = (if Rlt_dec x 0 then map (make_hit (small ny ys) (small_grid ends) (all_end x) o) (interior (small ny ys)) else []) /\
  hits_out (small ny ys) (small_grid ends) (all_end x) o = (if Rlt_dec 2 x then map (make_hit (small ny ys) (small_grid ends) (all_end x) o) (interior (small ny ys)) else []).
Proof.
  intros ny ys ends o x Hx. unfold hits_in, hits_out.
  assert (A : forall b l, (forall p : pt, b p = true) -> filter b l = l). { intros b l Hb. induction l as [|a l IH]; cbn [filter]; [reflexivity|]. rewrite Hb, IH. reflexivity. }
  assert (A' : forall b l, (forall p : pt, b p = false) -> filter b l = []). { intros b l Hb. induction l as [|a l IH]; cbn [filter]; [reflexivity|]. rewrite Hb. exact IH. }
  assert (E : forall p, stays_b (small ny ys) (all_end x) p = (if Rle_dec 1 x then true else false) && (if Rle_dec x 2 then true else false)) by reflexivity.
  assert (E2 : forall p, xt (all_end x) p = x) by reflexivity.
  split.
  - destruct (Rlt_dec x 0) as [L|L].
    + rewrite A; [reflexivity|]. intros p. unfold leaves_in. rewrite E, E2. destruct (Rle_dec 1 x), (Rle_dec x 2), (Rlt_dec x 0); try reflexivity; lra.
    + rewrite A'; [reflexivity|]. intros p. unfold leaves_in. rewrite E, E2. destruct (Rle_dec 1 x), (Rle_dec x 2), (Rlt_dec x 0); try reflexivity; lra.
  - destruct (Rlt_dec 2 x) as [L|L].
    + rewrite A; [reflexivity|]. intros p. unfold leaves_out. rewrite E, E2. destruct (Rle_dec 1 x), (Rle_dec x 2), (Rlt_dec x 0); try reflexivity; lra.
    + rewrite A'; [reflexivity|]. intros p. unfold leaves_out. rewrite E, E2. destruct (Rle_dec 1 x), (Rle_dec x 2), (Rlt_dec x 0); try reflexivity; lra.
Qed.
Lemma transform_two : forall W (calc : R -> R -> res W) m g t lf lb lf2 lb2, ystart m = 2%Z ->
  line_data g 1 = Some lf -> line_data g (-1) = Some lb -> line_data g 2 = Some lf2 -> line_data g (-2) = Some lb2 -> FCITransform calc m g = Ok t ->
  fwd_in t = hits_in m g lf 1 ++ hits_in m g lf2 2 /\ fwd_out t = hits_out m g lf 1 ++ hits_out m g lf2 2 /\
  bkwd_in t = hits_in m g lb (-1) ++ hits_in m g lb2 (-2) /\ bkwd_out t = hits_out m g lb (-1) ++ hits_out m g lb2 (-2).
Proof.
  intros W calc m g t lf lb lf2 lb2 two E1 E2 E3 E4. unfold FCITransform. rewrite two. change (Z.to_nat 2) with 2%nat. cbn [build_maps fwd_in fwd_out bkwd_in bkwd_out field_line_maps].
  unfold FCIMap. change (1 =? 0)%Z with false. change (- (1))%Z with (-1)%Z. change (1 + 1)%Z with 2%Z. change (- (2))%Z with (-2)%Z. cbn [Z.eqb].
  rewrite E1, E2, E3, E4.
  destruct (calcWeights calc _ (xt lf) _ _ _); cbn [bind]; try discriminate.
  destruct (fold_lines m g lf 1 (interior m) (fun _ => false) [] []) as (mask & -> & _). cbn [bind Z.eqb].
  destruct (calcWeights calc _ (xt lb) _ _ _); cbn [bind]; try discriminate.
  destruct (fold_lines m g lb (-1) (interior m) (fun _ => false) [] []) as (mask' & -> & _). cbn [bind app fwd_in fwd_out bkwd_in bkwd_out].
  destruct (calcWeights calc _ (xt lf2) _ _ _); cbn [bind]; try discriminate.
  destruct (fold_lines m g lf2 2 (interior m) (fun _ => false) (map (make_hit m g lf 1) (filter (leaves_in m lf) (interior m))) (map (make_hit m g lf 1) (filter (leaves_out m lf) (interior m)))) as (mask2 & -> & _). cbn [bind Z.eqb].
  destruct (calcWeights calc _ (xt lb2) _ _ _); cbn [bind]; try discriminate.
  destruct (fold_lines m g lb2 (-2) (interior m) (fun _ => false) (map (make_hit m g lb (-1)) (filter (leaves_in m lb) (interior m))) (map (make_hit m g lb (-1)) (filter (leaves_out m lb) (interior m)))) as (mask2' & -> & _). cbn [bind].
  intros H. injection H as <-. cbn [fwd_in fwd_out bkwd_in bkwd_out]. repeat split.
Qed.

(** With two slices in each direction, a condition for a line that leaves before the second plane is written into the first slice,
    over an interpolated value, and the second slice stays without a value. *)
Theorem C86_two_slices_refuted : exists m g f v t st st' p lf lf2,
  fits m /\ ystart m = 2%Z /\ interpolable (hermite_weights (lm m)) (spline_point (lm m)) m g f /\ (forall q, dyg g q <> 0) /\
  FCITransform (hermite_weights (lm m)) m g = Ok t /\ calcParallelSlices (spline_point (lm m)) m t f = Ok st /\ applyParallelBoundary m Dirichlet v (dyg g) t st = Ok st' /\
  in_domain m p /\ line_data g 1 = Some lf /\ line_data g 2 = Some lf2 /\ stays m lf p /\ ~ stays m lf2 p /\
  slice st' 1 (image 1 p) <> slice st 1 (image 1 p) /\ slice st' 2 (image 2 p) = None.
Proof.
  set (m := small 5 2). set (ends := fun o : Z => if (Z.abs o =? 2)%Z then -1 else 1). set (g := small_grid ends). set (f := fun _ : pt => 1).
  assert (F : fits m) by (unfold fits; cbn; lia).
  destruct (transform_exists _ _ (spline_point (lm m)) m g f F (small_splines 5 2 ends f)) as (t & st & Et & Es & B & S).
  assert (St : stays m (all_end 1) (1, 2, 0)%Z) by (unfold stays; cbn; lra).
  assert (N2 : ~ stays m (all_end (-1)) (1, 2, 0)%Z) by (unfold stays; cbn; lra).
  destruct (transform_two _ _ m g t (all_end 1) (all_end 1) (all_end (-1)) (all_end (-1)) eq_refl eq_refl eq_refl eq_refl eq_refl Et) as (L1 & L2 & L3 & L4).
  pose proof (small_hits 5 2 ends) as Hs. fold m g in Hs.
  rewrite (proj1 (Hs 1%Z 1 ltac:(lra))), (proj1 (Hs 2%Z (-1) ltac:(lra))) in L1.
  rewrite (proj2 (Hs 1%Z 1 ltac:(lra))), (proj2 (Hs 2%Z (-1) ltac:(lra))) in L2.
  rewrite (proj1 (Hs (-1)%Z 1 ltac:(lra))), (proj1 (Hs (-2)%Z (-1) ltac:(lra))) in L3.
  rewrite (proj2 (Hs (-1)%Z 1 ltac:(lra))), (proj2 (Hs (-2)%Z (-1) ltac:(lra))) in L4.
  destruct (Rlt_dec 1 0); [lra|]. destruct (Rlt_dec (-1) 0); [|lra]. destruct (Rlt_dec 2 1); [lra|]. destruct (Rlt_dec 2 (-1)); [lra|].
  change (interior m) with [(1, 2, 0); (2, 2, 0)]%Z in L1, L3. cbn [map app] in L1, L2, L3, L4.
  assert (D : in_domain m (1, 2, 0)%Z) by (unfold in_domain; cbn; lia).
  destruct (S 2%Z (all_end (-1)) (1, 2, 0)%Z ltac:(cbn; lia) eq_refl D) as (_ & S2).
  assert (T : forall vr, exists st', applyParallelBoundary m Dirichlet (Real vr) (dyg g) t st = Ok st' /\ slice st' 1%Z (image 1 (1, 2, 0)%Z) = Some (2 * vr - 1) /\ slice st' 2%Z (image 2 (1, 2, 0)%Z) = None).
  { intros vr. unfold applyParallelBoundary, par_boundary. rewrite L1, L2, L3, L4. eexists. split; [reflexivity|]. split.
    - cbn. rewrite B. unfold f. f_equal. replace 0.5 with (1 / 2) by lra. field.
    - exact (S2 N2). }
  destruct (T 0) as (st0 & E0 & V0 & W0). destruct (T 1) as (st1 & E1 & V1 & W1).
  assert (Hd : forall q, dyg g q <> 0) by (intros q; cbn; lra).
  destruct (Req_dec 0 0) as [_|X]; [|contradiction X; reflexivity].
  assert (Ch : slice st 1%Z (image 1 (1, 2, 0)%Z) <> Some (2 * 0 - 1) \/ slice st 1%Z (image 1 (1, 2, 0)%Z) <> Some (2 * 1 - 1)).
  { destruct (slice st 1%Z (image 1 (1, 2, 0)%Z)) as [u|]; [|left; discriminate]. destruct (Req_dec u (-1)) as [->|Y].
    - right. intros X. injection X as X. lra.
    - left. intros X. injection X as X. apply Y. lra. }
  destruct Ch as [Ch|Ch].
  - exists m, g, f, (Real 0), t, st, st0, (1, 2, 0)%Z, (all_end 1), (all_end (-1)). repeat split; try assumption; try apply F; try apply small_splines; try reflexivity; try apply St; try apply D.
    rewrite V0. intros X. apply Ch. symmetry. exact X.
  - exists m, g, f, (Real 1), t, st, st1, (1, 2, 0)%Z, (all_end 1), (all_end (-1)). repeat split; try assumption; try apply F; try apply small_splines; try reflexivity; try apply St; try apply D.
    rewrite V1. intros X. apply Ch. symmetry. exact X.
Qed.

(** If a line leaves in both directions, parallel_dirichlet_O3 reads a value of the other slice that was never set. *)
Theorem C86_o3_short_line_refuted : exists m g f t st,
  fits m /\ ystart m = 1%Z /\ interpolable (hermite_weights (lm m)) (spline_point (lm m)) m g f /\ (forall q, dyg g q <> 0) /\
  FCITransform (hermite_weights (lm m)) m g = Ok t /\ calcParallelSlices (spline_point (lm m)) m t f = Ok st /\
  applyParallelBoundary m Dirichlet_O3 (Real 0) (dyg g) t st = UB.
Proof.
  set (m := small 3 1). set (ends := fun o : Z => -1). set (g := small_grid ends). set (f := fun _ : pt => 1).
  assert (F : fits m) by (unfold fits; cbn; lia).
  destruct (transform_exists _ _ (spline_point (lm m)) m g f F (small_splines 3 1 ends f)) as (t & st & Et & Es & B & S).
  destruct (transform_one _ _ m g eq_refl (all_end (-1)) (all_end (-1)) eq_refl eq_refl t Et) as (L1 & L2 & L3 & L4).
  pose proof (small_hits 3 1 ends) as Hs. fold m g in Hs. rewrite (proj1 (Hs 1%Z (-1) ltac:(lra))) in L1. destruct (Rlt_dec (-1) 0); [|lra].
  change (interior m) with [(1, 1, 0); (2, 1, 0)]%Z in L1. cbn [map] in L1.
  assert (D : in_domain m (1, 1, 0)%Z) by (unfold in_domain; cbn; lia).
  assert (N : ~ stays m (all_end (-1)) (1, 1, 0)%Z) by (unfold stays; cbn; lra).
  destruct (S (-1)%Z (all_end (-1)) (1, 1, 0)%Z ltac:(cbn; lia) eq_refl D) as (_ & S2). specialize (S2 N).
  exists m, g, f, t, st. repeat split; try assumption; try apply F; try apply small_splines; try (intros q; cbn; lra).
  unfold applyParallelBoundary, par_boundary. rewrite L1. cbn [apply_all]. unfold apply at 1. change (ystart m <? 1)%Z with false. cbv iota. cbn [bdir bpoints apply_points].
  unfold next_value at 1. rewrite hpt_make. cbn [image] in S2. change (-1 * 1)%Z with (-1)%Z. change (- (1))%Z with (-1)%Z. change (1 - 1)%Z with (1 + -1)%Z. rewrite S2. reflexivity.
Qed.

(** parallel_dirichlet_interp does not even keep a constant field constant. *)
Theorem C86_interp_refuted : exists m g t st st' p,
  ystart m = 1%Z /\ (forall q, dyg g q <> 0) /\ FCITransform (hermite_weights (lm m)) m g = Ok t /\
  base st = (fun _ => 1) /\ (forall o q, slice st o q = Some 1) /\
  applyParallelBoundary m Dirichlet_interp (Real 1) (dyg g) t st = Ok st' /\ in_domain m p /\ slice st' 1 (image 1 p) <> Some 1.
Proof.
  set (m := small 3 1). set (ends := fun o : Z => if (o =? 1)%Z then -1 else 1). set (g := small_grid ends). set (f := fun _ : pt => 1).
  assert (F : fits m) by (unfold fits; cbn; lia).
  destruct (transform_exists _ _ (spline_point (lm m)) m g f F (small_splines 3 1 ends f)) as (t & _ & Et & _).
  destruct (transform_one _ _ m g eq_refl (all_end (-1)) (all_end 1) eq_refl eq_refl t Et) as (L1 & L2 & L3 & L4).
  pose proof (small_hits 3 1 ends) as Hs. fold m g in Hs.
  rewrite (proj1 (Hs 1%Z (-1) ltac:(lra))) in L1. rewrite (proj2 (Hs 1%Z (-1) ltac:(lra))) in L2. rewrite (proj1 (Hs (-1)%Z 1 ltac:(lra))) in L3. rewrite (proj2 (Hs (-1)%Z 1 ltac:(lra))) in L4.
  destruct (Rlt_dec (-1) 0); [|lra]. destruct (Rlt_dec 1 0); [lra|]. destruct (Rlt_dec 2 1); [lra|]. destruct (Rlt_dec 2 (-1)); [lra|].
  change (interior m) with [(1, 1, 0); (2, 1, 0)]%Z in L1. cbn [map] in L1.
  exists m, g, t, (mkField f (fun _ _ => Some 1)). eexists. exists (1, 1, 0)%Z.
  split; [reflexivity|]. split; [intros q; cbn; lra|]. split; [exact Et|]. split; [reflexivity|]. split; [reflexivity|].
  unfold applyParallelBoundary, par_boundary. rewrite L1, L2, L3, L4. split; [reflexivity|]. split; [unfold in_domain; cbn; lia|].
  cbn. intros X. injection X as X. unfold f in X. replace 0.5 with (1 / 2) in X by lra. replace (2 * (1 / 2 * 1 * 1) / (1 + 1 / 2 * 1 * 1)) with (2 / 3) in X by field.
  replace ((1 / 2 * 1 * 1 - 1) / (1 / 2 * 1 * 1)) with (-1) in X by field. replace (1 / (1 / 2 * 1 * 1)) with 2 in X by field. replace (2 / (1 / 2 * 1 * 1)) with 4 in X by field. lra.
Qed.

(** Two regions have the same name: a condition for the forward boundary, by name, reaches the inner part of it only. *)
Theorem C86_region_name_refuted : exists m g f v t st st' p lf,
  fits m /\ ystart m = 1%Z /\ interpolable (hermite_weights (lm m)) (spline_point (lm m)) m g f /\ (forall q, dyg g q <> 0) /\
  FCITransform (hermite_weights (lm m)) m g = Ok t /\ calcParallelSlices (spline_point (lm m)) m t f = Ok st /\
  applyParallelBoundary_region m FCI_forward Dirichlet v (dyg g) t st = Ok st' /\
  in_domain m p /\ line_data g 1 = Some lf /\ ~ stays m lf p /\ slice st' 1 (image 1 p) = None.
Proof.
  set (m := small 3 1). set (ends := fun o : Z => 5). set (g := small_grid ends). set (f := fun _ : pt => 1).
  assert (F : fits m) by (unfold fits; cbn; lia).
  destruct (transform_exists _ _ (spline_point (lm m)) m g f F (small_splines 3 1 ends f)) as (t & st & Et & Es & B & S).
  destruct (transform_one _ _ m g eq_refl (all_end 5) (all_end 5) eq_refl eq_refl t Et) as (L1 & _).
  pose proof (small_hits 3 1 ends) as Hs. fold m g in Hs. rewrite (proj1 (Hs 1%Z 5 ltac:(lra))) in L1. destruct (Rlt_dec 5 0); [lra|].
  assert (D : in_domain m (1, 1, 0)%Z) by (unfold in_domain; cbn; lia).
  assert (N : ~ stays m (all_end 5) (1, 1, 0)%Z) by (unfold stays; cbn; lra).
  destruct (S 1%Z (all_end 5) (1, 1, 0)%Z ltac:(cbn; lia) eq_refl D) as (_ & S2).
  exists m, g, f, (Real 0), t, st, st, (1, 1, 0)%Z, (all_end 5). repeat split; try assumption; try apply F; try apply small_splines; try (intros q; cbn; lra); try apply D.
  - unfold applyParallelBoundary_region. cbn [find par_boundary blabel label_eqb]. rewrite L1. reflexivity.
  - exact (S2 N).
Qed.

(** The hypotheses are met: 4 points in x, 3 in y, 4 in z; the lines from the last column leave forward, those from the first leave
    backward, the others end between columns. *)
Definition case_mesh : fmesh := mkFmesh (Mesh 6 5 4 1 4) 1 3.
Definition case_lines (o : Z) : lines :=
  mkLines (fun p => let '(x, _, _) := p in if (o =? 1)%Z then (if (x =? 4)%Z then 6 else IZR x + 1 / 2) else (if (x =? 1)%Z then -1 else IZR x - 1 / 2))
          (fun p => let '(_, _, z) := p in IZR z + IZR o / 3) (fun p => let '(x, _, _) := p in IZR x + IZR o) (fun p => let '(_, _, z) := p in IZR z + 1).
Definition case_grid : grid := mkGrid (fun p => let '(x, _, _) := p in IZR x) (fun p => let '(_, _, z) := p in IZR z) (fun _ => 1 / 10) (fun o => Some (case_lines o)).
Example C86_case : forall f, fits case_mesh /\ ystart case_mesh = 1%Z /\ interpolable (hermite_weights (lm case_mesh)) (spline_point (lm case_mesh)) case_mesh case_grid f /\
  (forall p, in_domain case_mesh p -> dyg case_grid p <> 0) /\
  (forall lf lb p, line_data case_grid 1 = Some lf -> line_data case_grid (-1) = Some lb -> in_domain case_mesh p -> stays case_mesh lf p \/ stays case_mesh lb p) /\
  (exists l p, line_data case_grid 1 = Some l /\ in_domain case_mesh p /\ ~ stays case_mesh l p) /\
  (exists l p, line_data case_grid (-1) = Some l /\ in_domain case_mesh p /\ ~ stays case_mesh l p).
Proof.
  intros f. split; [unfold fits; cbn; lia|]. split; [reflexivity|]. split; [apply C86_splines; [unfold has_guards; cbn; lia|]; intros o _; eexists; reflexivity|].
  split; [intros p _; cbn; lra|]. split; [|split].
  - intros lf lb [[x y] z] E1 E2 (Hx & _). cbn [lm case_mesh xstart xend] in Hx. injection E1 as <-. injection E2 as <-. unfold stays. cbn [case_lines xt xstart xend lm case_mesh Z.eqb Pos.eqb].
    destruct (Z.eqb_spec x 4) as [->|H4]; [right; cbn [Z.eqb Pos.eqb]; lra|left].
    assert (1 <= IZR x <= 3) by (split; apply IZR_le; lia). lra.
  - exists (case_lines 1), (4, 2, 1)%Z. split; [reflexivity|]. split; [unfold in_domain; cbn; lia|]. unfold stays. cbn. lra.
  - exists (case_lines (-1)), (1, 2, 1)%Z. split; [reflexivity|]. split; [unfold in_domain; cbn; lia|]. unfold stays. cbn. lra.
Qed.

Print Assumptions C86_slices.
Print Assumptions C86_splines.
Print Assumptions C86_missing.
Print Assumptions C86_regions.
Print Assumptions C86_dirichlet.
Print Assumptions C86_neumann.
Print Assumptions C86_dirichlet_o3.
Print Assumptions C86_two_slices_refuted.
Print Assumptions C86_o3_short_line_refuted.
Print Assumptions C86_interp_refuted.
Print Assumptions C86_region_name_refuted.
