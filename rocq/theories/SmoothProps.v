(** Linear smoothing (C98). *)
From Coq Require Import Arith Bool ZArith Reals Lia Lra.
From Verif Require Import Base LaplaceModel MaskModel MaskSpec MaskProofs SmoothModel SmoothSpec.
Local Open Scope R_scope.

Lemma comm_owned : forall l perX F h p ix k, (g l <= mx l)%nat ->
  (forall p ix k, cell l p ix -> (p = 0%nat \/ (g l <= ix)%nat) -> (p = np l - 1 \/ ix < g l + mx l)%nat -> F p ix k = h (p * mx l + ix)%nat k) ->
  cell l p ix -> perX = false \/ in_domain l p ix -> communicate l perX F p ix k = h (p * mx l + ix)%nat k.
Proof.
  intros l perX F h p ix k HG E (Hp & Hi) D. unfold communicate, in_domain in *.
  destruct (Nat.ltb_spec ix (g l)) as [A|A].
  - destruct (Nat.ltb_spec 0 p) as [B|B].
    + rewrite E; [|split; lia|right; lia|right; lia]. f_equal. destruct p; [lia|]. cbn [Nat.sub]. rewrite Nat.sub_0_r. cbn [Nat.mul]. lia.
    + assert (p = 0%nat) by lia. destruct D as [->|D]; [apply E; [split; lia|left; assumption|right; lia]|]. exfalso. subst p. cbn in D. lia.
  - destruct (Nat.leb_spec (g l + mx l) ix) as [B|B]; [|apply E; [split; lia|right; lia|right; lia]].
    destruct (Nat.ltb_spec (p + 1) (np l)) as [C|C].
    + rewrite E; [|split; lia|right; lia|right; lia]. f_equal. rewrite Nat.mul_add_distr_r. lia.
    + assert (np l = p + 1)%nat by lia. destruct D as [->|D]; [apply E; [split; lia|right; lia|left; lia]|]. exfalso.
      replace (np l) with (p + 1)%nat in D. rewrite Nat.mul_add_distr_r in D. lia.
Qed.

(** Every processor holds its piece of the filtered field, guard cells included (periodic: in the domain); the values at
    the two ends of the whole line are left alone. *)
Lemma line_global : forall l per f fu fd F U D, (1 <= g l <= mx l)%nat ->
  (forall p ix k, cell l p ix -> f p ix k = spread l F p ix k) -> (forall p ix k, cell l p ix -> fu p ix k = spread l U p ix k) ->
  (forall p ix k, cell l p ix -> fd p ix k = spread l D p ix k) ->
  forall p ix k, cell l p ix -> per = false \/ in_domain l p ix ->
  smooth_y l per f fu fd p ix k = filter121 (points l) (fun i => F i k) (fun i => U i k) (fun i => D i k) (p * mx l + ix).
Proof.
  intros l per f fu fd F U D Hg Hf Hu Hd p ix k HC HD. unfold smooth_y.
  apply (comm_owned l per _ (fun i k => filter121 (points l) (fun i => F i k) (fun i => U i k) (fun i => D i k) i) p ix k); [lia| |exact HC|exact HD].
  clear p ix k HC HD. intros p ix k (Hp & Hi) O1 O2. unfold filter121, points. unfold LocalNx.
  assert (B1 : (ix =? 0)%nat = (p * mx l + ix =? 0)%nat).
  { destruct (Nat.eqb_spec ix 0), (Nat.eqb_spec (p * mx l + ix) 0); try reflexivity; exfalso; destruct O1; subst; cbn in *; lia. }
  assert (B2 : (ix =? mx l + 2 * g l - 1)%nat = (p * mx l + ix =? np l * mx l + 2 * g l - 1)%nat).
  { assert (J : (p = np l - 1 -> p * mx l + mx l = np l * mx l)%nat) by (intros ->; destruct (np l); [lia|cbn [Nat.sub]; rewrite Nat.sub_0_r; cbn [Nat.mul]; lia]).
    destruct (Nat.eqb_spec ix (mx l + 2 * g l - 1)) as [A|A], (Nat.eqb_spec (p * mx l + ix) (np l * mx l + 2 * g l - 1)) as [B|B]; try reflexivity; exfalso.
    - destruct O2 as [O2|O2]; [specialize (J O2)|]; lia.
    - assert (p = np l - 1)%nat by nia. specialize (J H). lia. }
  rewrite <- B1, <- B2. destruct (Nat.eqb_spec ix 0) as [Z|Z]; [cbn [orb]; apply Hf; split; lia|].
  destruct (Nat.eqb_spec ix (mx l + 2 * g l - 1)) as [Z'|Z']; [cbn [orb]; apply Hf; split; lia|]. cbn [orb].
  rewrite Hf by (split; lia). rewrite Hd by (split; lia). rewrite Hu by (split; lia). unfold spread.
  replace (p * mx l + (ix - 1))%nat with (p * mx l + ix - 1)%nat by lia. replace (p * mx l + (ix + 1))%nat with (p * mx l + ix + 1)%nat by lia. lra.
Qed.
Theorem C98_smooth_x : forall l per f F, (1 <= g l <= mx l)%nat -> (forall p ix k, cell l p ix -> f p ix k = spread l F p ix k) ->
  forall p ix k, cell l p ix -> per = false \/ in_domain l p ix ->
  smooth_x l per f p ix k = filter121 (points l) (fun i => F i k) (fun i => F i k) (fun i => F i k) (p * mx l + ix).
Proof. intros l per f F Hg Hf p ix k HC HD. exact (line_global l per f f f F F F Hg Hf Hf Hf p ix k HC HD). Qed.
Theorem C98_smooth_y : forall l per f yup ydown F U D, (1 <= g l <= mx l)%nat ->
  (forall p ix k, cell l p ix -> f p ix k = spread l F p ix k) -> (forall p ix k, cell l p ix -> yup p ix k = spread l U p ix k) ->
  (forall p ix k, cell l p ix -> ydown p ix k = spread l D p ix k) ->
  forall p ix k, cell l p ix -> per = false \/ in_domain l p ix ->
  smooth_y l per f yup ydown p ix k = filter121 (points l) (fun i => F i k) (fun i => U i k) (fun i => D i k) (p * mx l + ix).
Proof. exact line_global. Qed.

(** The filter: within the range of the three values; waves are multiplied by cos^2 (half the phase step), so none
    grows and the shortest one is removed; in a closed line the sum is kept. *)
Theorem C98_filter : forall n F,
  (forall i a b, (0 < i < n - 1)%nat -> a <= F (i - 1)%nat <= b -> a <= F i <= b -> a <= F (i + 1)%nat <= b -> a <= filter121 n F F F i <= b) /\
  (forall i q phi, (0 < i < n - 1)%nat -> let w := fun i => cos (q * INR i + phi) in filter121 n w w w i = cos (q / 2) ^ 2 * w i) /\
  (forall i phi, (0 < i < n - 1)%nat -> let w := fun i => cos (PI * INR i + phi) in filter121 n w w w i = 0) /\
  (forall a m, (0 < a)%nat -> (a + m < n)%nat -> F (a - 1)%nat = F (a + m - 1)%nat -> F (a + m)%nat = F a ->
    total m (fun j => filter121 n F F F (a + j)) = total m (fun j => F (a + j)%nat)).
Proof.
  intros n F.
  assert (Q : forall G i, (0 < i < n - 1)%nat -> filter121 n G G G i = (G (i - 1)%nat + 2 * G i + G (i + 1)%nat) / 4).
  { intros G i Hi. unfold filter121. destruct (Nat.eqb_spec i 0); [lia|]. destruct (Nat.eqb_spec i (n - 1)); [lia|]. reflexivity. }
  assert (W : forall i q phi, (0 < i < n - 1)%nat -> let w := fun i => cos (q * INR i + phi) in filter121 n w w w i = cos (q / 2) ^ 2 * w i).
  { intros i q phi Hi w. rewrite Q by exact Hi. unfold w. rewrite minus_INR, plus_INR by lia. change (INR 1) with 1.
    replace (q * (INR i - 1) + phi) with ((q * INR i + phi) - q) by ring. replace (q * (INR i + 1) + phi) with ((q * INR i + phi) + q) by ring.
    set (t := q * INR i + phi). clearbody t. rewrite cos_minus, cos_plus. assert (E : cos q = 2 * cos (q / 2) * cos (q / 2) - 1) by (rewrite <- cos_2a_cos; f_equal; field).
    rewrite E. field. }
  split; [|split; [exact W|split]].
  - intros i a b Hi A B C. rewrite Q by exact Hi. lra.
  - intros i phi Hi w. unfold w. rewrite (W i PI phi Hi). rewrite cos_PI2. ring.
  - intros a m Ha Hm E1 E2.
    assert (T : forall k, (k <= m)%nat -> total k (fun j => filter121 n F F F (a + j)) =
      total k (fun j => F (a + j)%nat) + (F (a - 1)%nat - F (a + k - 1)%nat + F (a + k)%nat - F a) / 4).
    { induction k as [|k IH]; intros Hk; cbn [total].
      - rewrite Nat.add_0_r. lra.
      - rewrite IH by lia. rewrite Q by lia. replace (a + S k - 1)%nat with (a + k)%nat by lia. replace (a + k + 1)%nat with (a + S k)%nat by lia. lra. }
    rewrite T by lia. rewrite E1, E2. lra.
Qed.

(** smoothXY: half the value and half the average over the neighbours of a pass of the same kind; the result stays within
    the range of the values used and waves are multiplied by a factor between 7/16 and 1. *)
Theorem C98_smoothXY : forall nx ny f x y v, smoothXY nx ny f x y = Some v -> v = (f x y + around (pass f) x y) / 2.
Proof.
  intros nx ny f x y v H. unfold smoothXY in H.
  destruct (Nat.leb_spec 2 x) as [A|A]; [|discriminate]. destruct (Nat.ltb_spec x (nx - 2)) as [B|B]; [|discriminate].
  destruct (Nat.leb_spec 2 y) as [C|C]; [|discriminate]. destruct (Nat.ltb_spec y (ny - 2)) as [D|D]; [|discriminate]. cbn [andb] in H. injection H as <-.
  unfold pass, around. replace (x + 1 + 1)%nat with (x + 2)%nat by lia. replace (x + 1 - 1)%nat with x by lia. replace (x - 1 + 1)%nat with x by lia. replace (x - 1 - 1)%nat with (x - 2)%nat by lia.
  replace (y + 1 + 1)%nat with (y + 2)%nat by lia. replace (y + 1 - 1)%nat with y by lia. replace (y - 1 + 1)%nat with y by lia. replace (y - 1 - 1)%nat with (y - 2)%nat by lia. lra.
Qed.
Theorem C98_smoothXY_range : forall nx ny f x y v a b, smoothXY nx ny f x y = Some v ->
  (forall x' y', (x - 2 <= x' <= x + 2)%nat -> (y - 2 <= y' <= y + 2)%nat -> a <= f x' y' <= b) -> a <= v <= b.
Proof.
  intros nx ny f x y v a b H R. apply C98_smoothXY in H. subst v.
  assert (P : forall x' y', (x - 1 <= x' <= x + 1)%nat -> (y - 1 <= y' <= y + 1)%nat -> a <= pass f x' y' <= b).
  { intros x' y' Hx Hy. unfold pass, around. pose proof (R x' y' ltac:(lia) ltac:(lia)). pose proof (R (x' + 1)%nat y' ltac:(lia) ltac:(lia)).
    pose proof (R (x' - 1)%nat y' ltac:(lia) ltac:(lia)). pose proof (R x' (y' + 1)%nat ltac:(lia) ltac:(lia)). pose proof (R x' (y' - 1)%nat ltac:(lia) ltac:(lia)). lra. }
  unfold around. pose proof (R x y ltac:(lia) ltac:(lia)). pose proof (P (x + 1)%nat y ltac:(lia) ltac:(lia)).
  pose proof (P (x - 1)%nat y ltac:(lia) ltac:(lia)). pose proof (P x (y + 1)%nat ltac:(lia) ltac:(lia)). pose proof (P x (y - 1)%nat ltac:(lia) ltac:(lia)). lra.
Qed.
Theorem C98_smoothXY_waves : forall nx ny qx qy phi x y v, let w := fun x y => cos (qx * INR x + qy * INR y + phi) in
  smoothXY nx ny w x y = Some v -> exists c, 7 / 16 <= c <= 1 /\ v = c * w x y.
Proof.
  intros nx ny qx qy phi x y v w H.
  assert (XY : (2 <= x)%nat /\ (2 <= y)%nat).
  { unfold smoothXY in H. destruct (Nat.leb_spec 2 x) as [A|A]; [|discriminate]. destruct (Nat.ltb_spec x (nx - 2)) as [B|B]; [|discriminate].
    destruct (Nat.leb_spec 2 y) as [C|C]; [|discriminate]. split; assumption. }
  apply C98_smoothXY in H. subst v. set (c := (cos qx + cos qy) / 2).
  assert (K : forall x y, (1 <= x)%nat -> (1 <= y)%nat -> around w x y = c * w x y).
  { intros x' y' Hx Hy. unfold around, w, c. rewrite !minus_INR, !plus_INR by lia. change (INR 1) with 1. set (t := qx * INR x' + qy * INR y' + phi).
    replace (qx * (INR x' + 1) + qy * INR y' + phi) with (t + qx) by (unfold t; ring). replace (qx * (INR x' - 1) + qy * INR y' + phi) with (t - qx) by (unfold t; ring).
    replace (qx * INR x' + qy * (INR y' + 1) + phi) with (t + qy) by (unfold t; ring). replace (qx * INR x' + qy * (INR y' - 1) + phi) with (t - qy) by (unfold t; ring).
    clearbody t. rewrite !cos_minus, !cos_plus. field. }
  assert (Kp : around (pass w) x y = (1 + c) / 2 * around w x y).
  { unfold around at 1. unfold pass. rewrite !K by lia. rewrite <- (K x y) by lia. unfold around. field. }
  exists (1 / 2 + c / 4 + c * c / 4). split.
  - pose proof (COS_bound qx). pose proof (COS_bound qy). assert (-1 <= c <= 1) by (unfold c; lra). clearbody c.
    pose proof (pow2_ge_0 (c / 2 + 1 / 4)). pose proof (Rmult_le_pos (1 - c) (c + 2) ltac:(lra) ltac:(lra)). split; lra.
  - rewrite Kp, K by lia. field.
Qed.
(** Which cells are set: with two guard cells those of the domain and no guard cells; with one guard cell in x not the first
    of the domain either. *)
Theorem C98_smoothXY_set : forall mx my gx gy f x y,
  smoothXY (mx + 2 * gx) (my + 2 * gy) f x y <> None <-> (2 <= x)%nat /\ (x + 2 < mx + 2 * gx)%nat /\ (2 <= y)%nat /\ (y + 2 < my + 2 * gy)%nat.
Proof.
  intros. unfold smoothXY. destruct (Nat.leb_spec 2 x); cbn [andb]; [|split; [congruence|lia]].
  destruct (Nat.ltb_spec x (mx + 2 * gx - 2)); cbn [andb]; [|split; [congruence|lia]].
  destruct (Nat.leb_spec 2 y); cbn [andb]; [|split; [congruence|lia]]. destruct (Nat.ltb_spec y (my + 2 * gy - 2)); [|split; [congruence|lia]]. split; [lia|congruence].
Qed.
Theorem C98_smoothXY_refuted : forall mx my gx gy f, (0 < mx)%nat -> (0 < my)%nat ->
  (forall y, (0 < gx)%nat -> smoothXY (mx + 2 * gx) (my + 2 * gy) f 0 y = None) /\
  (forall y, gx = 1%nat -> smoothXY (mx + 2 * gx) (my + 2 * gy) f gx y = None).
Proof. intros mx my gx gy f Hx Hy. split; intros y H; [|subst gx]; unfold smoothXY; reflexivity. Qed.

(** Three processors with four cells each and two guard cells, a closed line. *)
Example C98_case : let l := Layout 3 4 2 in let F := fun i (_ : nat) => INR (i * i) in
  cell l 1 2 /\ in_domain l 1 2 /\ smooth_x l true (spread l F) 1%nat 2%nat 0%nat = 36 + 1 / 2 /\ exists v, smoothXY 6 6 (fun x y => INR (x * y)) 2 2 = Some v.
Proof.
  intros l F. assert (C : cell l 1 2) by (unfold cell, l; cbn; lia). assert (D : in_domain l 1 2) by (unfold in_domain, l; cbn; lia).
  split; [exact C|]. split; [exact D|]. split; [|eexists; reflexivity].
  rewrite (C98_smooth_x l true (spread l F) F ltac:(cbn; lia) (fun _ _ _ _ => eq_refl) 1%nat 2%nat 0%nat C (or_intror D)).
  unfold filter121, points, l, F. change ((1 * LaplaceModel.mx (Layout 3 4 2) + 2)%nat) with 6%nat. cbn [np LaplaceModel.mx g Nat.mul Nat.add Nat.sub Nat.eqb orb].
  rewrite !INR_IZR_INZ. cbn. lra.
Qed.

Print Assumptions C98_smooth_x.
Print Assumptions C98_smooth_y.
Print Assumptions C98_filter.
Print Assumptions C98_smoothXY.
Print Assumptions C98_smoothXY_range.
Print Assumptions C98_smoothXY_waves.
Print Assumptions C98_smoothXY_set.
Print Assumptions C98_smoothXY_refuted.
