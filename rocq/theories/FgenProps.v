(** Field generators (C99). *)
From Coq Require Import Arith Bool ZArith Reals Lia Lra.
From Verif Require Import Base LaplaceModel MaskModel MaskSpec MaskProofs SmoothSpec FgenModel.
Local Open Scope R_scope.

(** ** Specification: a sum over -N .. N, and a context moved along the field line by [j] turns of angle [ts]. *)
Definition sum_around (N : nat) (h : Z -> R) : R := total (2 * N + 1) (fun k => h (Z.of_nat k - Z.of_nat N)%Z).
Definition turned (j : Z) (ts zlength : R) (c : context) : context := Ctx (cx c) (cy c + IZR j * (2 * PI)) (cz c - IZR j * ts * (2 * PI) / zlength) (ct c).

Lemma total_ext : forall n f h, (forall k, (k < n)%nat -> f k = h k) -> total n f = total n h.
Proof. induction n as [|n IH]; intros f h H; cbn [total]; [reflexivity|]. rewrite (IH f h) by (intros; apply H; lia). rewrite H by lia. reflexivity. Qed.
Lemma total_first : forall n f, total (S n) f = f 0%nat + total n (fun k => f (S k)).
Proof. induction n as [|n IH]; intros f; [cbn [total]; ring|]. cbn [total] in *. rewrite IH. ring. Qed.
Lemma ball_sum_eq : forall arg c ts zl N, ball_sum arg c ts zl N (arg c) = sum_around N (fun j => arg (turned j ts zl c)).
Proof.
  intros arg c ts zl N. unfold sum_around. induction N as [|N IH].
  - cbn. unfold turned. cbn. rewrite Rplus_0_l. f_equal. destruct c; cbn. f_equal; unfold Rdiv; ring.
  - replace (2 * S N + 1)%nat with (S (S (2 * N + 1))) by lia. cbn [ball_sum]. rewrite IH. rewrite total_first. cbn [total].
    rewrite (total_ext (2 * N + 1) (fun k => arg (turned (Z.of_nat (S k) - Z.of_nat (S N)) ts zl c)) (fun k => arg (turned (Z.of_nat k - Z.of_nat N) ts zl c))) by (intros k _; f_equal; f_equal; lia).
    unfold turned at 2 4. replace (Z.of_nat 0 - Z.of_nat (S N))%Z with (- Z.of_nat (S N))%Z by lia. replace (Z.of_nat (S (2 * N + 1)) - Z.of_nat (S N))%Z with (Z.of_nat (S N)) by lia.
    rewrite opp_IZR, <- INR_IZR_INZ.
    replace (cy c + - INR (S N) * (2 * PI)) with (cy c - INR (S N) * (2 * PI)) by ring.
    replace (cz c - - INR (S N) * ts * (2 * PI) / zl) with (cz c + INR (S N) * ts * (2 * PI) / zl) by (unfold Rdiv; ring). ring.
Qed.

Lemma to_int_near : forall x n, (0 <= n)%Z -> IZR n <= x < IZR n + 1 -> to_int x = n.
Proof.
  intros x n Hn H. unfold to_int. apply IZR_le in Hn. destruct (Rle_dec 0 x) as [A|A]; [|lra]. unfold Int_part.
  rewrite <- (tech_up x (n + 1)); [lia| |]; rewrite plus_IZR; lra.
Qed.
Lemma ROUND_near : forall x n, (0 <= n)%Z -> Rabs (x - IZR n) < 1 / 2 -> ROUND x = n.
Proof.
  intros x n Hn H. apply Rabs_def2 in H. unfold ROUND. destruct (Rlt_dec 0 x) as [A|A]; [apply to_int_near; [exact Hn|lra]|].
  assert (n = 0%Z) by (apply IZR_le in Hn; apply le_IZR || idtac; assert (IZR n < 1) by lra; apply (lt_IZR n 1) in H0; apply le_IZR in Hn; lia). subst n.
  unfold to_int. destruct (Rle_dec 0 (x - 0.5)) as [B|B]; [lra|].
  unfold Int_part. rewrite <- (tech_up (- (x - 0.5)) 1) by (cbn in *; lra). reflexivity.
Qed.

(** ballooning: on closed surfaces the sum over N turns in both directions, with the angle of the cell nearest to the
    given x (the radial position is found exactly whenever x is less than half a cell from the point). *)
Theorem C99_ballooning : forall l sym p periodicY zl arg N c ix, (1 <= N)%nat -> (2 <= mx l)%nat -> (p < np l)%nat ->
  Rabs (cx c - X l sym (p * mx l + ix)) < 1 / (2 * INR (np l * mx l)) ->
  ballooning l sym p periodicY zl arg N c = Some (match periodicY (Z.of_nat ix) with
    | Some ts => sum_around N (fun j => arg (turned j ts zl c))
    | None => 0 end).
Proof.
  intros l sym p per zl arg N c ix HN HM Hp H. unfold ballooning. destruct (Nat.ltb_spec N 1) as [A|_]; [lia|]. cbv zeta.
  replace (g l + mx l - 1 - g l)%nat with (mx l - 1)%nat by lia. destruct (Nat.eqb_spec (mx l - 1) 0) as [A|_]; [lia|].
  set (M := INR (np l * mx l)) in *. assert (P : 0 < M) by (unfold M; apply lt_0_INR; nia).
  assert (G : forall j, GlobalX l sym p j = GlobalX l sym p 0 + INR j / M).
  { intros j. rewrite !GlobalX_eq. unfold X, pos, pos_asym. fold M. rewrite !plus_INR. destruct sym; cbn [INR]; field; lra. }
  assert (Q : 0 < INR (mx l - 1)) by (apply lt_0_INR; lia).
  rewrite (G (g l + mx l - 1)%nat), (G (g l)). replace (g l + mx l - 1)%nat with (g l + (mx l - 1))%nat by lia. rewrite plus_INR.
  replace ((GlobalX l sym p 0 + (INR (g l) + INR (mx l - 1)) / M - (GlobalX l sym p 0 + INR (g l) / M)) / INR (mx l - 1)) with (1 / M) by (field; lra).
  rewrite (ROUND_near _ (Z.of_nat ix)); [|lia|].
  - destruct (per (Z.of_nat ix)) as [ts|]; [|reflexivity]. rewrite ball_sum_eq. reflexivity.
  - rewrite <- GlobalX_eq, (G ix) in H. rewrite <- INR_IZR_INZ.
    replace ((cx c - GlobalX l sym p 0) / (1 / M) - INR ix) with ((cx c - (GlobalX l sym p 0 + INR ix / M)) * M) by (field; lra).
    rewrite Rabs_mult, (Rabs_pos_eq M) by lra. apply Rlt_le_trans with (1 / (2 * M) * M); [apply Rmult_lt_compat_r; assumption|]. apply Req_le. field. lra.
Qed.
(** One turn along the field changes it by the two terms at the ends of the sum only: with an argument that vanishes there
    it satisfies the twist-shift condition. *)
Theorem C99_ballooning_turn : forall N arg ts zl c,
  sum_around N (fun j => arg (turned j ts zl (turned 1 ts zl c))) - sum_around N (fun j => arg (turned j ts zl c)) =
  arg (turned (Z.of_nat N + 1) ts zl c) - arg (turned (- Z.of_nat N) ts zl c).
Proof.
  intros N arg ts zl c. unfold sum_around.
  assert (T : forall j, turned j ts zl (turned 1 ts zl c) = turned (j + 1) ts zl c).
  { intros j. unfold turned. cbn [cx cy cz ct]. rewrite plus_IZR. f_equal; unfold Rdiv; ring. }
  assert (K : forall n f, total n (fun k => f (S k)) = total n f + f n - f 0%nat) by (induction n as [|n IH]; intros f; cbn [total]; [ring|rewrite IH; ring]).
  pose (f := fun k => arg (turned (Z.of_nat k - Z.of_nat N) ts zl c)).
  rewrite (total_ext _ _ (fun k => f (S k))) by (intros k _; rewrite T; unfold f; do 2 f_equal; lia).
  change (total (2 * N + 1) (fun k => arg (turned (Z.of_nat k - Z.of_nat N) ts zl c))) with (total (2 * N + 1) f). rewrite K. unfold f.
  replace (Z.of_nat (2 * N + 1) - Z.of_nat N)%Z with (Z.of_nat N + 1)%Z by lia. replace (Z.of_nat 0 - Z.of_nat N)%Z with (- Z.of_nat N)%Z by lia. ring.
Qed.
(** With one point per processor in x it divides by zero, whatever the argument. *)
Theorem C99_ballooning_refuted : forall np0 g0 sym p per zl arg N c, ballooning (Layout np0 1 g0) sym p per zl arg N c = None.
Proof.
  intros. unfold ballooning. destruct (N <? 1)%nat; [reflexivity|]. cbn [FgenModel.ballooning LaplaceModel.g LaplaceModel.mx].
  replace (g0 + 1 - 1 - g0)%nat with 0%nat by lia. reflexivity.
Qed.

(** mixmode: the numbers drawn are between 0 and 1, the phases between -pi and pi and the same everywhere; the sum runs
    over the harmonics 0 to 13, not 1 to 14 as in the manual, so that it has a constant part. *)
Lemma logistic_range : forall n x, 0 < x < 1 -> 0 < logistic n x < 1.
Proof. induction n as [|n IH]; intros x H; cbn [logistic]; [exact H|]. specialize (IH x H). set (y := logistic n x) in *. clearbody y.
  pose proof (pow2_ge_0 (y - 1 / 2)). pose proof (Rmult_lt_0_compat y (1 - y) ltac:(lra) ltac:(lra)). split; lra. Qed.
Theorem C99_random : forall seed, 0 < genRand seed < 1 /\ genRand (- seed) = genRand seed.
Proof.
  assert (F : forall x B, 0 < B -> 0 <= fmod x B < B).
  { intros x B HB. unfold fmod, Int_part. destruct (archimed (x / B)) as (U1 & U2). rewrite minus_IZR. set (u := IZR (up (x / B))) in *.
    assert (E : x = x / B * B) by (field; lra). set (r := x / B) in *. rewrite E. clearbody r u.
    replace (r * B - B * (u - 1)) with ((r - (u - 1)) * B) by ring. split; [apply Rmult_le_pos; lra|]. rewrite <- (Rmult_1_l B) at 2. apply Rmult_lt_compat_r; lra. }
  intros seed. split.
  - unfold genRand. cbv zeta. apply logistic_range. match goal with |- context [fmod ?s ?B] => pose proof (F s B ltac:(lra)) as H; set (m := fmod s B) in * end.
    split; [apply Rdiv_lt_0_compat; lra|]. apply Rmult_lt_reg_r with (1.23456789 + 2 * 0.01); [lra|]. unfold Rdiv. rewrite Rmult_assoc, Rinv_l by lra. lra.
  - unfold genRand. destruct (Rlt_dec (- seed) 0) as [A|A], (Rlt_dec seed 0) as [B|B]; try lra.
    + replace (- seed * -1) with seed by ring. reflexivity.
    + replace (seed * -1) with (- seed) by ring. reflexivity.
    + replace (- seed) with seed by lra. reflexivity.
Qed.
Theorem C99_mixmode : forall arg seed c,
  mixmode arg seed c = cos (phase seed 0) / 25 + total 13 (fun k => cos (INR (S k) * arg c + phase seed (S k)) / (1 + Rabs (INR (S k) - 4)) ^ 2) /\
  (forall i, - PI < phase seed i < PI).
Proof.
  intros arg seed c. split.
  - assert (E : forall n a ph, mix_sum n a ph = total n (fun i => cos (INR i * a + ph i) / (1 + Rabs (INR i - 4)) ^ 2)).
    { induction n as [|n IH]; intros a ph; cbn [mix_sum total]; [reflexivity|]. rewrite IH. unfold Rdiv. ring. }
    unfold mixmode. rewrite E, total_first. f_equal. change (INR 0) with 0. rewrite Rmult_0_l, Rplus_0_l. rewrite (Rabs_left1 (0 - 4)) by lra. field.
  - intros i. unfold phase. pose proof (proj1 (C99_random (seed + INR i))) as H. pose proof PI_RGT_0. nra.
Qed.
(** It is periodic in its argument and bounded by the sum of the amplitudes. *)
Theorem C99_mixmode_periodic : forall a a' seed c, a' c = a c + 2 * PI -> mixmode a' seed c = mixmode a seed c.
Proof.
  intros a a' seed c H. unfold mixmode. rewrite H. generalize 14%nat. induction n as [|n IH]; cbn [mix_sum]; [reflexivity|]. rewrite IH. f_equal. f_equal.
  replace (INR n * (a c + 2 * PI) + phase seed n) with (INR n * a c + phase seed n + 2 * INR n * PI) by ring. apply cos_period.
Qed.

(** TanhHat: width, centre and steepness are taken as constants (at x = y = z = t = 0); positive, below one, symmetric
    about the centre. *)
Theorem C99_TanhHat : forall Xg wg cg sg c, let w := wg context0 in let c0 := cg context0 in let s := sg context0 in
  TanhHat Xg wg cg sg c = (tanh (s * (Xg c - (c0 - w / 2))) - tanh (s * (Xg c - (c0 + w / 2)))) / 2 /\
  (0 < w -> 0 < s -> 0 < TanhHat Xg wg cg sg c < 1) /\
  (forall c', Xg c' = 2 * c0 - Xg c -> TanhHat Xg wg cg sg c' = TanhHat Xg wg cg sg c) /\
  (Xg c = c0 -> TanhHat Xg wg cg sg c = tanh (s * w / 2)).
Proof.
  intros Xg wg cg sg c w c0 s.
  assert (E : forall c, TanhHat Xg wg cg sg c = (tanh (s * (Xg c - (c0 - w / 2))) - tanh (s * (Xg c - (c0 + w / 2)))) / 2).
  { intros k. unfold TanhHat. fold w c0 s. replace (0.5 * w) with (w / 2) by lra. lra. }
  assert (B : forall a, -1 < tanh a < 1).
  { intros a. rewrite tanh_alt. pose proof (exp_pos (2 * a)) as V. assert (0 < 2 / (exp (2 * a) + 1) < 2); [|lra].
    split; [apply Rdiv_lt_0_compat; lra|]. apply Rmult_lt_reg_r with (exp (2 * a) + 1); [lra|]. replace (2 / (exp (2 * a) + 1) * (exp (2 * a) + 1)) with 2 by (field; lra). lra. }
  split; [apply E|split; [|split]].
  - intros Hw Hs. rewrite E. pose proof (B (s * (Xg c - (c0 - w / 2)))). pose proof (B (s * (Xg c - (c0 + w / 2)))).
    pose proof (tanh_incr (s * (Xg c - (c0 + w / 2))) (s * (Xg c - (c0 - w / 2))) ltac:(nra)). lra.
  - intros c' H. rewrite !E, H. replace (s * (2 * c0 - Xg c - (c0 - w / 2))) with (- (s * (Xg c - (c0 + w / 2)))) by field.
    replace (s * (2 * c0 - Xg c - (c0 + w / 2))) with (- (s * (Xg c - (c0 - w / 2)))) by field. rewrite !tanh_odd. lra.
  - intros H. rewrite E, H. replace (s * (c0 - (c0 - w / 2))) with (s * w / 2) by field. replace (s * (c0 - (c0 + w / 2))) with (- (s * w / 2)) by field. rewrite tanh_odd. lra.
Qed.

(** gauss and H. *)
Theorem C99_gauss : forall Xg sg c, sg c <> 0 -> gauss Xg sg c = exp (- (Xg c) ^ 2 / (2 * sg c ^ 2)) / (sg c * sqrt (2 * PI)) /\
  (0 < sg c -> 0 < gauss Xg sg c <= / (sg c * sqrt (2 * PI))).
Proof.
  intros Xg sg c H. assert (S : 0 < sqrt (2 * PI)) by (apply sqrt_lt_R0; pose proof PI_RGT_0; lra).
  assert (E : gauss Xg sg c = exp (- (Xg c) ^ 2 / (2 * sg c ^ 2)) / (sg c * sqrt (2 * PI))).
  { unfold gauss. cbv zeta. rewrite (Rmult_comm (sqrt (2 * PI))). f_equal. f_equal. field. exact H. }
  split; [exact E|]. intros Hp. rewrite E. assert (D : 0 < sg c * sqrt (2 * PI)) by (apply Rmult_lt_0_compat; assumption). split.
  - apply Rdiv_lt_0_compat; [apply exp_pos|exact D].
  - rewrite <- (Rmult_1_l (/ _)). unfold Rdiv at 1. apply Rmult_le_compat_r; [left; apply Rinv_0_lt_compat; exact D|].
    rewrite <- exp_0. assert (- (Xg c) ^ 2 / (2 * sg c ^ 2) <= 0).
    { assert (0 <= Xg c ^ 2 / (2 * sg c ^ 2)); [|unfold Rdiv in *; lra]. apply Rmult_le_pos; [apply pow2_ge_0|]. left. apply Rinv_0_lt_compat. pose proof (pow_lt (sg c) 2 Hp). lra. }
    destruct H0 as [L| ->]; [left; apply exp_increasing; exact L|lra].
Qed.
Theorem C99_heaviside : forall a c, (0 < a c -> heaviside a c = 1) /\ (a c <= 0 -> heaviside a c = 0).
Proof. intros a c. unfold heaviside. destruct (Rlt_dec 0 (a c)); split; intros; lra || reflexivity. Qed.
(** The conversion used for indices and by round(): the nearest integer. *)
Theorem C99_round : forall x n, (0 <= n)%Z -> Rabs (x - IZR n) < 1 / 2 -> ROUND x = n.
Proof. exact ROUND_near. Qed.

(** A case: two processors with four points, on the second one; every surface closed. *)
Example C99_case : let l := Layout 2 4 2 in let c := Ctx (X l true 7) 1 2 0 in exists v,
  ballooning l true 1 (fun jx => if (jx <? 4)%Z then Some (1 / 2) else None) (2 * PI) (fun c => cy c) 3 c = Some v /\ v = 7.
Proof.
  intros l c. eexists. split.
  - rewrite (C99_ballooning l true 1 _ (2 * PI) (fun c => cy c) 3 c 3); [|lia|cbn; lia|cbn; lia|].
    + reflexivity.
    + unfold c. cbn [cx]. change (1 * mx l + 3)%nat with 7%nat. rewrite Rminus_eq_0, Rabs_R0. apply Rdiv_lt_0_compat; [lra|]. cbn. lra.
  - unfold sum_around. cbn. lra.
Qed.

Print Assumptions C99_ballooning.
Print Assumptions C99_ballooning_turn.
Print Assumptions C99_ballooning_refuted.
Print Assumptions C99_random.
Print Assumptions C99_mixmode.
Print Assumptions C99_mixmode_periodic.
Print Assumptions C99_TanhHat.
Print Assumptions C99_gauss.
Print Assumptions C99_heaviside.
Print Assumptions C99_round.
