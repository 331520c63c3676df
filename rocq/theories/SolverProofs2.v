Require Import ZArith List Bool Lia FunctionalExtensionality.
Require Import Verif.Base Verif.SolverModel Verif.SolverSpec Verif.SolverProofs.
Import ListNotations.
Local Open Scope Z_scope.

Section S.
Variable V : Type.
Variables (zero one : V) (add : V -> V -> V).
Notation store := (store V).
Definition okp (s : solver) (w : place) : Prop := match w with In2 _ _ => True | In3 _ _ z => 0 <= z < nz s end.
Definition set_value (s : solver) (w : place) (v : V) (m : store) : store :=
  match w with
  | In2 k i => mkStore V (fupd V (var2 V m) k i v) (var3 V m) (der2 V m) (der3 V m)
  | In3 k i z => mkStore V (var2 V m) (fupd V (var3 V m) k (i * nz s + z) v) (der2 V m) (der3 V m)
  end.
Definition set_deriv (s : solver) (w : place) (v : V) (m : store) : store :=
  match w with
  | In2 k i => mkStore V (var2 V m) (var3 V m) (fupd V (der2 V m) k i v) (der3 V m)
  | In3 k i z => mkStore V (var2 V m) (var3 V m) (der2 V m) (fupd V (der3 V m) k (i * nz s + z) v)
  end.
Lemma fupd_same f n k v : fupd V f n k v n k = v.
Proof. unfold fupd, zupd. now rewrite Nat.eqb_refl, Z.eqb_refl. Qed.
Lemma fupd_other f n k v n' k' : n' <> n \/ k' <> k -> fupd V f n k v n' k' = f n' k'.
Proof.
  intros H. unfold fupd, zupd. destruct (Nat.eqb_spec n' n) as [-> |]; [|reflexivity]. destruct (Z.eqb_spec k' k); [|reflexivity]. intuition congruence.
Qed.
Lemma value_set s w v m : value s (set_value s w v m) w = v.
Proof. destruct w; cbn; apply fupd_same. Qed.
Lemma deriv_set s w v m : deriv s (set_deriv s w v m) w = v.
Proof. destruct w; cbn; apply fupd_same. Qed.
Lemma value_other s w w' v m : 1 <= nz s -> okp s w -> okp s w' -> w <> w' -> value s (set_value s w v m) w' = value s m w'.
Proof.
  intros G O O' N. destruct w as [k i|k i z], w' as [k' i'|k' i' z']; cbn in *; try reflexivity; apply fupd_other.
  - destruct (Nat.eq_dec k' k); [right|left; assumption]. intros ->. subst. congruence.
  - destruct (Nat.eq_dec k' k); [right|left; assumption]. intros E. apply idx_inj in E as [-> ->]; auto. subst. congruence.
Qed.
Lemma deriv_other s w w' v m : 1 <= nz s -> okp s w -> okp s w' -> w <> w' -> deriv s (set_deriv s w v m) w' = deriv s m w'.
Proof.
  intros G O O' N. destruct w as [k i|k i z], w' as [k' i'|k' i' z']; cbn in *; try reflexivity; apply fupd_other.
  - destruct (Nat.eq_dec k' k); [right|left; assumption]. intros ->. subst. congruence.
  - destruct (Nat.eq_dec k' k); [right|left; assumption]. intros E. apply idx_inj in E as [-> ->]; auto. subst. congruence.
Qed.

Lemma evolved_ok s w : evolved s w -> okp s w.
Proof. destruct w; cbn; [auto|]. intros (f & _ & _ & H). exact H. Qed.
Lemma slots_ok s sl : In sl (slots s) -> okp s (pl sl).
Proof. destruct sl as [w f]. intros H. apply in_slots in H as [H _]. now apply evolved_ok. Qed.

(* where the n-th slot is *)
Lemma slot_at s n sl : nth_error (slots s) n = Some sl -> at_ s (Z.of_nat n) = pl sl.
Proof.
  intros H. unfold at_. rewrite Nat2Z.id. apply nth_error_nth with (d := In2 0 0). rewrite nth_error_map, H. reflexivity.
Qed.
Lemma slot_exists s p : 0 <= p < N s -> exists sl, nth_error (slots s) (Z.to_nat p) = Some sl.
Proof.
  unfold N. intros H. destruct (nth_error (slots s) (Z.to_nat p)) eqn:E; [eauto|]. apply nth_error_None in E. lia.
Qed.

(* ---------- saving ---------- *)
Lemma save_gen s o (rd : store -> slot -> V) m u :
  (forall sl p u m, step V zero one s o (p, u, m) sl = (p + 1, zupd V u p (rd m sl), m)) ->
  fst (fst (loop_vars V zero one s o u m)) = N s /\ snd (loop_vars V zero one s o u m) = m /\
  (forall q, ~ 0 <= q < N s -> snd (fst (loop_vars V zero one s o u m)) q = u q) /\
  (forall p sl, 0 <= p -> nth_error (slots s) (Z.to_nat p) = Some sl -> snd (fst (loop_vars V zero one s o u m)) p = rd m sl).
Proof.
  intros H. rewrite loop_slots. destruct (save_fold V zero one s o (fun sl m => rd m sl) H (slots s) 0 u m) as (u' & E & O & I).
  rewrite E. cbn [fst snd]. unfold N. repeat split; auto.
  intros p sl Hp Hsl. rewrite <- (I _ _ Hsl). f_equal. lia.
Qed.
Lemma step_save_vars s sl p u m : step V zero one s SAVE_VARS (p, u, m) sl = (p + 1, zupd V u p (value s m (pl sl)), m).
Proof. destruct sl as [[k i|k i z] f]; reflexivity. Qed.
Lemma step_save_derivs s sl p u m : step V zero one s SAVE_DERIVS (p, u, m) sl = (p + 1, zupd V u p (deriv s m (pl sl)), m).
Proof. destruct sl as [[k i|k i z] f]; reflexivity. Qed.
Lemma step_set_id s sl p u m : step V zero one s SET_ID (p, u, m) sl = (p + 1, zupd V u p (if constraint (snd sl) then zero else one), m).
Proof. destruct sl as [[k i|k i z] f]; reflexivity. Qed.
Lemma step_load_vars s sl p u m : step V zero one s LOAD_VARS (p, u, m) sl = (p + 1, u, set_value s (pl sl) (u p) m).
Proof. destruct sl as [[k i|k i z] f]; reflexivity. Qed.
Lemma step_load_derivs s sl p u m : step V zero one s LOAD_DERIVS (p, u, m) sl = (p + 1, u, set_deriv s (pl sl) (u p) m).
Proof. destruct sl as [[k i|k i z] f]; reflexivity. Qed.

Lemma save_vars_at s m u p : save_vars V zero one s m u p = if (0 <=? p) && (p <? N s) then value s m (at_ s p) else u p.
Proof.
  destruct (save_gen s SAVE_VARS (fun m sl => value s m (pl sl)) m u (step_save_vars s)) as (_ & _ & O & I). unfold save_vars.
  destruct (Z.leb_spec 0 p), (Z.ltb_spec p (N s)); cbn [andb]; try (apply O; lia).
  destruct (slot_exists s p ltac:(lia)) as (sl & E). rewrite (I p sl H E). now rewrite <- (slot_at s _ _ E), Z2Nat.id.
Qed.
Lemma save_derivs_at s m u p : save_derivs V zero one s m u p = if (0 <=? p) && (p <? N s) then deriv s m (at_ s p) else u p.
Proof.
  destruct (save_gen s SAVE_DERIVS (fun m sl => deriv s m (pl sl)) m u (step_save_derivs s)) as (_ & _ & O & I). unfold save_derivs.
  destruct (Z.leb_spec 0 p), (Z.ltb_spec p (N s)); cbn [andb]; try (apply O; lia).
  destruct (slot_exists s p ltac:(lia)) as (sl & E). rewrite (I p sl H E). now rewrite <- (slot_at s _ _ E), Z2Nat.id.
Qed.
Lemma set_id_at s m u p f : 0 <= p < N s -> flags_of s (at_ s p) = Some f -> set_id V zero one s m u p = if constraint f then zero else one.
Proof.
  intros H Hf. destruct (save_gen s SET_ID (fun m sl => if constraint (snd sl) then zero else one) m u (step_set_id s)) as (_ & _ & _ & I).
  unfold set_id. destruct (slot_exists s p H) as (sl & E). rewrite (I p sl ltac:(lia) E).
  rewrite <- (Z2Nat.id p) in Hf by lia. rewrite (slot_at s _ _ E) in Hf. apply nth_error_In in E. destruct sl as [w g]. cbn [pl fst snd] in *.
  apply in_slots in E as [_ E]. assert (f = g) as -> by congruence. reflexivity.
Qed.
Lemma count_any s o u m : fst (fst (loop_vars V zero one s o u m)) = N s.
Proof.
  rewrite loop_slots. unfold N. assert (X : forall l p u m, fst (fst (fold_left (step V zero one s o) l (p, u, m))) = p + Z.of_nat (length l)).
  { induction l as [|sl l IH]; intros p u0 m0; [cbn [fold_left length fst]; lia|]. cbn [fold_left length].
    assert (exists u1 m1, step V zero one s o (p, u0, m0) sl = (p + 1, u1, m1)) as (u1 & m1 & ->) by (destruct sl as [[k i|k i z] f], o; cbn; eauto).
    rewrite IH. lia. }
  rewrite X. lia.
Qed.

(* ---------- loading ---------- *)
Definition set_many (s : solver) (set : solver -> place -> V -> store -> store) (u : Z -> V) (m : store) : store :=
  fold_left (fun m x => set s (pl (fst x)) (snd x) m) (combine (slots s) (map (fun n => u (0 + Z.of_nat n)) (seq 0 (length (slots s))))) m.
Lemma load_vars_spec s u m : good_mesh s ->
  load_vars V zero one s u m = set_many s set_value u m /\
  (forall p, 0 <= p < N s -> value s (load_vars V zero one s u m) (at_ s p) = u p) /\
  (forall w, okp s w -> ~ evolved s w -> value s (load_vars V zero one s u m) w = value s m w).
Proof.
  intros G. unfold load_vars. rewrite loop_slots.
  destruct (load_fold V zero one s LOAD_VARS (fun w m => value s m w) (set_value s) (okp s) (step_load_vars s)
    (fun w v m => value_set s w v m) (fun w w' v m => value_other s w w' v m (proj2 (proj2 (proj2 G)))) (slots s) 0 u m (nodup_slots s G) (slots_ok s)) as (m' & E & F & I & O).
  rewrite E. cbn [snd]. split; [exact F|]. split.
  - intros p Hp. destruct (slot_exists s p Hp) as (sl & S). pose proof (slot_at s _ _ S) as A. rewrite Z2Nat.id in A by lia. rewrite A, (I _ _ S). f_equal. lia.
  - intros w Hw Nw. apply O; [exact Hw|]. intros X. apply in_pl in X as (f & X). apply in_slots in X as [X _]. contradiction.
Qed.
Lemma load_derivs_spec s u m : good_mesh s ->
  load_derivs V zero one s u m = set_many s set_deriv u m /\
  (forall p, 0 <= p < N s -> deriv s (load_derivs V zero one s u m) (at_ s p) = u p) /\
  (forall w, okp s w -> ~ evolved s w -> deriv s (load_derivs V zero one s u m) w = deriv s m w).
Proof.
  intros G. unfold load_derivs. rewrite loop_slots.
  destruct (load_fold V zero one s LOAD_DERIVS (fun w m => deriv s m w) (set_deriv s) (okp s) (step_load_derivs s)
    (fun w v m => deriv_set s w v m) (fun w w' v m => deriv_other s w w' v m (proj2 (proj2 (proj2 G)))) (slots s) 0 u m (nodup_slots s G) (slots_ok s)) as (m' & E & F & I & O).
  rewrite E. cbn [snd]. split; [exact F|]. split.
  - intros p Hp. destruct (slot_exists s p Hp) as (sl & S). pose proof (slot_at s _ _ S) as A. rewrite Z2Nat.id in A by lia. rewrite A, (I _ _ S). f_equal. lia.
  - intros w Hw Nw. apply O; [exact Hw|]. intros X. apply in_pl in X as (f & X). apply in_slots in X as [X _]. contradiction.
Qed.
Lemma set_many_keeps s set u m {A} (obs : store -> A) : (forall w v m, obs (set s w v m) = obs m) -> obs (set_many s set u m) = obs m.
Proof.
  intros H. unfold set_many. generalize (combine (slots s) (map (fun n => u (0 + Z.of_nat n)) (seq 0 (length (slots s))))). intros l.
  revert m. induction l as [|x l IH]; intros m; [reflexivity|]. cbn [fold_left]. now rewrite IH, H.
Qed.
Lemma load_vars_derivs s u m w : good_mesh s -> deriv s (load_vars V zero one s u m) w = deriv s m w.
Proof. intros G. rewrite (proj1 (load_vars_spec s u m G)). apply (set_many_keeps s set_value u m (fun m => deriv s m w)). intros [k i|k i z] v m0; destruct w; reflexivity. Qed.
Lemma load_derivs_vars s u m w : good_mesh s -> value s (load_derivs V zero one s u m) w = value s m w.
Proof. intros G. rewrite (proj1 (load_derivs_spec s u m G)). apply (set_many_keeps s set_deriv u m (fun m => value s m w)). intros [k i|k i z] v m0; destruct w; reflexivity. Qed.

Lemma round_trip s m m' u w : good_mesh s -> evolved s w -> value s (load_vars V zero one s (save_vars V zero one s m u) m') w = value s m w.
Proof.
  intros G Hw. destruct (layout_at s G) as (_ & _ & L). destruct (L w Hw) as (p & Hp & <-).
  rewrite (proj1 (proj2 (load_vars_spec s _ m' G)) p Hp), save_vars_at. destruct (Z.leb_spec 0 p), (Z.ltb_spec p (N s)); try lia. reflexivity.
Qed.

(* ---------- split right hand side ---------- *)
Lemma split_rhs s conv diff g m w : good_mesh s -> evolved s w ->
  let m2 := load_vars V zero one s (save_vars V zero one s m g) (conv m) in
  (forall v, evolved s v -> value s m2 v = value s m v) /\
  (forall v, okp s v -> ~ evolved s v -> value s m2 v = value s (conv m) v) /\
  (deriv s (run_rhs_split V zero one add s (N s) conv diff g m) w = add (deriv s (conv m) w) (deriv s (diff m2) w)).
Proof.
  intros G Hw m2. split; [intros v Hv; now apply round_trip|]. split; [intros v Ov Hv; now apply (load_vars_spec s _ _ G)|].
  unfold run_rhs_split. fold m2. destruct (layout_at s G) as (_ & _ & L). destruct (L w Hw) as (p & Hp & <-).
  rewrite (proj1 (proj2 (load_derivs_spec s _ _ G)) p Hp). unfold add_arrays. rewrite !save_derivs_at.
  destruct (Z.leb_spec 0 p), (Z.ltb_spec p (N s)); try lia. cbn [andb]. f_equal. unfold m2. now rewrite load_vars_derivs.
Qed.
End S.

(* ---------- counting ---------- *)
Definition cnt (bnd : bool) (fs : list vflags) : Z := if bnd then count_bndry fs else Z.of_nat (length fs).
Lemma count_bndry_acc fs : forall n, fold_left (fun n f => if evolve_bndry f then n + 1 else n) fs n = n + count_bndry fs.
Proof.
  unfold count_bndry. induction fs as [|f fs IH]; intros n; cbn [fold_left]; [lia|]. destruct (evolve_bndry f); [rewrite (IH (n + 1)), (IH (0 + 1))|rewrite (IH n)]; lia.
Qed.
Lemma count_bndry_cons f fs : count_bndry (f :: fs) = (if evolve_bndry f then 1 else 0) + count_bndry fs.
Proof. unfold count_bndry at 1. cbn [fold_left]. destruct (evolve_bndry f); rewrite count_bndry_acc; lia. Qed.
Lemma vslots_length mk bnd fs : forall k, Z.of_nat (length (vslots mk bnd fs k)) = cnt bnd fs.
Proof.
  induction fs as [|f fs IH]; intros k; [destruct bnd; reflexivity|]. cbn [vslots]. rewrite app_length, Nat2Z.inj_add, IH. unfold cnt. destruct bnd; cbn [andb].
  - rewrite count_bndry_cons. destruct (evolve_bndry f); cbn [negb length]; lia.
  - cbn [length]. lia.
Qed.
Lemma flat_const {A B} (g : A -> list B) c l : (forall a, In a l -> Z.of_nat (length (g a)) = c) -> Z.of_nat (length (flat_map g l)) = c * Z.of_nat (length l).
Proof.
  induction l as [|a l IH]; intros H; [cbn; lia|]. cbn [flat_map length]. rewrite app_length, Nat2Z.inj_add, IH by (intros; apply H; now right).
  rewrite H by now left. lia.
Qed.
Lemma cslots_length s bnd i : 1 <= nz s -> Z.of_nat (length (cslots s bnd i)) = cnt bnd (f2d s) + cnt bnd (f3d s) * nz s.
Proof.
  intros G. unfold cslots. rewrite app_length, Nat2Z.inj_add, vslots_length.
  rewrite (flat_const _ (cnt bnd (f3d s))) by (intros; unfold zslots; apply vslots_length). rewrite zrange_length. f_equal. f_equal. lia.
Qed.
Lemma N_eq s : 1 <= nz s -> N s = (cnt true (f2d s) + cnt true (f3d s) * nz s) * Z.of_nat (length (bndry2 s))
  + (cnt false (f2d s) + cnt false (f3d s) * nz s) * Z.of_nat (length (bulk2 s)).
Proof.
  intros G. unfold N, slots. rewrite app_length, Nat2Z.inj_add.
  rewrite (flat_const _ (cnt true (f2d s) + cnt true (f3d s) * nz s)) by (intros; now apply cslots_length).
  rewrite (flat_const _ (cnt false (f2d s) + cnt false (f3d s) * nz s)) by (intros; now apply cslots_length). reflexivity.
Qed.
Lemma fold_local a b fs : forall n, fold_left (local_N_sum a b) fs n = n + a * count_bndry fs + b * Z.of_nat (length fs).
Proof.
  induction fs as [|f fs IH]; intros n; [cbn [fold_left length]; unfold count_bndry; cbn [fold_left]; lia|].
  cbn [fold_left length]. rewrite IH, count_bndry_cons. unfold local_N_sum. destruct (evolve_bndry f); lia.
Qed.
Lemma countN_eq s : 1 <= nz s -> countN s (nz s * Z.of_nat (length (bndry2 s))) (nz s * Z.of_nat (length (bulk2 s))) = N s.
Proof. intros G. rewrite N_eq by exact G. unfold countN. rewrite !fold_local. unfold cnt. lia. Qed.

(* ---------- globalIndex ---------- *)
Lemma iupd_other f k v j : j <> k -> iupd f k v j = f j.
Proof. unfold iupd. destruct (Z.eqb_spec j k); [contradiction|reflexivity]. Qed.
Lemma iupd_same f k v : iupd f k v k = v. Proof. unfold iupd. now rewrite Z.eqb_refl. Qed.
Lemma nth_flat {A B} (g : A -> list B) c : forall l j a r b, (forall a, In a l -> length (g a) = c) ->
  nth_error l j = Some a -> nth_error (g a) r = Some b -> nth_error (flat_map g l) (j * c + r) = Some b.
Proof.
  induction l as [|x l IH]; intros j a r b H Hj Hr; [destruct j; discriminate|]. cbn [flat_map].
  assert (Hc : length (g x) = c) by (apply H; now left).
  destruct j as [|j]; cbn [nth_error] in Hj.
  - injection Hj as ->. cbn. rewrite nth_error_app1; [exact Hr|]. apply nth_error_Some. congruence.
  - rewrite nth_error_app2 by lia. replace (S j * c + r - length (g x))%nat with (j * c + r)%nat by lia.
    apply (IH j a); auto. intros y Hy. apply H. now right.
Qed.
Lemma before_nonneg s fs bnd : forall k, 0 <= before s fs bnd k.
Proof. induction fs as [|f fs IH]; intros [|k]; cbn [before]; try lia. specialize (IH k). destruct (bnd && _); lia. Qed.
Lemma vslots_nth s mk bnd fs : forall k0 k f, nth_error fs k = Some f -> (bnd = true -> evolve_bndry f = true) ->
  nth_error (vslots mk bnd fs k0) (Z.to_nat (before s fs bnd k)) = Some (mk (k0 + k)%nat, f).
Proof.
  induction fs as [|g fs IH]; intros k0 k f E B; [destruct k; discriminate|]. destruct k as [|k]; cbn [nth_error] in E.
  - injection E as ->. cbn [before vslots Z.to_nat]. rewrite Nat.add_0_r. destruct bnd; [rewrite (B eq_refl)|]; reflexivity.
  - cbn [before vslots]. rewrite <- plus_n_Sm. pose proof (before_nonneg s fs bnd k). specialize (IH (S k0) k f E B).
    destruct (bnd && negb (evolve_bndry g)); [exact IH|]. replace (Z.to_nat (1 + before s fs bnd k)) with (S (Z.to_nat (before s fs bnd k))) by lia. exact IH.
Qed.
Lemma zrange_nth n z : 0 <= z < n -> nth_error (zrange n) (Z.to_nat z) = Some z.
Proof.
  intros H. unfold zrange. rewrite nth_error_map. rewrite (nth_error_nth' _ O) by (rewrite seq_length; lia). rewrite seq_nth by lia. cbn [option_map]. f_equal. lia.
Qed.
Lemma cslots_nth2 s bnd i k f : nth_error (f2d s) k = Some f -> (bnd = true -> evolve_bndry f = true) ->
  nth_error (cslots s bnd i) (Z.to_nat (before s (f2d s) bnd k)) = Some (In2 k i, f).
Proof.
  intros E B. unfold cslots. pose proof (vslots_nth s (fun k => In2 k i) bnd (f2d s) 0 k f E B) as X. rewrite nth_error_app1; [exact X|].
  apply nth_error_Some. congruence.
Qed.
Lemma cslots_nth3 s bnd i k f z : 0 <= z < nz s -> nth_error (f3d s) k = Some f -> (bnd = true -> evolve_bndry f = true) ->
  nth_error (cslots s bnd i) (Z.to_nat (cnt bnd (f2d s) + cnt bnd (f3d s) * z + before s (f3d s) bnd k)) = Some (In3 k i z, f).
Proof.
  intros Hz E B. unfold cslots. pose proof (vslots_nth s (fun k => In3 k i z) bnd (f3d s) 0 k f E B) as X.
  pose proof (vslots_length (fun k => In2 k i) bnd (f2d s) 0) as L2. pose proof (before_nonneg s (f3d s) bnd k).
  assert (0 <= cnt bnd (f3d s)) by (rewrite <- (vslots_length (fun k => In3 k i z) bnd (f3d s) 0); lia).
  rewrite nth_error_app2 by nia.
  replace (Z.to_nat (cnt bnd (f2d s) + cnt bnd (f3d s) * z + before s (f3d s) bnd k) - length (vslots (fun k0 => In2 k0 i) bnd (f2d s) 0))%nat
    with (Z.to_nat z * Z.to_nat (cnt bnd (f3d s)) + Z.to_nat (before s (f3d s) bnd k))%nat by nia.
  apply (nth_flat _ (Z.to_nat (cnt bnd (f3d s))) _ _ z).
  - intros a _. unfold zslots. rewrite <- (vslots_length (fun k => In3 k i a) bnd (f3d s) 0). lia.
  - now apply zrange_nth.
  - exact X.
Qed.

(* one cell of globalIndex *)
Lemma index_cell_spec s n2 n3 ind index i : 1 <= nz s ->
  fst (index_cell s n2 n3 (ind, index) i) = ind + n2 + n3 * nz s /\
  (forall z, 0 <= z < nz s -> snd (index_cell s n2 n3 (ind, index) i) (i * nz s + z) = ind + (if z =? 0 then 0 else n2 + n3 * z)) /\
  (forall j z, j <> i -> 0 <= z < nz s -> snd (index_cell s n2 n3 (ind, index) i) (j * nz s + z) = index (j * nz s + z)).
Proof.
  intros G. unfold index_cell.
  assert (E : zrange (nz s) = 0 :: map Z.of_nat (seq 1 (Z.to_nat (nz s) - 1))).
  { unfold zrange. destruct (Z.to_nat (nz s)) as [|n] eqn:En; [lia|]. cbn [seq map]. do 3 f_equal. lia. }
  rewrite E. cbn [tl].
  assert (X : forall n c ind0 idx, (c + n <= Z.to_nat (nz s))%nat -> (1 <= c)%nat ->
    let r := fold_left (fun x jz => let '(ind, index) := x in (ind + n3, iupd index (ind2Dto3D s i jz) ind)) (map Z.of_nat (seq c n)) (ind0, idx) in
    fst r = ind0 + n3 * Z.of_nat n /\
    (forall z, Z.of_nat c <= z < Z.of_nat (c + n) -> snd r (i * nz s + z) = ind0 + n3 * (z - Z.of_nat c)) /\
    (forall q, ~ (exists z, Z.of_nat c <= z < Z.of_nat (c + n) /\ q = i * nz s + z) -> snd r q = idx q)).
  { induction n as [|n IH]; intros c ind0 idx Hc Hc1 r.
    - unfold r. cbn [seq map fold_left fst snd]. split; [lia|]. split; [intros; lia|reflexivity].
    - unfold r. cbn [seq map fold_left]. destruct (IH (S c) (ind0 + n3) (iupd idx (ind2Dto3D s i (Z.of_nat c)) ind0) ltac:(lia) ltac:(lia)) as (A & B & C).
      split; [rewrite A; lia|]. split.
      + intros z Hz. destruct (Z.eq_dec z (Z.of_nat c)) as [-> |N].
        * rewrite C; [|intros (z & Hz2 & X); lia]. unfold ind2Dto3D. rewrite iupd_same. lia.
        * rewrite B by lia. lia.
      + intros q Hq. rewrite C; [|intros (z & Hz & ->); apply Hq; exists z; lia]. apply iupd_other. intros ->. apply Hq. exists (Z.of_nat c). unfold ind2Dto3D. lia. }
  specialize (X (Z.to_nat (nz s) - 1)%nat 1%nat (ind + (n2 + n3)) (iupd index (ind2Dto3D s i 0) ind) ltac:(lia) ltac:(lia)). cbv zeta in X.
  destruct X as (A & B & C). split; [rewrite A; replace (Z.of_nat (Z.to_nat (nz s) - 1)) with (nz s - 1) by lia; lia|]. split.
  - intros z Hz. destruct (Z.eqb_spec z 0) as [-> |N].
    + rewrite C; [|intros (z & Hz2 & X); lia]. unfold ind2Dto3D. rewrite iupd_same. lia.
    + rewrite B by lia. lia.
  - intros j z Nj Hz. rewrite C.
    + apply iupd_other. unfold ind2Dto3D. intros X. apply idx_inj in X as [X _]; lia.
    + intros (z' & Hz' & X). apply idx_inj in X as [X _]; lia.
Qed.
Lemma index_cells_spec s n2 n3 : 1 <= nz s -> forall l ind index, NoDup l ->
  let r := fold_left (index_cell s n2 n3) l (ind, index) in
  fst r = ind + (n2 + n3 * nz s) * Z.of_nat (length l) /\
  (forall j i z, nth_error l j = Some i -> 0 <= z < nz s ->
     snd r (i * nz s + z) = ind + (n2 + n3 * nz s) * Z.of_nat j + (if z =? 0 then 0 else n2 + n3 * z)) /\
  (forall i z, ~ In i l -> 0 <= z < nz s -> snd r (i * nz s + z) = index (i * nz s + z)).
Proof.
  intros G. induction l as [|a l IH]; intros ind index ND r.
  - unfold r. cbn [fold_left length fst snd]. split; [lia|]. split; [intros [|j] i z X; discriminate|reflexivity].
  - inversion ND as [|? ? Na ND']; subst. unfold r. cbn [fold_left].
    destruct (index_cell_spec s n2 n3 ind index a G) as (A & B & C). destruct (index_cell s n2 n3 (ind, index) a) as [ind' index'] eqn:E. cbn [fst snd] in A, B, C.
    destruct (IH ind' index' ND') as (A' & B' & C'). split; [rewrite A'; cbn [length]; nia|]. split.
    + intros [|j] i z Hj Hz; cbn [nth_error] in Hj.
      * injection Hj as <-. rewrite C' by auto. rewrite B by exact Hz. lia.
      * rewrite (B' j i z Hj Hz). subst ind'. nia.
    + intros i z Ni Hz. cbn [In] in Ni. rewrite C' by tauto. apply C; auto.
Qed.

Lemma global_index s start : good_mesh s ->
  fst (globalIndex s start) = start + N s /\
  (forall i z, 0 <= z < nz s -> In i (bulk2 s) \/ (In i (bndry2 s) /\ 0 < count_bndry (f2d s) + count_bndry (f3d s)) ->
    exists bnd, bnd = negb (if in_dec Z.eq_dec i (bulk2 s) then true else false) /\
    let p0 := snd (globalIndex s start) (i * nz s + z) - start in
    (z = 0 -> forall k f, nth_error (f2d s) k = Some f -> evolves_at s f i -> at_ s (p0 + before s (f2d s) bnd k) = In2 k i) /\
    (forall k f, nth_error (f3d s) k = Some f -> evolves_at s f i ->
       at_ s (p0 + (if z =? 0 then before s (f2d s) bnd (length (f2d s)) else 0) + before s (f3d s) bnd k) = In3 k i z)) /\
  (forall i z, 0 <= z < nz s -> ~ In i (bulk2 s) -> ~ In i (bndry2 s) -> snd (globalIndex s start) (i * nz s + z) = -1).
Proof.
  intros (N1 & N2 & N3 & G). unfold globalIndex.
  set (b2 := count_bndry (f2d s)). set (b3 := count_bndry (f3d s)).
  set (n2 := Z.of_nat (length (f2d s))). set (n3 := Z.of_nat (length (f3d s))).
  set (x1 := if 0 <? b2 + b3 then fold_left (index_cell s b2 b3) (bndry2 s) (start, fun _ : Z => -1) else (start, fun _ : Z => -1)).
  assert (P2 : 0 <= b2) by (unfold b2; change (count_bndry (f2d s)) with (cnt true (f2d s)); rewrite <- (vslots_length (fun k => In2 k 0) true (f2d s) 0); lia).
  assert (P3 : 0 <= b3) by (unfold b3; change (count_bndry (f3d s)) with (cnt true (f3d s)); rewrite <- (vslots_length (fun k => In2 k 0) true (f3d s) 0); lia).
  assert (X1 : fst x1 = start + (b2 + b3 * nz s) * Z.of_nat (length (bndry2 s)) /\
    (0 < b2 + b3 -> forall j i z, nth_error (bndry2 s) j = Some i -> 0 <= z < nz s ->
       snd x1 (i * nz s + z) = start + (b2 + b3 * nz s) * Z.of_nat j + (if z =? 0 then 0 else b2 + b3 * z)) /\
    (forall i z, ~ In i (bndry2 s) -> 0 <= z < nz s -> snd x1 (i * nz s + z) = -1)).
  { unfold x1. destruct (Z.ltb_spec 0 (b2 + b3)).
    - destruct (index_cells_spec s b2 b3 G (bndry2 s) start (fun _ => -1) N1) as (A & B & C). split; [exact A|]. split; [auto|]. intros i z Hi Hz. now rewrite C.
    - assert (b2 = 0) as -> by lia. assert (b3 = 0) as -> by lia. cbn [fst snd]. repeat split; lia. }
  clearbody x1. destruct x1 as [ind1 idx1]. cbn [fst snd] in X1. destruct X1 as (A1 & B1 & C1).
  destruct (index_cells_spec s n2 n3 G (bulk2 s) ind1 idx1 N2) as (A & B & C). cbv zeta in A, B, C.
  split; [|split].
  - rewrite A, A1, N_eq by exact G. unfold cnt. fold b2 b3 n2 n3. lia.
  - intros i z Hz Hi. eexists. split; [reflexivity|]. cbv zeta.
    assert (LB : Z.of_nat (length (flat_map (cslots s true) (bndry2 s))) = (b2 + b3 * nz s) * Z.of_nat (length (bndry2 s))).
    { apply flat_const. intros. now apply cslots_length. }
    assert (BF : forall bnd fs, before s fs bnd (length fs) = cnt bnd fs).
    { intros bnd. induction fs as [|f fs IHf]; [destruct bnd; reflexivity|]. cbn [length before]. rewrite IHf. destruct bnd; cbn [andb cnt]; [|cbn [length]; lia].
      rewrite count_bndry_cons. destruct (evolve_bndry f); cbn [negb]; lia. }
    assert (AT : forall q w f, 0 <= q -> nth_error (slots s) (Z.to_nat q) = Some (w, f) -> at_ s q = w).
    { intros q w f Hq E. apply slot_at in E. rewrite Z2Nat.id in E by exact Hq. exact E. }
    destruct (in_dec Z.eq_dec i (bulk2 s)) as [Ib|Ib]; cbn [negb].
    + destruct (In_nth_error _ _ Ib) as (j & Hj). rewrite (B j i z Hj Hz).
      assert (Q : forall r sl, 0 <= r -> nth_error (cslots s false i) (Z.to_nat r) = Some sl ->
        nth_error (slots s) (Z.to_nat (ind1 - start + (n2 + n3 * nz s) * Z.of_nat j + r)) = Some sl).
      { intros r sl Hr E. unfold slots. assert (0 <= n2 + n3 * nz s) by nia. rewrite nth_error_app2 by nia.
        replace (Z.to_nat (ind1 - start + (n2 + n3 * nz s) * Z.of_nat j + r) - length (flat_map (cslots s true) (bndry2 s)))%nat
          with (j * Z.to_nat (n2 + n3 * nz s) + Z.to_nat r)%nat by nia.
        apply (nth_flat _ (Z.to_nat (n2 + n3 * nz s)) _ _ i); auto. intros a _. pose proof (cslots_length s false a G) as Y. unfold cnt in Y. fold n2 n3 in Y. lia. }
      assert (ZZ : 0 <= (n2 + n3 * nz s) * Z.of_nat j /\ 0 <= (b2 + b3 * nz s) * Z.of_nat (length (bndry2 s))) by nia.
      split.
      * intros -> k f E Ev. pose proof (before_nonneg s (f2d s) false k). apply (AT _ _ f); [cbn; lia|].
        replace (ind1 + (n2 + n3 * nz s) * Z.of_nat j + (if 0 =? 0 then 0 else n2 + n3 * 0) - start + before s (f2d s) false k)
          with (ind1 - start + (n2 + n3 * nz s) * Z.of_nat j + before s (f2d s) false k) by (cbn; lia).
        apply Q; [exact H|]. apply cslots_nth2; [exact E|discriminate].
      * intros k f E Ev. pose proof (before_nonneg s (f3d s) false k).
        replace (ind1 + (n2 + n3 * nz s) * Z.of_nat j + (if z =? 0 then 0 else n2 + n3 * z) - start + (if z =? 0 then before s (f2d s) false (length (f2d s)) else 0) + before s (f3d s) false k)
          with (ind1 - start + (n2 + n3 * nz s) * Z.of_nat j + (n2 + n3 * z + before s (f3d s) false k))
          by (rewrite BF; unfold cnt; fold n2; destruct (Z.eqb_spec z 0); subst; lia).
        assert (0 <= n2 + n3 * z) by nia.
        apply (AT _ _ f); [lia|]. apply Q; [lia|]. apply (cslots_nth3 s false i k f z Hz E). discriminate.
    + destruct Hi as [Hi|[Hi P]]; [contradiction|]. destruct (In_nth_error _ _ Hi) as (j & Hj).
      rewrite C by auto. rewrite (B1 P j i z Hj Hz).
      assert (Ev' : forall f, evolves_at s f i -> true = true -> evolve_bndry f = true).
      { intros f [X|[_ X]] _; [contradiction|exact X]. }
      assert (Q : forall r sl, 0 <= r -> nth_error (cslots s true i) (Z.to_nat r) = Some sl ->
        nth_error (slots s) (Z.to_nat ((b2 + b3 * nz s) * Z.of_nat j + r)) = Some sl).
      { intros r sl Hr E. unfold slots.
        assert (X : nth_error (flat_map (cslots s true) (bndry2 s)) (Z.to_nat ((b2 + b3 * nz s) * Z.of_nat j + r)) = Some sl).
        { replace (Z.to_nat ((b2 + b3 * nz s) * Z.of_nat j + r)) with (j * Z.to_nat (b2 + b3 * nz s) + Z.to_nat r)%nat by nia.
          apply (nth_flat _ (Z.to_nat (b2 + b3 * nz s)) _ _ i); auto. intros a _. pose proof (cslots_length s true a G) as Y. unfold cnt in Y. fold b2 b3 in Y. lia. }
        rewrite nth_error_app1; [exact X|]. apply nth_error_Some. congruence. }
      assert (ZZ : 0 <= (b2 + b3 * nz s) * Z.of_nat j) by nia.
      split.
      * intros -> k f E Ev. pose proof (before_nonneg s (f2d s) true k). 
        replace (start + (b2 + b3 * nz s) * Z.of_nat j + (if 0 =? 0 then 0 else b2 + b3 * 0) - start + before s (f2d s) true k)
          with ((b2 + b3 * nz s) * Z.of_nat j + before s (f2d s) true k) by (cbn; lia).
        apply (AT _ _ f); [lia|]. apply Q; [exact H|]. apply cslots_nth2; auto.
      * intros k f E Ev. pose proof (before_nonneg s (f3d s) true k).
        replace (start + (b2 + b3 * nz s) * Z.of_nat j + (if z =? 0 then 0 else b2 + b3 * z) - start + (if z =? 0 then before s (f2d s) true (length (f2d s)) else 0) + before s (f3d s) true k)
          with ((b2 + b3 * nz s) * Z.of_nat j + (b2 + b3 * z + before s (f3d s) true k))
          by (rewrite BF; unfold cnt; fold b2; destruct (Z.eqb_spec z 0); subst; lia).
        assert (0 <= b2 + b3 * z) by nia.
        apply (AT _ _ f); [lia|]. apply Q; [lia|]. apply (cslots_nth3 s true i k f z Hz E). auto.
  - intros i z Hz H1 H2. rewrite C by auto. now apply C1.
Qed.
