Require Import ZArith List Bool Reals Lia Lra FinFun.
Require Import Verif.Base Verif.BndryModel Verif.BndrySpec Verif.BndryProofs.
Import ListNotations.
Local Open Scope Z_scope.

(* ---------- nested walks ---------- *)
(* inner loop: along x for fixed y *)
Definition nest_in (m : lmesh) (b : breg) (k t : Z) : list pos :=
  match b_side b with
  | XIn | XOut => map (fun k => gcell m b k t) (zrange k (b_width b))
  | YDown | YUp => map (gcell m b k) (zrange t (b_hi b + 1))
  end.
Definition nest_end (m : lmesh) (b : breg) (k t : Z) : pos :=
  match b_side b with
  | XIn | XOut => gcell m b (b_width b) t
  | YDown | YUp => gcell m b k (b_hi b + 1)
  end.

Lemma walk_in_spec m b d (F : fits m b d) : 0 < b_width b -> 0 <= d ->
  forall n k t fuel, b_lo b <= t <= b_hi b -> 0 <= k < b_width b ->
  (match b_side b with XIn | XOut => b_width b - k | YDown | YUp => b_hi b + 1 - t end) <= Z.of_nat n -> (n <= fuel)%nat ->
  walk_in m b fuel (gcell m b k t) = Some (nest_in m b k t, nest_end m b k t).
Proof.
  intros Hw Hd n. induction n as [|n IH]; intros k t fuel Ht Hk Hn Hf.
  - exfalso. destruct (b_side b); lia.
  - destruct fuel as [|fuel]; [lia|]. cbn [walk_in].
    destruct (b_side b) eqn:S.
    + assert (E : nextX m b (gcell m b k t) = gcell m b (k + 1) t).
      { unfold nextX, gcell. rewrite S. destruct (Z.ltb_spec (b_hi b) t); f_equal; lia. }
      rewrite E. destruct (Z_lt_le_dec (k + 1) (b_width b)).
      * replace (isDone m b (gcell m b (k + 1) t)) with false
          by (symmetry; unfold isDone, gcell; rewrite S, orb_false_iff, !Z.ltb_ge; lia).
        rewrite IH by lia. unfold nest_in, nest_end. rewrite S. rewrite (zrange_cons k) by lia. reflexivity.
      * replace (isDone m b (gcell m b (k + 1) t)) with true
          by (symmetry; unfold isDone, gcell; rewrite S, orb_true_iff, !Z.ltb_lt; lia).
        unfold nest_in, nest_end. rewrite S. rewrite (zrange_cons k), zrange_empty by lia.
        replace (k + 1) with (b_width b) by lia. reflexivity.
    + assert (E : nextX m b (gcell m b k t) = gcell m b (k + 1) t).
      { unfold nextX, gcell. rewrite S. destruct (Z.ltb_spec (b_hi b) t); f_equal; lia. }
      rewrite E. destruct (Z_lt_le_dec (k + 1) (b_width b)).
      * replace (isDone m b (gcell m b (k + 1) t)) with false
          by (symmetry; unfold isDone, gcell; rewrite S, orb_false_iff, !Z.ltb_ge, Z.leb_gt; lia).
        rewrite IH by lia. unfold nest_in, nest_end. rewrite S. rewrite (zrange_cons k) by lia. reflexivity.
      * replace (isDone m b (gcell m b (k + 1) t)) with true
          by (symmetry; unfold isDone, gcell; rewrite S, orb_true_iff, !Z.ltb_lt, Z.leb_le; lia).
        unfold nest_in, nest_end. rewrite S. rewrite (zrange_cons k), zrange_empty by lia.
        replace (k + 1) with (b_width b) by lia. reflexivity.
    + assert (E : nextX m b (gcell m b k t) = gcell m b k (t + 1)).
      { unfold nextX, gcell. rewrite S. destruct (Z.ltb_spec (b_width b - 1 - k) 0); f_equal; lia. }
      rewrite E. destruct (Z_lt_le_dec t (b_hi b)).
      * replace (isDone m b (gcell m b k (t + 1))) with false
          by (symmetry; unfold isDone, gcell; rewrite S, orb_false_iff, !Z.ltb_ge; lia).
        rewrite IH by lia. unfold nest_in, nest_end. rewrite S. rewrite (zrange_cons t) by lia. reflexivity.
      * replace (isDone m b (gcell m b k (t + 1))) with true
          by (symmetry; unfold isDone, gcell; rewrite S, orb_true_iff, !Z.ltb_lt; lia).
        unfold nest_in, nest_end. rewrite S. rewrite (zrange_cons t), zrange_empty by lia.
        replace (t + 1) with (b_hi b + 1) by lia. reflexivity.
    + assert (E : nextX m b (gcell m b k t) = gcell m b k (t + 1)).
      { unfold nextX, gcell. rewrite S. destruct (Z.leb_spec (LNy m) (LNy m - b_width b + k)); f_equal; lia. }
      rewrite E. destruct (Z_lt_le_dec t (b_hi b)).
      * replace (isDone m b (gcell m b k (t + 1))) with false
          by (symmetry; unfold isDone, gcell; rewrite S, orb_false_iff, !Z.ltb_ge, Z.leb_gt; lia).
        rewrite IH by lia. unfold nest_in, nest_end. rewrite S. rewrite (zrange_cons t) by lia. reflexivity.
      * replace (isDone m b (gcell m b k (t + 1))) with true
          by (symmetry; unfold isDone, gcell; rewrite S, orb_true_iff, !Z.ltb_lt; lia).
        unfold nest_in, nest_end. rewrite S. rewrite (zrange_cons t), zrange_empty by lia.
        replace (t + 1) with (b_hi b + 1) by lia. reflexivity.
Qed.

(* every grid line from inside out, line after line (x boundaries); for y boundaries the
   roles of the loops are exchanged *)
Definition nested_cells (m : lmesh) (b : breg) (k t : Z) : list pos :=
  match b_side b with
  | XIn | XOut => flat_map (fun t => map (fun k => gcell m b k t) (zrange 0 (b_width b))) (zrange t (b_hi b + 1))
  | YDown | YUp => flat_map (fun k => map (gcell m b k) (zrange (b_lo b) (b_hi b + 1))) (zrange k (b_width b))
  end.

Lemma walk_out_x m b d (F : fits m b d) infuel : 0 < b_width b -> 0 <= d ->
  (b_side b = XIn \/ b_side b = XOut) -> b_width b <= Z.of_nat infuel ->
  forall n t fuel, b_lo b <= t <= b_hi b + 1 -> b_hi b + 1 - t <= Z.of_nat n -> (n <= fuel)%nat ->
  walk_out m b fuel infuel (gcell m b 0 t) = Some (nested_cells m b 0 t).
Proof.
  intros Hw Hd HS Hif n. induction n as [|n IH]; intros t fuel Ht Hn Hf.
  - assert (E : isDone m b (gcell m b 0 t) = true).
    { unfold isDone, gcell. destruct HS as [S|S]; rewrite S, orb_true_iff, !Z.ltb_lt; lia. }
    unfold nested_cells. rewrite (zrange_empty t) by lia.
    destruct fuel; cbn [walk_out]; rewrite E; destruct HS as [S|S]; rewrite S; reflexivity.
  - destruct (Z.eq_dec t (b_hi b + 1)) as [->|Hne]; [apply IH; lia|].
    destruct fuel as [|fuel]; [lia|]. cbn [walk_out].
    assert (E : isDone m b (gcell m b 0 t) = false).
    { unfold isDone, gcell, fits in *. destruct HS as [S|S]; rewrite S in *; rewrite orb_false_iff, ?Z.ltb_ge, ?Z.leb_gt; lia. }
    rewrite E. rewrite (walk_in_spec m b d F Hw Hd infuel 0 t infuel) by (try lia; destruct HS as [S|S]; rewrite S; lia).
    replace (nextY m b (nest_end m b 0 t)) with (gcell m b 0 (t + 1)).
    2:{ unfold nextY, nest_end, gcell. destruct HS as [S|S]; rewrite S.
        - destruct (Z.ltb_spec (b_width b - 1 - b_width b) 0); [|lia]. f_equal; lia.
        - destruct (Z.leb_spec (LNx m) (LNx m - b_width b + b_width b)); [|lia]. f_equal; lia. }
    rewrite IH by lia. unfold nested_cells, nest_in. destruct HS as [S|S]; rewrite S;
    rewrite (zrange_cons t) by lia; reflexivity.
Qed.

Lemma walk_out_y m b d (F : fits m b d) infuel : 0 < b_width b -> 0 <= d -> b_lo b <= b_hi b ->
  (b_side b = YDown \/ b_side b = YUp) -> b_hi b + 1 - b_lo b <= Z.of_nat infuel ->
  forall n k fuel, 0 <= k <= b_width b -> b_width b - k <= Z.of_nat n -> (n <= fuel)%nat ->
  walk_out m b fuel infuel (gcell m b k (b_lo b)) = Some (nested_cells m b k (b_lo b)).
Proof.
  intros Hw Hd Hlh HS Hif n. induction n as [|n IH]; intros k fuel Ht Hn Hf.
  - assert (E : isDone m b (gcell m b k (b_lo b)) = true).
    { unfold isDone, gcell. destruct HS as [S|S]; rewrite S, orb_true_iff, !Z.ltb_lt, ?Z.leb_le; lia. }
    unfold nested_cells. rewrite (zrange_empty k) by lia.
    destruct fuel; cbn [walk_out]; rewrite E; destruct HS as [S|S]; rewrite S; reflexivity.
  - destruct (Z.eq_dec k (b_width b)) as [->|Hne]; [apply IH; lia|].
    destruct fuel as [|fuel]; [lia|]. cbn [walk_out].
    assert (E : isDone m b (gcell m b k (b_lo b)) = false).
    { unfold isDone, gcell, fits in *. destruct HS as [S|S]; rewrite S in *; rewrite orb_false_iff, ?Z.ltb_ge, ?Z.leb_gt; lia. }
    rewrite E. rewrite (walk_in_spec m b d F Hw Hd infuel k (b_lo b) infuel) by (try lia; destruct HS as [S|S]; rewrite S; lia).
    replace (nextY m b (nest_end m b k (b_lo b))) with (gcell m b (k + 1) (b_lo b)).
    2:{ unfold nextY, nest_end, gcell. destruct HS as [S|S]; rewrite S.
        all: destruct (Z.ltb_spec (b_hi b) (b_hi b + 1)); [|lia]; f_equal; lia. }
    rewrite IH by lia. unfold nested_cells, nest_in. destruct HS as [S|S]; rewrite S;
    rewrite (zrange_cons k) by lia; reflexivity.
Qed.

Lemma walk_nested m b d fuel infuel : fits m b d -> 0 < b_width b -> 0 <= d -> b_lo b <= b_hi b ->
  Z.max (b_width b) (b_hi b + 1 - b_lo b) <= Z.of_nat fuel ->
  Z.max (b_width b) (b_hi b + 1 - b_lo b) <= Z.of_nat infuel ->
  walk_out m b fuel infuel (first m b) = Some (nested_cells m b 0 (b_lo b)).
Proof.
  intros F Hw Hd Hlh Hf Hif. rewrite first_gcell.
  destruct (b_side b) eqn:S.
  1,2: apply (walk_out_x m b d F infuel Hw Hd ltac:(auto) ltac:(lia) fuel); lia.
  all: apply (walk_out_y m b d F infuel Hw Hd Hlh ltac:(auto) ltac:(lia) fuel); lia.
Qed.

Lemma in_nested m b p : In p (nested_cells m b 0 (b_lo b)) <-> in_strip m b 0 (b_width b) p.
Proof.
  unfold nested_cells, in_strip. destruct (b_side b) eqn:S.
  all: rewrite in_flat_map; split.
  all: try (intros [u [Hu H]]; apply in_map_iff in H as [v [<- Hv]]; apply in_zrange in Hu; apply in_zrange in Hv; do 2 eexists; (split; [|split; [|reflexivity]]); lia).
  all: intros (k & t & Hk & Ht & ->).
  3,4: exists k; split; [apply in_zrange; lia|]; apply in_map, in_zrange; lia.
  all: exists t; split; [apply in_zrange; lia|]; apply (in_map (fun k => gcell m b k t)), in_zrange; lia.
Qed.

Lemma NoDup_nested m b : NoDup (nested_cells m b 0 (b_lo b)).
Proof.
  unfold nested_cells. destruct (b_side b) eqn:S; apply NoDup_flat; try apply NoDup_zrange.
  all: try (intros a _; apply Injective_map_NoDup; [intros u v E; apply gcell_inj in E; tauto | apply NoDup_zrange]).
  all: intros a a' x _ _ H H'; apply in_map_iff in H as [u [<- _]]; apply in_map_iff in H' as [v [E _]];
    apply gcell_inj in E; intuition.
Qed.

(* order of all_cells and nested_cells on one line *)
Lemma filter_line_map m b t t' l :
  filter (fun p => tang b p =? t) (map (fun k => gcell m b k t') l) =
  if t' =? t then map (fun k => gcell m b k t) l else [].
Proof.
  destruct (Z.eqb_spec t' t) as [->|N].
  - induction l as [|k l IH]; cbn [map filter]; [reflexivity|]. rewrite tang_gcell, Z.eqb_refl, IH. reflexivity.
  - induction l as [|k l IH]; cbn [map filter]; [reflexivity|]. rewrite tang_gcell.
    destruct (Z.eqb_spec t' t); [contradiction|]. exact IH.
Qed.

Lemma filter_zrange_eq {B} (g : Z -> B) (h : Z -> Z) t a c :
  (forall u, h u = u) -> a <= t < c ->
  map g (filter (fun u => h u =? t) (zrange a c)) = [g t].
Proof.
  intros Hh Ht. assert (E : filter (fun u => h u =? t) (zrange a c) = [t]); [|now rewrite E].
  pose proof (NoDup_zrange a c) as N. assert (I : In t (zrange a c)) by (apply in_zrange; lia).
  revert N I. generalize (zrange a c). induction l as [|u l IH]; intros N I; [destruct I|].
  inversion N; subst. cbn [filter]. rewrite Hh. destruct (Z.eqb_spec u t) as [->|Ne].
  - f_equal. clear -H1 Hh. induction l as [|v l IH]; [reflexivity|]. cbn [filter]. rewrite Hh.
    destruct (Z.eqb_spec v t) as [->|]; [exfalso; apply H1; now left|]. apply IH. intros ?; apply H1; now right.
  - destruct I as [->|I]; [contradiction|]. auto.
Qed.

Lemma filter_flat_map {A B} (P : B -> bool) (f : A -> list B) l :
  filter P (flat_map f l) = flat_map (fun a => filter P (f a)) l.
Proof. induction l as [|a l IH]; cbn [flat_map]; [reflexivity|]. rewrite filter_app, IH. reflexivity. Qed.

Lemma flat_map_single {A B} (f : A -> list B) (l : list A) a :
  NoDup l -> In a l -> (forall u, In u l -> u <> a -> f u = []) -> flat_map f l = f a.
Proof.
  intros N I Z. induction l as [|u l IH]; [destruct I|]. inversion N; subst. cbn [flat_map].
  destruct I as [->|I].
  - assert (E : flat_map f l = []).
    { clear IH N. induction l as [|v l IHl]; [reflexivity|]. cbn [flat_map].
      rewrite (Z v); [|right; now left|intros ->; apply H1; now left]. cbn [app]. apply IHl.
      - intros u [->|Hu] Hne; apply Z; [now left|auto|right; now right|auto].
      - intros ?; apply H1; now right.
      - now inversion H2. }
    rewrite E. apply app_nil_r.
  - rewrite (Z u); [|now left|intros ->; auto]. cbn [app]. apply IH; auto. intros; apply Z; auto. now right.
Qed.

Lemma filter_all_cells m b t : b_lo b <= t <= b_hi b ->
  filter (fun p => tang b p =? t) (all_cells m b) = map (fun k => gcell m b k t) (zrange 0 (b_width b)).
Proof.
  intros Ht. unfold all_cells.
  assert (X : flat_map (fun k => filter (fun p => tang b p =? t) (map (gcell m b k) (zrange (b_lo b) (b_hi b + 1)))) (zrange 0 (b_width b))
     = map (fun k => gcell m b k t) (zrange 0 (b_width b))).
  { generalize (zrange 0 (b_width b)). induction l as [|k l IH]; [reflexivity|]. cbn [flat_map map]. rewrite IH.
    change (gcell m b k t :: map (fun k0 => gcell m b k0 t) l) with ([gcell m b k t] ++ map (fun k0 => gcell m b k0 t) l). f_equal.
    assert (G : forall l', filter (fun p => tang b p =? t) (map (gcell m b k) l') = map (gcell m b k) (filter (fun u => u =? t) l')).
    { induction l' as [|v l' IH']; [reflexivity|]. cbn [map filter]. rewrite tang_gcell, IH'. destruct (v =? t); reflexivity. }
    rewrite G. apply (filter_zrange_eq (gcell m b k) (fun u => u)); [reflexivity|lia]. }
  assert (Y : flat_map (fun u => filter (fun p => tang b p =? t) (map (fun k => gcell m b k u) (zrange 0 (b_width b)))) (zrange (b_lo b) (b_hi b + 1))
     = map (fun k => gcell m b k t) (zrange 0 (b_width b))).
  { rewrite (flat_map_single _ _ t); [|apply NoDup_zrange|apply in_zrange; lia|].
    - rewrite filter_line_map, Z.eqb_refl. reflexivity.
    - intros u _ Hne. rewrite filter_line_map. destruct (Z.eqb_spec u t); [contradiction|reflexivity]. }
  destruct (b_side b); rewrite filter_flat_map; assumption.
Qed.

Lemma filter_nested m b t : b_lo b <= t <= b_hi b ->
  filter (fun p => tang b p =? t) (nested_cells m b 0 (b_lo b)) = map (fun k => gcell m b k t) (zrange 0 (b_width b)).
Proof.
  intros Ht. pose proof (filter_all_cells m b t Ht) as A. unfold nested_cells.
  assert (X : flat_map (fun k => filter (fun p => tang b p =? t) (map (gcell m b k) (zrange (b_lo b) (b_hi b + 1)))) (zrange 0 (b_width b))
     = map (fun k => gcell m b k t) (zrange 0 (b_width b))).
  { generalize (zrange 0 (b_width b)). induction l as [|k l IH]; [reflexivity|]. cbn [flat_map map]. rewrite IH.
    change (gcell m b k t :: map (fun k0 => gcell m b k0 t) l) with ([gcell m b k t] ++ map (fun k0 => gcell m b k0 t) l). f_equal.
    assert (G : forall l', filter (fun p => tang b p =? t) (map (gcell m b k) l') = map (gcell m b k) (filter (fun u => u =? t) l')).
    { induction l' as [|v l' IH']; [reflexivity|]. cbn [map filter]. rewrite tang_gcell, IH'. destruct (v =? t); reflexivity. }
    rewrite G. apply (filter_zrange_eq (gcell m b k) (fun u => u)); [reflexivity|lia]. }
  assert (Y : flat_map (fun u => filter (fun p => tang b p =? t) (map (fun k => gcell m b k u) (zrange 0 (b_width b)))) (zrange (b_lo b) (b_hi b + 1))
     = map (fun k => gcell m b k t) (zrange 0 (b_width b))).
  { rewrite (flat_map_single _ _ t); [|apply NoDup_zrange|apply in_zrange; lia|].
    - rewrite filter_line_map, Z.eqb_refl. reflexivity.
    - intros u _ Hne. rewrite filter_line_map. destruct (Z.eqb_spec u t); [contradiction|reflexivity]. }
  destruct (b_side b); rewrite filter_flat_map; assumption.
Qed.
