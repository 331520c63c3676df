(** Field lines: closed exactly in the core. *)
From Coq Require Import ZArith List Bool Lia.
From Verif Require Import Base MeshModel MeshSpec MeshProofs TopoModel TopoSpec TopoProofs.
Open Scope Z_scope.

Lemma steps_app ny s lo up x a : forall b y y', steps_above a ny s lo up x y = Some y' ->
  steps_above (a + b) ny s lo up x y = steps_above b ny s lo up x y'.
Proof.
  induction a as [|a IH]; intros b y y' H; cbn [steps_above Nat.add] in *.
  - now injection H as ->.
  - destruct (above ny s lo up x y) as [y1|]; [|discriminate]. now apply IH.
Qed.

(** A potential that strictly grows along the line excludes closure. *)
Lemma not_closed ny s lo up x (S : Z -> Prop) (phi : Z -> Z) :
  (forall y y', S y -> above ny s lo up x y = Some y' -> S y' /\ phi y < phi y') ->
  forall y, S y -> ~ closed_line ny s lo up x y.
Proof.
  intros H.
  assert (G : forall n y y', S y -> steps_above n ny s lo up x y = Some y' -> phi y <= phi y' /\ ((0 < n)%nat -> phi y < phi y')).
  { induction n as [|n IH]; intros y y' HS E; cbn [steps_above] in E.
    - injection E as ->. split; [lia|]. intros; lia.
    - destruct (above ny s lo up x y) as [y1|] eqn:A; [|discriminate].
      destruct (H _ _ HS A) as [S1 P1]. destruct (IH _ _ S1 E) as [P2 _]. split; [lia|intros; lia]. }
  intros y HS (n & Hn & E). destruct (G _ _ _ HS E) as [_ Q]. specialize (Q Hn). lia.
Qed.

(** Walking up through ordinary points. *)
Lemma steps_plain ny s lo up x : forall n y,
  (forall z, y <= z < y + Z.of_nat n -> above ny s lo up x z = Some (z + 1)) ->
  steps_above n ny s lo up x y = Some (y + Z.of_nat n).
Proof.
  induction n as [|n IH]; intros y H; cbn [steps_above].
  - f_equal. lia.
  - rewrite H by lia. rewrite IH; [f_equal; lia|]. intros z Hz. apply H. lia.
Qed.

Section Lines.
Variables (ny mysub : Z) (s : yseps) (ix1 ix2 x : Z).
Hypothesis O : ordered_seps ny s.
Hypothesis R : regular ny mysub s.
Let lo := ix1.
Let up := x_upper s ix1 ix2.
Definition in_core (y : Z) : Prop :=
  (j11 s < y /\ y <= j21 s) \/ (j12 s < y /\ y <= j22 s).
Definition inner := if is_double s then Z.min ix1 ix2 else ix1.

Ltac ab H := unfold above in H; 
  repeat match type of H with
  | context [?a =? ?b] => let E := fresh "E" in destruct (a =? b) eqn:E; [apply Z.eqb_eq in E|apply Z.eqb_neq in E]; cbn [andb] in H
  | context [?a <? ?b] => let E := fresh "E" in destruct (a <? b) eqn:E; [apply Z.ltb_lt in E|apply Z.ltb_ge in E]; cbn [andb] in H
  end; try discriminate H; try lia.

Lemma core_closed y : x < inner -> in_core y -> closed_line ny s lo up x y.
Proof.
  unfold inner, in_core, up, x_upper. intros Hx Hy. destruct O as (O1 & O2 & O3 & O4 & O5). destruct R as [R1 R2 R3 R4].
  destruct (is_double s) eqn:EN.
  - assert (N : j21 s <> j12 s) by (unfold is_double in EN; bz; assumption). specialize (R4 N). clear R3.
    assert (PL : forall z, (j11 s < z /\ z < j21 s) \/ (j12 s < z /\ z < j22 s) -> above ny s lo ix2 x z = Some (z + 1)).
    { intros z Hz. unfold above. rewrite EN. unfold lo. beq. cbn [andb]. reflexivity. }
    assert (J22 : above ny s lo ix2 x (j22 s) = Some (j11 s + 1)).
    { unfold above, lo. beq. reflexivity. }
    assert (J21 : above ny s lo ix2 x (j21 s) = Some (j12 s + 1)).
    { unfold above. rewrite EN. unfold lo. beq. reflexivity. }
    assert (W1 : forall z, j11 s < z <= j21 s -> steps_above (Z.to_nat (j21 s - z) + 1) ny s lo ix2 x z = Some (j12 s + 1)).
    { intros z Hz. rewrite (steps_app _ _ _ _ _ _ _ _ (j21 s)).
      - cbn [steps_above]. rewrite J21. reflexivity.
      - rewrite steps_plain; [f_equal; lia|]. intros w Hw. apply PL. lia. }
    assert (W2 : forall z, j12 s < z <= j22 s -> steps_above (Z.to_nat (j22 s - z) + 1) ny s lo ix2 x z = Some (j11 s + 1)).
    { intros z Hz. rewrite (steps_app _ _ _ _ _ _ _ _ (j22 s)).
      - cbn [steps_above]. rewrite J22. reflexivity.
      - rewrite steps_plain; [f_equal; lia|]. intros w Hw. apply PL. lia. }
    destruct Hy as [Hy|Hy].
    + exists ((Z.to_nat (j21 s - y) + 1) + ((Z.to_nat (j22 s - (j12 s + 1)) + 1) + Z.to_nat (y - (j11 s + 1))))%nat.
      split; [lia|]. rewrite (steps_app _ _ _ _ _ _ _ _ _ (W1 y Hy)). rewrite (steps_app _ _ _ _ _ _ _ _ _ (W2 (j12 s + 1) ltac:(lia))).
      rewrite steps_plain; [f_equal; lia|]. intros w Hw. apply PL. lia.
    + exists ((Z.to_nat (j22 s - y) + 1) + ((Z.to_nat (j21 s - (j11 s + 1)) + 1) + Z.to_nat (y - (j12 s + 1))))%nat.
      split; [lia|]. rewrite (steps_app _ _ _ _ _ _ _ _ _ (W2 y Hy)). rewrite (steps_app _ _ _ _ _ _ _ _ _ (W1 (j11 s + 1) ltac:(lia))).
      rewrite steps_plain; [f_equal; lia|]. intros w Hw. apply PL. lia.
  - assert (N : j21 s = j12 s) by (unfold is_double in EN; bz; assumption). specialize (R3 N). clear R4.
    assert (PL : forall z, (j11 s < z /\ z < j22 s) -> above ny s lo ix1 x z = Some (z + 1)).
    { intros z Hz. unfold above. rewrite EN. unfold lo. beq. cbn [andb]. reflexivity. }
    assert (J22 : above ny s lo ix1 x (j22 s) = Some (j11 s + 1)).
    { unfold above, lo. beq. reflexivity. }
    exists ((Z.to_nat (j22 s - y)) + (1 + Z.to_nat (y - (j11 s + 1))))%nat.
    split; [lia|]. rewrite (steps_app _ _ _ _ _ _ _ _ (j22 s)).
    + cbn [Nat.add steps_above]. rewrite J22. rewrite steps_plain; [f_equal; lia|]. intros w Hw. apply PL. lia.
    + rewrite steps_plain; [f_equal; lia|]. intros w Hw. apply PL. lia.
Qed.

Lemma outside_open y : 0 <= y < ny -> ~ (x < inner /\ in_core y) -> ~ closed_line ny s lo up x y.
Proof.
  unfold inner, in_core, up, x_upper. intros Hy Hn. destruct O as (O1 & O2 & O3 & O4 & O5). destruct R as [R1 R2 R3 R4].
  destruct (is_double s) eqn:EN.
  - assert (N : j21 s <> j12 s) by (unfold is_double in EN; bz; assumption). specialize (R4 N). clear R3.
    destruct (Z_lt_dec x ix1) as [X1|X1]; destruct (Z_lt_dec x ix2) as [X2|X2].
    + assert (Hc : ~ (j11 s < y <= j21 s \/ j12 s < y <= j22 s)) by (intros Q; apply Hn; split; [lia|exact Q]). clear Hn.
      destruct (Z_le_dec y (j11 s)) as [Y1|Y1]; [|destruct (Z_lt_dec (j22 s) y) as [Y2|Y2]].
      * apply (not_closed _ _ _ _ _ (fun y => y <= j11 s \/ j22 s < y) (fun y => y)); [|lia].
        intros z z' Hz H. unfold above in H. rewrite EN in H. unfold lo in H. ab H; injection H as <-; lia.
      * apply (not_closed _ _ _ _ _ (fun y => y <= j11 s \/ j22 s < y) (fun y => y)); [|lia].
        intros z z' Hz H. unfold above in H. rewrite EN in H. unfold lo in H. ab H; injection H as <-; lia.
      * apply (not_closed _ _ _ _ _ (fun y => j21 s < y <= j12 s) (fun y => if nyin s <=? y then y - ny else y)); [|lia].
        intros z z' Hz H. unfold above in H. rewrite EN in H. unfold lo in H. ab H; injection H as <-; (split; [lia|]);
        repeat match goal with |- context [?a <=? ?b] => let E := fresh "E" in destruct (a <=? b) eqn:E; bz end; lia.
    + destruct (Z_lt_dec (j11 s) y) as [Y1|Y1]; [destruct (Z_le_dec y (j22 s)) as [Y2|Y2]|].
      * apply (not_closed _ _ _ _ _ (fun y => j11 s < y <= j22 s) (fun y => if nyin s <=? y then y - ny else y)); [|lia].
        intros z z' Hz H. unfold above in H. rewrite EN in H. unfold lo in H. ab H; injection H as <-; (split; [lia|]);
        repeat match goal with |- context [?a <=? ?b] => let E := fresh "E" in destruct (a <=? b) eqn:E; bz end; lia.
      * apply (not_closed _ _ _ _ _ (fun y => y <= j11 s \/ j22 s < y) (fun y => y)); [|lia].
        intros z z' Hz H. unfold above in H. rewrite EN in H. unfold lo in H. ab H; injection H as <-; lia.
      * apply (not_closed _ _ _ _ _ (fun y => y <= j11 s \/ j22 s < y) (fun y => y)); [|lia].
        intros z z' Hz H. unfold above in H. rewrite EN in H. unfold lo in H. ab H; injection H as <-; lia.
    + destruct (Z_lt_dec (j21 s) y) as [Y1|Y1]; [destruct (Z_le_dec y (j12 s)) as [Y2|Y2]|].
      * apply (not_closed _ _ _ _ _ (fun y => j21 s < y <= j12 s) (fun y => if nyin s <=? y then y - ny else y)); [|lia].
        intros z z' Hz H. unfold above in H. rewrite EN in H. unfold lo in H. ab H; injection H as <-; (split; [lia|]);
        repeat match goal with |- context [?a <=? ?b] => let E := fresh "E" in destruct (a <=? b) eqn:E; bz end; lia.
      * apply (not_closed _ _ _ _ _ (fun y => y <= j21 s \/ j12 s < y) (fun y => y)); [|lia].
        intros z z' Hz H. unfold above in H. rewrite EN in H. unfold lo in H. ab H; injection H as <-; lia.
      * apply (not_closed _ _ _ _ _ (fun y => y <= j21 s \/ j12 s < y) (fun y => y)); [|lia].
        intros z z' Hz H. unfold above in H. rewrite EN in H. unfold lo in H. ab H; injection H as <-; lia.
    + apply (not_closed _ _ _ _ _ (fun y => True) (fun y => y)); [|exact I].
      intros z z' _ H. unfold above in H. rewrite EN in H. unfold lo in H. ab H; injection H as <-; (split; [exact I|lia]).
  - assert (N : j21 s = j12 s) by (unfold is_double in EN; bz; assumption). specialize (R3 N). clear R4.
    destruct (Z_lt_dec x ix1) as [X1|X1].
    + apply (not_closed _ _ _ _ _ (fun y => y <= j11 s \/ j22 s < y) (fun y => y)); [|lia].
      intros z z' Hz H. unfold above in H. rewrite EN in H. unfold lo in H. ab H; injection H as <-; lia.
    + apply (not_closed _ _ _ _ _ (fun y => True) (fun y => y)); [|exact I].
      intros z z' _ H. unfold above in H. rewrite EN in H. unfold lo in H. ab H; injection H as <-; (split; [exact I|lia]).
Qed.
End Lines.

(** Up and down are inverse. *)
Ltac dec_eq :=
  match goal with |- context [?a =? ?b] =>
    first [replace (a =? b) with true by (symmetry; apply Z.eqb_eq; lia) | replace (a =? b) with false by (symmetry; apply Z.eqb_neq; lia)]; cbn [andb] end.
Ltac no_neq := repeat match goal with H : _ <> _ |- _ => clear H end.
Ltac walk v :=
  repeat match goal with |- (if v =? ?b then _ else _) = _ -> _ => destruct (Z.eqb_spec v b) as [?|?];
    [no_neq; let Q := fresh "Q" in intros Q; try discriminate Q; injection Q as Q; subst|] end.
Section AB.
Context (ny mysub : Z) (s : yseps) (lo up x : Z).
Hypothesis N : (is_double s = true /\ j11 s < j21 s /\ j21 s < nyin s - 1 /\ nyin s - 1 < j12 s /\ j12 s < j22 s) \/
              (is_double s = false /\ j11 s < j22 s).
Hypothesis B : -1 <= j11 s /\ j22 s <= ny - 1 /\ (j11 s = -1 <-> j22 s = ny - 1).
Lemma above_to_below y y' : 0 <= y < ny -> 0 <= y' < ny -> above ny s lo up x y = Some y' -> below ny s lo up x y' = Some y.
Proof.
  intros Hy Hy'. destruct B as (B1 & B2 & B3). unfold above, below.
  destruct (x <? lo); destruct (x <? up); destruct N as [(-> & N1)|(-> & N1)]; cbn [andb]; clear B N;
  (walk y; [..|let Q := fresh "Q" in intros Q; injection Q as <-]); repeat dec_eq; f_equal; lia.
Qed.
Lemma below_to_above y y' : 0 <= y < ny -> 0 <= y' < ny -> below ny s lo up x y = Some y' -> above ny s lo up x y' = Some y.
Proof.
  intros Hy Hy'. destruct B as (B1 & B2 & B3). unfold above, below.
  destruct (x <? lo); destruct (x <? up); destruct N as [(-> & N1)|(-> & N1)]; cbn [andb]; clear B N;
  (walk y; [..|let Q := fresh "Q" in intros Q; injection Q as <-]); repeat dec_eq; f_equal; lia.
Qed.
End AB.
Lemma above_below ny mysub s lo up x y y' : ordered_seps ny s -> regular ny mysub s -> 0 <= y < ny -> 0 <= y' < ny ->
  (above ny s lo up x y = Some y' <-> below ny s lo up x y' = Some y).
Proof.
  intros (O1 & O2 & O3 & O4 & O5) [R1 R2 R3 R4] Hy Hy'.
  assert (N : (is_double s = true /\ j11 s < j21 s /\ j21 s < nyin s - 1 /\ nyin s - 1 < j12 s /\ j12 s < j22 s) \/
              (is_double s = false /\ j11 s < j22 s)).
  { unfold is_double. destruct (j21 s =? j12 s) eqn:E; bz; [right; auto|left; split; [reflexivity|auto]]. }
  assert (B : -1 <= j11 s /\ j22 s <= ny - 1 /\ (j11 s = -1 <-> j22 s = ny - 1)) by (split; [|split]; [lia|lia|exact R2]).
  split; [apply above_to_below; assumption|apply below_to_above; assumption].
Qed.
