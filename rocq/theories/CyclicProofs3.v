(** Assembly: from the processors' interface equations to the whole system. *)
From Coq Require Import List Arith Bool Lia Permutation Field.
From Verif Require Import Base CyclicModel CyclicSpec CyclicProofs CyclicProofs2.
Import ListNotations.

(** ** Distributed lists *)
Fixpoint off (size : nat -> nat) (p : nat) : nat :=
  match p with O => 0 | S q => off size q + size q end.

Lemma distributed_S : forall {A} n size (f : nat -> nat -> A),
  distributed (S n) size f = distributed n size f ++ map (f n) (seq 0 (size n)).
Proof.
  intros. unfold distributed. rewrite seq_S, flat_map_app. cbn [flat_map Nat.add]. rewrite app_nil_r. reflexivity.
Qed.
Lemma distributed_len : forall {A} n size (f : nat -> nat -> A), length (distributed n size f) = off size n.
Proof.
  intros A n size f. induction n as [|n IH]; [reflexivity|].
  rewrite distributed_S, app_length, IH, map_length, seq_length. reflexivity.
Qed.
Lemma off_mono : forall size p q, p <= q -> off size p <= off size q.
Proof. intros size p q H. induction H; [lia|]. cbn [off]. lia. Qed.
Lemma distributed_nth : forall {A} n size (f : nat -> nat -> A) p i, p < n -> i < size p ->
  nth_error (distributed n size f) (off size p + i) = Some (f p i).
Proof.
  intros A n size f p i. induction n as [|n IH]; intros Hp Hi; [lia|].
  rewrite distributed_S. destruct (Nat.eq_dec p n) as [->|Hne].
  - rewrite nth_error_app2 by (rewrite distributed_len; lia). rewrite distributed_len.
    replace (off size n + i - off size n) with i by lia. apply nth_error_map_seq. exact Hi.
  - rewrite nth_error_app1; [apply IH; lia|].
    rewrite distributed_len. pose proof (off_mono size (S p) n ltac:(lia)). cbn [off] in H. lia.
Qed.
Lemma off_find : forall size n k, k < off size n -> exists p i, p < n /\ i < size p /\ k = off size p + i.
Proof.
  intros size. induction n as [|n IH]; intros k Hk; [cbn [off] in Hk; lia|]. cbn [off] in Hk.
  destruct (le_lt_dec (off size n) k) as [Hle|Hlt].
  - exists n, (k - off size n). lia.
  - destruct (IH k Hlt) as (p & i & Hp & Hi & E). exists p, i. lia.
Qed.
Lemma distributed_map : forall {A B} (g : A -> B) n size (f : nat -> nat -> A),
  map g (distributed n size f) = distributed n size (fun p i => g (f p i)).
Proof.
  intros A B g n size f. induction n as [|n IH]; [reflexivity|].
  rewrite !distributed_S, map_app, IH, map_map. reflexivity.
Qed.

Section P.
Variable F : Type.
Variables (f0 f1 : F) (fadd fmul fsub fdiv : F -> F -> F) (fopp finv : F -> F).
Variable tiny : F -> bool.
Hypothesis Fth : field_theory f0 f1 fadd fmul fsub fopp fdiv finv (@eq F).
Hypothesis tiny0 : tiny f0 = true.
Add Field Ff3 : Fth.

Local Infix "+!" := fadd (at level 50, left associativity).
Local Infix "-!" := fsub (at level 50, left associativity).
Local Infix "*!" := fmul (at level 40, left associativity).
Local Infix "/!" := fdiv (at level 40, left associativity).

Notation reduce := (reduce1 F f0 fmul fsub fdiv fopp tiny).
Notation bsolve := (back_solve1 F f0 fmul fsub fdiv).
Notation eqnF := (eqn F fadd fmul).

(** Neighbours across processors. *)
Definition gleft (per : bool) (P : nat) (nloc : nat -> nat) (x : nat -> nat -> F) (p i : nat) : F :=
  match i with
  | S k => x p k
  | O => match p with
         | S q => x q (nloc q - 1)
         | O => if per then x (P - 1) (nloc (P - 1) - 1) else f0
         end
  end.
Definition gright (per : bool) (P : nat) (nloc : nat -> nat) (x : nat -> nat -> F) (p i : nat) : F :=
  if S i =? nloc p
  then (if S p =? P then (if per then x 0 0 else f0) else x (S p) 0)
  else x p (S i).

Definition gsolves (per : bool) (P : nat) (nloc : nat -> nat) (co x : nat -> nat -> F) : Prop :=
  forall p i, p < P -> i < nloc p -> eqnF (co p) i (gleft per P nloc x p i) (x p i) (gright per P nloc x p i).

Lemma inner_of_rows : forall co n (y : nat -> F),
  inner F fadd fmul co n y <-> (forall i, 0 < i -> S i < n -> eqnF co i (y (i - 1)) (y i) (y (i + 1))).
Proof. reflexivity. Qed.

Lemma eqn_row : forall (W : nat -> F) i (v : nat -> F) l x r,
  W (4 * i) = v 0 -> W (4 * i + 1) = v 1 -> W (4 * i + 2) = v 2 -> W (4 * i + 3) = v 3 ->
  eqnF W i l x r <-> v 0 *! l +! v 1 *! x +! v 2 *! r = v 3.
Proof. intros W i v l x r H0 H1 H2 H3. unfold eqn. rewrite H0, H1, H2, H3. reflexivity. Qed.

Section One.
Variables (per : bool) (P : nat) (nloc : nat -> nat) (co : nat -> nat -> F).
Variables (vp : nat -> nat -> F) (W v : nat -> F).
Hypothesis HP : 1 <= P.
Hypothesis Hvp : forall p, p < P -> reduce (nloc p) (co p) = Ok (vp p).
Hypothesis HW : forall p j, p < P -> j < 8 -> W (8 * p + j) = vp p j.
Hypothesis Hv : reduce (2 * P) W = Ok v.

Lemma W_up : forall p l x r, p < P ->
  (eqnF W (2 * p) l x r <-> vp p 0 *! l +! vp p 1 *! x +! vp p 2 *! r = vp p 3).
Proof.
  intros p l x r Hp. apply (eqn_row W (2 * p) (vp p)).
  - rewrite <- (HW p 0) by lia. f_equal. lia.
  - rewrite <- (HW p 1) by lia. f_equal. lia.
  - rewrite <- (HW p 2) by lia. f_equal. lia.
  - rewrite <- (HW p 3) by lia. f_equal. lia.
Qed.
Lemma W_lo : forall p l x r, p < P ->
  (eqnF W (2 * p + 1) l x r <-> vp p 4 *! l +! vp p 5 *! x +! vp p 6 *! r = vp p 7).
Proof.
  intros p l x r Hp. apply (eqn_row W (2 * p + 1) (fun j => vp p (4 + j))); cbn [Nat.add].
  - rewrite <- (HW p 4) by lia. f_equal. lia.
  - rewrite <- (HW p 5) by lia. f_equal. lia.
  - rewrite <- (HW p 6) by lia. f_equal. lia.
  - rewrite <- (HW p 7) by lia. f_equal. lia.
Qed.

Lemma assemble : forall x1 xn g xa X gg xxa x,
  bsolve (2 * P) W x1 xn g xa = Ok X ->
  (forall p, p < P -> bsolve (nloc p) (co p) (X (2 * p)) (X (2 * p + 1)) (gg p) (xxa p) = Ok (x p)) ->
  v 0 *! (if per then xn else f0) +! v 1 *! x1 +! v 2 *! xn = v 3 ->
  v 4 *! x1 +! v 5 *! xn +! v 6 *! (if per then x1 else f0) = v 7 ->
  gsolves per P nloc co x /\ x 0 0 = x1 /\ x (P - 1) (nloc (P - 1) - 1) = xn.
Proof.
  intros x1 xn g xa X gg xxa x HX Hx E1 E2.
  destruct (back_solve1_ends _ _ _ _ _ _ _ _ _ _ _ _ HX) as (HX0 & HXn).
  assert (Hends : forall p, p < P -> x p 0 = X (2 * p) /\ x p (nloc p - 1) = X (2 * p + 1)).
  { intros p Hp. exact (back_solve1_ends _ _ _ _ _ _ _ _ _ _ _ _ (Hx p Hp)). }
  assert (Hfirst : x 0 0 = x1).
  { destruct (Hends 0 ltac:(lia)) as (-> & _). exact HX0. }
  assert (Hlast : x (P - 1) (nloc (P - 1) - 1) = xn).
  { destruct (Hends (P - 1) ltac:(lia)) as (_ & ->). rewrite <- HXn. f_equal. lia. }
  split; [|split; assumption].
  pose proof (back_solve1_spec _ _ _ _ _ _ _ _ _ _ Fth tiny0 _ _ _ _ _ _ _ _ Hv HX) as HinX.
  destruct (reduce1_spec _ _ _ _ _ _ _ _ _ _ Fth tiny0 _ _ _ X Hv HinX) as (_ & HXup & HXlo).
  rewrite HX0, HXn in HXup, HXlo.
  assert (Rup : forall p, p < P -> eqnF W (2 * p)
     (match p with O => if per then xn else f0 | S q => X (2 * q + 1) end) (X (2 * p)) (X (2 * p + 1))).
  { intros p Hp. destruct p as [|q].
    - replace (2 * 0) with 0 by lia. rewrite HX0. apply HXup. exact E1.
    - specialize (HinX (2 * S q) ltac:(lia) ltac:(lia)).
      replace (2 * S q - 1) with (2 * q + 1) in HinX by lia. exact HinX. }
  assert (Rlo : forall p, p < P -> eqnF W (2 * p + 1) (X (2 * p)) (X (2 * p + 1))
     (if S p =? P then (if per then x1 else f0) else X (2 * S p))).
  { intros p Hp. destruct (S p =? P) eqn:E.
    - apply Nat.eqb_eq in E. pose proof (proj1 (HXlo (if per then x1 else f0)) E2) as H.
      replace (2 * P - 1) with (2 * p + 1) in H by lia. replace (2 * P - 2) with (2 * p) in H by lia.
      rewrite <- HXn in H. replace (2 * P - 1) with (2 * p + 1) in H by lia. exact H.
    - apply Nat.eqb_neq in E. specialize (HinX (2 * p + 1) ltac:(lia) ltac:(lia)).
      replace (2 * p + 1 - 1) with (2 * p) in HinX by lia.
      replace (2 * p + 1 + 1) with (2 * S p) in HinX by lia. exact HinX. }
  intros p i Hp Hi.
  pose proof (back_solve1_spec _ _ _ _ _ _ _ _ _ _ Fth tiny0 _ _ _ _ _ _ _ _ (Hvp p Hp) (Hx p Hp)) as Hin.
  destruct (reduce1_spec _ _ _ _ _ _ _ _ _ _ Fth tiny0 _ _ _ (x p) (Hvp p Hp) Hin) as (Hn & Hup & Hlo).
  destruct (Hends p Hp) as (Hx0 & Hxn).
  destruct i as [|k].
  - assert (Hr : gright per P nloc x p 0 = x p 1).
    { unfold gright. replace (1 =? nloc p) with false by (symmetry; apply Nat.eqb_neq; lia). reflexivity. }
    rewrite Hr. apply Hup. rewrite Hx0, Hxn. apply W_up; [exact Hp|].
    specialize (Rup p Hp). destruct p as [|q]; cbn [gleft].
    + rewrite Hlast. exact Rup.
    + destruct (Hends q ltac:(lia)) as (_ & ->). exact Rup.
  - cbn [gleft]. unfold gright. destruct (S (S k) =? nloc p) eqn:E.
    + apply Nat.eqb_eq in E. replace (S k) with (nloc p - 1) by lia. replace k with (nloc p - 2) by lia.
      apply Hlo. rewrite Hx0, Hxn. apply W_lo; [exact Hp|].
      specialize (Rlo p Hp). destruct (S p =? P) eqn:Ep.
      * rewrite Hfirst. exact Rlo.
      * apply Nat.eqb_neq in Ep. destruct (Hends (S p) ltac:(lia)) as (-> & _). exact Rlo.
    + apply Nat.eqb_neq in E. specialize (Hin (S k) ltac:(lia) ltac:(lia)).
      replace (S k - 1) with k in Hin by lia. replace (S k + 1) with (S (S k)) in Hin by lia. exact Hin.
Qed.
End One.

(** ** The homogeneous system *)
Lemma hom_solution : forall (per : bool) P nloc co vp W v z1 zn,
  1 <= P ->
  (forall p, p < P -> reduce (nloc p) (co p) = Ok (vp p)) ->
  (forall p j, p < P -> j < 8 -> W (8 * p + j) = vp p j) ->
  reduce (2 * P) W = Ok v ->
  v 0 *! (if per then zn else f0) +! v 1 *! z1 +! v 2 *! zn = f0 ->
  v 4 *! z1 +! v 5 *! zn +! v 6 *! (if per then z1 else f0) = f0 ->
  exists z, gsolves per P nloc (fun p => zero_rhs F f0 (co p)) z /\ z 0 0 = z1 /\ z (P - 1) (nloc (P - 1) - 1) = zn.
Proof.
  intros per P nloc co vp W v z1 zn HP Hvp HW Hv E1 E2.
  destruct (reduce1_zero _ _ _ _ _ _ _ _ _ _ Fth tiny0 _ _ _ Hv) as (v' & Hv' & Hvv).
  destruct (back_solve1_ok F f0 fmul fsub fdiv (2 * P) (zero_rhs F f0 W) z1 zn (fun _ => f0) (fun _ => f0) ltac:(lia))
    as (Z & HZ).
  assert (Hvp' : forall p, p < P -> reduce (nloc p) (zero_rhs F f0 (co p))
            = Ok (match reduce (nloc p) (zero_rhs F f0 (co p)) with Ok w => w | _ => fun _ : nat => f0 end)).
  { intros p Hp. destruct (reduce1_zero _ _ _ _ _ _ _ _ _ _ Fth tiny0 _ _ _ (Hvp p Hp)) as (w & -> & _). reflexivity. }
  assert (HW' : forall p j, p < P -> j < 8 -> zero_rhs F f0 W (8 * p + j)
            = (match reduce (nloc p) (zero_rhs F f0 (co p)) with Ok w => w | _ => fun _ : nat => f0 end) j).
  { intros p j Hp Hj. destruct (reduce1_zero _ _ _ _ _ _ _ _ _ _ Fth tiny0 _ _ _ (Hvp p Hp)) as (w & -> & Hw).
    rewrite Hw by exact Hj. unfold zero_rhs.
    replace ((8 * p + j) mod 4) with (j mod 4).
    - rewrite HW by assumption. reflexivity.
    - replace (8 * p + j) with (j + (2 * p) * 4) by lia. rewrite Nat.mod_add by lia. reflexivity. }
  assert (Hz : forall p, p < P -> 2 <= nloc p).
  { intros p Hp. specialize (Hvp p Hp). unfold reduce1 in Hvp.
    destruct (nloc p <? 2) eqn:E; [discriminate|]. apply Nat.ltb_ge in E. exact E. }
  pose (z := fun p => match bsolve (nloc p) (zero_rhs F f0 (co p)) (Z (2 * p)) (Z (2 * p + 1)) (fun _ => f0) (fun _ => f0)
                      with Ok w => w | _ => fun _ : nat => f0 end).
  exists z.
  refine (assemble per P nloc (fun p => zero_rhs F f0 (co p)) _ (zero_rhs F f0 W) v' HP Hvp' HW' Hv'
            z1 zn (fun _ : nat => f0) (fun _ : nat => f0) Z (fun _ _ : nat => f0) (fun _ _ : nat => f0) z HZ _ _ _).
  - intros p Hp. unfold z.
    destruct (back_solve1_ok F f0 fmul fsub fdiv (nloc p) (zero_rhs F f0 (co p)) (Z (2 * p)) (Z (2 * p + 1))
                (fun _ => f0) (fun _ => f0) (Hz p Hp)) as (w & ->). reflexivity.
  - rewrite !Hvv by lia. exact E1.
  - rewrite !Hvv by lia. exact E2.
Qed.

(** ** Relation to the specification *)
Definition row_of (co : nat -> F) (i : nat) : trow F := Row (co (4 * i)) (co (4 * i + 1)) (co (4 * i + 2)) (co (4 * i + 3)).

Lemma nth_nth_error : forall {A} (l : list A) n d a, nth_error l n = Some a -> nth n l d = a.
Proof.
  intros A. induction l as [|h t IH]; intros [|n] d a H; try discriminate; cbn [nth_error] in H; cbn [nth].
  - injection H as <-. reflexivity.
  - apply IH. exact H.
Qed.

Lemma left_dist : forall (per : bool) P nloc x p i, p < P -> (forall q, q < P -> 2 <= nloc q) -> i < nloc p ->
  left_of F f0 per (distributed P nloc x) (off nloc p + i) = gleft per P nloc x p i.
Proof.
  intros per P nloc x p i Hp Hn Hi. unfold left_of, gleft.
  destruct i as [|k].
  - destruct p as [|q].
    + cbn [off Nat.add]. destruct per; [|reflexivity].
      destruct P as [|P']; [lia|]. rewrite distributed_S.
      replace (S P' - 1) with P' by lia. specialize (Hn P' ltac:(lia)).
      destruct (nloc P') as [|m] eqn:Em; [lia|]. rewrite seq_S, map_app. cbn [map Nat.add].
      rewrite app_assoc, last_last. f_equal. lia.
    + cbn [off]. specialize (Hn q ltac:(lia)) as Hq.
      replace (off nloc q + nloc q + 0) with (S (off nloc q + (nloc q - 1))) by lia.
      apply nth_nth_error. apply distributed_nth; lia.
  - replace (off nloc p + S k) with (S (off nloc p + k)) by lia.
    apply nth_nth_error. apply distributed_nth; lia.
Qed.

Lemma right_dist : forall (per : bool) P nloc x p i, p < P -> (forall q, q < P -> 2 <= nloc q) -> i < nloc p ->
  right_of F f0 per (distributed P nloc x) (off nloc p + i) = gright per P nloc x p i.
Proof.
  intros per P nloc x p i Hp Hn Hi. unfold right_of, gright. rewrite distributed_len.
  destruct (S i =? nloc p) eqn:E.
  - apply Nat.eqb_eq in E. destruct (S p =? P) eqn:Ep.
    + apply Nat.eqb_eq in Ep. subst P.
      replace (S (off nloc p + i) =? off nloc (S p)) with true by (symmetry; apply Nat.eqb_eq; cbn [off]; lia).
      destruct per; [|reflexivity].
      pose proof (distributed_nth (S p) nloc x 0 0 ltac:(lia)) as H.
      specialize (Hn 0 ltac:(lia)). specialize (H ltac:(lia)). cbn [off Nat.add] in H.
      destruct (distributed (S p) nloc x) as [|h t]; [discriminate|]. cbn [nth_error] in H. injection H as ->. reflexivity.
    + apply Nat.eqb_neq in Ep.
      pose proof (off_mono nloc (S (S p)) P ltac:(lia)) as Hm. cbn [off] in Hm.
      specialize (Hn (S p) ltac:(lia)) as Hq.
      replace (S (off nloc p + i) =? off nloc P) with false by (symmetry; apply Nat.eqb_neq; lia).
      apply nth_nth_error. replace (S (off nloc p + i)) with (off nloc (S p) + 0) by (cbn [off]; lia).
      apply distributed_nth; lia.
  - apply Nat.eqb_neq in E. pose proof (off_mono nloc (S p) P ltac:(lia)) as Hm. cbn [off] in Hm.
    replace (S (off nloc p + i) =? off nloc P) with false by (symmetry; apply Nat.eqb_neq; lia).
    apply nth_nth_error. replace (S (off nloc p + i)) with (off nloc p + S i) by lia.
    apply distributed_nth; lia.
Qed.

Lemma gsolves_solves : forall (per : bool) P nloc co x, (forall q, q < P -> 2 <= nloc q) ->
  gsolves per P nloc co x ->
  solves F f0 fadd fmul per (distributed P nloc (fun p i => row_of (co p) i)) (distributed P nloc x).
Proof.
  intros per P nloc co x Hn H. split; [rewrite !distributed_len; reflexivity|].
  intros k r Hk.
  assert (Hlt : k < off nloc P).
  { rewrite <- (distributed_len P nloc (fun p i => row_of (co p) i)). apply nth_error_Some. rewrite Hk. discriminate. }
  apply off_find in Hlt. destruct Hlt as (p & i & Hp & Hi & ->).
  rewrite distributed_nth in Hk by assumption. injection Hk as <-. cbn [row_of ra rb rc rr].
  rewrite left_dist, right_dist by assumption.
  rewrite (nth_nth_error _ _ f0 _ (distributed_nth P nloc x p i Hp Hi)).
  apply H; assumption.
Qed.

(** ** The 2x2 system *)
Definition det2 (per : bool) (v : nat -> F) : F :=
  v 1 *! v 5 -! (if per then v 2 +! v 0 else v 2) *! (if per then v 4 +! v 6 else v 4).

Lemma solve2x2_eq : forall (per : bool) v x1 xn,
  det2 per v <> f0 -> solve2x2 F fadd fmul fsub fdiv fopp per v = (x1, xn) ->
  v 0 *! (if per then xn else f0) +! v 1 *! x1 +! v 2 *! xn = v 3 /\
  v 4 *! x1 +! v 5 *! xn +! v 6 *! (if per then x1 else f0) = v 7.
Proof.
  intros per v x1 xn Hd H. unfold solve2x2 in H. injection H as <- <-. unfold det2 in Hd.
  destruct per; split; field; exact Hd.
Qed.

Lemma nonsing_det : forall (per : bool) P nloc co vp W v,
  1 <= P ->
  (forall p, p < P -> reduce (nloc p) (co p) = Ok (vp p)) ->
  (forall p j, p < P -> j < 8 -> W (8 * p + j) = vp p j) ->
  reduce (2 * P) W = Ok v ->
  nonsingular F f0 fadd fmul per (distributed P nloc (fun p i => row_of (co p) i)) ->
  det2 per v <> f0.
Proof.
  intros per P nloc co vp W v HP Hvp HW Hv Hns Hd.
  assert (Hz : forall p, p < P -> 2 <= nloc p).
  { intros p Hp. specialize (Hvp p Hp). unfold reduce1 in Hvp.
    destruct (nloc p <? 2) eqn:E; [discriminate|]. apply Nat.ltb_ge in E. exact E. }
  assert (Hker : forall z1 zn,
    v 0 *! (if per then zn else f0) +! v 1 *! z1 +! v 2 *! zn = f0 ->
    v 4 *! z1 +! v 5 *! zn +! v 6 *! (if per then z1 else f0) = f0 -> z1 = f0 /\ zn = f0).
  { intros z1 zn E1 E2.
    destruct (hom_solution per P nloc co vp W v z1 zn HP Hvp HW Hv E1 E2) as (z & Hg & Hz1 & Hzn).
    apply gsolves_solves in Hg; [|exact Hz].
    assert (Hall : Forall (fun a => a = f0) (distributed P nloc z)).
    { apply Hns. rewrite distributed_map.
      replace (distributed P nloc (fun p i => Row (ra (row_of (co p) i)) (rb (row_of (co p) i)) (rc (row_of (co p) i)) f0))
        with (distributed P nloc (fun p i => row_of (zero_rhs F f0 (co p)) i)); [exact Hg|].
      unfold distributed. apply flat_map_ext. intros p. apply map_ext. intros i. unfold row_of. cbn [ra rb rc].
      rewrite zr_0, !zr_other, zr_3 by lia. reflexivity. }
    rewrite Forall_forall in Hall. split.
    - rewrite <- Hz1. apply Hall. apply (nth_error_In _ (off nloc 0 + 0)). specialize (Hz 0 ltac:(lia)).
      apply distributed_nth; lia.
    - rewrite <- Hzn. apply Hall. apply (nth_error_In _ (off nloc (P - 1) + (nloc (P - 1) - 1))).
      specialize (Hz (P - 1) ltac:(lia)). apply distributed_nth; lia. }
  unfold det2 in Hd.
  set (b := if per then v 2 +! v 0 else v 2) in *. set (c := if per then v 4 +! v 6 else v 4) in *.
  assert (Hker' : forall z1 zn, v 1 *! z1 +! b *! zn = f0 -> c *! z1 +! v 5 *! zn = f0 -> z1 = f0 /\ zn = f0).
  { intros z1 zn E1 E2. apply Hker.
    - transitivity (v 1 *! z1 +! b *! zn); [unfold b; destruct per; ring|exact E1].
    - transitivity (c *! z1 +! v 5 *! zn); [unfold c; destruct per; ring|exact E2]. }
  assert (Had : v 1 *! v 5 = b *! c).
  { transitivity (v 1 *! v 5 -! b *! c +! b *! c); [ring|]. rewrite Hd. ring. }
  destruct (Hker' (v 5) (fopp c)) as (H5 & Hc).
  { transitivity (v 1 *! v 5 -! b *! c); [ring|exact Hd]. }
  { ring. }
  destruct (Hker' b (fopp (v 1))) as (Hb & H1).
  { ring. }
  { transitivity (fopp (v 1 *! v 5 -! b *! c)); [ring|]. rewrite Hd. ring. }
  assert (Hc' : c = f0). { transitivity (fopp (fopp c)); [ring|]. rewrite Hc. ring. }
  assert (H1' : v 1 = f0). { transitivity (fopp (fopp (v 1))); [ring|]. rewrite H1. ring. }
  destruct (Hker' f1 f0) as (H10 & _).
  { rewrite H1'. ring. }
  { rewrite Hc'. ring. }
  apply (F_1_neq_0 Fth). exact H10.
Qed.
End P.
