(** Packing and unpacking. *)
From Coq Require Import ZArith List Bool Lia FinFun.
From Verif Require Import Base MeshModel MeshSpec MeshProofs TopoModel TopoSpec CommModel CommSpec.
Import ListNotations.
Open Scope Z_scope.

Section P.
Context {V : Type}.
Notation field := (field V).

Lemma zrange_from_len n : forall a, length (zrange_from a n) = n.
Proof. induction n; intros; cbn [zrange_from length]; [reflexivity|rewrite IHn; reflexivity]. Qed.
Lemma zrange_len a b : length (zrange a b) = Z.to_nat (b - a).
Proof. apply zrange_from_len. Qed.
Lemma zrange_from_in n : forall a x, In x (zrange_from a n) <-> a <= x < a + Z.of_nat n.
Proof.
  induction n; intros a x; cbn [zrange_from In].
  - lia.
  - rewrite IHn. lia.
Qed.
Lemma zrange_in a b x : In x (zrange a b) <-> a <= x < b.
Proof. unfold zrange. rewrite zrange_from_in. lia. Qed.
Lemma zrange_from_nodup n : forall a, NoDup (zrange_from a n).
Proof. induction n; intros a; cbn [zrange_from]; constructor; [rewrite zrange_from_in; lia|apply IHn]. Qed.
Lemma zrange_from_shift n d : forall a, zrange_from (a + d) n = map (fun x => x + d) (zrange_from a n).
Proof.
  induction n; intros a; cbn [zrange_from map]; [reflexivity|]. f_equal.
  replace (a + d + 1) with (a + 1 + d) by lia. apply IHn.
Qed.
Lemma zrange_shift a b d : zrange (a + d) (b + d) = map (fun x => x + d) (zrange a b).
Proof. unfold zrange. replace (b + d - (a + d)) with (b - a) by lia. apply zrange_from_shift. Qed.

Lemma flat_map_map {A B C} (f : A -> B) (g : B -> list C) l : flat_map g (map f l) = flat_map (fun x => g (f x)) l.
Proof. induction l; cbn [flat_map map]; [reflexivity|]. now rewrite IHl. Qed.
Lemma map_flat_map {A B C} (f : A -> list B) (g : B -> C) l : map g (flat_map f l) = flat_map (fun x => map g (f x)) l.
Proof. induction l; cbn [flat_map map]; [reflexivity|]. now rewrite map_app, IHl. Qed.
Lemma flat_map_length_const {A B} (f : A -> list B) n l : (forall a, length (f a) = n) -> length (flat_map f l) = (length l * n)%nat.
Proof. intros H. induction l; cbn [flat_map length]; [reflexivity|]. rewrite app_length, H, IHl. cbn. reflexivity. Qed.
Lemma NoDup_app' {A} (l1 l2 : list A) : NoDup l1 -> NoDup l2 -> (forall x, In x l1 -> ~ In x l2) -> NoDup (l1 ++ l2).
Proof.
  induction l1; cbn [app]; intros H1 H2 H; [exact H2|]. inversion H1; subst. constructor.
  - rewrite in_app_iff. intros [?|?]; [auto|]. apply (H a); [now left|assumption].
  - apply IHl1; auto. intros x Hx. apply H. now right.
Qed.
Lemma NoDup_flat_map {A B} (f : A -> list B) (key : B -> A) l : NoDup l -> (forall a, NoDup (f a)) ->
  (forall a b, In b (f a) -> key b = a) -> NoDup (flat_map f l).
Proof.
  intros N Hf K. induction N; cbn [flat_map]; [constructor|]. apply NoDup_app'; auto.
  intros b Hb Hc. apply in_flat_map in Hc as (a & Ha & Hc). apply K in Hb, Hc. subst. subst. contradiction.
Qed.

Lemma cells_in nz d3 x0 x1 y0 y1 x y z : In (x, y, z) (cells nz d3 x0 x1 y0 y1) <->
  x0 <= x < x1 /\ y0 <= y < y1 /\ (if d3 then 0 <= z < nz else z = 0).
Proof.
  unfold cells. rewrite in_flat_map. split.
  - intros (a & Ha & H). rewrite in_flat_map in H. destruct H as (b & Hb & H). apply in_map_iff in H as (c & E & Hc).
    injection E as <- <- <-. rewrite zrange_in in *. repeat split; try lia. destruct d3.
    + now rewrite zrange_in in Hc.
    + destruct Hc as [<-|[]]. reflexivity.
  - intros (Hx & Hy & Hz). exists x. rewrite zrange_in. split; [lia|]. rewrite in_flat_map. exists y. rewrite zrange_in.
    split; [lia|]. apply in_map. destruct d3; [now rewrite zrange_in|subst; now left].
Qed.
Lemma cells_nodup nz d3 x0 x1 y0 y1 : NoDup (cells nz d3 x0 x1 y0 y1).
Proof.
  unfold cells. apply NoDup_flat_map with (key := fun c => fst (fst c)).
  - apply zrange_from_nodup.
  - intros a. apply NoDup_flat_map with (key := fun c => snd (fst c)).
    + apply zrange_from_nodup.
    + intros b. apply Injective_map_NoDup; [intros u v E; now injection E|].
      destruct d3; [apply zrange_from_nodup|constructor; [tauto|constructor]].
    + intros b c H. apply in_map_iff in H as (? & <- & _). reflexivity.
  - intros a c H. apply in_flat_map in H as (b & _ & H). apply in_map_iff in H as (? & <- & _). reflexivity.
Qed.
Lemma cells_len nz d3 x0 x1 y0 y1 : 0 <= nz -> x0 <= x1 -> y0 <= y1 ->
  Z.of_nat (length (cells nz d3 x0 x1 y0 y1)) = if d3 then (x1 - x0) * (y1 - y0) * nz else (x1 - x0) * (y1 - y0).
Proof.
  intros Hn Hx Hy. unfold cells.
  rewrite (flat_map_length_const _ (Z.to_nat (y1 - y0) * (if d3 then Z.to_nat nz else 1%nat))%nat).
  - rewrite zrange_len. rewrite !Nat2Z.inj_mul. destruct d3; rewrite ?Z2Nat.id by lia; lia.
  - intros a. rewrite (flat_map_length_const _ (if d3 then Z.to_nat nz else 1%nat)).
    + rewrite zrange_len. reflexivity.
    + intros b. rewrite map_length. destruct d3; [rewrite zrange_len, Z.sub_0_r|]; reflexivity.
Qed.
Definition sh (dx dy : Z) (c : Z * Z * Z) : Z * Z * Z := match c with (x, y, z) => (x + dx, y + dy, z) end.
Lemma cells_shift nz d3 x0 x1 y0 y1 dx dy :
  cells nz d3 (x0 + dx) (x1 + dx) (y0 + dy) (y1 + dy) = map (sh dx dy) (cells nz d3 x0 x1 y0 y1).
Proof.
  unfold cells. rewrite !zrange_shift, flat_map_map, map_flat_map. apply flat_map_ext. intros a.
  rewrite flat_map_map, map_flat_map. apply flat_map_ext. intros b. rewrite map_map. reflexivity.
Qed.

Definition rd (v : field) (c : Z * Z * Z) : V := match c with (x, y, z) => dat v x y z end.
Lemma unpack_cells_spec buf cs : forall (f : Z -> Z -> Z -> V) len, NoDup cs ->
  snd (unpack_cells buf cs f len) = len + Z.of_nat (length cs) /\
  (forall x y z, ~ In (x, y, z) cs -> fst (unpack_cells buf cs f len) x y z = f x y z) /\
  (forall i x y z, nth_error cs i = Some (x, y, z) -> fst (unpack_cells buf cs f len) x y z = buf (len + Z.of_nat i)).
Proof.
  induction cs as [|c cs IH]; intros f len N; cbn [unpack_cells fst snd length].
  - split; [lia|]. split; [reflexivity|]. intros [|i] x y z H; discriminate.
  - inversion N as [|? ? N1 N2]; subst. destruct (IH (set_cell f c (buf len)) (len + 1) N2) as (A & B & D).
    split; [rewrite A; lia|]. split.
    + intros x y z H. rewrite B by (intros K; apply H; now right). destruct c as [[cx cy] cz]. unfold set_cell.
      destruct (x =? cx) eqn:E1, (y =? cy) eqn:E2, (z =? cz) eqn:E3; cbn [andb]; try reflexivity.
      exfalso. apply H. left. bz. subst. reflexivity.
    + intros [|i] x y z H.
      * injection H as ->. rewrite B by exact N1. unfold set_cell. rewrite !Z.eqb_refl. cbn [andb]. f_equal. lia.
      * cbn [nth_error] in H. rewrite (D _ _ _ _ H). f_equal. lia.
Qed.

(** Total length of a packed region. *)
Definition plen (nz : Z) (sh : list bool) (x0 x1 y0 y1 : Z) : Z :=
  fold_right (fun (d3 : bool) n => (if d3 then (x1 - x0) * (y1 - y0) * nz else (x1 - x0) * (y1 - y0)) + n) 0 sh.
Lemma msg_len_plen nz (vs : list field) x0 x1 y0 y1 : msg_len nz vs x0 x1 y0 y1 = plen nz (map is3D vs) x0 x1 y0 y1.
Proof.
  unfold msg_len, plen.
  assert (G : forall l a, fold_left (fun len v => if is3D v then len + (x1 - x0) * (y1 - y0) * nz else len + (x1 - x0) * (y1 - y0)) l a
    = a + fold_right (fun (d3 : bool) n => (if d3 then (x1 - x0) * (y1 - y0) * nz else (x1 - x0) * (y1 - y0)) + n) 0 (map (@is3D V) l)).
  { induction l as [|v l IH]; intros a; cbn [fold_left map fold_right]; [lia|]. rewrite IH. destruct (is3D v); lia. }
  rewrite G. lia.
Qed.
Definition packed (nz : Z) (vs : list field) (x0 x1 y0 y1 : Z) : list V :=
  flat_map (fun v => map (rd v) (cells nz (is3D v) x0 x1 y0 y1)) vs.
Lemma pack_ok nz vs x0 x1 y0 y1 : x0 <= x1 -> pack_data nz vs x0 x1 y0 y1 = Ok (packed nz vs x0 x1 y0 y1).
Proof.
  intros H. unfold pack_data. destruct vs; [reflexivity|]. destruct (x1 <? x0) eqn:E; bz; [lia|]. reflexivity.
Qed.
Lemma packed_len nz vs x0 x1 y0 y1 : 0 <= nz -> x0 <= x1 -> y0 <= y1 ->
  Z.of_nat (length (packed nz vs x0 x1 y0 y1)) = plen nz (map is3D vs) x0 x1 y0 y1.
Proof.
  intros Hn Hx Hy. unfold packed, plen. induction vs as [|v vs IH]; cbn [flat_map map fold_right length]; [reflexivity|].
  rewrite app_length, Nat2Z.inj_add, IH, map_length, cells_len by assumption. reflexivity.
Qed.
Lemma plen_shift nz s x0 x1 y0 y1 dx dy : plen nz s (x0 + dx) (x1 + dx) (y0 + dy) (y1 + dy) = plen nz s x0 x1 y0 y1.
Proof. unfold plen. replace (x1 + dx - (x0 + dx)) with (x1 - x0) by lia. replace (y1 + dy - (y0 + dy)) with (y1 - y0) by lia. reflexivity. Qed.
Lemma plen_empty nz s x y0 y1 : plen nz s x x y0 y1 = 0.
Proof. unfold plen. induction s as [|b s IH]; cbn [fold_right]; [reflexivity|]. rewrite IH. destruct b; lia. Qed.

Definition inreg (x0 x1 y0 y1 x y : Z) : bool := (x0 <=? x) && (x <? x1) && (y0 <=? y) && (y <? y1).
Lemma inreg_iff x0 x1 y0 y1 x y : inreg x0 x1 y0 y1 x y = true <-> x0 <= x < x1 /\ y0 <= y < y1.
Proof. unfold inreg. rewrite !andb_true_iff, !Z.leb_le, !Z.ltb_lt. tauto. Qed.

(** Unpacking a packed congruent region copies the values and touches nothing else. *)
Lemma unpack_spec nz x0 x1 y0 y1 dx dy buf : 0 <= nz -> x0 <= x1 -> y0 <= y1 -> forall (vs ws : list field) len,
  map is3D vs = map is3D ws ->
  (forall i, (i < length (packed nz ws (x0 + dx) (x1 + dx) (y0 + dy) (y1 + dy)))%nat ->
     Some (buf (len + Z.of_nat i)) = nth_error (packed nz ws (x0 + dx) (x1 + dx) (y0 + dy) (y1 + dy)) i) ->
  let r := unpack_vars nz vs x0 x1 y0 y1 buf len in
  map is3D (fst r) = map is3D vs /\
  (forall k x y z, val (fst r) k x y z =
     if inreg x0 x1 y0 y1 x y && zok nz vs k z then val ws k (x + dx) (y + dy) z else val vs k x y z).
Proof.
  intros Hn Hx Hy. induction vs as [|v vs IH]; intros [|w ws] len HS HB; try discriminate.
  - cbn [unpack_vars fst map]. split; [reflexivity|]. intros k x y z. unfold val, zok. destruct k; cbn [nth_error]; destruct (inreg x0 x1 y0 y1 x y); reflexivity.
  - cbn [map] in HS. injection HS as HS1 HS2.
    cbn [unpack_vars fst snd map].
    destruct (unpack_cells_spec buf (cells nz (is3D v) x0 x1 y0 y1) (dat v) len (cells_nodup _ _ _ _ _ _)) as (A & B & D).
    set (r1 := unpack_cells buf (cells nz (is3D v) x0 x1 y0 y1) (dat v) len) in *.
    assert (L1 : length (cells nz (is3D v) x0 x1 y0 y1) = length (map (rd w) (cells nz (is3D w) (x0 + dx) (x1 + dx) (y0 + dy) (y1 + dy)))).
    { rewrite map_length, cells_shift, map_length, HS1. reflexivity. }
    specialize (IH ws (snd r1) HS2).
    assert (HB2 : forall i, (i < length (packed nz ws (x0 + dx) (x1 + dx) (y0 + dy) (y1 + dy)))%nat ->
       Some (buf (snd r1 + Z.of_nat i)) = nth_error (packed nz ws (x0 + dx) (x1 + dx) (y0 + dy) (y1 + dy)) i).
    { intros i Hi. specialize (HB (length (cells nz (is3D v) x0 x1 y0 y1) + i)%nat). cbn [packed flat_map] in HB.
      rewrite app_length in HB. rewrite nth_error_app2 in HB by lia. rewrite L1 in HB.
      replace (length (map (rd w) (cells nz (is3D w) (x0 + dx) (x1 + dx) (y0 + dy) (y1 + dy))) + i - length (map (rd w) (cells nz (is3D w) (x0 + dx) (x1 + dx) (y0 + dy) (y1 + dy))))%nat with i in HB by lia.
      rewrite A. rewrite <- Z.add_assoc, <- Nat2Z.inj_add, L1. apply HB. unfold packed in Hi. lia. }
    specialize (IH HB2). cbn zeta in IH. destruct IH as [IS IV].
    split; [rewrite IS; reflexivity|].
    intros [|k] x y z.
    + unfold val, zok. cbn [nth_error]. cbn [dat].
      destruct (inreg x0 x1 y0 y1 x y && (if is3D v then (0 <=? z) && (z <? nz) else z =? 0)) eqn:E.
      * assert (I : In (x, y, z) (cells nz (is3D v) x0 x1 y0 y1)).
        { apply cells_in. apply andb_true_iff in E as [E1 E2]. apply inreg_iff in E1. split; [lia|]. split; [lia|].
          destruct (is3D v); bz; lia. }
        apply In_nth_error in I as [i Hi]. rewrite (D _ _ _ _ Hi).
        assert (Hl : (i < length (cells nz (is3D v) x0 x1 y0 y1))%nat) by (apply nth_error_Some; congruence).
        specialize (HB i). cbn [packed flat_map] in HB. rewrite app_length in HB. rewrite nth_error_app1 in HB by lia.
        rewrite HB by lia. rewrite cells_shift, map_map, <- HS1, nth_error_map, Hi. reflexivity.
      * rewrite B; [reflexivity|]. intros I. apply cells_in in I as (I1 & I2 & I3).
        assert (inreg x0 x1 y0 y1 x y = true) by (apply inreg_iff; lia). rewrite H in E. cbn [andb] in E.
        destruct (is3D v); bz; lia.
    + unfold val, zok in *. cbn [nth_error]. apply IV.
Qed.

Lemma val_shape (vs ws : list field) : map is3D vs = map is3D ws -> forall nz k z, zok nz vs k z = zok nz ws k z.
Proof.
  intros H nz k z. unfold zok. assert (E : nth_error (map is3D vs) k = nth_error (map is3D ws) k) by now rewrite H.
  rewrite !nth_error_map in E. destruct (nth_error vs k), (nth_error ws k); cbn [option_map] in E; try discriminate; [|reflexivity].
  injection E as ->. reflexivity.
Qed.

Lemma unpack_data_ok nz (vs : list field) x0 x1 y0 y1 buf : x0 <= x1 ->
  exists n, unpack_data nz vs x0 x1 y0 y1 buf = Ok (fst (unpack_vars nz vs x0 x1 y0 y1 buf 0), n).
Proof.
  intros H. unfold unpack_data. destruct vs; [exists 0; reflexivity|].
  destruct (x1 <? x0) eqn:E; bz; [lia|]. eexists. rewrite <- surjective_pairing. reflexivity.
Qed.

Lemma write_buf_at (buf : Z -> V) off data i : (i < length data)%nat ->
  Some (write_buf buf off data (off + Z.of_nat i)) = nth_error data i.
Proof.
  intros H. unfold write_buf. destruct (off + Z.of_nat i <? off) eqn:E; bz; [lia|].
  replace (Z.to_nat (off + Z.of_nat i - off)) with i by lia. symmetry. apply nth_error_nth'. exact H.
Qed.
End P.
