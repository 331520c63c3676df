(** One exchange delivers exactly the neighbours' cells. *)
From Coq Require Import ZArith List Bool Lia FinFun Permutation.
From Verif Require Import Base MeshModel MeshSpec MeshProofs TopoModel TopoSpec CommModel CommSpec CommProofs.
Import ListNotations.
Open Scope Z_scope.

Record comm_ok (npes : Z) (M : Z -> mesh) (C : Z -> conn) (mx my mxg myg : Z) : Prop := {
  k_mx : 0 <= mx; k_my : 0 <= my; k_mxg : 0 <= mxg; k_myg : 0 <= myg;
  k_sizes : forall r, 0 <= r < npes -> MXG (M r) = mxg /\ MYG (M r) = myg /\ MXSUB (M r) = mx /\ MYSUB (M r) = my
     /\ LocalNx (M r) = mx + 2 * mxg /\ LocalNy (M r) = my + 2 * myg;
  k_match : messages_match npes C;
  k_us : forall r, 0 <= r < npes -> 0 <= U_XSPLIT (C r) <= mx + 2 * mxg /\ 0 <= D_XSPLIT (C r) <= mx + 2 * mxg;
  k_dest : forall r d, 0 <= r < npes -> In d [U_IN (C r); U_OUT (C r); D_IN (C r); D_OUT (C r); I_DEST (C r); O_DEST (C r)] -> d <> -1 -> 0 <= d < npes;
  k_uin : forall r, 0 <= r < npes -> U_IN (C r) = -1 -> U_XSPLIT (C r) = 0 \/ U_OUT (C r) = -1;
  k_din : forall r, 0 <= r < npes -> D_IN (C r) = -1 -> D_XSPLIT (C r) = 0 \/ D_OUT (C r) = -1
}.

Section P.
Context {V : Type}.
Notation field := (field V).
Context (npes : Z) (M : Z -> mesh) (C : Z -> conn) (mx my mxg myg nz : Z) (K : comm_ok npes M C mx my mxg myg) (Hnz : 0 <= nz).

Definition y0 (o : mode) := if corners o then 0 else myg.
Definition y1 (o : mode) := if corners o then my + 2 * myg else myg + my.
Definition reg (o : mode) (r : Z) (i : nat) (x y : Z) : bool :=
  match i with
  | O => inreg 0 (U_XSPLIT (C r)) (my + myg) (my + 2 * myg) x y
  | 1%nat => inreg (U_XSPLIT (C r)) (mx + 2 * mxg) (my + myg) (my + 2 * myg) x y
  | 2%nat => inreg 0 (D_XSPLIT (C r)) 0 myg x y
  | 3%nat => inreg (D_XSPLIT (C r)) (mx + 2 * mxg) 0 myg x y
  | 4%nat => inreg 0 mxg (y0 o) (y1 o) x y
  | _ => inreg (mx + mxg) (mx + 2 * mxg) (y0 o) (y1 o) x y
  end.
Definition src (r : Z) (i : nat) : Z :=
  match i with
  | O => U_IN (C r) | 1%nat => U_OUT (C r) | 2%nat => D_IN (C r) | 3%nat => D_OUT (C r) | 4%nat => I_DEST (C r) | _ => O_DEST (C r)
  end.
Definition dx (i : nat) : Z := match i with 4%nat => mx | 5%nat => - mx | _ => 0 end.
Definition dy (i : nat) : Z := match i with 0%nat | 1%nat => - my | 2%nat | 3%nat => my | _ => 0 end.

Definition opt_msg (d t : Z) (x : list V) : list (msg V) := if d =? -1 then [] else [(d, t, x)].
Lemma send_one_ok dest tag (d : list V) : send_one dest tag (Ok d) = Ok (opt_msg dest tag d).
Proof. unfold send_one, opt_msg. destruct (dest =? -1); reflexivity. Qed.

Definition snd_x (o : mode) (r : Z) (vs : list field) : list (msg V) :=
  opt_msg (I_DEST (C r)) IN_SENT_OUT (packed nz vs mxg (2 * mxg) (y0 o) (y1 o)) ++
  opt_msg (O_DEST (C r)) OUT_SENT_IN (packed nz vs mx (mx + mxg) (y0 o) (y1 o)).
Definition snd_y (r : Z) (vs : list field) : list (msg V) :=
  opt_msg (U_IN (C r)) IN_SENT_UP (packed nz vs 0 (U_XSPLIT (C r)) my (my + myg)) ++
  opt_msg (U_OUT (C r)) OUT_SENT_UP (packed nz vs (U_XSPLIT (C r)) (mx + 2 * mxg) my (my + myg)) ++
  opt_msg (D_IN (C r)) IN_SENT_DOWN (packed nz vs 0 (D_XSPLIT (C r)) myg (2 * myg)) ++
  opt_msg (D_OUT (C r)) OUT_SENT_DOWN (packed nz vs (D_XSPLIT (C r)) (mx + 2 * mxg) myg (2 * myg)).

Lemma send_all_ok o r (vs : list field) : 0 <= r < npes ->
  send_all o (M r) (C r) nz vs = Ok ((if does_x o then snd_x o r vs else []) ++ (if does_y o then snd_y r vs else [])).
Proof.
  intros Hr. destruct (k_sizes _ _ _ _ _ _ _ K r Hr) as (E1 & E2 & E3 & E4 & E5 & E6). destruct (k_us _ _ _ _ _ _ _ K r Hr).
  pose proof (k_mx _ _ _ _ _ _ _ K). pose proof (k_mxg _ _ _ _ _ _ _ K).
  assert (X : sendX (M r) (C r) nz vs (corners o) = Ok (snd_x o r vs)).
  { unfold sendX. rewrite E1, E2, E3, E4, E6. rewrite !pack_ok by lia. rewrite !send_one_ok. reflexivity. }
  assert (Y : sendY (M r) (C r) nz vs = Ok (snd_y r vs)).
  { unfold sendY. rewrite E2, E4, E5. rewrite !pack_ok by lia. rewrite !send_one_ok. reflexivity. }
  unfold send_all. rewrite X, Y. destruct (does_x o), (does_y o); reflexivity.
Qed.

Lemma find_app (a b : list (msg V)) me tag :
  find_msg (a ++ b) me tag = match find_msg a me tag with Some d => Some d | None => find_msg b me tag end.
Proof. induction a as [|[[d t] x] a IH]; cbn [app find_msg]; [reflexivity|]. destruct ((d =? me) && (t =? tag)); [reflexivity|exact IH]. Qed.
Lemma find_opt d t (x : list V) me tag : me <> -1 -> find_msg (opt_msg d t x) me tag =
  if (d =? me) && (t =? tag) then Some x else None.
Proof.
  intros H. unfold opt_msg. destruct (d =? -1) eqn:E; bz; cbn [find_msg]; [|reflexivity].
  destruct (d =? me) eqn:E2; bz; [lia|reflexivity].
Qed.

Context (W : Z -> list field) (HW : same_fields npes W).

(** The data matching request [i] of rank [r]. *)
Definition rx (o : mode) (r : Z) (i : nat) : list V :=
  match i with
  | O => packed nz (W (src r i)) 0 (U_XSPLIT (C r)) myg (2 * myg)
  | 1%nat => packed nz (W (src r i)) (U_XSPLIT (C r)) (mx + 2 * mxg) myg (2 * myg)
  | 2%nat => packed nz (W (src r i)) 0 (D_XSPLIT (C r)) my (my + myg)
  | 3%nat => packed nz (W (src r i)) (D_XSPLIT (C r)) (mx + 2 * mxg) my (my + myg)
  | 4%nat => packed nz (W (src r i)) mx (mx + mxg) (y0 o) (y1 o)
  | _ => packed nz (W (src r i)) mxg (2 * mxg) (y0 o) (y1 o)
  end.
Definition tag (i : nat) : Z :=
  match i with O => IN_SENT_DOWN | 1%nat => OUT_SENT_DOWN | 2%nat => IN_SENT_UP | 3%nat => OUT_SENT_UP | 4%nat => OUT_SENT_IN | _ => IN_SENT_OUT end.
Definition dir_ok (o : mode) (i : nat) : Prop := if (i <? 4)%nat then does_y o = true else does_x o = true.

Lemma found o r i : 0 <= r < npes -> (i < 6)%nat -> src r i <> -1 -> dir_ok o i ->
  0 <= src r i < npes /\ find_msg (sent_by o M C nz W (src r i)) r (tag i) = Some (rx o r i).
Proof.
  intros Hr Hi Hs Hd.
  assert (Hq : 0 <= src r i < npes).
  { apply (k_dest _ _ _ _ _ _ _ K r); [exact Hr| |exact Hs]. destruct i as [|[|[|[|[|[|]]]]]]; cbn [src In]; tauto. }
  split; [exact Hq|].
  unfold sent_by. rewrite (send_all_ok o _ _ Hq).
  destruct (k_match _ _ _ _ _ _ _ K r (src r i) Hr Hq) as (A1 & A2 & A3 & A4).
  destruct (k_match _ _ _ _ _ _ _ K (src r i) r Hq Hr) as (B1 & B2 & B3 & B4).
  assert (Hm : r <> -1) by lia.
  assert (FX : tag i = 0 \/ tag i = 1 \/ tag i = 2 \/ tag i = 3 -> find_msg (if does_x o then snd_x o (src r i) (W (src r i)) else []) r (tag i) = None).
  { intros T. destruct (does_x o); [|reflexivity]. unfold snd_x. rewrite find_app, !find_opt by assumption.
    unfold IN_SENT_OUT, OUT_SENT_IN. destruct (4 =? tag i) eqn:E4; [apply Z.eqb_eq in E4; clear - E4 T; lia|]. destruct (5 =? tag i) eqn:E5; [apply Z.eqb_eq in E5; clear - E5 T; lia|].
    rewrite !andb_false_r. reflexivity. }
  rewrite find_app.
  destruct i as [|[|[|[|[|[|]]]]]]; try (exfalso; clear - Hi; lia); unfold dir_ok in Hd; cbn [Nat.ltb Nat.leb] in Hd.
  1-4: rewrite FX by (unfold tag, IN_SENT_UP, OUT_SENT_UP, IN_SENT_DOWN, OUT_SENT_DOWN; clear; lia); rewrite Hd; unfold snd_y;
       rewrite !find_app, !find_opt by assumption; cbn [src] in *;
       unfold tag, IN_SENT_UP, OUT_SENT_UP, IN_SENT_DOWN, OUT_SENT_DOWN; cbn [Z.eqb Pos.eqb]; rewrite ?andb_false_r, ?andb_true_r.
  5-6: rewrite Hd; unfold snd_x; rewrite !find_app, !find_opt by assumption; cbn [src] in *;
       unfold tag, IN_SENT_OUT, OUT_SENT_IN; cbn [Z.eqb Pos.eqb]; rewrite ?andb_false_r, ?andb_true_r.
  all: unfold rx, src in *.
  - rewrite (proj2 (Z.eqb_eq (D_IN (C (U_IN (C r)))) r)) by tauto. rewrite A3 by tauto. reflexivity.
  - rewrite (proj2 (Z.eqb_eq (D_OUT (C (U_OUT (C r)))) r)) by tauto. rewrite A3 by tauto. reflexivity.
  - rewrite (proj2 (Z.eqb_eq (U_IN (C (D_IN (C r)))) r)) by tauto. rewrite B3 by tauto. reflexivity.
  - rewrite (proj2 (Z.eqb_eq (U_OUT (C (D_OUT (C r)))) r)) by tauto. rewrite B3 by tauto. reflexivity.
  - rewrite (proj2 (Z.eqb_eq (O_DEST (C (I_DEST (C r)))) r)) by tauto. reflexivity.
  - rewrite (proj2 (Z.eqb_eq (I_DEST (C (O_DEST (C r)))) r)) by tauto. reflexivity.
Qed.

Lemma complete_ok o r i (junk : Z -> V) vs : 0 <= r < npes -> (i < 6)%nat -> src r i <> -1 -> dir_ok o i ->
  map is3D vs = map is3D (W 0) ->
  exists vs', complete o (M r) (C r) nz r (W r) junk (sent_by o M C nz W) i vs = Ok vs' /\
    map is3D vs' = map is3D (W 0) /\
    forall k x y z, val vs' k x y z =
      if reg o r i x y && zok nz (W r) k z then val (W (src r i)) k (x + dx i) (y + dy i) z else val vs k x y z.
Proof.
  intros Hr Hi Hs Hd HV.
  destruct (found o r i Hr Hi Hs Hd) as [Hq HF].
  destruct (k_sizes _ _ _ _ _ _ _ K r Hr) as (E1 & E2 & E3 & E4 & E5 & E6). destruct (k_us _ _ _ _ _ _ _ K r Hr) as [HU HD].
  pose proof (k_mx _ _ _ _ _ _ _ K). pose proof (k_mxg _ _ _ _ _ _ _ K). pose proof (k_my _ _ _ _ _ _ _ K). pose proof (k_myg _ _ _ _ _ _ _ K).
  pose proof (k_uin _ _ _ _ _ _ _ K r Hr) as KU. pose proof (k_din _ _ _ _ _ _ _ K r Hr) as KD.
  pose proof (HW r Hr) as SR. pose proof (HW (src r i) Hq) as SQ.
  assert (HY : y0 o <= y1 o) by (unfold y0, y1; destruct (corners o); lia).
  assert (YR : y1 o - y0 o = if corners o then my + 2 * myg else my) by (unfold y0, y1; destruct (corners o); lia).
  (* generic conclusion for one region *)
  assert (G : forall a b c d da db buf, a <= b -> c <= d ->
     (forall j, (j < length (packed nz (W (src r i)) (a + da) (b + da) (c + db) (d + db)))%nat ->
       Some (buf (Z.of_nat j)) = nth_error (packed nz (W (src r i)) (a + da) (b + da) (c + db) (d + db)) j) ->
     exists vs', (do x <- unpack_data nz vs a b c d buf; Ok (fst x)) = Ok vs' /\ map is3D vs' = map is3D (W 0) /\
       forall k x y z, val vs' k x y z = if inreg a b c d x y && zok nz (W r) k z then val (W (src r i)) k (x + da) (y + db) z else val vs k x y z).
  { intros a b c d da db buf Hab Hcd HB. destruct (unpack_data_ok nz vs a b c d buf Hab) as [n ->]. cbn [bind fst].
    eexists. split; [reflexivity|].
    destruct (unpack_spec nz a b c d da db buf Hnz Hab Hcd vs (W (src r i)) 0 ltac:(congruence) HB) as [S1 S2].
    split; [congruence|]. intros k x y z. rewrite S2. rewrite (val_shape vs (W r)) by congruence. reflexivity. }
  unfold complete. rewrite E1, E2, E3, E4, E5, E6.
  assert (RS : rq_src (post_receive o (M r) (C r) nz (W r) i) = src r i).
  { destruct i as [|[|[|[|[|[|]]]]]]; try lia; reflexivity. }
  assert (RT : rq_tag (post_receive o (M r) (C r) nz (W r) i) = tag i).
  { destruct i as [|[|[|[|[|[|]]]]]]; try lia; reflexivity. }
  rewrite RS, RT, HF.
  assert (LEN : Z.of_nat (length (rx o r i)) = rq_len (post_receive o (M r) (C r) nz (W r) i)).
  { unfold rx, post_receive. rewrite E1, E2, E4, E5, E6.
    destruct i as [|[|[|[|[|[|]]]]]]; try lia; cbn [rq_len]; rewrite packed_len, msg_len_plen, SR, SQ by lia; unfold plen;
      repeat match goal with |- context [?u * (?p - ?q) * nz] => first [constr_eq q 0; fail 1 | replace (p - q) with (if corners o then my + 2 * myg else my) by (rewrite <- YR; lia) | replace (p - q) with myg by lia] end;
      rewrite ?Z.sub_0_r; try (replace (2 * myg - myg) with myg by lia); try (replace (my + myg - my) with myg by lia);
      try (rewrite YR); try (replace (mx + mxg - mx) with mxg by lia);  try (replace (2 * mxg - mxg) with mxg by lia); reflexivity. }
  destruct (Z.of_nat (length (rx o r i)) >? rq_len (post_receive o (M r) (C r) nz (W r) i)) eqn:EL; [bz; lia|].
  assert (OFFU : src r i = U_OUT (C r) -> (if U_IN (C r) =? -1 then 0 else msg_len nz (W r) 0 (U_XSPLIT (C r)) 0 myg) = msg_len nz vs 0 (U_XSPLIT (C r)) 0 myg).
  { intros E. rewrite !msg_len_plen, SR, HV. destruct (U_IN (C r) =? -1) eqn:EU; bz; [|reflexivity].
    destruct (KU EU) as [->|]; [rewrite plen_empty; reflexivity|lia]. }
  assert (OFFD : src r i = D_OUT (C r) -> (if D_IN (C r) =? -1 then 0 else msg_len nz (W r) 0 (D_XSPLIT (C r)) 0 myg) = msg_len nz vs 0 (D_XSPLIT (C r)) 0 myg).
  { intros E. rewrite !msg_len_plen, SR, HV. destruct (D_IN (C r) =? -1) eqn:EU; bz; [|reflexivity].
    destruct (KD EU) as [->|]; [rewrite plen_empty; reflexivity|lia]. }
  clear EL LEN RS RT HF.
  destruct i as [|[|[|[|[|[|]]]]]]; try lia; cbn [post_receive rq_off reg dx dy rx src] in *.
  - apply (G 0 (U_XSPLIT (C r)) (my + myg) (my + 2 * myg) 0 (- my)); [lia|lia|].
    replace (0 + 0) with 0 by lia. replace (U_XSPLIT (C r) + 0) with (U_XSPLIT (C r)) by lia.
    replace (my + myg + - my) with myg by lia. replace (my + 2 * myg + - my) with (2 * myg) by lia.
    intros j Hj. apply (write_buf_at junk 0). exact Hj.
  - apply (G (U_XSPLIT (C r)) (mx + 2 * mxg) (my + myg) (my + 2 * myg) 0 (- my)); [lia|lia|].
    rewrite !Z.add_0_r. replace (my + myg + - my) with myg by lia. replace (my + 2 * myg + - my) with (2 * myg) by lia.
    intros j Hj. rewrite E2. rewrite (OFFU eq_refl). apply write_buf_at. exact Hj.
  - apply (G 0 (D_XSPLIT (C r)) 0 myg 0 my); [lia|lia|].
    replace (0 + 0) with 0 by lia. replace (D_XSPLIT (C r) + 0) with (D_XSPLIT (C r)) by lia.
    replace (0 + my) with my by lia. replace (myg + my) with (my + myg) by lia.
    intros j Hj. apply (write_buf_at junk 0). exact Hj.
  - apply (G (D_XSPLIT (C r)) (mx + 2 * mxg) 0 myg 0 my); [lia|lia|].
    rewrite !Z.add_0_r. replace (0 + my) with my by lia. replace (myg + my) with (my + myg) by lia.
    intros j Hj. rewrite E2. rewrite (OFFD eq_refl). apply write_buf_at. exact Hj.
  - apply (G 0 mxg (y0 o) (y1 o) mx 0); [lia|lia|].
    rewrite !Z.add_0_r. replace (0 + mx) with mx by lia. replace (mxg + mx) with (mx + mxg) by lia.
    intros j Hj. apply (write_buf_at junk 0). exact Hj.
  - replace (mx + 2 * mxg) with (mx + 2 * mxg) by lia.
    apply (G (mx + mxg) (mx + 2 * mxg) (y0 o) (y1 o) (- mx) 0); [lia|lia|].
    rewrite !Z.add_0_r. replace (mx + mxg + - mx) with mxg by lia. replace (mx + 2 * mxg + - mx) with (2 * mxg) by lia.
    intros j Hj. apply (write_buf_at junk 0). exact Hj.
Qed.

Definition live (o : mode) (r : Z) (i : nat) : Prop := (i < 6)%nat /\ src r i <> -1 /\ dir_ok o i.
Lemma wait_ok o r junk : 0 <= r < npes -> forall order vs, Forall (live o r) order -> map is3D vs = map is3D (W 0) ->
  exists vs', wait_all o (M r) (C r) nz r (W r) junk (sent_by o M C nz W) order vs = Ok vs' /\ map is3D vs' = map is3D (W 0) /\
    forall k x y z,
      ((zok nz (W r) k z = false \/ forall i, In i order -> reg o r i x y = false) -> val vs' k x y z = val vs k x y z) /\
      (forall i, In i order -> (forall j, In j order -> reg o r j x y = true -> j = i) -> reg o r i x y = true -> zok nz (W r) k z = true ->
         val vs' k x y z = val (W (src r i)) k (x + dx i) (y + dy i) z).
Proof.
  intros Hr. induction order as [|i order IH]; intros vs HL HS.
  - exists vs. split; [reflexivity|]. split; [exact HS|]. intros k x y z. split; [reflexivity|]. intros i [].
  - inversion HL as [|? ? [L1 [L2 L3]] HL']; subst.
    destruct (complete_ok o r i junk vs Hr L1 L2 L3 HS) as (vs1 & E & S1 & V1).
    destruct (IH vs1 HL' S1) as (vs2 & E2 & S2 & V2).
    exists vs2. cbn [wait_all]. rewrite E. cbn [bind]. rewrite E2. split; [reflexivity|]. split; [exact S2|].
    intros k x y z. destruct (V2 k x y z) as [Q1 Q2]. split.
    + intros [HZ|HN].
      * rewrite Q1 by now left. rewrite V1, HZ, andb_false_r. reflexivity.
      * rewrite Q1 by (right; intros j Hj; apply HN; now right). rewrite V1, (HN i) by now left. reflexivity.
    + intros j Hj HU HR HZ.
      destruct (in_dec Nat.eq_dec j order) as [Hin|Hni].
      * apply Q2; try assumption. intros j' Hj'. apply HU. now right.
      * destruct Hj as [->|Hj]; [|contradiction]. rewrite Q1.
        -- rewrite V1, HR, HZ. reflexivity.
        -- right. intros j' Hj'. destruct (reg o r j' x y) eqn:ER; [|reflexivity].
           specialize (HU j' (or_intror Hj') ER). subst. contradiction.
Qed.

Lemma pending_live o r i : 0 <= r < npes -> (In i (pending o (M r) (C r) nz (W r)) <-> live o r i).
Proof.
  intros Hr. unfold pending, live, dir_ok. rewrite filter_In, in_app_iff.
  assert (RS : forall j, (j < 6)%nat -> rq_src (post_receive o (M r) (C r) nz (W r) j) = src r j).
  { intros j Hj. destruct j as [|[|[|[|[|[|]]]]]]; try (exfalso; clear - Hj; lia); reflexivity. }
  split.
  - intros [H1 H2]. assert (Hi : (i < 6)%nat).
    { destruct H1 as [H1|H1]; [destruct (does_y o)|destruct (does_x o)]; cbn [In] in H1; lia. }
    rewrite (RS i Hi) in H2. apply negb_true_iff, Z.eqb_neq in H2. split; [exact Hi|]. split; [exact H2|].
    destruct H1 as [H1|H1].
    + destruct (does_y o) eqn:E; [|destruct H1]. destruct (i <? 4)%nat eqn:E4; [reflexivity|]. apply Nat.ltb_ge in E4. cbn [In] in H1. lia.
    + destruct (does_x o) eqn:E; [|destruct H1]. destruct (i <? 4)%nat eqn:E4; [|reflexivity]. apply Nat.ltb_lt in E4. cbn [In] in H1. lia.
  - intros (Hi & Hs & Hd). rewrite (RS i Hi). split; [|apply negb_true_iff, Z.eqb_neq; exact Hs].
    destruct (i <? 4)%nat eqn:E4; rewrite Hd.
    + left. apply Nat.ltb_lt in E4. cbn [In]. lia.
    + right. apply Nat.ltb_ge in E4. cbn [In]. lia.
Qed.

Lemma reg_iff o r i x y : reg o r i x y = true <->
  match i with
  | O => 0 <= x < U_XSPLIT (C r) /\ my + myg <= y < my + 2 * myg
  | 1%nat => U_XSPLIT (C r) <= x < mx + 2 * mxg /\ my + myg <= y < my + 2 * myg
  | 2%nat => 0 <= x < D_XSPLIT (C r) /\ 0 <= y < myg
  | 3%nat => D_XSPLIT (C r) <= x < mx + 2 * mxg /\ 0 <= y < myg
  | 4%nat => 0 <= x < mxg /\ y0 o <= y < y1 o
  | _ => mx + mxg <= x < mx + 2 * mxg /\ y0 o <= y < y1 o
  end.
Proof. destruct i as [|[|[|[|[|]]]]]; unfold reg; apply inreg_iff. Qed.

Lemma disjoint o r i j x y : live o r i -> live o r j -> reg o r i x y = true -> reg o r j x y = true -> i = j.
Proof.
  intros (I1 & _ & I2) (J1 & _ & J2) Ri Rj. apply reg_iff in Ri, Rj. unfold dir_ok in I2, J2.
  pose proof (k_mx _ _ _ _ _ _ _ K). pose proof (k_my _ _ _ _ _ _ _ K).
  assert (HY : does_y o = true -> y0 o = myg /\ y1 o = myg + my) by (unfold y0, y1; destruct o; [intros; split; reflexivity|discriminate|intros; split; reflexivity]).
  clear K HW.
  destruct i as [|[|[|[|[|[|]]]]]]; try (exfalso; clear - I1; lia); destruct j as [|[|[|[|[|[|]]]]]]; try (exfalso; clear - J1; lia);
    try reflexivity; exfalso; cbn [Nat.ltb Nat.leb] in I2, J2; try (destruct (HY I2)); try (destruct (HY J2)); clear HY; lia.
Qed.

Definition dup (c : conn) (x : Z) : Z := if x <? U_XSPLIT c then U_IN c else U_OUT c.
Definition ddown (c : conn) (x : Z) : Z := if x <? D_XSPLIT c then D_IN c else D_OUT c.

(** Any completion order of the posted requests gives the expected fields. *)
Theorem exchange_ok o r junk order : 0 <= r < npes -> Permutation order (pending o (M r) (C r) nz (W r)) ->
  exists vs, exchange o M C nz junk W r order = Ok vs /\ map is3D vs = map is3D (W 0) /\
    forall k x y z, val vs k x y z = expected o mx my mxg myg nz (dup (C r)) (ddown (C r)) (I_DEST (C r)) (O_DEST (C r)) W r k x y z.
Proof.
  intros Hr HP. unfold exchange. rewrite (send_all_ok o r _ Hr). cbn [bind].
  assert (HL : forall i, In i order <-> live o r i).
  { intros i. rewrite <- pending_live by exact Hr. split; apply Permutation_in; [|apply Permutation_sym]; exact HP. }
  assert (HF : Forall (live o r) order) by (apply Forall_forall; intros i; apply HL).
  destruct (wait_ok o r junk Hr order (W r) HF (HW r Hr)) as (vs & E & S & A). exists vs. split; [exact E|]. split; [exact S|].
  intros k x y z. destruct (A k x y z) as [A1 A2].
  pose proof (k_mx _ _ _ _ _ _ _ K). pose proof (k_mxg _ _ _ _ _ _ _ K). pose proof (k_my _ _ _ _ _ _ _ K). pose proof (k_myg _ _ _ _ _ _ _ K).
  destruct (k_us _ _ _ _ _ _ _ K r Hr) as [HU HD].
  assert (HIT : forall i, live o r i -> reg o r i x y = true -> zok nz (W r) k z = true ->
      val vs k x y z = val (W (src r i)) k (x + dx i) (y + dy i) z).
  { intros i Li Ri Hz. apply A2; [now apply HL| |exact Ri|exact Hz]. intros j Hj Rj. apply HL in Hj. apply (disjoint o r j i x y); assumption. }
  unfold expected.
  destruct (zok nz (W r) k z) eqn:EZ; cbn [negb]; [|exact (A1 (or_introl eq_refl))].
  set (inx := (0 <=? x) && (x <? mx + 2 * mxg)).
  set (xrows := if corners o then (0 <=? y) && (y <? my + 2 * myg) else (myg <=? y) && (y <? myg + my)).
  assert (XR : xrows = true <-> y0 o <= y < y1 o).
  { unfold xrows, y0, y1. destruct (corners o); rewrite andb_true_iff, Z.leb_le, Z.ltb_lt; lia. }
  assert (IX : inx = true <-> 0 <= x < mx + 2 * mxg) by (unfold inx; rewrite andb_true_iff, Z.leb_le, Z.ltb_lt; lia).
  clearbody inx xrows.
  destruct (does_y o && inx && (my + myg <=? y) && (y <? my + 2 * myg) && negb (dup (C r) x =? -1)) eqn:B1.
  { bz. match goal with H : inx = true |- _ => apply IX in H end. unfold dup in *. destruct (x <? U_XSPLIT (C r)) eqn:EX; bz.
    - rewrite (HIT 0%nat); [|unfold live, dir_ok; cbn [src Nat.ltb Nat.leb]; repeat split; auto; lia|apply reg_iff; lia|reflexivity].
      cbn [src dx dy]. rewrite Z.add_0_r. reflexivity.
    - rewrite (HIT 1%nat); [|unfold live, dir_ok; cbn [src Nat.ltb Nat.leb]; repeat split; auto; lia|apply reg_iff; lia|reflexivity].
      cbn [src dx dy]. rewrite Z.add_0_r. reflexivity. }
  destruct (does_y o && inx && (0 <=? y) && (y <? myg) && negb (ddown (C r) x =? -1)) eqn:B2.
  { bz. match goal with H : inx = true |- _ => apply IX in H end. unfold ddown in *. destruct (x <? D_XSPLIT (C r)) eqn:EX; bz.
    - rewrite (HIT 2%nat); [|unfold live, dir_ok; cbn [src Nat.ltb Nat.leb]; repeat split; auto; lia|apply reg_iff; lia|reflexivity].
      cbn [src dx dy]. rewrite Z.add_0_r. reflexivity.
    - rewrite (HIT 3%nat); [|unfold live, dir_ok; cbn [src Nat.ltb Nat.leb]; repeat split; auto; lia|apply reg_iff; lia|reflexivity].
      cbn [src dx dy]. rewrite Z.add_0_r. reflexivity. }
  destruct (does_x o && xrows && (0 <=? x) && (x <? mxg) && negb (I_DEST (C r) =? -1)) eqn:B3.
  { bz. match goal with H : xrows = true |- _ => apply XR in H end.
    rewrite (HIT 4%nat); [|unfold live, dir_ok; cbn [src Nat.ltb Nat.leb]; repeat split; auto; lia|apply reg_iff; lia|reflexivity].
    cbn [src dx dy]. rewrite Z.add_0_r. reflexivity. }
  destruct (does_x o && xrows && (mx + mxg <=? x) && (x <? mx + 2 * mxg) && negb (O_DEST (C r) =? -1)) eqn:B4.
  { bz. match goal with H : xrows = true |- _ => apply XR in H end.
    rewrite (HIT 5%nat); [|unfold live, dir_ok; cbn [src Nat.ltb Nat.leb]; repeat split; auto; lia|apply reg_iff; lia|reflexivity].
    cbn [src dx dy]. rewrite Z.add_0_r. reflexivity. }
  apply A1. right. intros i Hi. apply HL in Hi. destruct Hi as (I1 & I2 & I3). unfold dir_ok in I3.
  destruct (reg o r i x y) eqn:ER; [|reflexivity]. exfalso. apply reg_iff in ER.
  assert (NE : forall d, d <> -1 -> negb (d =? -1) = true) by (intros d Hd; apply negb_true_iff, Z.eqb_neq; exact Hd).
  assert (IX2 : 0 <= x < mx + 2 * mxg -> inx = true) by tauto. assert (XR2 : y0 o <= y < y1 o -> xrows = true) by tauto.
  clear A A1 A2 HIT HL HF HP E S IX XR K HW.
  assert (LE : forall a b, a <= b -> (a <=? b) = true) by (intros; apply Z.leb_le; assumption).
  assert (LT : forall a b, a < b -> (a <? b) = true) by (intros; apply Z.ltb_lt; assumption).
  destruct i as [|[|[|[|[|[|]]]]]]; try (clear - I1; lia); cbn [src Nat.ltb Nat.leb] in I2, I3; rewrite I3 in *; destruct ER as [EX EY].
  - rewrite IX2, (LE (my + myg)), LT in B1 by lia. unfold dup in B1. rewrite LT in B1 by lia. rewrite NE in B1 by exact I2. discriminate.
  - rewrite IX2, (LE (my + myg)), LT in B1 by lia. unfold dup in B1. rewrite (proj2 (Z.ltb_ge x _)) in B1 by lia. rewrite NE in B1 by exact I2. discriminate.
  - rewrite IX2, (LE 0 y), (LT y myg) in B2 by lia. unfold ddown in B2. rewrite LT in B2 by lia. rewrite NE in B2 by exact I2. discriminate.
  - rewrite IX2, (LE 0 y), (LT y myg) in B2 by lia. unfold ddown in B2. rewrite (proj2 (Z.ltb_ge x _)) in B2 by lia. rewrite NE in B2 by exact I2. discriminate.
  - rewrite XR2, (LE 0 x), (LT x mxg) in B3 by lia. rewrite NE in B3 by exact I2. discriminate.
  - rewrite XR2, (LE (mx + mxg)), (LT x (mx + 2 * mxg)) in B4 by lia. rewrite NE in B4 by exact I2. discriminate.
Qed.
End P.
