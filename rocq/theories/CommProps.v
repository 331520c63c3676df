(** Property theorems C22 (pack/unpack) and C47 (guard-cell communication). *)
From Coq Require Import ZArith List Bool Lia FinFun Permutation.
From Verif Require Import Base MeshModel MeshSpec MeshProofs TopoModel TopoSpec TopoProps CommModel CommSpec CommProofs CommProofs2 CommProofs3 CommProofs4.
Import ListNotations.
Open Scope Z_scope.

(** C22. Packing a region and unpacking the buffer over a congruent region of other fields of the same kinds copies
    each value to the corresponding cell and changes nothing else; the lengths are msg_len. *)
Theorem C22_pack_unpack {V : Type} (nz : Z) (src dst : list (field V)) x0 x1 y0 y1 dx dy (junk : Z -> V) off :
  0 <= nz -> x0 <= x1 -> y0 <= y1 -> map is3D dst = map is3D src ->
  exists data dst' n,
    pack_data nz src (x0 + dx) (x1 + dx) (y0 + dy) (y1 + dy) = Ok data /\
    Z.of_nat (length data) = msg_len nz src (x0 + dx) (x1 + dx) (y0 + dy) (y1 + dy) /\
    unpack_data nz dst x0 x1 y0 y1 (fun j => write_buf junk off data (off + j)) = Ok (dst', n) /\
    n = Z.of_nat (length data) /\
    map is3D dst' = map is3D dst /\
    forall k x y z, val dst' k x y z =
      if (x0 <=? x) && (x <? x1) && (y0 <=? y) && (y <? y1) && zok nz dst k z
      then val src k (x + dx) (y + dy) z else val dst k x y z.
Proof.
  intros Hn Hx Hy HS. rewrite pack_ok by lia.
  set (data := packed nz src (x0 + dx) (x1 + dx) (y0 + dy) (y1 + dy)).
  assert (LD : Z.of_nat (length data) = plen nz (map is3D src) x0 x1 y0 y1).
  { unfold data. rewrite packed_len by lia. apply plen_shift. }
  exists data, (fst (unpack_vars nz dst x0 x1 y0 y1 (fun j => write_buf junk off data (off + j)) 0)), (Z.of_nat (length data)).
  split; [reflexivity|]. split; [rewrite LD, msg_len_plen, plen_shift; reflexivity|].
  assert (SN : forall (vs : list (field V)) buf len, snd (unpack_vars nz vs x0 x1 y0 y1 buf len) = len + plen nz (map is3D vs) x0 x1 y0 y1).
  { induction vs as [|v vs IH]; intros buf len; cbn [unpack_vars snd map plen fold_right]; [lia|].
    rewrite IH. destruct (unpack_cells_spec buf (cells nz (is3D v) x0 x1 y0 y1) (dat v) len (cells_nodup _ _ _ _ _ _)) as (A & _ & _).
    rewrite A, cells_len by lia. unfold plen. lia. }
  split.
  { unfold unpack_data. destruct dst as [|v dst].
    - destruct src; [|discriminate]. reflexivity.
    - destruct (x1 <? x0) eqn:E; [bz; lia|].
      set (u := unpack_vars nz (v :: dst) x0 x1 y0 y1 (fun j => write_buf junk off data (off + j)) 0).
      replace (Z.of_nat (length data)) with (snd u); [rewrite <- surjective_pairing; reflexivity|].
      unfold u. rewrite SN, LD, HS. lia. }
  split; [reflexivity|].
  destruct (unpack_spec nz x0 x1 y0 y1 dx dy (fun j => write_buf junk off data (off + j)) Hn Hx Hy dst src 0 HS) as [A B].
  { intros i Hi. apply write_buf_at. exact Hi. }
  split; [exact A|]. exact B.
Qed.
Example C22_case : exists d n, unpack_data 2 [mkfield true (fun _ _ _ => 0)] 0 2 0 1
    (fun j => write_buf (fun _ => -7) 3 (match pack_data 2 [mkfield true (fun x y z => 100 * x + 10 * y + z)] 4 6 5 6 with Ok l => l | _ => [] end) (3 + j)) = Ok (d, n)
  /\ n = 4 /\ val d 0 1 0 1 = Some 551 /\ val d 0 2 0 1 = Some 0.
Proof. eexists. eexists. split; [reflexivity|]. vm_compute. auto. Qed.

(** C47. One exchange, for any completion order of the receives: each guard cell with a neighbour holds exactly the
    neighbour's coinciding cell, everything else is unchanged; no receive hangs or is truncated. *)
Theorem C47_exchange {V : Type} npes nx ny mxg myg s user ix1 ix2 per M C core
    (nz : Z) (W : Z -> list (field V)) (junk : Z -> V) o r order :
  loaded npes nx ny mxg myg s user ix1 ix2 per M C core ->
  regular ny (MYSUB (M 0)) (seps (M 0)) ->
  0 <= nz -> same_fields npes W -> 0 <= r < npes ->
  Permutation order (pending o (M r) (C r) nz (W r)) ->
  exists vs, exchange o M C nz junk W r order = Ok vs /\ map is3D vs = map is3D (W r) /\
    forall k x y z, val vs k x y z =
      expected o (MXSUB (M r)) (MYSUB (M r)) (MXG (M r)) (MYG (M r)) nz
        (fun xl => if xl <? U_XSPLIT (C r) then U_IN (C r) else U_OUT (C r))
        (fun xl => if xl <? D_XSPLIT (C r) then D_IN (C r) else D_OUT (C r))
        (I_DEST (C r)) (O_DEST (C r)) W r k x y z.
Proof.
  intros L R Hn HW Hr HP.
  destruct (exchange_ok npes M C (MXSUB (M 0)) (MYSUB (M 0)) mxg myg nz (comm_ok_loaded _ _ _ _ _ _ _ _ _ _ _ _ _ L R) Hn W HW o r junk order Hr HP)
    as (vs & E & S & A).
  exists vs. split; [exact E|]. split; [rewrite S; symmetry; apply HW; exact Hr|].
  destruct (fam _ _ _ _ _ _ _ _ _ _ _ _ _ L r Hr) as (_ & _ & _ & E3 & E4 & E5 & E6 & _). rewrite E3, E4, E5, E6. exact A.
Qed.

(** Hence the completion order does not matter. *)
Theorem C47_order_independent {V : Type} npes nx ny mxg myg s user ix1 ix2 per M C core
    (nz : Z) (W : Z -> list (field V)) (junk1 junk2 : Z -> V) o r order1 order2 :
  loaded npes nx ny mxg myg s user ix1 ix2 per M C core ->
  regular ny (MYSUB (M 0)) (seps (M 0)) ->
  0 <= nz -> same_fields npes W -> 0 <= r < npes ->
  Permutation order1 (pending o (M r) (C r) nz (W r)) ->
  Permutation order2 (pending o (M r) (C r) nz (W r)) ->
  exists v1 v2, exchange o M C nz junk1 W r order1 = Ok v1 /\ exchange o M C nz junk2 W r order2 = Ok v2 /\
    forall k x y z, val v1 k x y z = val v2 k x y z.
Proof.
  intros L R Hn HW Hr P1 P2.
  destruct (C47_exchange _ _ _ _ _ _ _ _ _ _ _ _ _ nz W junk1 o r order1 L R Hn HW Hr P1) as (v1 & A1 & _ & B1).
  destruct (C47_exchange _ _ _ _ _ _ _ _ _ _ _ _ _ nz W junk2 o r order2 L R Hn HW Hr P2) as (v2 & A2 & _ & B2).
  exists v1, v2. split; [exact A1|]. split; [exact A2|]. intros. rewrite B1, B2. reflexivity.
Qed.

Lemma pending_indep {V : Type} o m c nz (v w : list (field V)) : pending o m c nz v = pending o m c nz w.
Proof.
  unfold pending. apply filter_ext. intros i. destruct i as [|[|[|[|[|]]]]]; reflexivity.
Qed.

(** communicate(): if every rank holds a global field on its own cells, then afterwards every cell that stands for a grid
    point holds that point's value: guard columns the (periodically wrapped) global column, guard rows the row reached
    along the field line.  Corner cells (guard in both directions) need include_corner_cells.  Cells beyond a target
    or the end of the domain keep their value in own columns; in guard columns they take the same row of the column's owner. *)
Theorem C47_communicate {V : Type} npes nx ny mxg myg s user ix1 ix2 per M C core
    (nz : Z) (W : Z -> list (field V)) (Fg : nat -> Z -> Z -> Z -> option V) (junk : Z -> V) (cc : bool) (od : bool -> Z -> list nat) :
  loaded npes nx ny mxg myg s user ix1 ix2 per M C core ->
  regular ny (MYSUB (M 0)) (seps (M 0)) ->
  (per = true -> mxg <= MXSUB (M 0)) ->
  0 <= nz -> same_fields npes W -> holds npes nz M C W Fg ->
  (forall r, 0 <= r < npes ->
     if cc then Permutation (od false r) (pending YOnly (M r) (C r) nz (W r)) /\
                Permutation (od true r) (pending (XOnly true) (M r) (C r) nz (W r))
     else Permutation (od false r) (pending Both (M r) (C r) nz (W r))) ->
  forall r, 0 <= r < npes ->
  exists vs, communicate cc M C nz junk W od r = Ok vs /\ map is3D vs = map is3D (W r) /\
    forall k xl yl z, 0 <= xl < LocalNx (M r) -> 0 <= yl < LocalNy (M r) -> zok nz (W r) k z = true ->
      let xg := wrapx per nx mxg (getGlobalXIndex (M r) xl) in
      (owned_x (M r) (C r) xl \/ ystart (M r) <= yl <= yend (M r) \/ cc = true) ->
      match row_target (M r) ix1 ix2 xg yl with
      | Some y' => val vs k xl yl z = Fg k xg y' z
      | None => exists q xl', 0 <= q < npes /\ owned_x (M q) (C q) xl' /\ PE_YIND (M q) = PE_YIND (M r) /\
                  getGlobalXIndex (M q) xl' = xg /\ (owned_x (M r) (C r) xl -> q = r /\ xl' = xl) /\
                  val vs k xl yl z = val (W q) k xl' yl z
      end.
Proof.
  intros L R PX Hn HW HF HP r Hr.
  pose proof (comm_ok_loaded _ _ _ _ _ _ _ _ _ _ _ _ _ L R) as K.
  set (mx := MXSUB (M 0)) in *. set (my := MYSUB (M 0)) in *.
  pose proof (fun o => exchange_ok npes M C mx my mxg myg nz K Hn W HW o) as EX.
  pose proof (fun o r k xl yl z => own_columns npes nx ny mxg myg s user ix1 ix2 per M C core L R nz W HW Fg HF o r k xl yl z) as OWN.
  fold mx my in OWN.
  pose proof (fun r xl => mirror npes nx ny mxg myg s user ix1 ix2 per M C core L R PX r xl) as MIR. fold mx in MIR.
  pose proof (fun r xl => owned_dec npes nx ny mxg myg s user ix1 ix2 per M C core L r xl) as ODEC. fold mx in ODEC.
  pose proof (fun o (U : Z -> list (field V)) r q xl xl' k yl z => guard_column npes nx ny mxg myg s user ix1 ix2 per M C core L nz o U r q xl xl' k yl z) as GC. fold mx my in GC.
  destruct (rows npes nx ny mxg myg s user ix1 ix2 per M C core L r Hr) as (Y1 & Y2 & Y3 & Y4). fold mx my in Y1, Y2, Y3, Y4.
  assert (OWNQ : forall q xl', MXG (M q) <= xl' < MXG (M q) + MXSUB (M q) -> owned_x (M q) (C q) xl') by (intros; left; assumption).
  unfold communicate. destruct cc.
  - destruct (EX YOnly r junk (od false r) Hr (proj1 (HP r Hr))) as (v1 & E1 & _ & _). rewrite E1. cbn [bind].
    set (W1 := fun r => match exchange YOnly M C nz junk W r (od false r) with Ok v => v | _ => W r end).
    assert (W1S : forall q, 0 <= q < npes -> map is3D (W1 q) = map is3D (W 0) /\ forall k x y z, val (W1 q) k x y z =
       expected YOnly mx my mxg myg nz (dup (C q)) (ddown (C q)) (I_DEST (C q)) (O_DEST (C q)) W q k x y z).
    { intros q Hq. destruct (EX YOnly q junk (od false q) Hq (proj1 (HP q Hq))) as (v & E & S & A). unfold W1. rewrite E. split; assumption. }
    assert (H0 : 0 <= 0 < npes) by lia.
    assert (HW1 : same_fields npes W1) by (intros q Hq; rewrite (proj1 (W1S q Hq)), (proj1 (W1S 0 H0)); reflexivity).
    assert (P2 : Permutation (od true r) (pending (XOnly true) (M r) (C r) nz (W1 r))) by (rewrite (pending_indep _ _ _ _ _ (W r)); apply HP; exact Hr).
    destruct (exchange_ok npes M C mx my mxg myg nz K Hn W1 HW1 (XOnly true) r junk (od true r) Hr P2) as (v2 & E2 & S2 & A2).
    exists v2. split; [exact E2|]. split; [rewrite S2, (proj1 (W1S 0 H0)); symmetry; apply HW; exact Hr|].
    intros k xl yl z Hx Hy Hz; cbn zeta; intros _; set (xg := wrapx per nx mxg (getGlobalXIndex (M r) xl)). rewrite A2.
    assert (Z1 : forall q, 0 <= q < npes -> zok nz (W1 q) k z = true).
    { intros q Hq. rewrite <- Hz. apply val_shape. rewrite (proj1 (W1S q Hq)), (HW r Hr). reflexivity. }
    assert (ZW : forall q, 0 <= q < npes -> zok nz (W q) k z = true).
    { intros q Hq. rewrite <- Hz. apply val_shape. rewrite (HW q Hq), (HW r Hr). reflexivity. }
    destruct (ODEC r xl Hr Hx) as [HO|HG].
    + pose proof (own_unchanged_x npes nx ny mxg myg s user ix1 ix2 per M C core L nz true W1 r xl k yl z Hr HO) as OU. fold mx my in OU. rewrite OU.
      rewrite (proj2 (W1S r Hr)). unfold xg. rewrite (owned_wrap npes nx ny mxg myg s user ix1 ix2 per M C core L R r xl Hr HO).
      pose proof (OWN YOnly r k xl yl z eq_refl Hr HO Hy Hz) as Q. cbn zeta in Q.
      destruct (row_target (M r) ix1 ix2 (getGlobalXIndex (M r) xl) yl); [exact Q|].
      exists r, xl. split; [exact Hr|]. split; [exact HO|]. split; [reflexivity|]. split; [reflexivity|]. split; [auto|exact Q].
    + destruct (MIR r xl Hr Hx HG) as (q & xl' & Hq & Hxl' & HY & HXG & HQ).
      rewrite (GC (XOnly true) W1 r q xl xl' k yl z Hr eq_refl (Z1 r Hr) Hx); [|cbn [corners]; lia|discriminate|lia|exact HQ].
      rewrite (proj2 (W1S q Hq)).
      destruct (rows npes nx ny mxg myg s user ix1 ix2 per M C core L q Hq) as (_ & _ & Z3 & _). fold my in Z3.
      pose proof (OWN YOnly q k xl' yl z eq_refl Hq (OWNQ q xl' Hxl') ltac:(lia) (ZW q Hq)) as Q. cbn zeta in Q.
      rewrite (row_target_y npes nx ny mxg myg s user ix1 ix2 per M C core L r q _ yl Hr Hq HY), HXG in Q. fold xg in Q.
      destruct (row_target (M r) ix1 ix2 xg yl); [exact Q|].
      exists q, xl'. split; [exact Hq|]. split; [exact (OWNQ q xl' Hxl')|]. split; [exact HY|]. split; [exact HXG|]. split; [|exact Q].
      intros HO. exfalso. destruct (fam _ _ _ _ _ _ _ _ _ _ _ _ _ L r Hr) as (_ & _ & _ & E3 & _ & E5 & _). fold mx in E3.
      pose proof (k_mx _ _ _ _ _ _ _ K). destruct HO as [HO|[HO|HO]]; rewrite ?E3, ?E5 in HO.
      * lia.
      * destruct (fam _ _ _ _ _ _ _ _ _ _ _ _ _ L r Hr) as (D & _). pose proof (d_mxsub _ _ _ D). lia.
      * destruct (fam _ _ _ _ _ _ _ _ _ _ _ _ _ L r Hr) as (D & _). pose proof (d_mxsub _ _ _ D). lia.
  - destruct (EX Both r junk (od false r) Hr (HP r Hr)) as (v1 & E1 & S1 & A1). exists v1. split; [exact E1|].
    split; [rewrite S1; symmetry; apply HW; exact Hr|].
    intros k xl yl z Hx Hy Hz; cbn zeta; intros HH; set (xg := wrapx per nx mxg (getGlobalXIndex (M r) xl)). rewrite A1.
    destruct (ODEC r xl Hr Hx) as [HO|HG].
    + unfold xg. rewrite (owned_wrap npes nx ny mxg myg s user ix1 ix2 per M C core L R r xl Hr HO).
      pose proof (OWN Both r k xl yl z eq_refl Hr HO Hy Hz) as Q. cbn zeta in Q.
      destruct (row_target (M r) ix1 ix2 (getGlobalXIndex (M r) xl) yl); [exact Q|].
      exists r, xl. split; [exact Hr|]. split; [exact HO|]. split; [reflexivity|]. split; [reflexivity|]. split; [auto|exact Q].
    + destruct (MIR r xl Hr Hx HG) as (q & xl' & Hq & Hxl' & HYq & HXG & HQ).
      assert (NO : ~ owned_x (M r) (C r) xl).
      { destruct (fam _ _ _ _ _ _ _ _ _ _ _ _ _ L r Hr) as (D & _ & _ & E3 & _ & E5 & _). fold mx in E3.
        pose proof (d_mxsub _ _ _ D). intros [HO|[HO|HO]]; rewrite ?E3, ?E5 in *; lia. }
      destruct HH as [HH|[HH|HH]]; [contradiction| |discriminate].
      rewrite (GC Both W r q xl xl' k yl z Hr eq_refl Hz Hx); [|cbn [corners]; lia|lia|lia|exact HQ].
      unfold row_target. replace (yl <? ystart (M r)) with false by (symmetry; apply Z.ltb_ge; lia).
      replace (yend (M r) <? yl) with false by (symmetry; apply Z.ltb_ge; lia).
      destruct (rows npes nx ny mxg myg s user ix1 ix2 per M C core L q Hq) as (Z1 & Z2 & _ & _). fold my in Z2.
      rewrite HF; [|exact Hq|exact (OWNQ q xl' Hxl')|lia|rewrite <- Hz; apply val_shape; rewrite (HW q Hq), (HW r Hr); reflexivity].
      rewrite HXG. unfold getGlobalYIndexNoBoundaries.
      destruct (fam _ _ _ _ _ _ _ _ _ _ _ _ _ L r Hr) as (_ & _ & _ & _ & E4 & _ & E6 & _).
      destruct (fam _ _ _ _ _ _ _ _ _ _ _ _ _ L q Hq) as (_ & _ & _ & _ & G4 & _ & G6 & _).
      rewrite HYq, E4, E6, G4, G6. reflexivity.
Qed.

(** Non-vacuity: the 12-processor double-null mesh of C21_case, one 3D field holding F(x,y,z) = 10000x+100y+z on own
    cells and -1 elsewhere; [Example] also evaluates one corner cell. *)
Definition M_ex := mesh_of 12 12 24 2 2 s_ex (Some (inl 2)).
Definition C_ex r := fst (conn_of 12 r (M_ex r) 5 7 false).
Definition own_b (m : mesh) (c : conn) (x : Z) : bool :=
  ((MXG m <=? x) && (x <? MXG m + MXSUB m)) || ((I_DEST c =? -1) && (x <? MXG m)) || ((O_DEST c =? -1) && (MXSUB m + MXG m <=? x)).
Definition W_ex (r : Z) : list (field Z) :=
  [mkfield true (fun x y z => if own_b (M_ex r) (C_ex r) x && (2 <=? y) && (y <=? 5)
     then 10000 * getGlobalXIndex (M_ex r) x + 100 * getGlobalYIndexNoBoundaries (M_ex r) y + z else -1)].
Definition od_ex (b : bool) (r : Z) : list nat :=
  rev (pending (if b then XOnly true else YOnly) (M_ex r) (C_ex r) 3 (W_ex r)).
Example C47_case :
  same_fields 12 W_ex /\ holds 12 3 M_ex C_ex W_ex (fun k x y z => if Nat.eqb k 0 then Some (10000 * x + 100 * y + z) else None) /\
  (forall r, Permutation (od_ex false r) (pending YOnly (M_ex r) (C_ex r) 3 (W_ex r)) /\
             Permutation (od_ex true r) (pending (XOnly true) (M_ex r) (C_ex r) 3 (W_ex r))) /\
  match communicate true M_ex C_ex 3 (fun _ => -9) W_ex od_ex 2 with Ok v => val v 0 7 7 1 | _ => None end
    = Some (10000 * 7 + 100 * 9 + 1).
Proof.
  split; [intros r Hr; reflexivity|]. split.
  - intros r k xl yl z Hr Ho Hy Hz. destruct k as [|k]; [|destruct k; discriminate].
    assert (SY : ystart (M_ex r) = 2 /\ yend (M_ex r) = 5).
    { assert (CC : r = 0 \/ r = 1 \/ r = 2 \/ r = 3 \/ r = 4 \/ r = 5 \/ r = 6 \/ r = 7 \/ r = 8 \/ r = 9 \/ r = 10 \/ r = 11) by lia.
      repeat (destruct CC as [->|CC]; [split; vm_compute; reflexivity|]). subst r. split; vm_compute; reflexivity. }
    unfold val, W_ex. cbn [nth_error dat Nat.eqb].
    assert (OB : own_b (M_ex r) (C_ex r) xl = true).
    { unfold own_b. rewrite !orb_true_iff, !andb_true_iff, !Z.leb_le, !Z.ltb_lt, !Z.eqb_eq.
      destruct Ho as [Ho|[Ho|Ho]]; lia. }
    rewrite OB. replace (2 <=? yl) with true by (symmetry; apply Z.leb_le; lia). replace (yl <=? 5) with true by (symmetry; apply Z.leb_le; lia).
    reflexivity.
  - split.
    + intros r. split; apply Permutation_sym, Permutation_rev.
    + vm_compute. reflexivity.
Qed.

Print Assumptions C22_pack_unpack.
Print Assumptions C47_exchange.
Print Assumptions C47_order_independent.
Print Assumptions C47_communicate.
