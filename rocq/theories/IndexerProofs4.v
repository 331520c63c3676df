(** Proofs for the global numbering: after initialise(). *)
From Coq Require Import ZArith List Bool String Lia Sorted Permutation.
From Verif Require Import Base MeshModel MeshSpec MeshProofs TopoModel TopoSpec TopoProofs4 CommModel CommSpec CommProofs CommProofs2 CommProofs3 CommProofs4 CommProps
  RegionModel RegionSpec RegionProofs BoundsModel BoundsSpec BoundsProofs BoundsProps IndexerModel IndexerSpec IndexerProofs IndexerProofs2 IndexerProofs3.
Import ListNotations.
Open Scope Z_scope.

Section P.
Context (npes nx ny mxg myg : Z) (s : yseps) (user : option (Z + Z)) (ix1 ix2 : Z) (per : bool)
        (M : Z -> mesh) (C : Z -> conn) (core : Z -> bool).
Hypothesis L : loaded npes nx ny mxg myg s user ix1 ix2 per M C core.
Hypothesis R : regular ny (MYSUB (M 0)) (seps (M 0)).
Hypothesis PX : per = true -> mxg <= MXSUB (M 0).
Context (nz : Z) (Hnz : 0 < nz) (I : Z -> indexer).
Notation W := (W_idx M nz I).
Notation num r x y z := (dat (own_field I (LocalNy (M r)) nz r) x y z).
Context (cc : bool) (junk : Z -> Z) (od : bool -> Z -> list nat).
Hypothesis HP : forall r, 0 <= r < npes ->
     if cc then Permutation (od false r) (pending YOnly (M r) (C r) nz (W r)) /\
                Permutation (od true r) (pending (XOnly true) (M r) (C r) nz (W r))
     else Permutation (od false r) (pending Both (M r) (C r) nz (W r)).

Lemma initialised r : 0 <= r < npes -> exists f, communicate cc M C nz junk W od r = Ok [f] /\
  forall x y z, 0 <= x < LocalNx (M r) -> 0 <= y < LocalNy (M r) -> 0 <= z < nz ->
    owned_x (M r) (C r) x \/ ystart (M r) <= y <= yend (M r) \/ cc = true ->
    let xg := wrapx per nx mxg (getGlobalXIndex (M r) x) in
    exists q xl yl, 0 <= q < npes /\ owned_x (M q) (C q) xl /\ getGlobalXIndex (M q) xl = xg /\ dat f x y z = num q xl yl z /\
      match row_target (M r) ix1 ix2 xg y with
      | Some y' => ystart (M q) <= yl <= yend (M q) /\ getGlobalYIndexNoBoundaries (M q) yl = y'
      | None => yl = y /\ PE_YIND (M q) = PE_YIND (M r) /\ (owned_x (M r) (C r) x -> q = r /\ xl = x)
      end.
Proof.
  intros Hr.
  assert (SF : same_fields npes W) by (intros q Hq; reflexivity).
  destruct (C47_communicate npes nx ny mxg myg s user ix1 ix2 per M C core nz W (F_idx npes M C nz I) junk cc od L R PX ltac:(lia) SF
     (holds_idx _ _ _ _ _ _ _ _ _ _ _ _ _ L R nz I) HP r Hr) as (vs & E & SH & H).
  destruct vs as [|f [|f' vs]]; [discriminate SH| |discriminate SH]. exists f. split; [exact E|].
  intros x y z Hx Hy Hz HO xg.
  assert (Z0 : zok nz (W r) 0 z = true) by (unfold zok; cbn; apply andb_true_iff; rewrite Z.leb_le, Z.ltb_lt; lia).
  specialize (H O x y z Hx Hy Z0 HO). cbv zeta in H. fold xg in H.
  destruct (row_target (M r) ix1 ix2 xg y) as [y'|] eqn:ER.
  - unfold val, F_idx in H. cbn [nth_error] in H.
    destruct (find (owner_test M C xg y') (cells_of_all npes M)) as [[[q xl] yl]|] eqn:EF; [|discriminate]. injection H as H.
    apply find_some in EF. destruct EF as [H1 H2]. unfold cells_of_all in H1. rewrite !in_prod_iff in H1. destruct H1 as [[H1 _] _].
    apply CommProofs.zrange_in in H1. apply (test_spec _ _ _ _ _ _ _ _ _ _ _ _ _ L) in H2; [|exact I|exact H1]. destruct H2 as (A & B & D & F).
    exists q, xl, yl. split; [exact H1|]. split; [exact A|]. split; [exact D|]. split; [exact H|]. split; [exact B|exact F].
  - destruct H as (q & xl & Hq & Ho & HY & HX & HE & HV). unfold val in HV. cbn [nth_error W_idx] in HV. injection HV as HV.
    exists q, xl, y. auto 10.
Qed.

(** Numbered cells keep their number. *)
Lemma kept (ST : Z -> stencil) r f x y z : 0 <= r < npes -> fits (ST r) (M r) nz ->
  communicate cc M C nz junk W od r = Ok [f] -> numbered (ST r) (M r) nz cc per ix1 ix2 x y z ->
  inx (M r) x \/ iny_ (M r) y \/ (per = false /\ (y < ystart (M r) -> leaves_below (M r) ix1 ix2 x) /\ (yend (M r) < y -> leaves_above (M r) ix1 ix2 x)) ->
  dat f x y z = num r x y z.
Proof.
  intros Hr FT EC HN HC. destruct (initialised r Hr) as (f' & E & H). rewrite EC in E. injection E as <-.
  pose proof (fam _ _ _ _ _ _ _ _ _ _ _ _ _ L r Hr) as (D & E1 & E2 & E3 & E4 & E5 & E6 & E7 & E8 & E9).
  pose proof (CommProofs4.rows _ _ _ _ _ _ _ _ _ _ _ _ _ L r Hr) as (Y1 & Y2 & Y3 & Y4).
  pose proof (in_neighbour _ _ _ _ _ _ _ _ _ _ _ _ _ L R r Hr) as (_ & AI & _). pose proof (out_neighbour _ _ _ _ _ _ _ _ _ _ _ _ _ L R r Hr) as (_ & AO & _).
  pose proof (d_mxsub _ _ _ D) as MX0. pose proof (d_mysub _ _ _ D) as MY0.
  pose proof (d_xs _ _ _ D) as XS. pose proof (d_xe _ _ _ D) as XE. pose proof L as (_ & _ & Hm1 & Hm2 & _).
  assert (RNG : 0 <= x < LocalNx (M r) /\ 0 <= y < LocalNy (M r) /\ 0 <= z < nz).
  { destruct HN as [(A & B & C0)|[_ (x' & y' & z' & part & o & A & HO & Ho & -> & -> & ->)]].
    - unfold inx, iny_ in *. lia.
    - destruct (proj1 FT x' y' z' part o A HO Ho). destruct A as (A1 & A2 & A3). unfold inx, iny_ in *. rewrite E5, E6 in *.
      pose proof (Z.mod_pos_bound (z' + odz o) nz Hnz). lia. }
  destruct RNG as (RX & RY & RZ).
  assert (OX : owned_x (M r) (C r) x).
  { unfold owned_x. rewrite Y4, E3, E5. rewrite E3, E5 in *. unfold inx, iny_ in *.
    destruct (Z_lt_ge_dec x mxg) as [LX|LX].
    - right. left. split; [|lia]. destruct HN as [(A & _)|[[[T T2]|[[T T2]|[[(P & P0 & _) _]|[(_ & _ & P) _]]]] _]]; unfold inx, iny_ in *; try lia.
      + destruct T as [[T _]|[T|T]]; [unfold inx in T; lia| |lia]. destruct HC as [HC|[HC|[HC _]]]; [lia|lia|]. apply AI; [exact HC|lia].
      + destruct T as [[T _]|[T|T]]; [unfold inx in T; lia| |lia]. destruct HC as [HC|[HC|[HC _]]]; [lia|lia|]. apply AI; [exact HC|lia].
    - destruct (Z_lt_ge_dec x (mxg + MXSUB (M 0))) as [UX|UX]; [lia|]. right. right. split; [|lia].
      destruct HN as [(A & _)|[[[T T2]|[[T T2]|[[(_ & _ & P) _]|[(P & P0 & _) _]]]] _]]; unfold inx, iny_ in *; try lia.
      + destruct T as [[T _]|[T|T]]; [unfold inx in T; lia|lia|]. destruct HC as [HC|[HC|[HC _]]]; [lia|lia|]. apply AO; [exact HC|lia].
      + destruct T as [[T _]|[T|T]]; [unfold inx in T; lia|lia|]. destruct HC as [HC|[HC|[HC _]]]; [lia|lia|]. apply AO; [exact HC|lia].
 }
  destruct (H x y z RX RY RZ (or_introl OX)) as (q & xl & yl & Hq & HOq & HXq & HV & HT).
  rewrite (owned_wrap _ _ _ _ _ _ _ _ _ _ _ _ _ L R r x Hr OX) in *. rewrite HV.
  assert (TG : row_target (M r) ix1 ix2 (getGlobalXIndex (M r) x) y = (if (y <? ystart (M r)) || (yend (M r) <? y) then None else Some (getGlobalYIndexNoBoundaries (M r) y))).
  { unfold row_target. destruct (y <? ystart (M r)) eqn:B1; cbn [orb].
    - apply Z.ltb_lt in B1. replace (Z.to_nat (ystart (M r) - y)) with (S (Z.to_nat (ystart (M r) - y - 1))) by lia. cbn [steps_below].
      assert (LV : leaves_below (M r) ix1 ix2 x).
      { destruct HC as [HC|[HC|(_ & HC & _)]]; [|unfold iny_ in HC; lia|apply HC; exact B1].
        destruct HN as [(_ & A & _)|[[[T T2]|[[T T2]|[[P P0]|[P P0]]]] _]]; unfold iny_ in *; try lia.
        destruct T as [[_ T]|[T|T]]; [exact T| |]; unfold inx in HC; lia. }
      unfold leaves_below in LV. rewrite LV. reflexivity.
    - apply Z.ltb_ge in B1. destruct (yend (M r) <? y) eqn:B2; [|reflexivity].
      apply Z.ltb_lt in B2. replace (Z.to_nat (y - yend (M r))) with (S (Z.to_nat (y - yend (M r) - 1))) by lia. cbn [steps_above].
      assert (LV : leaves_above (M r) ix1 ix2 x).
      { destruct HC as [HC|[HC|(_ & _ & HC)]]; [|unfold iny_ in HC; lia|apply HC; exact B2].
        destruct HN as [(_ & A & _)|[[[T T2]|[[T T2]|[[P P0]|[P P0]]]] _]]; unfold iny_ in *; try lia.
        destruct T as [[_ T]|[T|T]]; [exact T| |]; unfold inx in HC; lia. }
      unfold leaves_above in LV. rewrite LV. reflexivity. }
  rewrite TG in HT. destruct ((y <? ystart (M r)) || (yend (M r) <? y)) eqn:BB.
  - destruct HT as (-> & _ & HT). destruct (HT OX) as [-> ->]. reflexivity.
  - apply orb_false_iff in BB. destruct BB as [B1 B2]. apply Z.ltb_ge in B1, B2. destruct HT as [T1 T2].
    destruct (owner_unique _ _ _ _ _ _ _ _ _ _ _ _ _ L R r q x xl y yl) as (-> & -> & ->); auto; try lia; congruence.
Qed.
End P.
