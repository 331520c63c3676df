(** The two by two systems, and back substitution. *)
From Coq Require Import List Arith Bool Lia ZArith Field.
From Verif Require Import MpiModel MpiProofs MpiRounds PcrModel PcrProofs PcrProofs2 PcrProofs3 PcrProofs4.
Import ListNotations.

Section S.
Variable F : Type.
Variables (f0 f1 : F) (fadd fmul fsub fdiv : F -> F -> F) (fopp finv : F -> F).
Hypothesis FT : field_theory f0 f1 fadd fmul fsub fopp fdiv finv (@eq F).
Add Field FF5 : FT.
Local Infix "+!" := fadd (at level 50, left associativity).
Local Infix "-!" := fsub (at level 50, left associativity).
Local Infix "*!" := fmul (at level 40, left associativity).
Local Infix "/!" := fdiv (at level 40, left associativity).
Variable is_zero : F -> bool.
Hypothesis is_zero_spec : forall x, is_zero x = true <-> x = f0.
Variables (nsys kn kN : nat).
Let n := 2 ^ kn.
Let N := 2 ^ kN.
Variable D : Type.
Variable eager : chan -> nat -> bool.
Notation matrix := (matrix F).
Notation vector := (vector F).
Notation msg := (msg F).
Notation unit_row := (unit_row F f0 f1).
Notation T := (Z.of_nat (N * n)).
Variable base : nat -> Z -> cell F.
Hypothesis outside : forall kz g, kz < nsys -> (g < 1 \/ T < g)%Z -> base kz g = unit_row.
Hypothesis first_row : forall kz, kz < nsys -> ca F (base kz 1) = f0.
Hypothesis last_row : forall kz, kz < nsys -> cc F (base kz T) = f0.
Notation red kz := (red F fadd fmul fdiv fopp (base kz)).
Hypothesis pivots : forall kz l g, kz < nsys -> l <= kn + kN -> cb F (red kz l g) <> f0.
Notation at_ p k := (Z.of_nat (p * n + k)).
Notation quiet := (quiet msg D N).
Notation reach := (reach msg D N eager).
Notation state := (state msg D).
Variable X : nat -> Z -> F.
Hypothesis X0 : forall kz, kz < nsys -> zero_outside F f0 T (X kz).
Hypothesis XS : forall kz, kz < nsys -> solution F f0 fadd fmul fsub fdiv fopp T (base kz) (X kz).

Lemma XE kz l g : kz < nsys -> l <= kn + kN ->
  ca F (red kz l g) *! X kz (g - dist l)%Z +! cb F (red kz l g) *! X kz g +! cc F (red kz l g) *! X kz (g + dist l)%Z = cr F (red kz l g).
Proof.
  intros Hk Hl. assert (E : eqn F fadd fmul fsub fdiv fopp (base kz) l (X kz) g = f0).
  { apply (eqn_all F f0 f1 fadd fmul fsub fdiv fopp finv FT T (base kz)) with (L := kn + kN); [intros; apply outside; assumption|intros; apply pivots; assumption|apply X0; exact Hk|apply XS; exact Hk|lia]. }
  unfold eqn in E. match type of E with ?a -! ?b = _ => transitivity ((a -! b) +! b); [ring|rewrite E; ring] end.
Qed.
Lemma A0 kz l g : kz < nsys -> (g <= dist l)%Z -> ca F (red kz l g) = f0.
Proof. intros Hk H. apply (red_a0 F f0 f1 fadd fmul fsub fdiv fopp finv FT T (base kz)); [intros; apply outside; assumption|apply first_row; exact Hk|exact H]. Qed.
Lemma C0 kz l g : kz < nsys -> (T < g + dist l)%Z -> cc F (red kz l g) = f0.
Proof. intros Hk H. apply (red_c0 F f0 f1 fadd fmul fsub fdiv fopp finv FT T (base kz)); [intros; apply outside; assumption|apply last_row; exact Hk|exact H]. Qed.

Lemma two_by_two lo hi u v : det2 F fmul fsub lo hi <> f0 -> cb F lo *! u +! cc F lo *! v = cr F lo -> ca F hi *! u +! cb F hi *! v = cr F hi ->
  x_lo F fmul fsub fdiv lo hi = u /\ x_hi F fmul fsub fdiv lo hi = v.
Proof. intros H E1 E2. unfold x_lo, x_hi. unfold det2 in *. rewrite <- E1, <- E2. split; field; exact H. Qed.

Section Pair.
Variables (d : nat -> matrix) (x : nat -> vector) (k : nat -> matrix * vector -> prog msg D).
Hypothesis INV : rank_inv F f0 f1 fadd fmul fdiv fopp nsys kn kN base (kN - 1) d.
Let nh := N / 2.
Definition p_low (p : nat) : matrix := unpack F (d p) (n + 1) (pack F (d (p + nh)) n).
Definition p_high (p : nat) : matrix := if 0 <? nh then unpack F (d p) 0 (pack F (d (p - nh)) n) else d p.
Definition sd (p : nat) : matrix := if p <? nh then p_low p else p_high p.
Definition sx (p : nat) : vector :=
  if p <? nh then set_x F (set_x F (x p) n (fun kz => x_lo F fmul fsub fdiv (p_low p kz n) (p_low p kz (n + 1)))) (n + 1) (fun kz => x_hi F fmul fsub fdiv (p_low p kz n) (p_low p kz (n + 1)))
  else set_x F (set_x F (x p) 0 (fun kz => x_lo F fmul fsub fdiv (p_high p kz 0) (p_high p kz n))) n (fun kz => x_hi F fmul fsub fdiv (p_high p kz 0) (p_high p kz n)).
Lemma nn : 1 <= n. Proof. exact (pow2_pos kn). Qed.
Lemma NN : 1 <= N. Proof. exact (pow2_pos kN). Qed.
Lemma nh_val : (kN = 0 /\ nh = 0 /\ N = 1) \/ (1 <= kN /\ nh = 2 ^ (kN - 1) /\ N = 2 * nh /\ 1 <= nh).
Proof.
  unfold nh, N. destruct kN as [|m]; [left; repeat split; reflexivity|right]. replace (S m - 1) with m by lia. rewrite pow_S. pose proof (pow2_pos m).
  replace (2 * 2 ^ m / 2) with (2 ^ m); [lia|]. symmetry. rewrite Nat.mul_comm. apply Nat.div_mul. lia.
Qed.
Lemma low_rows p kz : p < nh -> kz < nsys -> let lo := p_low p kz n in let hi := p_low p kz (n + 1) in
  det2 F fmul fsub lo hi <> f0 /\ x_lo F fmul fsub fdiv lo hi = X kz (at_ p n) /\ x_hi F fmul fsub fdiv lo hi = X kz (at_ (p + nh) n).
Proof.
  intros Hp Hk. cbv zeta. destruct nh_val as [H|(H1 & H2 & H3 & H4)]; [lia|]. pose proof nn as Hn. set (l := kn + (kN - 1)).
  assert (DL : dist l = Z.of_nat (nh * n)). { rewrite dist_nat. unfold l. rewrite Nat.pow_add_r. fold n. rewrite <- H2. lia. }
  assert (E1 : p_low p kz n = red kz l (at_ p n)). { unfold p_low. rewrite unpack_pack. decide_all. destruct (INV p kz ltac:(fold N; lia) Hk) as (_ & A & _). exact A. }
  assert (E2 : p_low p kz (n + 1) = red kz l (at_ p n + dist l)%Z).
  { unfold p_low. rewrite unpack_pack, Nat.eqb_refl. destruct (INV (p + nh) kz ltac:(fold N; lia) Hk) as (_ & A & _). fold n in A. rewrite A. fold l. f_equal. rewrite DL. nia. }
  rewrite E1, E2. assert (GA : ca F (red kz l (at_ p n)) = f0) by (apply A0; [exact Hk|rewrite DL; nia]).
  assert (GC : cc F (red kz l (at_ p n + dist l)%Z) = f0) by (apply C0; [exact Hk|rewrite DL, H3; nia]).
  assert (DE : det2 F fmul fsub (red kz l (at_ p n)) (red kz l (at_ p n + dist l)%Z) <> f0).
  { unfold det2. apply (pair_det F f0 f1 fadd fmul fsub fdiv fopp finv FT T (base kz)) with (L := kn + kN).
    - intros; apply outside; assumption.
    - apply first_row; exact Hk.
    - intros; apply pivots; assumption.
    - unfold l. lia.
    - rewrite DL. nia.
    - rewrite DL, H3. nia. }
  split; [exact DE|]. pose proof (XE kz l (at_ p n) Hk ltac:(unfold l; lia)) as Q1. pose proof (XE kz l (at_ p n + dist l)%Z Hk ltac:(unfold l; lia)) as Q2. rewrite GA in Q1. rewrite GC in Q2.
  replace (at_ p n + dist l - dist l)%Z with (at_ p n) in Q2 by lia. replace (at_ (p + nh) n) with (at_ p n + dist l)%Z by (rewrite DL; nia).
  apply two_by_two; [exact DE|rewrite <- Q1; ring|rewrite <- Q2; ring].
Qed.
Lemma high_rows p kz : nh <= p < N -> kz < nsys -> let lo := p_high p kz 0 in let hi := p_high p kz n in
  det2 F fmul fsub lo hi <> f0 /\ x_hi F fmul fsub fdiv lo hi = X kz (at_ p n).
Proof.
  intros Hp Hk. cbv zeta. pose proof nn as Hn. destruct nh_val as [(H1 & H2 & H3)|(H1 & H2 & H3 & H4)].
  - destruct (INV p kz ltac:(fold N; lia) Hk) as (_ & A & B). fold n in A. assert (E1 : p_high p kz 0 = unit_row). { unfold p_high. rewrite H2. cbn. apply B. exact H3. }
    assert (E2 : p_high p kz n = red kz kn (at_ p n)). { unfold p_high. rewrite H2. cbn [Nat.ltb Nat.leb]. rewrite A. f_equal. lia. }
    assert (DL : dist kn = Z.of_nat n) by apply dist_nat. assert (p = 0) by lia. subst p.
    assert (GA : ca F (red kz kn (at_ 0 n)) = f0) by (apply A0; [exact Hk|rewrite DL; nia]).
    assert (GC : cc F (red kz kn (at_ 0 n)) = f0) by (apply C0; [exact Hk|rewrite DL, H3; nia]).
    pose proof (XE kz kn (at_ 0 n) Hk ltac:(lia)) as Q1. rewrite GA, GC in Q1. pose proof (pivots kz kn (at_ 0 n) Hk ltac:(lia)) as PV.
    rewrite E1, E2. assert (DE : det2 F fmul fsub unit_row (red kz kn (at_ 0 n)) = cb F (red kz kn (at_ 0 n))). { unfold det2, PcrModel.unit_row. cbn [cb cc]. ring. }
    split; [rewrite DE; exact PV|]. unfold x_hi. rewrite DE. rewrite <- Q1. unfold PcrModel.unit_row. cbn [cb cr]. field. exact PV.
  - destruct (low_rows (p - nh) kz ltac:(lia) Hk) as (A & B & C). cbv zeta in *. replace (p - nh + nh) with p in C by lia.
    assert (E1 : p_high p kz 0 = p_low (p - nh) kz n). { unfold p_high, p_low. decide_all. rewrite !unpack_pack. decide_all. reflexivity. }
    assert (E2 : p_high p kz n = p_low (p - nh) kz (n + 1)). { unfold p_high, p_low. decide_all. rewrite !unpack_pack. decide_all. replace (p - nh + nh) with p by lia. reflexivity. }
    rewrite E1, E2. split; assumption.
Qed.
Lemma sx_val p kz : p < N -> kz < nsys -> sx p kz n = X kz (at_ p n).
Proof.
  intros Hp Hk. pose proof nn. unfold sx, set_x. destruct (Nat.ltb_spec p nh).
  - decide_all. apply low_rows; assumption.
  - rewrite Nat.eqb_refl. apply high_rows; [lia|assumption].
Qed.
Lemma sd_inner p kz : p < N -> kz < nsys -> inner F fadd fmul fdiv fopp kn base (sd p) p kz.
Proof.
  intros Hp Hk. destruct (INV p kz Hp Hk) as (A & _). intros j k0 H1 H2 H3 H4. rewrite <- (A j k0 H1 H2 H3 H4). fold n in H1. unfold sd, p_low, p_high.
  destruct (p <? nh); [|destruct (0 <? nh); [|reflexivity]]; rewrite unpack_pack; decide_all; reflexivity.
Qed.
Definition pair_ops (p : nat) : list (pop msg) :=
  PF msg :: (if p <? nh then [PR msg 0 (p + nh) 300; PS msg 1 (p + nh) 301 (pack F (d p) n)]
             else if 0 <? nh then [PR msg 2 (p - nh) 301; PS msg 3 (p - nh) 300 (pack F (d p) n)] else []).
Definition pair_rest (p : nat) : prog msg D :=
  if p <? nh then WaitRecv 0 (fun m => let d1 := unpack F (d p) (n + 1) m in
    bind (bind (must (nonzero F is_zero nsys (fun kz => det2 F fmul fsub (d1 kz n) (d1 kz (n + 1))))) (fun _ => bind (wait_send 1) (fun _ =>
      Ret (d1, set_x F (set_x F (x p) n (fun kz => x_lo F fmul fsub fdiv (d1 kz n) (d1 kz (n + 1)))) (n + 1) (fun kz => x_hi F fmul fsub fdiv (d1 kz n) (d1 kz (n + 1))))))) (k p))
  else
    let fin := fun d1 : matrix => bind (bind (must (nonzero F is_zero nsys (fun kz => det2 F fmul fsub (d1 kz 0) (d1 kz n)))) (fun _ => bind (when (0 <? nh) (wait_send 3)) (fun _ =>
      Ret (d1, set_x F (set_x F (x p) 0 (fun kz => x_lo F fmul fsub fdiv (d1 kz 0) (d1 kz n))) n (fun kz => x_hi F fmul fsub fdiv (d1 kz 0) (d1 kz n)))))) (k p) in
    if 0 <? nh then WaitRecv 2 (fun m => fin (unpack F (d p) 0 m)) else fin (d p).
Notation solve_pair p := (solve_pair F fmul fsub fdiv is_zero nsys n N p).
Lemma pair_code p : bind (solve_pair p (d p) (x p)) (k p) = emit msg D (pair_ops p) (pair_rest p).
Proof. unfold PcrModel.solve_pair, pair_ops, pair_rest. fold nh. destruct (p <? nh), (0 <? nh); reflexivity. Qed.
Lemma pair_round (st : state) : quiet st (fun p => bind (solve_pair p (d p) (x p)) (k p)) ->
  exists st', reach st st' /\ quiet st' (fun p => k p (sd p, sx p)).
Proof.
  intros Q. pose proof nh_val as NV. pose proof NN as HN1. apply (round msg D N eager pair_ops pair_rest).
  - intros p Hp. unfold pair_ops. ok_all.
  - intros s p t Hs Hp. unfold pair_ops, sends_on, recvs_on. decide_all; cbn [List.app send_on recv_on chan_eqb]; decide_all; reflexivity.
  - intros p st1 Hp E QU SP.
    assert (SQ : forall s t, s < N -> sends_on msg s (pair_ops s) (s, p, t) <> [] -> (p < nh /\ s = p + nh /\ t = 300) \/ (nh <= p /\ 0 < nh /\ s = p - nh /\ t = 301)).
    { intros s t Hs. unfold pair_ops, sends_on. decide_all; cbn [List.app send_on chan_eqb]; decide_all; intros Y; try (exfalso; apply Y; reflexivity); first [left; repeat split; lia|right; repeat split; lia]. }
    unfold pair_rest, pair_ops in E. destruct (Nat.ltb_spec p nh) as [B1|B1].
    + cbn [pend List.app req_of] in E. assert (Q1 : queue (chans st1 (p + nh, p, 300)) = [pack F (d (p + nh)) n]).
      { rewrite QU by lia. unfold pair_ops, sends_on. decide_all; cbn [List.app send_on chan_eqb]; decide_all; reflexivity. }
      destruct (wait_recv_run msg D N eager p st1 _ _ _ _ _ Hp E eq_refl Q1) as (s2 & A2). pose proof A2 as (_ & P2 & _ & C2). cbv zeta in P2. fold (p_low p) in P2.
      rewrite (nonzero_ok F f0 is_zero is_zero_spec) in P2 by (intros kz Hk; apply low_rows; assumption). cbn [must bind wait_send] in P2.
      destruct (wait_send_run msg D N eager p s2 _ _ _ _ Hp P2 eq_refl) as (s3 & A3); [rewrite C2; apply SP|].
      eexists s3, _. split; [|split].
      * pose proof (after_trans _ _ _ _ _ _ _ _ _ _ _ _ A2 A3) as A4. unfold sd, sx. destruct (Nat.ltb_spec p nh); [|lia]. exact A4.
      * intros c; cbn [List.app In]; intros [<-|[]]; reflexivity.
      * intros s t Hs Y. destruct (SQ s t Hs Y) as [(_ & -> & ->)|Z]; [left; reflexivity|lia].
    + destruct (Nat.ltb_spec 0 nh) as [B2|B2].
      * cbn [pend List.app req_of] in E. assert (Q1 : queue (chans st1 (p - nh, p, 301)) = [pack F (d (p - nh)) n]).
        { rewrite QU by lia. unfold pair_ops, sends_on. decide_all; cbn [List.app send_on chan_eqb]; decide_all; reflexivity. }
        destruct (wait_recv_run msg D N eager p st1 _ _ _ _ _ Hp E eq_refl Q1) as (s2 & A2). pose proof A2 as (_ & P2 & _ & C2). cbv zeta in P2.
        assert (HH : unpack F (d p) 0 (pack F (d (p - nh)) n) = p_high p) by (unfold p_high; decide_all; reflexivity). rewrite HH in P2.
        rewrite (nonzero_ok F f0 is_zero is_zero_spec) in P2 by (intros kz Hk; apply high_rows; [lia|assumption]). cbn [must bind wait_send when] in P2.
        destruct (wait_send_run msg D N eager p s2 _ _ _ _ Hp P2 eq_refl) as (s3 & A3); [rewrite C2; apply SP|].
        eexists s3, _. split; [|split].
        -- pose proof (after_trans _ _ _ _ _ _ _ _ _ _ _ _ A2 A3) as A4. unfold sd, sx. destruct (Nat.ltb_spec p nh); [lia|]. exact A4.
        -- intros c; cbn [List.app In]; intros [<-|[]]; reflexivity.
        -- intros s t Hs Y. destruct (SQ s t Hs Y) as [Z|(_ & _ & -> & ->)]; [lia|left; reflexivity].
      * cbv zeta in E. assert (HH : d p = p_high p) by (unfold p_high; decide_all; reflexivity). rewrite HH in E.
        rewrite (nonzero_ok F f0 is_zero is_zero_spec) in E by (intros kz Hk; apply high_rows; [lia|assumption]). cbn [must bind wait_send when pend req_of List.app] in E.
        exists st1, []. split; [|split].
        -- apply after_refl. unfold sd, sx. destruct (Nat.ltb_spec p nh); [lia|]. exact E.
        -- intros c [].
        -- intros s t Hs Y. destruct (SQ s t Hs Y) as [Z|(_ & Z & _)]; lia.
  - eapply quiet_ext; [|exact Q]. intros p Hp. apply pair_code.
Qed.
End Pair.

(** Back substitution on one processor, given the value of the last row of the one before. *)
Lemma back_ok p (d : matrix) : p < N -> (forall kz, kz < nsys -> inner F fadd fmul fdiv fopp kn base d p kz) ->
  forall nl x, nl <= kn -> (forall kz k, kz < nsys -> Nat.divide (2 ^ nl) k -> k <= n -> (1 <= k \/ 0 < p) -> x kz k = X kz (at_ p k)) ->
  exists x', back_levels F fmul fsub fdiv is_zero nsys n nl (2 ^ nl / 2) d x = Ret x' /\ forall kz k, kz < nsys -> k <= n -> (1 <= k \/ 0 < p) -> x' kz k = X kz (at_ p k).
Proof.
  intros Hp HI. induction nl as [|nl IH]; intros x Hn HX.
  - exists x. split; [reflexivity|]. intros kz k Hk H1 H2. apply HX; try assumption. exists k. cbn. lia.
  - cbn [back_levels]. rewrite pow_S. replace (2 * 2 ^ nl / 2) with (2 ^ nl) by (rewrite Nat.mul_comm, Nat.div_mul by lia; reflexivity). set (dd := 2 ^ nl) in *. pose proof (pow2_pos nl) as DP. fold dd in DP.
    set (q := 2 ^ (kn - S nl)). assert (M : n = q * (2 * dd)). { unfold n, q, dd. rewrite <- pow_S, <- Nat.pow_add_r. f_equal. lia. }
    assert (HQ : 1 <= q) by (unfold q; pose proof (pow2_pos (kn - S nl)); lia).
    assert (ROW : forall kz k, kz < nsys -> (exists j, k = (2 * j + 1) * dd) -> k <= (2 * (q - 1) + 1) * dd -> d kz k = red kz nl (at_ p k)).
    { intros kz k Hk [j Ej] Hb. apply HI; [exact Hk|fold n; nia|lia|exists (2 * j + 1); rewrite Ej; reflexivity|]. intros [m Em]. rewrite pow_S in Em. fold dd in Em. assert (Y : (2 * j + 1) * dd = 2 * m * dd) by (rewrite <- Ej, Em; ring). apply Nat.mul_cancel_r in Y; lia. }
    replace (n - dd) with ((2 * (q - 1) + 1) * dd) by nia.
    destruct (back_rows_ok F f0 fmul fsub fdiv is_zero is_zero_spec nsys dd d x (q - 1)) with (j := q - 1) (fuel := n) (x := x) as (x1 & E1 & V1); [lia| |lia|nia| |].
    { intros kz k Hk Hj Hb. rewrite ROW by assumption. apply pivots; [exact Hk|lia]. }
    { intros kz k. destruct (Nat.ltb_spec ((2 * (q - 1) + 1) * dd) k), (Nat.leb_spec k ((2 * (q - 1) + 1) * dd)); cbn [andb]; try reflexivity. lia. }
    rewrite E1. cbn [bind]. apply IH; [lia|]. intros kz k Hk HD Hb Hc. rewrite V1. fold dd in HD.
    destruct HD as [m Em]. destruct (Nat.Even_or_Odd m) as [[i Hi]|[i Hi]].
    + assert (Z : k mod (2 * dd) = 0) by (replace k with (i * (2 * dd)) by nia; apply Nat.mod_mul; lia). rewrite Z. destruct (Nat.eqb_spec 0 dd); [lia|]. rewrite andb_false_r.
      apply HX; try assumption. exists i. rewrite pow_S. fold dd. nia.
    + assert (Z : k mod (2 * dd) = dd). { replace k with (dd + i * (2 * dd)) by nia. rewrite Nat.mod_add by lia. apply Nat.mod_small. lia. } rewrite Z, Nat.eqb_refl.
      assert (B : k <= (2 * (q - 1) + 1) * dd) by (assert (2 * i + 1 < 2 * q) by nia; nia). destruct (Nat.leb_spec k ((2 * (q - 1) + 1) * dd)); [|lia]. cbn [andb]. unfold back_new.
      rewrite ROW; [|exact Hk|exists i; nia|exact B]. pose proof (XE kz nl (at_ p k) Hk ltac:(lia)) as Q1. rewrite dist_nat in Q1. fold dd in Q1. pose proof (pivots kz nl (at_ p k) Hk ltac:(lia)) as PV.
      assert (XH : x kz (k + dd) = X kz (at_ p k + Z.of_nat dd)%Z). { rewrite HX; [f_equal; lia|exact Hk|exists (i + 1); rewrite pow_S; fold dd; nia|nia|lia]. }
      assert (XL : ca F (red kz nl (at_ p k)) *! x kz (k - dd) = ca F (red kz nl (at_ p k)) *! X kz (at_ p k - Z.of_nat dd)%Z).
      { destruct (Nat.eq_dec i 0) as [->|NI]; [destruct (Nat.eq_dec p 0) as [->|NP]|].
        - rewrite A0; [ring|exact Hk|]. rewrite dist_nat. fold dd. nia.
        - rewrite HX; [f_equal; f_equal; nia|exact Hk|exists 0; nia|lia|lia].
        - rewrite HX; [f_equal; f_equal; nia|exact Hk|exists i; rewrite pow_S; fold dd; nia|lia|nia]. }
      rewrite XH. rewrite XL. rewrite <- Q1. field. exact PV.
Qed.

Section Back.
Variables (d : nat -> matrix) (x : nat -> vector) (k : nat -> vector -> prog msg D).
Hypothesis HI : forall p kz, p < N -> kz < nsys -> inner F fadd fmul fdiv fopp kn base (d p) p kz.
Hypothesis HX : forall p kz, p < N -> kz < nsys -> x p kz n = X kz (at_ p n).
Definition x_recv (p : nat) : vector := if 0 <? p then set_x F (x p) 0 (fun kz => x (p - 1) kz n) else x p.
Definition x_back (p : nat) : vector := got F (x p) (back_levels F fmul fsub fdiv is_zero nsys n (Nat.log2 n) (n / 2) (d p) (x_recv p)).
Lemma x_back_ok p : p < N -> back_levels F fmul fsub fdiv is_zero nsys n (Nat.log2 n) (n / 2) (d p) (x_recv p) = Ret (x_back p) /\
  forall kz k0, kz < nsys -> 1 <= k0 <= n -> x_back p kz k0 = X kz (at_ p k0).
Proof.
  intros Hp. unfold x_back. assert (LG : Nat.log2 n = kn) by (unfold n; apply Nat.log2_pow2; lia). rewrite LG. pose proof nn as Hn.
  destruct (back_ok p (d p) Hp (fun kz => HI p kz Hp) kn (x_recv p) (le_n kn)) as (x1 & E & V).
  - intros kz k0 Hk [m Em] H1 H2. fold n in Em. unfold x_recv, set_x. destruct (Nat.ltb_spec 0 p).
    + destruct (Nat.eqb_spec k0 0) as [->|NZ].
      * cbv beta. rewrite (HX (p - 1) kz (Nat.le_lt_trans _ _ _ (Nat.le_sub_l p 1) Hp) Hk). f_equal. nia.
      * idtac. replace k0 with n by (clear - Em NZ H1 Hn; destruct m as [|[|m]]; nia). apply HX; assumption.
    + replace k0 with n by (clear - Em H H2 H1 Hn; destruct m as [|[|m]]; nia). apply HX; assumption.
  - fold n in E. rewrite E. split; [reflexivity|]. intros kz k0 Hk H1. apply V; [exact Hk|lia|lia].
Qed.
Definition back_ops (p : nat) : list (pop msg) :=
  (if 0 <? p then [PR msg 0 (p - 1) 100] else []) ++ (if p <? N - 1 then [PS msg 1 (p + 1) 100 (fun kz => x p kz n)] else []).
Definition back_rest (p : nat) : prog msg D :=
  let fin := fun x1 : vector => bind (bind (back_levels F fmul fsub fdiv is_zero nsys n (Nat.log2 n) (n / 2) (d p) x1) (fun x2 => bind (when (p <? N - 1) (wait_send 1)) (fun _ => Ret x2))) (k p) in
  if 0 <? p then WaitRecv 0 (fun m => fin (set_x F (x p) 0 m)) else fin (x p).
Notation cr_back p := (cr_backward F fmul fsub fdiv is_zero nsys n N p).
Lemma back_code p : bind (cr_back p (d p) (x p)) (k p) = emit msg D (back_ops p) (back_rest p).
Proof. unfold cr_backward, back_ops, back_rest. destruct (0 <? p), (p <? N - 1); reflexivity. Qed.
Lemma back_round (st : state) : quiet st (fun p => bind (cr_back p (d p) (x p)) (k p)) ->
  exists st', reach st st' /\ quiet st' (fun p => k p (x_back p)).
Proof.
  intros Q. pose proof NN as HN1. apply (round msg D N eager back_ops back_rest).
  - intros p Hp. unfold back_ops. ok_all.
  - intros s p t Hs Hp. unfold back_ops, sends_on, recvs_on. decide_all; cbn [List.app send_on recv_on chan_eqb]; decide_all; reflexivity.
  - intros p st1 Hp E QU SP. destruct (x_back_ok p Hp) as [BO _]. unfold x_recv in BO.
    assert (SQ : forall s t, s < N -> sends_on msg s (back_ops s) (s, p, t) <> [] -> 0 < p /\ s = p - 1 /\ t = 100).
    { intros s t Hs. unfold back_ops, sends_on. decide_all; cbn [List.app send_on chan_eqb]; decide_all; intros Y; first [exfalso; apply Y; reflexivity|repeat split; lia]. }
    unfold back_rest, back_ops in E. cbv zeta in E. destruct (Nat.ltb_spec 0 p) as [B1|B1].
    + assert (Q1 : queue (chans st1 (p - 1, p, 100)) = [fun kz => x (p - 1) kz n]).
      { rewrite QU by lia. unfold back_ops, sends_on. decide_all; cbn [List.app send_on chan_eqb]; decide_all; reflexivity. }
      destruct (Nat.ltb_spec p (N - 1)) as [B2|B2]; cbn [pend List.app req_of] in E.
      * destruct (wait_recv_run msg D N eager p st1 _ _ _ _ _ Hp E eq_refl Q1) as (s2 & A2). pose proof A2 as (_ & P2 & _ & C2). rewrite BO in P2. cbn [bind when wait_send] in P2.
        destruct (wait_send_run msg D N eager p s2 _ _ _ _ Hp P2 eq_refl) as (s3 & A3); [rewrite C2; apply SP|].
        eexists s3, _. split; [exact (after_trans _ _ _ _ _ _ _ _ _ _ _ _ A2 A3)|]. split; [intros c; cbn [List.app In]; intros [<-|[]]; reflexivity|].
        intros s t Hs Y. destruct (SQ s t Hs Y) as (_ & -> & ->). left. reflexivity.
      * destruct (wait_recv_run msg D N eager p st1 _ _ _ _ _ Hp E eq_refl Q1) as (s2 & A2). rewrite BO in A2. cbn [bind when] in A2.
        eexists s2, _. split; [exact A2|]. split; [intros c; cbn [List.app In]; intros [<-|[]]; reflexivity|].
        intros s t Hs Y. destruct (SQ s t Hs Y) as (_ & -> & ->). left. reflexivity.
    + rewrite BO in E. destruct (Nat.ltb_spec p (N - 1)) as [B2|B2]; cbn [pend List.app req_of bind when wait_send] in E.
      * destruct (wait_send_run msg D N eager p st1 _ _ _ _ Hp E eq_refl) as (s3 & A3); [apply SP|].
        eexists s3, _. split; [exact A3|]. split; [intros c []|]. intros s t Hs Y. destruct (SQ s t Hs Y) as (Z & _). lia.
      * exists st1, []. split; [apply after_refl; exact E|]. split; [intros c []|]. intros s t Hs Y. destruct (SQ s t Hs Y) as (Z & _). lia.
  - eapply quiet_ext; [|exact Q]. intros p Hp. apply back_code.
Qed.
End Back.
End S.
