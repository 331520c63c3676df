(** The rounds between the processors, the pairs, and back substitution. *)
From Coq Require Import List Arith Bool Lia ZArith Field.
From Verif Require Import MpiModel MpiProofs MpiRounds PcrModel PcrProofs PcrProofs2 PcrProofs3.
Import ListNotations.

Section S.
Variable F : Type.
Variables (f0 f1 : F) (fadd fmul fsub fdiv : F -> F -> F) (fopp finv : F -> F).
Hypothesis FT : field_theory f0 f1 fadd fmul fsub fopp fdiv finv (@eq F).
Add Field FF4 : FT.
Variable is_zero : F -> bool.
Hypothesis is_zero_spec : forall x, is_zero x = true <-> x = f0.
Variables (nsys kn kN : nat).
Let n := 2 ^ kn.
Let N := 2 ^ kN.
Variable D : Type.
Variable eager : chan -> nat -> bool.
Notation matrix := (matrix F).
Notation vector := (vector F).
Notation msg := (msg F).
Notation unit_row := (unit_row F f0 f1).
Notation T := (Z.of_nat (N * n)).
Variable base : nat -> Z -> cell F.
Hypothesis outside : forall kz g, kz < nsys -> (g < 1 \/ T < g)%Z -> base kz g = unit_row.
Hypothesis first_row : forall kz, kz < nsys -> ca F (base kz 1) = f0.
Hypothesis last_row : forall kz, kz < nsys -> cc F (base kz T) = f0.
Notation red kz := (red F fadd fmul fdiv fopp (base kz)).
Hypothesis pivots : forall kz l g, kz < nsys -> l <= kn + kN -> cb F (red kz l g) <> f0.
Notation at_ p k := (Z.of_nat (p * n + k)).
Notation quiet := (quiet msg D N).
Notation reach := (reach msg D N eager).
Notation state := (state msg D).
Notation reduce_row := (reduce_row F fadd fmul).

Lemma np : 1 <= n. Proof. exact (pow2_pos kn). Qed.
Lemma Np : 1 <= N. Proof. exact (pow2_pos kN). Qed.
Lemma reduce_lo ga lo lo' mid hi : reduce_row f0 ga lo mid hi = reduce_row f0 ga lo' mid hi.
Proof. unfold PcrModel.reduce_row. f_equal; ring. Qed.
Lemma reduce_hi al lo mid hi hi' : reduce_row al f0 lo mid hi = reduce_row al f0 lo mid hi'.
Proof. unfold PcrModel.reduce_row. f_equal; ring. Qed.

(** Rows 1 to n-1 are those of the first stage, row n has been reduced further. *)
Definition inner (d : matrix) (p kz : nat) : Prop :=
  forall j k, 1 <= k < n -> j <= kn -> Nat.divide (2 ^ j) k -> ~ Nat.divide (2 ^ S j) k -> d kz k = red kz j (at_ p k).
Definition rank_inv (l : nat) (d : nat -> matrix) : Prop := forall p kz, p < N -> kz < nsys ->
  inner (d p) p kz /\ d p kz n = red kz (kn + l) (at_ p n) /\ (N = 1 -> d p kz 0 = unit_row).
Lemma start_inv d : level_inv F f0 f1 fadd fmul fdiv fopp nsys kn kN base kn d -> rank_inv 0 d.
Proof.
  intros H p kz Hp Hk. destruct (H p kz Hp Hk) as (A & B & C). split; [|split].
  - intros j k H1 H2 H3 H4. apply A; [unfold n in *; lia|exact H2|exact H3|right; exact H4].
  - rewrite Nat.add_0_r. apply A; [pose proof np; fold n; lia|lia|apply Nat.divide_refl|left; reflexivity].
  - intros E. apply B. lia.
Qed.

Section Level.
Variables (l nl : nat) (d : nat -> matrix) (k : nat -> matrix -> prog msg D).
Hypothesis HL : S l <= kN - 1.
Hypothesis INV : rank_inv l d.
Notation dl := (2 ^ l).
Definition odd_rank (p : nat) : bool := (p / dl + 1) mod 2 =? 0.
Lemma dl_pos : 0 < dl. Proof. apply pow2_pos. Qed.
Lemma odd_next p : odd_rank (p + dl) = negb (odd_rank p).
Proof.
  unfold odd_rank. pose proof dl_pos. replace (p + dl) with (p + 1 * dl) by lia. rewrite Nat.div_add by lia. set (q := p / dl).
  pose proof (Nat.div_mod (q + 1) 2 ltac:(lia)). pose proof (Nat.div_mod (q + 1 + 1) 2 ltac:(lia)). pose proof (Nat.mod_upper_bound (q + 1) 2 ltac:(lia)). pose proof (Nat.mod_upper_bound (q + 1 + 1) 2 ltac:(lia)).
  destruct (Nat.eqb_spec ((q + 1 + 1) mod 2) 0), (Nat.eqb_spec ((q + 1) mod 2) 0); cbn [negb]; try reflexivity; exfalso; lia.
Qed.
Lemma N_mult : N = 2 ^ (kN - l) * dl. Proof. unfold N. rewrite <- Nat.pow_add_r. f_equal. lia. Qed.
Lemma ml_first p : (p / dl =? 0) = (p <? dl).
Proof. pose proof dl_pos. destruct (Nat.ltb_spec p dl); [apply Nat.eqb_eq; apply Nat.div_small; assumption|]. apply Nat.eqb_neq. intros E. apply Nat.div_small_iff in E; lia. Qed.
Lemma ml_last p : p < N -> (p / dl =? N / dl - 1) = (N <=? p + dl).
Proof.
  intros Hp. pose proof dl_pos. pose proof N_mult as M. set (q := 2 ^ (kN - l)) in *. rewrite M, Nat.div_mul by lia. pose proof (Nat.div_mod p dl ltac:(lia)). pose proof (Nat.mod_upper_bound p dl ltac:(lia)).
  set (m := p / dl) in *. destruct (Nat.eqb_spec m (q - 1)), (Nat.leb_spec (q * dl) (p + dl)); try reflexivity; exfalso; rewrite M in Hp; [nia|].
  assert (m < q) by nia. nia.
Qed.
Definition r_hi (p : nat) : matrix := if p + dl <? N then unpack F (d p) (n + 1) (pack F (d (p + dl)) n) else d p.
Definition r_both (p : nat) : matrix := if dl <=? p then unpack F (r_hi p) 0 (pack F (d (p - dl)) n) else r_hi p.
Definition rnext (p : nat) : matrix := set_row F (r_both p) n (fun kz =>
  reduce_row (if p / dl =? 0 then f0 else fdiv (fopp (ca F (r_both p kz n))) (cb F (r_both p kz 0)))
             (if p / dl =? N / dl - 1 then f0 else fdiv (fopp (cc F (r_both p kz n))) (cb F (r_both p kz (n + 1))))
             (r_both p kz 0) (r_both p kz n) (r_both p kz (n + 1))).
Lemma both_mid p kz k0 : 1 <= k0 <= n -> r_both p kz k0 = d p kz k0.
Proof.
  intros H. unfold r_both, r_hi. destruct (dl <=? p), (p + dl <? N); rewrite ?unpack_pack; decide_all; try reflexivity; rewrite ?unpack_pack; decide_all; reflexivity.
Qed.
Lemma row_at p : (Z.of_nat (p * n + n) - dist (kn + l))%Z = (Z.of_nat p * Z.of_nat n + Z.of_nat n - Z.of_nat n * Z.of_nat dl)%Z.
Proof. rewrite dist_nat, Nat.pow_add_r. fold n. nia. Qed.
Lemma both_lo p kz : p < N -> kz < nsys -> dl <= p -> r_both p kz 0 = red kz (kn + l) (at_ p n - dist (kn + l))%Z.
Proof.
  intros Hp Hk H. unfold r_both. destruct (Nat.leb_spec dl p); [|lia]. rewrite unpack_pack. change (0 =? 0) with true. cbn iota.
  destruct (INV (p - dl) kz ltac:(lia) Hk) as (_ & -> & _). f_equal. rewrite row_at. nia.
Qed.
Lemma both_hi p kz : p < N -> kz < nsys -> p + dl < N -> r_both p kz (n + 1) = red kz (kn + l) (at_ p n + dist (kn + l))%Z.
Proof.
  intros Hp Hk H. transitivity (r_hi p kz (n + 1)).
  - unfold r_both. destruct (dl <=? p); [|reflexivity]. rewrite unpack_pack. decide_all. reflexivity.
  - unfold r_hi. destruct (Nat.ltb_spec (p + dl) N); [|lia]. rewrite unpack_pack, Nat.eqb_refl. destruct (INV (p + dl) kz ltac:(lia) Hk) as (_ & -> & _). f_equal. rewrite dist_nat, Nat.pow_add_r. fold n. nia.
Qed.
Lemma a_zero p kz : kz < nsys -> p < dl -> ca F (red kz (kn + l) (at_ p n)) = f0.
Proof.
  intros Hk H. apply (red_a0 F f0 f1 fadd fmul fsub fdiv fopp finv FT T (base kz)); [intros; apply outside; assumption|apply first_row; exact Hk|]. rewrite dist_nat, Nat.pow_add_r. fold n. nia.
Qed.
Lemma c_zero p kz : kz < nsys -> p < N -> N <= p + dl -> cc F (red kz (kn + l) (at_ p n)) = f0.
Proof.
  intros Hk Hp H. pose proof np. apply (red_c0 F f0 f1 fadd fmul fsub fdiv fopp finv FT T (base kz)); [intros; apply outside; assumption|apply last_row; exact Hk|]. rewrite dist_nat, Nat.pow_add_r. fold n. nia.
Qed.
Lemma rank_next : rank_inv (S l) rnext.
Proof.
  intros p kz Hp Hk. destruct (INV p kz Hp Hk) as (A & B & C). pose proof np. pose proof dl_pos. split; [|split].
  - intros j k0 H1 H2 H3 H4. unfold rnext, set_row. decide_all. rewrite both_mid by lia. apply A; assumption.
  - unfold rnext, set_row. rewrite Nat.eqb_refl. rewrite (both_mid p kz n) by lia. rewrite B. replace (kn + S l) with (S (kn + l)) by lia. cbn [PcrProofs.red].
    rewrite ml_first, (ml_last p Hp). set (mid := red kz (kn + l) (at_ p n)) in *.
    transitivity (reduce_row (fdiv (fopp (ca F mid)) (cb F (red kz (kn + l) (at_ p n - dist (kn + l))%Z)))
      (if N <=? p + dl then f0 else fdiv (fopp (cc F mid)) (cb F (r_both p kz (n + 1)))) (red kz (kn + l) (at_ p n - dist (kn + l))%Z) mid (r_both p kz (n + 1))).
    + destruct (Nat.ltb_spec p dl) as [H5|H5].
      * pose proof (a_zero p kz Hk H5) as AZ. fold mid in AZ. rewrite AZ. rewrite (opp0 F f0 f1 fadd fmul fsub fdiv fopp finv FT), (div0 F f0 f1 fadd fmul fsub fdiv fopp finv FT). apply reduce_lo.
      * rewrite (both_lo p kz Hp Hk H5). reflexivity.
    + destruct (Nat.leb_spec N (p + dl)) as [H5|H5].
      * pose proof (c_zero p kz Hk Hp H5) as CZ. fold mid in CZ. rewrite CZ. rewrite (opp0 F f0 f1 fadd fmul fsub fdiv fopp finv FT), (div0 F f0 f1 fadd fmul fsub fdiv fopp finv FT). apply reduce_hi.
      * rewrite (both_hi p kz Hp Hk H5). reflexivity.
  - intros E. exfalso. pose proof N_mult as M. assert (2 ^ (kN - l) <> 1). { intros X. assert (kN - l = 0); [|lia]. destruct (kN - l) as [|m]; [reflexivity|]. rewrite pow_S in X. pose proof (pow2_pos m). lia. } nia.
Qed.

Definition pcr_ops (p : nat) : list (pop msg) :=
  PF msg :: (if p + dl <? N then [PR msg 0 (p + dl) (if odd_rank p then 202 else 201); PS msg 1 (p + dl) (if odd_rank p then 203 else 200) (pack F (d p) n)] else [])
  ++ (if dl <=? p then [PR msg 2 (p - dl) (if odd_rank p then 200 else 203); PS msg 3 (p - dl) (if odd_rank p then 201 else 202) (pack F (d p) n)] else []).
Notation pcr_fwd p := (pcr_forward F f0 fadd fmul fdiv fopp is_zero nsys n N p).
Definition pcr_tail (p : nat) (d1 : matrix) : prog msg D :=
  bind (bind (must ((p / dl =? 0) || nonzero F is_zero nsys (fun kz => cb F (d1 kz 0)))) (fun _ =>
    bind (must ((p / dl =? N / dl - 1) || nonzero F is_zero nsys (fun kz => cb F (d1 kz (n + 1))))) (fun _ =>
    pcr_fwd p nl (2 * dl) (set_row F d1 n (fun kz =>
      reduce_row (if p / dl =? 0 then f0 else fdiv (fopp (ca F (d1 kz n))) (cb F (d1 kz 0)))
                 (if p / dl =? N / dl - 1 then f0 else fdiv (fopp (cc F (d1 kz n))) (cb F (d1 kz (n + 1))))
                 (d1 kz 0) (d1 kz n) (d1 kz (n + 1))))))) (k p).
Definition pcr_rest (p : nat) : prog msg D :=
  if p + dl <? N then
    WaitRecv 0 (fun m => WaitSend 1 (let d1 := unpack F (d p) (n + 1) m in
      if dl <=? p then WaitRecv 2 (fun m => WaitSend 3 (pcr_tail p (unpack F d1 0 m))) else pcr_tail p d1))
  else if dl <=? p then WaitRecv 2 (fun m => WaitSend 3 (pcr_tail p (unpack F (d p) 0 m))) else pcr_tail p (d p).
Lemma pcr_code p : bind (pcr_fwd p (S nl) dl (d p)) (k p) = emit msg D (pcr_ops p) (pcr_rest p).
Proof.
  cbn [pcr_forward]. unfold pcr_ops, pcr_rest, pcr_tail, odd_rank, exchange. destruct ((p / dl + 1) mod 2 =? 0), (p + dl <? N), (dl <=? p); reflexivity.
Qed.
Lemma tail_ok p : p < N -> pcr_tail p (r_both p) = bind (pcr_fwd p nl (2 * dl) (rnext p)) (k p).
Proof.
  intros Hp. unfold pcr_tail. rewrite ml_first, (ml_last p Hp).
  assert (B1 : (p <? dl) || nonzero F is_zero nsys (fun kz => cb F (r_both p kz 0)) = true).
  { destruct (Nat.ltb_spec p dl); [reflexivity|]. cbn [orb]. apply (nonzero_ok F f0); [exact is_zero_spec|]. intros kz Hk. rewrite both_lo by assumption. apply pivots; [exact Hk|lia]. }
  assert (B2 : (N <=? p + dl) || nonzero F is_zero nsys (fun kz => cb F (r_both p kz (n + 1))) = true).
  { destruct (Nat.leb_spec N (p + dl)); [reflexivity|]. cbn [orb]. apply (nonzero_ok F f0); [exact is_zero_spec|]. intros kz Hk. rewrite both_hi by assumption. apply pivots; [exact Hk|lia]. }
  rewrite B1, B2. cbn [must bind]. unfold rnext. rewrite ml_first, (ml_last p Hp). reflexivity.
Qed.
Lemma pcr_sends s p t : s < N -> p < N -> sends_on msg s (pcr_ops s) (s, p, t) =
  if (s + dl =? p) && (t =? (if odd_rank s then 203 else 200)) then [pack F (d s) n]
  else if (p + dl =? s) && (t =? (if odd_rank s then 201 else 202)) then [pack F (d s) n] else [].
Proof.
  intros Hs Hp. pose proof dl_pos. unfold pcr_ops, sends_on. destruct (odd_rank s); decide_all; cbn [List.app send_on chan_eqb]; decide_all; reflexivity.
Qed.
Lemma pcr_recvs s p t : s < N -> p < N -> recvs_on msg p (pcr_ops p) (s, p, t) =
  if (p + dl =? s) && (t =? (if odd_rank p then 202 else 201)) then 1
  else if (s + dl =? p) && (t =? (if odd_rank p then 200 else 203)) then 1 else 0.
Proof.
  intros Hs Hp. pose proof dl_pos. unfold pcr_ops, recvs_on. destruct (odd_rank p); decide_all; cbn [List.app recv_on chan_eqb]; decide_all; reflexivity.
Qed.
Lemma pcr_round (st : state) : quiet st (fun p => bind (pcr_fwd p (S nl) dl (d p)) (k p)) ->
  exists st', reach st st' /\ quiet st' (fun p => bind (pcr_fwd p nl (2 * dl) (rnext p)) (k p)).
Proof.
  intros Q. pose proof dl_pos as DP. apply (round msg D N eager pcr_ops pcr_rest).
  - intros p Hp. unfold pcr_ops. destruct (odd_rank p); ok_all.
  - intros s p t Hs Hp. rewrite pcr_sends, pcr_recvs by assumption. destruct (Nat.eqb_spec (p + dl) s) as [<-|N1].
    + rewrite odd_next. destruct (Nat.eqb_spec (p + dl + dl) p); [lia|]. destruct (odd_rank p); cbn [negb andb]; destruct (t =? _); reflexivity.
    + destruct (Nat.eqb_spec (s + dl) p) as [<-|N2]; [|reflexivity]. rewrite odd_next. destruct (odd_rank s); cbn [negb andb]; destruct (t =? _); reflexivity.
  - intros p st1 Hp E QU SP.
    assert (T1 : forall s t, s < N -> sends_on msg s (pcr_ops s) (s, p, t) <> [] ->
      (s = p + dl /\ t = (if odd_rank p then 202 else 201)) \/ (s + dl = p /\ t = (if odd_rank p then 200 else 203))).
    { intros s t Hs. rewrite pcr_sends by assumption. destruct (Nat.eqb_spec (s + dl) p) as [<-|N1]; cbn [andb].
      - destruct (Nat.eqb_spec (s + dl + dl) s); [lia|]. cbn [andb]. rewrite odd_next. destruct (Nat.eqb_spec t (if odd_rank s then 203 else 200)) as [->|]; [|intros X; destruct (X eq_refl)].
        intros _. right. split; [reflexivity|]. destruct (odd_rank s); reflexivity.
      - destruct (Nat.eqb_spec (p + dl) s) as [<-|N2]; cbn [andb]; [|intros X; destruct (X eq_refl)]. rewrite odd_next.
        destruct (Nat.eqb_spec t (if negb (odd_rank p) then 201 else 202)) as [->|]; [|intros X; destruct (X eq_refl)]. intros _. left. split; [reflexivity|]. destruct (odd_rank p); reflexivity. }
    assert (Q1 : p + dl < N -> queue (chans st1 (p + dl, p, if odd_rank p then 202 else 201)) = [pack F (d (p + dl)) n]).
    { intros HQ. rewrite QU by lia. rewrite pcr_sends by assumption. rewrite odd_next. destruct (Nat.eqb_spec (p + dl + dl) p); [lia|]. rewrite Nat.eqb_refl. destruct (odd_rank p); reflexivity. }
    assert (Q2 : dl <= p -> queue (chans st1 (p - dl, p, if odd_rank p then 200 else 203)) = [pack F (d (p - dl)) n]).
    { intros HQ. rewrite QU by lia. rewrite pcr_sends by (assumption || lia). pose proof (odd_next (p - dl)) as ON. replace (p - dl + dl) with p in * by lia. rewrite ON, Nat.eqb_refl. destruct (odd_rank (p - dl)); reflexivity. }
    pose proof (tail_ok p Hp) as TO. unfold r_both, r_hi in TO. unfold pcr_rest, pcr_ops in E. destruct (Nat.ltb_spec (p + dl) N) as [B1|B1].
    + destruct (Nat.leb_spec dl p) as [B2|B2]; cbn [pend List.app req_of] in E.
      * destruct (wait_recv_run msg D N eager p st1 _ _ _ _ _ Hp E eq_refl (Q1 B1)) as (s2 & A2). pose proof A2 as (_ & P2 & _ & C2). cbv zeta in P2.
        destruct (wait_send_run msg D N eager p s2 _ _ _ _ Hp P2 eq_refl) as (s3 & A3); [rewrite C2; apply SP|]. pose proof A3 as (_ & P3 & _ & C3).
        assert (Q2' : queue (chans s3 (p - dl, p, if odd_rank p then 200 else 203)) = [pack F (d (p - dl)) n]).
        { rewrite C3, C2. cbn [queue taken_from existsb]. unfold taken_from. cbn [existsb chan_eqb]. destruct (Nat.eqb_spec (p - dl) (p + dl)); [lia|]. cbn [andb orb]. apply Q2. exact B2. }
        destruct (wait_recv_run msg D N eager p s3 _ _ _ _ _ Hp P3 eq_refl Q2') as (s4 & A4). pose proof A4 as (_ & P4 & _ & C4).
        destruct (wait_send_run msg D N eager p s4 _ _ _ _ Hp P4 eq_refl) as (s5 & A5); [rewrite C4, C3, C2; apply SP|]. rewrite TO in A5.
        eexists s5, _. split; [exact (after_trans _ _ _ _ _ _ _ _ _ _ _ _ A2 (after_trans _ _ _ _ _ _ _ _ _ _ _ _ A3 (after_trans _ _ _ _ _ _ _ _ _ _ _ _ A4 A5)))|].
        split; [intros c; cbn [List.app In]; intros [<-|[<-|[]]]; reflexivity|]. intros s t Hs X. destruct (T1 s t Hs X) as [(-> & ->)|(Y & ->)]; [left; reflexivity|right; left]. replace s with (p - dl) by lia. reflexivity.
      * destruct (wait_recv_run msg D N eager p st1 _ _ _ _ _ Hp E eq_refl (Q1 B1)) as (s2 & A2). pose proof A2 as (_ & P2 & _ & C2). cbv zeta in P2.
        destruct (wait_send_run msg D N eager p s2 _ _ _ _ Hp P2 eq_refl) as (s3 & A3); [rewrite C2; apply SP|]. rewrite TO in A3.
        eexists s3, _. split; [exact (after_trans _ _ _ _ _ _ _ _ _ _ _ _ A2 A3)|].
        split; [intros c; cbn [List.app In]; intros [<-|[]]; reflexivity|]. intros s t Hs X. destruct (T1 s t Hs X) as [(-> & ->)|(Y & ->)]; [left; reflexivity|lia].
    + destruct (Nat.leb_spec dl p) as [B2|B2]; cbn [pend List.app req_of] in E.
      * destruct (wait_recv_run msg D N eager p st1 _ _ _ _ _ Hp E eq_refl (Q2 B2)) as (s4 & A4). pose proof A4 as (_ & P4 & _ & C4).
        destruct (wait_send_run msg D N eager p s4 _ _ _ _ Hp P4 eq_refl) as (s5 & A5); [rewrite C4; apply SP|]. rewrite TO in A5.
        eexists s5, _. split; [exact (after_trans _ _ _ _ _ _ _ _ _ _ _ _ A4 A5)|].
        split; [intros c; cbn [List.app In]; intros [<-|[]]; reflexivity|]. intros s t Hs X. destruct (T1 s t Hs X) as [(-> & ->)|(Y & ->)]; [lia|left]. replace s with (p - dl) by lia. reflexivity.
      * rewrite TO in E. exists st1, []. split; [apply after_refl; exact E|]. split; [intros c []|]. intros s t Hs X. destruct (T1 s t Hs X) as [(-> & ->)|(Y & ->)]; lia.
  - eapply quiet_ext; [|exact Q]. intros p Hp. apply pcr_code.
Qed.
End Level.
Lemma pcr_stage nl : forall l d k (st : state), nl + l = kN - 1 -> rank_inv l d ->
  quiet st (fun p => bind (pcr_forward F f0 fadd fmul fdiv fopp is_zero nsys n N p nl (2 ^ l) (d p)) (k p)) ->
  exists st' d', reach st st' /\ quiet st' (fun p => k p (d' p)) /\ rank_inv (kN - 1) d'.
Proof.
  induction nl as [|nl IH]; intros l d k st E INV Q.
  - exists st, d. split; [apply reach_refl|]. split; [exact Q|]. rewrite <- E. exact INV.
  - destruct (pcr_round l nl d k ltac:(lia) INV st Q) as (s1 & R1 & Q1). rewrite <- pow_S in Q1.
    destruct (IH (S l) (rnext l d) k s1 ltac:(lia) (rank_next l d ltac:(lia) INV) Q1) as (s2 & d2 & R2 & Q2 & I2).
    exists s2, d2. split; [eapply reach_trans; eassumption|]. split; assumption.
Qed.
End S.
