(** The rounds of the forward stage: cyclic reduction inside the processors. *)
From Coq Require Import List Arith Bool Lia ZArith Field.
From Verif Require Import MpiModel MpiProofs MpiRounds PcrModel PcrProofs PcrProofs2.
Import ListNotations.

Ltac decide_all :=
  repeat (match goal with
  | |- context [?a <? ?b] => destruct (Nat.ltb_spec a b); try lia
  | |- context [?a <=? ?b] => destruct (Nat.leb_spec a b); try lia
  | |- context [?a =? ?b] => destruct (Nat.eqb_spec a b); try lia
  end; cbn [andb orb negb List.app length Nat.add]).

Ltac ok_all := decide_all; cbn [ok_ops List.app req_of free lookup existsb is_send is_recv_on snd chan_eqb]; decide_all; reflexivity.

Lemma pow_S l : 2 ^ S l = 2 * 2 ^ l. Proof. apply Nat.pow_succ_r'. Qed.
Lemma pow2_pos l : 0 < 2 ^ l. Proof. pose proof (Nat.pow_nonzero 2 l ltac:(lia)). lia. Qed.
Lemma dist_nat l : dist l = Z.of_nat (2 ^ l).
Proof. unfold dist. rewrite Nat2Z.inj_pow. reflexivity. Qed.

Section S.
Variable F : Type.
Variables (f0 f1 : F) (fadd fmul fsub fdiv : F -> F -> F) (fopp finv : F -> F).
Hypothesis FT : field_theory f0 f1 fadd fmul fsub fopp fdiv finv (@eq F).
Add Field FF3 : FT.
Variable is_zero : F -> bool.
Hypothesis is_zero_spec : forall x, is_zero x = true <-> x = f0.
Variables (nsys kn kN : nat).
Let n := 2 ^ kn.
Let N := 2 ^ kN.
Variable D : Type.
Variable eager : chan -> nat -> bool.
Notation matrix := (matrix F).
Notation vector := (vector F).
Notation msg := (msg F).
Notation unit_row := (unit_row F f0 f1).
Notation T := (Z.of_nat (N * n)).
Variable base : nat -> Z -> cell F.
Hypothesis outside : forall kz g, kz < nsys -> (g < 1 \/ T < g)%Z -> base kz g = unit_row.
Hypothesis first_row : forall kz, kz < nsys -> ca F (base kz 1) = f0.
Hypothesis last_row : forall kz, kz < nsys -> cc F (base kz T) = f0.
Notation red kz := (red F fadd fmul fdiv fopp (base kz)).
Hypothesis pivots : forall kz l g, kz < nsys -> l <= kn + kN -> cb F (red kz l g) <> f0.
Notation at_ p k := (Z.of_nat (p * n + k)).
Notation quiet := (quiet msg D N).
Notation reach := (reach msg D N eager).
Notation state := (state msg D).

Lemma n_pos : 1 <= n. Proof. exact (pow2_pos kn). Qed.
Lemma N_pos : 1 <= N. Proof. exact (pow2_pos kN). Qed.
Lemma quiet_ext (st : state) P Q : (forall p, p < N -> P p = Q p) -> quiet st P -> quiet st Q.
Proof. intros H [A B]. split; [|exact B]. intros p Hp. rewrite A, H by exact Hp. reflexivity. Qed.
Definition got {A} (dflt : A) (m : prog msg A) : A := match m with Ret a => a | _ => dflt end.

(** What processor [p] holds after [l] levels. *)
Definition level_inv (l : nat) (d : nat -> matrix) : Prop := forall p kz, p < N -> kz < nsys ->
  (forall j k, 1 <= k <= n -> j <= l -> Nat.divide (2 ^ j) k -> (j = l \/ ~ Nat.divide (2 ^ S j) k) -> d p kz k = red kz j (at_ p k)) /\
  (p = 0 -> d p kz 0 = unit_row) /\ (p = N - 1 -> d p kz (n + 1) = unit_row).

Section Level.
Variables (l nl : nat) (d : nat -> matrix) (k : nat -> matrix -> prog msg D).
Hypothesis HL : S l <= kn.
Hypothesis INV : level_inv l d.
Notation dl := (2 ^ l).
Definition recvd (p : nat) : matrix := if p <? N - 1 then unpack F (d p) (n + 1) (pack F (d (p + 1)) dl) else d p.
Notation fwd p := (forward_rows F fadd fmul fdiv fopp is_zero nsys n (S n) (2 * dl) dl (recvd p)).
Definition dnext (p : nat) : matrix := got (d p) (fwd p).

Lemma n_mult : n = 2 ^ (kn - S l) * (2 * dl).
Proof. unfold n. rewrite <- pow_S, <- Nat.pow_add_r. f_equal. lia. Qed.
Lemma recvd_low p kz k0 : k0 <> n + 1 -> recvd p kz k0 = d p kz k0.
Proof. intros H. unfold recvd. destruct (p <? N - 1); [|reflexivity]. rewrite unpack_pack. destruct (Nat.eqb_spec k0 (n + 1)); [congruence|reflexivity]. Qed.
Lemma recvd_top p kz : p < N -> kz < nsys -> recvd p kz (n + 1) = red kz l (at_ p (n + dl)).
Proof.
  intros Hp Hk. unfold recvd. pose proof n_mult as M. pose proof (pow2_pos l). pose proof n_pos. pose proof (pow2_pos (kn - S l)).
  assert (DN : dl <= n) by nia. destruct (Nat.ltb_spec p (N - 1)).
  - rewrite unpack_pack, Nat.eqb_refl. destruct (INV (p + 1) kz) as (A & _); [lia|exact Hk|]. rewrite (A l dl); [|lia|lia|apply Nat.divide_refl|left; reflexivity].
    f_equal. f_equal. nia.
  - destruct (INV p kz Hp Hk) as (_ & _ & A). rewrite A by lia. symmetry. apply (red_outside F f0 f1 fadd fmul fsub fdiv fopp finv FT T (base kz)); [intros; apply outside; assumption|].
    right. apply inj_lt. replace p with (N - 1) by lia. pose proof N_pos. nia.
Qed.
Lemma recvd_val p kz k0 : p < N -> kz < nsys -> 1 <= k0 <= n -> Nat.divide dl k0 -> recvd p kz k0 = red kz l (at_ p k0).
Proof. intros Hp Hk H1 H2. rewrite recvd_low by lia. destruct (INV p kz Hp Hk) as (A & _). apply A; [exact H1|lia|exact H2|left; reflexivity]. Qed.
Lemma fwd_ok p : p < N -> fwd p = Ret (dnext p) /\ forall kz k0, kz < nsys ->
  dnext p kz k0 = if (2 * dl <=? k0) && (k0 <=? n) && (k0 mod (2 * dl) =? 0) then forward_new F fadd fmul fdiv fopp n dl (recvd p) kz k0 else recvd p kz k0.
Proof.
  intros Hp. pose proof n_mult as M. pose proof (pow2_pos l). pose proof n_pos. set (q := 2 ^ (kn - S l)) in *.
  destruct (forward_rows_ok F f0 fadd fmul fdiv fopp is_zero is_zero_spec nsys n dl q (recvd p)) with (fuel := n) (j := 1) (d := recvd p) as (d' & E & H'); try lia.
  - intros kz k0 Hk [j Ej] Hl. rewrite recvd_val; [apply pivots; [exact Hk|lia]|exact Hp|exact Hk|nia|exists (2 * j + 1); lia].
  - intros kz Hk. rewrite recvd_top by assumption. apply pivots; [exact Hk|lia].
  - nia.
  - intros kz k0. destruct (Nat.leb_spec (2 * dl) k0), (Nat.ltb_spec k0 (2 * dl * 1)); cbn [andb]; try reflexivity. lia.
  - rewrite Nat.mul_1_r in E. unfold dnext. rewrite E. split; [reflexivity|]. intros kz k0 _. apply H'.
Qed.
Lemma inv_next : level_inv (S l) dnext.
Proof.
  intros p kz Hp Hk. destruct (fwd_ok p Hp) as [_ V]. destruct (INV p kz Hp Hk) as (A & B & C). pose proof n_mult as M. pose proof (pow2_pos l). pose proof n_pos. split; [|split].
  - intros j k0 H1 H2 H3 H4. rewrite V by exact Hk. destruct (Nat.eq_dec j (S l)) as [->|NJ].
    + clear H4. pose proof H3 as [m Em]. rewrite pow_S in Em, H3.
      assert (M0 : 1 <= m) by nia. replace (2 * dl <=? k0) with true by (symmetry; apply Nat.leb_le; nia). replace (k0 <=? n) with true by (symmetry; apply Nat.leb_le; lia).
      replace (k0 mod (2 * dl) =? 0) with true by (symmetry; apply Nat.eqb_eq; apply Nat.mod_divide; [lia|exact H3]). cbn [andb]. unfold forward_new. cbn [PcrProofs.red].
      assert (E1 : recvd p kz (k0 - dl) = red kz l (at_ p k0 - dist l)). { rewrite recvd_val; [f_equal; rewrite dist_nat; nia|exact Hp|exact Hk|nia|exists (2 * m - 1); nia]. }
      assert (E2 : recvd p kz k0 = red kz l (at_ p k0)). { apply recvd_val; try assumption. exists (2 * m). nia. }
      assert (E3 : recvd p kz (Nat.min (k0 + dl) (n + 1)) = red kz l (at_ p k0 + dist l)).
      { destruct (Nat.eq_dec k0 n) as [->|NK].
        - replace (Nat.min (n + dl) (n + 1)) with (n + 1) by lia. rewrite recvd_top by assumption. f_equal. rewrite dist_nat. nia.
        - assert (k0 + dl <= n) by (rewrite M in *; set (q := 2 ^ (kn - S l)) in *; assert (m < q) by nia; nia).
          replace (Nat.min (k0 + dl) (n + 1)) with (k0 + dl) by lia. rewrite recvd_val; [f_equal; rewrite dist_nat; nia|exact Hp|exact Hk|lia|exists (2 * m + 1); nia]. }
      rewrite E1, E2, E3. reflexivity.
    + assert (NM : k0 mod (2 * dl) <> 0).
      { intros E. apply Nat.mod_divide in E; [|lia]. destruct H4 as [H4|H4]; [congruence|]. apply H4. apply Nat.divide_trans with (2 * dl); [|exact E]. rewrite <- pow_S.
        exists (2 ^ (S l - S j)). rewrite <- Nat.pow_add_r. f_equal. lia. }
      apply Nat.eqb_neq in NM. rewrite NM, andb_false_r. rewrite recvd_low by lia. apply A; [exact H1|lia|exact H3|]. destruct H4 as [H4|H4]; [congruence|right; exact H4].
  - intros ->. rewrite V by exact Hk. replace (2 * dl <=? 0) with false by (symmetry; apply Nat.leb_gt; lia). cbn [andb]. rewrite recvd_low by lia. apply B. reflexivity.
  - intros E. rewrite V by exact Hk. replace (n + 1 <=? n) with false by (symmetry; apply Nat.leb_gt; lia). rewrite andb_false_r. cbn [andb]. unfold recvd.
    replace (p <? N - 1) with false by (symmetry; apply Nat.ltb_ge; lia). apply C. exact E.
Qed.

Definition cr_ops (p : nat) : list (pop msg) :=
  (if p <? N - 1 then [PR msg 0 (p + 1) 0] else []) ++ (if 0 <? p then [PF msg; PS msg 1 (p - 1) 0 (pack F (d p) dl)] else []).
Definition cr_rest (p : nat) : prog msg D :=
  bind (if p <? N - 1 then bind (wait_recv 0) (fun m => Ret (unpack F (d p) (n + 1) m)) else Ret (d p)) (fun d1 =>
    bind (bind (forward_rows F fadd fmul fdiv fopp is_zero nsys n (S n) (2 * dl) dl d1) (fun d2 =>
      bind (when (0 <? p) (wait_send 1)) (fun _ => cr_forward F fadd fmul fdiv fopp is_zero nsys n N p nl (2 * dl) d2))) (k p)).
Lemma cr_code p : bind (cr_forward F fadd fmul fdiv fopp is_zero nsys n N p (S nl) dl (d p)) (k p) = emit msg D (cr_ops p) (cr_rest p).
Proof. cbn [cr_forward]. unfold cr_ops, cr_rest. destruct (p <? N - 1), (0 <? p); reflexivity. Qed.
Lemma cr_round (st : state) : quiet st (fun p => bind (cr_forward F fadd fmul fdiv fopp is_zero nsys n N p (S nl) dl (d p)) (k p)) ->
  exists st', reach st st' /\ quiet st' (fun p => bind (cr_forward F fadd fmul fdiv fopp is_zero nsys n N p nl (2 * dl) (dnext p)) (k p)).
Proof.
  intros Q. apply (round msg D N eager cr_ops cr_rest).
  - intros p Hp. unfold cr_ops. ok_all.
  - intros s t c Hs Ht. unfold cr_ops. pose proof N_pos. unfold sends_on, recvs_on. decide_all; cbn [List.app send_on recv_on chan_eqb]; decide_all; reflexivity.
  - intros p st1 Hp E QU SP. destruct (fwd_ok p Hp) as [FW _].
    assert (SQ : forall s t, s < N -> sends_on msg s (cr_ops s) (s, p, t) <> [] -> s = p + 1 /\ t = 0 /\ p < N - 1).
    { intros s t Hs. unfold cr_ops. unfold sends_on. decide_all; cbn [List.app send_on chan_eqb]; decide_all; intros X; first [exfalso; apply X; reflexivity|repeat split; lia]. }
    assert (Q1 : p < N - 1 -> queue (chans st1 (p + 1, p, 0)) = [pack F (d (p + 1)) dl]).
    { intros HQ. rewrite QU by lia. unfold cr_ops. unfold sends_on. decide_all; cbn [List.app send_on chan_eqb]; decide_all; reflexivity. }
    unfold cr_rest, cr_ops in E. unfold recvd in FW. destruct (Nat.ltb_spec p (N - 1)) as [B1|B1].
    + destruct (Nat.ltb_spec 0 p) as [B2|B2]; cbn [bind when wait_send wait_recv pend List.app req_of] in E.
      * destruct (wait_recv_run msg D N eager p st1 _ _ _ (p + 1, p, 0) _ Hp E eq_refl (Q1 B1)) as (s2 & A2). pose proof A2 as (_ & P2 & _ & C2). cbn [bind] in P2.
        rewrite FW in P2. cbn [bind when wait_send wait_recv remove Nat.eqb] in P2. destruct (wait_send_run msg D N eager p s2 _ _ _ (p, p - 1, 0) Hp P2 eq_refl) as (s3 & A3).
        { rewrite C2. cbn [sent posted]. apply SP. }
        eexists s3, _. split; [exact (after_trans _ _ _ _ _ _ _ _ _ _ _ _ A2 A3)|]. split; [intros c [<-|[]]; reflexivity|]. intros s t Hs X. destruct (SQ s t Hs X) as (-> & -> & _). left. reflexivity.
      * destruct (wait_recv_run msg D N eager p st1 _ _ _ (p + 1, p, 0) _ Hp E eq_refl (Q1 B1)) as (s2 & A2). pose proof A2 as (_ & P2 & _ & C2). cbn [bind] in P2, A2.
        rewrite FW in P2, A2. cbn [bind when wait_send wait_recv remove Nat.eqb] in P2, A2. eexists s2, _. split; [exact A2|]. split; [intros c [<-|[]]; reflexivity|]. intros s t Hs X. destruct (SQ s t Hs X) as (-> & -> & _). left. reflexivity.
    + destruct (Nat.ltb_spec 0 p) as [B2|B2]; cbn [bind] in E; rewrite FW in E; cbn [bind when wait_send wait_recv pend List.app req_of] in E.
      * destruct (wait_send_run msg D N eager p st1 _ _ _ (p, p - 1, 0) Hp E eq_refl) as (s3 & A3); [apply SP|].
        eexists s3, _. split; [exact A3|]. split; [intros c []|]. intros s t Hs X. destruct (SQ s t Hs X) as (_ & _ & Y). lia.
      * exists st1, []. split; [apply after_refl; exact E|]. split; [intros c []|]. intros s t Hs X. destruct (SQ s t Hs X) as (_ & _ & Y). lia.
  - eapply quiet_ext; [|exact Q]. intros p Hp. apply cr_code.
Qed.
End Level.
Lemma cr_stage nl : forall l d k (st : state), nl + l = kn -> level_inv l d ->
  quiet st (fun p => bind (cr_forward F fadd fmul fdiv fopp is_zero nsys n N p nl (2 ^ l) (d p)) (k p)) ->
  exists st' d', reach st st' /\ quiet st' (fun p => k p (d' p)) /\ level_inv kn d'.
Proof.
  induction nl as [|nl IH]; intros l d k st E INV Q.
  - exists st, d. split; [apply reach_refl|]. split; [exact Q|]. replace kn with l by lia. exact INV.
  - destruct (cr_round l nl d k ltac:(lia) INV st Q) as (s1 & R1 & Q1). rewrite <- pow_S in Q1.
    destruct (IH (S l) (dnext l d) k s1 ltac:(lia) (inv_next l d ltac:(lia) INV) Q1) as (s2 & d2 & R2 & Q2 & I2).
    exists s2, d2. split; [eapply reach_trans; eassumption|]. split; assumption.
Qed.
End S.
