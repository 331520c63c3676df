From Coq Require Import ZArith List Bool Lia.
From Verif Require Import Base MeshModel MeshProofs MeshProps GridProofs AverageModel GfieldModel GfieldSpec.
Import ListNotations.
Open Scope Z_scope.

Lemma in_upto k i : In i (upto k) <-> 0 <= i < k.
Proof.
  unfold upto. rewrite in_map_iff. split.
  - intros (n & <- & Hn). apply in_seq in Hn. lia.
  - intros H. exists (Z.to_nat i). split; [lia|]. apply in_seq. lia.
Qed.
Lemma in_cells nz xs ys x y z : In (x, y, z) (cells nz xs ys) <-> 0 <= x < xs /\ 0 <= y < ys /\ 0 <= z < nz.
Proof.
  unfold cells. rewrite in_flat_map. split.
  - intros (a & Ha & H). apply in_flat_map in H. destruct H as (b & Hb & H). apply in_map_iff in H. destruct H as (c & E & Hc).
    injection E as -> -> ->. rewrite in_upto in *. auto.
  - intros (Hx & Hy & Hz). exists x. rewrite in_upto. split; [exact Hx|]. apply in_flat_map. exists y. rewrite in_upto. split; [exact Hy|].
    apply in_map. rewrite in_upto. exact Hz.
Qed.

Lemma each_inv {S : Type} (l0 : list (Z * Z * Z)) (body : S -> Z -> Z -> Z -> res S) (Q : list (Z * Z * Z) -> S -> Prop) s0 :
  Q [] s0 -> (forall done x y z s, In (x, y, z) l0 -> Q done s -> exists s', body s x y z = Ok s' /\ Q ((x, y, z) :: done) s') ->
  exists s', each l0 body s0 = Ok s' /\ Q (rev l0) s'.
Proof.
  intros H0 Hs.
  assert (G : forall l done s, incl l l0 -> Q done s -> exists s', each l body s = Ok s' /\ Q (rev_append l done) s').
  { induction l as [|[[x y] z] l IH]; intros done s HI HQ; cbn [each rev_append].
    - eauto.
    - destruct (Hs done x y z s (HI _ (or_introl eq_refl)) HQ) as (s' & E & Q'). rewrite E. cbn [bind].
      apply IH; [intros a Ha; apply HI; right; exact Ha|exact Q']. }
  destruct (G l0 [] s0 (incl_refl _) H0) as (s' & E & H). exists s'. split; [exact E|]. rewrite rev_append_rev, app_nil_r in H. exact H.
Qed.

Section W.
Context {V : Type}.
(** A loop which writes a flat array. *)
Lemma each_buf (l : list (Z * Z * Z)) (src : Z -> Z -> Z -> res V) (size : Z) (key : Z -> Z -> Z -> Z) (val : Z -> Z -> Z -> V) (b : Z -> V) :
  (forall x y z, In (x, y, z) l -> src x y z = Ok (val x y z) /\ 0 <= key x y z < size) ->
  (forall x y z x' y' z', In (x, y, z) l -> In (x', y', z') l -> key x y z = key x' y' z' -> (x, y, z) = (x', y', z')) ->
  exists b', each l (fun b x y z => do v <- src x y z; wr V size b (key x y z) v) b = Ok b' /\
    (forall x y z, In (x, y, z) l -> b' (key x y z) = val x y z) /\
    (forall k, (forall x y z, In (x, y, z) l -> key x y z <> k) -> b' k = b k).
Proof.
  intros Hs Hi.
  destruct (each_inv l (fun b x y z => do v <- src x y z; wr V size b (key x y z) v)
    (fun done b' => incl done l /\ (forall x y z, In (x, y, z) done -> b' (key x y z) = val x y z) /\
       (forall k, (forall x y z, In (x, y, z) done -> key x y z <> k) -> b' k = b k)) b) as (b' & E & _ & H1 & H2).
  - split; [intros a []|]. split; [intros x y z []|]. reflexivity.
  - intros done x y z s Hin (HI & Hv & Hk). destruct (Hs x y z Hin) as (E & Hr). rewrite E. cbn [bind]. unfold wr.
    replace ((0 <=? key x y z) && (key x y z <? size)) with true by (symmetry; apply andb_true_intro; split; [apply Z.leb_le|apply Z.ltb_lt]; lia).
    eexists. split; [reflexivity|]. split; [intros a [<-|Ha]; auto|]. split.
    + intros a c e [Ea|Ha].
      * injection Ea as -> -> ->. rewrite Z.eqb_refl. reflexivity.
      * cbv beta. destruct (Z.eqb_spec (key a c e) (key x y z)) as [K|K]; [|auto].
        assert (T := Hi _ _ _ _ _ _ (HI _ Ha) Hin K). injection T as -> -> ->. reflexivity.
    + intros k Hk'. cbv beta. destruct (Z.eqb_spec k (key x y z)) as [->|]; [exfalso; apply (Hk' x y z); [left; reflexivity|reflexivity]|].
      apply Hk. intros; apply Hk'; right; assumption.
  - exists b'. split; [exact E|]. split.
    + intros x y z Hin. apply H1. apply -> in_rev. exact Hin.
    + intros k Hk. apply H2. intros x y z Hin. apply Hk. apply in_rev. exact Hin.
Qed.
(** A loop which writes a local field. *)
Lemma each_fld nz m (l : list (Z * Z * Z)) (src : Z -> Z -> Z -> res V) lx ly (val : Z -> Z -> Z -> V) (f : Z -> Z -> Z -> V) :
  (forall x y z, In (x, y, z) l -> src x y z = Ok (val x y z) /\ in_local nz m (lx + x) (ly + y) z = true) ->
  exists f', each l (fun f x y z => do v <- src x y z; fwr V nz m f (lx + x) (ly + y) z v) f = Ok f' /\
    (forall x y z, In (x, y, z) l -> f' (lx + x) (ly + y) z = val x y z) /\
    (forall a c e, ~ In (a - lx, c - ly, e) l -> f' a c e = f a c e).
Proof.
  intros Hs.
  destruct (each_inv l (fun f x y z => do v <- src x y z; fwr V nz m f (lx + x) (ly + y) z v)
    (fun done b' => (forall x y z, In (x, y, z) done -> b' (lx + x) (ly + y) z = val x y z) /\
       (forall a c e, ~ In (a - lx, c - ly, e) done -> b' a c e = f a c e)) f) as (b' & E & H1 & H2).
  - split; [intros x y z []|]. reflexivity.
  - intros done x y z s Hin (Hv & Hk). destruct (Hs x y z Hin) as (E & Hr). rewrite E. cbn [bind]. unfold fwr. rewrite Hr.
    eexists. split; [reflexivity|]. split.
    + intros a c e Ha. cbv beta. destruct (Z.eqb_spec (lx + a) (lx + x)); cbn [andb].
      * destruct (Z.eqb_spec (ly + c) (ly + y)); cbn [andb].
        { destruct (Z.eqb_spec e z) as [->|]; [replace a with x by lia; replace c with y by lia; reflexivity|]. destruct Ha as [Ea|Ha]; [injection Ea as -> -> ->; congruence|auto]. }
        { destruct Ha as [Ea|Ha]; [injection Ea as -> -> ->; lia|auto]. }
      * destruct Ha as [Ea|Ha]; [injection Ea as -> -> ->; lia|auto].
    + intros a c e Hn. cbv beta. destruct (Z.eqb_spec a (lx + x)) as [->|]; cbn [andb]; [|apply Hk; intros Hd; apply Hn; right; exact Hd].
      destruct (Z.eqb_spec c (ly + y)) as [->|]; cbn [andb]; [|apply Hk; intros Hd; apply Hn; right; exact Hd].
      destruct (Z.eqb_spec e z) as [->|]; cbn [andb]; [|apply Hk; intros Hd; apply Hn; right; exact Hd].
      exfalso. apply Hn. left. repeat f_equal; lia.
  - exists b'. split; [exact E|]. split.
    + intros x y z Hin. apply H1. apply -> in_rev. exact Hin.
    + intros a c e Hn. apply H2. intros Hin. apply Hn. apply in_rev. exact Hin.
Qed.
End W.

(** Three digit numbers. *)
Lemma digit n a b a' b' : 0 <= b < n -> 0 <= b' < n -> a * n + b = a' * n + b' -> a = a' /\ b = b'.
Proof. intros H H' E. assert (a = a') by nia. subst. lia. Qed.
Lemma flat_inj n2 n3 a b c a' b' c' : 0 <= b < n2 -> 0 <= b' < n2 -> 0 <= c < n3 -> 0 <= c' < n3 ->
  (a * n2 + b) * n3 + c = (a' * n2 + b') * n3 + c' -> a = a' /\ b = b' /\ c = c'.
Proof.
  intros Hb Hb' Hc Hc' E. destruct (digit _ _ _ _ _ Hc Hc' E) as (E1 & E2). destruct (digit _ _ _ _ _ Hb Hb' E1). auto.
Qed.
Lemma flat_range n1 n2 n3 a b c : 0 <= a < n1 -> 0 <= b < n2 -> 0 <= c < n3 -> 0 <= (a * n2 + b) * n3 + c < n1 * n2 * n3.
Proof.
  intros Ha Hb Hc. set (u := a * n2 + b). assert (0 <= u) by (unfold u; nia). assert (u + 1 <= n1 * n2) by (unfold u; nia). clearbody u. nia.
Qed.

Section M.
Variables (npes nx ny mxg myg : Z) (s : yseps) (user : option (Z + Z)) (M : Z -> mesh).
Hypothesis HR : ranks npes nx ny mxg myg s user M.
Let X := NXPE (M 0). Let Y := NYPE (M 0). Let mx := MXSUB (M 0). Let my := MYSUB (M 0).
Let px p := p mod X. Let py p := p / X.

Lemma all_ranks p : 0 <= p < npes -> decomposed npes p (M p) /\ NXPE (M p) = X /\ NYPE (M p) = Y /\ MXSUB (M p) = mx /\ MYSUB (M p) = my
     /\ MXG (M p) = mxg /\ MYG (M p) = myg /\ OffsetX (M p) = PE_XIND (M p) * mx /\ OffsetY (M p) = PE_YIND (M p) * my /\ GlobalNx (M p) = nx /\
     gny (M p) = ny /\ nx = X * mx + 2 * mxg /\ ny = Y * my.
Proof.
  destruct HR as (Hn & Hny & Hmxg & Hmyg & HM). intros Hr. pose proof (HM 0 ltac:(lia)) as H0.
  destruct (C23_rank_independent npes 0 p nx ny mxg myg s user (M 0) Hny Hmxg Hmyg ltac:(lia) Hr H0) as (m2 & E & R).
  rewrite (HM p Hr) in E. injection E as <-.
  destruct (load_ok _ _ _ _ _ _ _ _ _ Hny Hmxg Hmyg Hr (HM p Hr)) as (D & G1 & G2 & G3 & G4 & n & SE).
  destruct (load_more _ _ _ _ _ _ _ _ _ (HM p Hr)) as (O1 & O2 & O3 & O4).
  split; [exact D|]. destruct D. unfold X, Y, mx, my.
  assert (GN : gny (M p) = ny).
  { unfold gny, numberOfYBoundaries. rewrite O4, d_ys, G4. rewrite (Z.eqb_sym (j21 (seps (M p)))). destruct (j12 (seps (M p)) =? j21 (seps (M p))); cbn [negb]; lia. }
  intuition; try (rewrite O1; congruence); try (rewrite O2; congruence); try nia; congruence.
Qed.
Lemma px_py p : 0 <= p < npes -> 0 < X /\ 0 < Y /\ 0 < mx /\ 0 < my /\ PE_XIND (M p) = px p /\ PE_YIND (M p) = py p /\ 0 <= px p < X /\ 0 <= py p < Y /\
  p = py p * X + px p /\ 0 <= mxg /\ 0 <= myg.
Proof.
  intros Hp. destruct (all_ranks p Hp) as ([] & HX & HY & Hmx & Hmy & _). destruct HR as (_ & _ & Hmxg & Hmyg & _). rewrite HX, HY, Hmx, Hmy in *.
  unfold px, py. assert (E : p = X * PE_YIND (M p) + PE_XIND (M p)) by lia.
  assert (E1 := Z.div_unique p X (PE_YIND (M p)) (PE_XIND (M p)) ltac:(lia) E). assert (E2 := Z.mod_unique p X (PE_YIND (M p)) (PE_XIND (M p)) ltac:(lia) E).
  rewrite <- E1, <- E2. intuition lia.
Qed.

(** Origins and sizes, as computed by any rank [d]. *)
Definition LX (p : Z) : Z := if px p =? 0 then 0 else mxg.
Definition SX (p : Z) : Z := mx + (if px p =? 0 then mxg else 0) + (if px p =? X - 1 then mxg else 0).
Lemma sizes d p : 0 <= d < npes -> 0 <= p < npes ->
  xsize (M d) p = SX p /\ ysize (M d) p = my /\ local_xorig (M d) p = LX p /\ local_yorig (M d) p = myg /\
  xorig (M d) p = px p * mx + LX p /\ yorig (M d) p = py p * my.
Proof.
  intros Hd Hp. destruct (all_ranks d Hd) as ([] & HX & HY & Hmx & Hmy & Hg & Hgy & _). destruct (px_py p Hp) as (? & ? & ? & ? & _ & _ & Rx & Ry & _).
  unfold xsize, ysize, local_xorig, local_yorig, xorig, yorig, SX, LX. rewrite d_xe, d_xs, d_ye, d_ys, HX, Hmx, Hmy, Hg, Hgy.
  rewrite Z.rem_mod_nonneg, Z.quot_div_nonneg by lia. fold (px p) (py p).
  replace (mxg + mx - 1 - mxg + 1) with mx by lia. replace (myg + my - 1 - myg + 1) with my by lia.
  destruct (Z.eqb_spec (px p) 0) as [Z0|Z0]; cbn [negb]; destruct (Z.eqb_spec (px p) (X - 1)); repeat split; try lia; try nia.
Qed.
(** The owned cells of a rank. *)
Lemma owned_iff p x y : 0 <= p < npes -> (owned (M p) x y <-> 0 <= x - LX p < SX p /\ 0 <= y - myg < my).
Proof.
  intros Hp. destruct (all_ranks p Hp) as ([] & HX & HY & Hmx & Hmy & Hg & Hgy & _). destruct (px_py p Hp) as (? & ? & ? & ? & Ex & Ey & Rx & Ry & _).
  unfold owned, LX, SX. rewrite d_lnx, d_xe, d_xs, d_ye, d_ys, HX, Hmx, Hmy, Hg, Hgy, Ex.
  destruct (Z.eqb_spec (px p) 0); destruct (Z.eqb_spec (px p) (X - 1)); lia.
Qed.
Lemma global_xy p x y : 0 <= p < npes -> getGlobalXIndex (M p) x = px p * mx + x /\ getGlobalYIndexNoBoundaries (M p) y = py p * my + (y - myg).
Proof.
  intros Hp. destruct (all_ranks p Hp) as ([] & HX & HY & Hmx & Hmy & Hg & Hgy & O1 & O2 & _). destruct (px_py p Hp) as (? & ? & ? & ? & Ex & Ey & Rx & Ry & _).
  unfold getGlobalXIndex, getGlobalYIndexNoBoundaries. rewrite ?O1, ?O2, ?Ex, ?Ey, ?Hmx, ?Hmy, ?Hgy. lia.
Qed.
Lemma owned_local p x y : 0 <= p < npes -> owned (M p) x y -> 0 <= x < LocalNx (M p) /\ 0 <= y < LocalNy (M p).
Proof.
  intros Hp H. apply (owned_iff p x y Hp) in H. destruct (all_ranks p Hp) as ([] & HX & HY & Hmx & Hmy & Hg & Hgy & _).
  destruct (px_py p Hp) as (? & ? & ? & ? & Ex & Ey & Rx & Ry & ? & ? & ?). rewrite d_lnx, d_lny, Hmx, Hmy, Hg, Hgy. unfold LX, SX in H.
  destruct (Z.eqb_spec (px p) 0); destruct (Z.eqb_spec (px p) (X - 1)); lia.
Qed.
Lemma global_range p i j : 0 <= p < npes -> 0 <= i < SX p -> 0 <= j < my -> 0 <= px p * mx + LX p + i < nx /\ 0 <= py p * my + j < ny.
Proof.
  intros Hp Hi Hj. destruct (all_ranks p Hp) as (_ & _ & _ & _ & _ & _ & _ & _ & _ & _ & _ & ENX & ENY). destruct (px_py p Hp) as (? & ? & ? & ? & Ex & Ey & Rx & Ry & ? & ? & ?). rewrite ENX, ENY.
  unfold SX, LX in *. destruct (Z.eqb_spec (px p) 0) as [e|]; destruct (Z.eqb_spec (px p) (X - 1)) as [e'|]; try rewrite e; try rewrite e'; nia.
Qed.
Lemma global_inj p q i j i' j' : 0 <= p < npes -> 0 <= q < npes -> 0 <= i < SX p -> 0 <= j < my -> 0 <= i' < SX q -> 0 <= j' < my ->
  px p * mx + LX p + i = px q * mx + LX q + i' -> py p * my + j = py q * my + j' -> p = q /\ i = i' /\ j = j'.
Proof.
  intros Hp Hq Hi Hj Hi' Hj' E1 E2. destruct (px_py p Hp) as (? & ? & ? & ? & _ & _ & Rx & Ry & Ep & ? & ?). destruct (px_py q Hq) as (_ & _ & _ & _ & _ & _ & Rx' & Ry' & Eq & _).
  assert (Hy : py p = py q) by nia.
  assert (Hx : px p = px q).
  { unfold SX, LX in *. destruct (Z.lt_trichotomy (px p) (px q)) as [L|[L|L]]; [exfalso|exact L|exfalso].
    - replace (px q =? 0) with false in * by (symmetry; apply Z.eqb_neq; lia). replace (px p =? X - 1) with false in * by (symmetry; apply Z.eqb_neq; lia).
      destruct (Z.eqb_spec (px p) 0) as [e|]; [rewrite e in *|]; nia.
    - replace (px p =? 0) with false in * by (symmetry; apply Z.eqb_neq; lia). replace (px q =? X - 1) with false in * by (symmetry; apply Z.eqb_neq; lia).
      destruct (Z.eqb_spec (px q) 0) as [e|]; [rewrite e in *|]; nia. }
  assert (p = q) by (rewrite Ep, Eq, Hx, Hy; reflexivity). subst q. lia.
Qed.
Lemma covered gx gy : 0 <= gx < nx -> 0 <= gy < ny -> exists p x y, 0 <= p < npes /\ owned (M p) x y /\
  getGlobalXIndex (M p) x = gx /\ getGlobalYIndexNoBoundaries (M p) y = gy.
Proof.
  intros Hx Hy. assert (H0 : 0 <= 0 < npes) by (destruct HR; lia).
  destruct (all_ranks 0 H0) as (D & _ & _ & _ & _ & _ & _ & _ & _ & _ & _ & EX & EY). destruct (px_py 0 H0) as (PX & PY & Pmx & Pmy & _ & _ & _ & _ & _ & Gx & Gy).
  assert (NP : X * Y = npes) by exact (d_npes _ _ _ D).
  set (a := if gx <? mxg then 0 else if X * mx + mxg <=? gx then X - 1 else (gx - mxg) / mx). set (b := gy / my).
  assert (Hb : 0 <= b < Y) by (unfold b; split; [apply Z.div_pos; lia|apply Z.div_lt_upper_bound; lia]).
  assert (Ha : 0 <= a < X).
  { unfold a. destruct (Z.ltb_spec gx mxg); [lia|]. destruct (Z.leb_spec (X * mx + mxg) gx); [lia|]. split; [apply Z.div_pos; lia|apply Z.div_lt_upper_bound; lia]. }
  set (p := b * X + a). assert (Hp : 0 <= p < npes) by (unfold p; nia).
  assert (E1 : px p = a) by (unfold px, p; symmetry; apply (Z.mod_unique _ _ b); lia).
  assert (E2 : py p = b) by (unfold py, p; symmetry; apply (Z.div_unique _ _ _ a); lia).
  exists p, (gx - a * mx), (gy - b * my + myg). split; [exact Hp|]. split.
  - apply (owned_iff _ _ _ Hp). split.
    + unfold LX, SX. rewrite E1. unfold a in *. destruct (Z.ltb_spec gx mxg).
      * destruct (Z.eqb_spec 0 (X - 1)); cbn [Z.eqb]; lia.
      * destruct (Z.leb_spec (X * mx + mxg) gx).
        { rewrite Z.eqb_refl. destruct (Z.eqb_spec (X - 1) 0); nia. }
        { pose proof (Z.div_mod (gx - mxg) mx ltac:(lia)). pose proof (Z.mod_pos_bound (gx - mxg) mx ltac:(lia)).
          destruct (Z.eqb_spec ((gx - mxg) / mx) 0) as [e|]; destruct (Z.eqb_spec ((gx - mxg) / mx) (X - 1)); try rewrite e in *; nia. }
    + pose proof (Z.div_mod gy my ltac:(lia)). pose proof (Z.mod_pos_bound gy my ltac:(lia)). unfold b. lia.
  - destruct (global_xy p (gx - a * mx) (gy - b * my + myg) Hp) as (-> & ->). rewrite E1, E2. lia.
Qed.

Variable V : Type.
Variable nz : Z.
Hypothesis Hnz : 0 < nz.
Let gkey (p i j k : Z) : Z := ((px p * mx + LX p + i) * ny + (py p * my + j)) * nz + k.
Lemma gidx_key d p i j k : 0 <= d < npes -> 0 <= p < npes -> gidx nz (M d) (i + xorig (M d) p) (j + yorig (M d) p) k = gkey p i j k.
Proof.
  intros Hd Hp. destruct (sizes d p Hd Hp) as (_ & _ & _ & _ & -> & ->). destruct (all_ranks d Hd) as (_ & _ & _ & _ & _ & _ & _ & _ & _ & _ & GN & _).
  unfold gidx, gkey. rewrite GN. ring.
Qed.
Lemma gsize_eq d : 0 <= d < npes -> gsize nz (M d) = nx * ny * nz.
Proof. intros Hd. destruct (all_ranks d Hd) as (_ & _ & _ & _ & _ & _ & _ & _ & _ & GX & GN & _). unfold gsize. rewrite GN, GX. reflexivity. Qed.
Lemma gkey_range p i j k : 0 <= p < npes -> 0 <= i < SX p -> 0 <= j < my -> 0 <= k < nz -> 0 <= gkey p i j k < nx * ny * nz.
Proof. intros Hp Hi Hj Hk. destruct (global_range p i j Hp Hi Hj). unfold gkey. apply flat_range; assumption. Qed.
Lemma gkey_inj p q i j k i' j' k' : 0 <= p < npes -> 0 <= q < npes -> 0 <= i < SX p -> 0 <= j < my -> 0 <= i' < SX q -> 0 <= j' < my -> 0 <= k < nz -> 0 <= k' < nz ->
  gkey p i j k = gkey q i' j' k' -> p = q /\ (i, j, k) = (i', j', k').
Proof.
  intros Hp Hq Hi Hj Hi' Hj' Hk Hk' E. destruct (global_range p i j Hp Hi Hj). destruct (global_range q i' j' Hq Hi' Hj').
  unfold gkey in E. apply flat_inj in E; [|assumption..]. destruct E as (E1 & E2 & ->).
  destruct (global_inj p q i j i' j' Hp Hq Hi Hj Hi' Hj' E1 E2) as (-> & -> & ->). auto.
Qed.
Let bkey (p i j k : Z) : Z := i * my * nz + j * nz + k.
Lemma bkey_range p i j k : 0 <= i < SX p -> 0 <= j < my -> 0 <= k < nz -> 0 <= bkey p i j k < SX p * my * nz.
Proof. intros. unfold bkey. replace (i * my * nz + j * nz + k) with ((i * my + j) * nz + k) by ring. apply flat_range; assumption. Qed.
Lemma bkey_inj p i j k i' j' k' : 0 <= j < my -> 0 <= j' < my -> 0 <= k < nz -> 0 <= k' < nz -> bkey p i j k = bkey p i' j' k' -> (i, j, k) = (i', j', k').
Proof.
  intros ? ? ? ? E. unfold bkey in E. assert (E' : (i * my + j) * nz + k = (i' * my + j') * nz + k') by lia. apply flat_inj in E'; [|assumption..].
  destruct E' as (-> & -> & ->). reflexivity.
Qed.
Lemma msg_len_eq d p : 0 <= d < npes -> 0 <= p < npes -> msg_len nz (M d) p = SX p * my * nz.
Proof. intros Hd Hp. unfold msg_len. destruct (sizes d p Hd Hp) as (-> & -> & _). reflexivity. Qed.
Lemma in_local_cell p i j k : 0 <= p < npes -> 0 <= i < SX p -> 0 <= j < my -> 0 <= k < nz -> in_local nz (M p) (LX p + i) (myg + j) k = true.
Proof.
  intros Hp Hi Hj Hk. destruct (owned_local p (LX p + i) (myg + j) Hp) as (A & B); [apply (owned_iff _ _ _ Hp); lia|].
  unfold in_local. rewrite !andb_true_iff, !Z.leb_le, !Z.ltb_lt. lia.
Qed.

(** What a buffer or the global array holds of rank [p]. *)
Definition part (g : Z -> V) (f : Z -> Z -> Z -> V) (p : Z) : Prop :=
  forall i j k, 0 <= i < SX p -> 0 <= j < my -> 0 <= k < nz -> g (gkey p i j k) = f (LX p + i) (myg + j) k.
Definition outside (p : Z) (n : Z) : Prop := forall i j k, 0 <= i < SX p -> 0 <= j < my -> 0 <= k < nz -> gkey p i j k <> n.

Lemma own_copy_ok d f g : 0 <= d < npes -> exists g', own_copy V M nz d f g = Ok g' /\ part g' f d /\ (forall n, outside d n -> g' n = g n).
Proof.
  intros Hd. destruct (sizes d d Hd Hd) as (S1 & S2 & S3 & S4 & _).
  unfold own_copy. rewrite S1, S2, S3, S4, (gsize_eq d Hd).
  destruct (each_buf (cells nz (SX d) my) (fun x y z => frd V nz (M d) f (LX d + x) (myg + y) z) (nx * ny * nz)
    (fun x y z => gidx nz (M d) (x + xorig (M d) d) (y + yorig (M d) d) z) (fun x y z => f (LX d + x) (myg + y) z) g) as (g' & E & H1 & H2).
  - intros x y z Hin. apply in_cells in Hin. destruct Hin as (Hx & Hy & Hz). rewrite (gidx_key d d x y z Hd Hd). split; [|apply gkey_range; assumption].
    unfold frd. rewrite in_local_cell by assumption. reflexivity.
  - intros x y z x' y' z' Hin Hin'. apply in_cells in Hin, Hin'. rewrite !(gidx_key d d _ _ _ Hd Hd). intros E. apply gkey_inj in E; tauto.
  - exists g'. split; [exact E|]. split.
    + intros i j k Hi Hj Hk. rewrite <- (gidx_key d d i j k Hd Hd). apply H1. apply in_cells. auto.
    + intros n Hn. apply H2. intros x y z Hin. apply in_cells in Hin. rewrite (gidx_key d d x y z Hd Hd). apply Hn; tauto.
Qed.
Lemma pack_ok p f junk : 0 <= p < npes -> exists b, pack V M nz p f junk = Ok b /\
  forall i j k, 0 <= i < SX p -> 0 <= j < my -> 0 <= k < nz -> b (bkey p i j k) = f (LX p + i) (myg + j) k.
Proof.
  intros Hp. destruct (sizes p p Hp Hp) as (S1 & S2 & S3 & S4 & _).
  unfold pack. rewrite S1, S2, S3, S4, (msg_len_eq p p Hp Hp).
  destruct (each_buf (cells nz (SX p) my) (fun x y z => frd V nz (M p) f (LX p + x) (myg + y) z) (SX p * my * nz)
    (bkey p) (fun x y z => f (LX p + x) (myg + y) z) junk) as (g' & E & H1 & H2).
  - intros x y z Hin. apply in_cells in Hin. destruct Hin as (Hx & Hy & Hz). split; [|apply bkey_range; assumption].
    unfold frd. rewrite in_local_cell by assumption. reflexivity.
  - intros x y z x' y' z' Hin Hin' E. apply in_cells in Hin, Hin'. apply bkey_inj in E; tauto.
  - exists g'. split; [exact E|]. intros i j k Hi Hj Hk. apply H1. apply in_cells. auto.
Qed.
Lemma unpack_ok d p f b g : 0 <= d < npes -> 0 <= p < npes ->
  (forall i j k, 0 <= i < SX p -> 0 <= j < my -> 0 <= k < nz -> b (bkey p i j k) = f (LX p + i) (myg + j) k) ->
  exists g', unpack V M nz d p b g = Ok g' /\ part g' f p /\ (forall n, outside p n -> g' n = g n).
Proof.
  intros Hd Hp Hb. destruct (sizes d p Hd Hp) as (S1 & S2 & S3 & S4 & _).
  unfold unpack. rewrite S1, S2, (gsize_eq d Hd), (msg_len_eq d p Hd Hp).
  destruct (each_buf (cells nz (SX p) my) (fun x y z => rd V (SX p * my * nz) b (bkey p x y z)) (nx * ny * nz)
    (fun x y z => gidx nz (M d) (x + xorig (M d) p) (y + yorig (M d) p) z) (fun x y z => f (LX p + x) (myg + y) z) g) as (g' & E & H1 & H2).
  - intros x y z Hin. apply in_cells in Hin. destruct Hin as (Hx & Hy & Hz). rewrite (gidx_key d p x y z Hd Hp). split; [|apply gkey_range; assumption].
    unfold rd. pose proof (bkey_range p x y z Hx Hy Hz).
    replace ((0 <=? bkey p x y z) && (bkey p x y z <? SX p * my * nz)) with true by (symmetry; apply andb_true_intro; split; [apply Z.leb_le|apply Z.ltb_lt]; lia).
    rewrite Hb by assumption. reflexivity.
  - intros x y z x' y' z' Hin Hin'. apply in_cells in Hin, Hin'. rewrite !(gidx_key d p _ _ _ Hd Hp). intros E. apply gkey_inj in E; tauto.
  - exists g'. split; [exact E|]. split.
    + intros i j k Hi Hj Hk. rewrite <- (gidx_key d p i j k Hd Hp). apply H1. apply in_cells. auto.
    + intros n Hn. apply H2. intros x y z Hin. apply in_cells in Hin. rewrite (gidx_key d p x y z Hd Hp). apply Hn; tauto.
Qed.
Lemma part_kept p q f g g' : 0 <= p < npes -> 0 <= q < npes -> p <> q -> part g f p -> (forall n, outside q n -> g' n = g n) -> part g' f p.
Proof.
  intros Hp Hq N H K i j k Hi Hj Hk. rewrite K; [apply H; assumption|]. intros i' j' k' Hi' Hj' Hk' E.
  apply gkey_inj in E; [|assumption..]. destruct E; congruence.
Qed.
Lemma receive_ok d f junk order : 0 <= d < npes -> (forall p, In p order -> 0 <= p < npes) -> NoDup order -> forall g done,
  (forall p, In p done -> 0 <= p < npes /\ ~ In p order /\ part g (f p) p) ->
  exists g', receive V M nz d f junk order g = Ok g' /\ forall p, In p done \/ In p order -> part g' (f p) p.
Proof.
  intros Hd. induction order as [|q o IH]; intros HO ND g done Hg; cbn [receive].
  - exists g. split; [reflexivity|]. intros p [H|[]]. apply Hg; exact H.
  - assert (Hq : 0 <= q < npes) by (apply HO; left; reflexivity). inversion_clear ND as [|? ? NQ ND'].
    destruct (pack_ok q (f q) (junk q) Hq) as (b & E & Hb). rewrite E. cbn [bind]. rewrite (msg_len_eq q q Hq Hq), (msg_len_eq d q Hd Hq), Z.eqb_refl. cbn [negb].
    destruct (unpack_ok d q (f q) b g Hd Hq Hb) as (g1 & E1 & P1 & K1). rewrite E1. cbn [bind].
    destruct (IH ltac:(intros; apply HO; right; assumption) ND' g1 (q :: done)) as (g' & E' & H').
    + intros p [<-|Hp].
      * split; [exact Hq|]. split; [exact NQ|exact P1].
      * destruct (Hg p Hp) as (R & N & P). split; [exact R|]. split; [intros Hi; apply N; right; exact Hi|].
        apply (part_kept p q (f p) g g1 R Hq); [intros ->; apply N; left; reflexivity|exact P|exact K1].
    + exists g'. split; [exact E'|]. intros p [Hp|[<-|Hp]]; apply H'; [left; right; exact Hp|left; left; reflexivity|right; exact Hp].
Qed.
Lemma holds_key (g : Z -> V) p x y k (v : V) : 0 <= p < npes -> holds ny nz g (getGlobalXIndex (M p) x) (getGlobalYIndexNoBoundaries (M p) y) k v <->
  g (gkey p (x - LX p) (y - myg) k) = v.
Proof.
  intros Hp. unfold holds. destruct (global_xy p x y Hp) as (-> & ->). unfold gkey. replace (px p * mx + LX p + (x - LX p)) with (px p * mx + x) by lia. reflexivity.
Qed.
Lemma gather_ok d f order junk g : 0 <= d < npes -> NoDup order -> (forall p, In p order <-> 0 <= p < npes /\ p <> d) ->
  exists g', gather V M npes nz d f order junk g = Ok g' /\
    forall p x y z, 0 <= p < npes -> owned (M p) x y -> 0 <= z < nz ->
      holds ny nz g' (getGlobalXIndex (M p) x) (getGlobalYIndexNoBoundaries (M p) y) z (f p x y z).
Proof.
  intros Hd ND HO. unfold gather, construct. rewrite (gsize_eq d Hd).
  assert (NP : 0 < nx * ny * nz).
  { destruct (px_py d Hd) as (? & ? & ? & ? & _ & _ & ? & ? & ? & ? & ?).
    destruct (global_range d 0 0 Hd) as (A & B); [unfold SX; destruct (px d =? 0), (px d =? X - 1); lia|lia|].
    apply Z.mul_pos_pos; [apply Z.mul_pos_pos|]; lia. }
  replace (nx * ny * nz <=? 0) with false by (symmetry; apply Z.leb_gt; lia).
  replace ((d <? 0) || (npes <=? d)) with false by (symmetry; apply orb_false_intro; [apply Z.ltb_ge|apply Z.leb_gt]; lia). cbn [bind].
  destruct (own_copy_ok d (f d) g Hd) as (g1 & E1 & P1 & _). rewrite E1. cbn [bind].
  destruct (receive_ok d f junk order Hd ltac:(intros p Hp; apply HO in Hp; tauto) ND g1 [d]) as (g' & E' & H').
  { intros p [<-|[]]. split; [exact Hd|]. split; [intros Hi; apply HO in Hi; tauto|exact P1]. }
  exists g'. split; [exact E'|]. intros p x y z Hp Ho Hz. apply (holds_key _ _ _ _ _ _ Hp). apply (owned_iff p x y Hp) in Ho.
  rewrite (H' p); [f_equal; lia| |tauto..]. destruct (Z.eq_dec p d) as [->|]; [left; left; reflexivity|right; apply HO; auto].
Qed.
Lemma scatter_ok d r g jb junk : 0 <= d < npes -> 0 <= r < npes -> exists f', scatter V M nz d r g jb junk = Ok f' /\
  (forall x y z, owned (M r) x y -> 0 <= z < nz -> holds ny nz g (getGlobalXIndex (M r) x) (getGlobalYIndexNoBoundaries (M r) y) z (f' x y z)) /\
  (forall x y z, ~ (owned (M r) x y /\ 0 <= z < nz) -> f' x y z = junk x y z).
Proof.
  intros Hd Hr. unfold scatter. destruct (sizes r r Hr Hr) as (S1 & S2 & S3 & S4 & _). destruct (sizes d r Hd Hr) as (T1 & T2 & T3 & T4 & _).
  assert (RD : forall q i j k, 0 <= q < npes -> 0 <= i < SX r -> 0 <= j < my -> 0 <= k < nz ->
    rd V (nx * ny * nz) g (gidx nz (M q) (i + xorig (M q) r) (j + yorig (M q) r) k) = Ok (g (gkey r i j k))).
  { intros q i j k Hq Hi Hj Hk. rewrite (gidx_key q r i j k Hq Hr). pose proof (gkey_range r i j k Hr Hi Hj Hk). unfold rd.
    replace ((0 <=? gkey r i j k) && (gkey r i j k <? nx * ny * nz)) with true by (symmetry; apply andb_true_intro; split; [apply Z.leb_le|apply Z.ltb_lt]; lia). reflexivity. }
  assert (FIN : forall (src : Z -> Z -> Z -> res V), (forall i j k, 0 <= i < SX r -> 0 <= j < my -> 0 <= k < nz -> src i j k = Ok (g (gkey r i j k))) ->
    exists f', each (cells nz (SX r) my) (fun f x y z => do v <- src x y z; fwr V nz (M r) f (LX r + x) (myg + y) z v) junk = Ok f' /\
    (forall x y z, owned (M r) x y -> 0 <= z < nz -> holds ny nz g (getGlobalXIndex (M r) x) (getGlobalYIndexNoBoundaries (M r) y) z (f' x y z)) /\
    (forall x y z, ~ (owned (M r) x y /\ 0 <= z < nz) -> f' x y z = junk x y z)).
  { intros src Hs. destruct (each_fld nz (M r) (cells nz (SX r) my) src (LX r) myg (fun i j k => g (gkey r i j k)) junk) as (f' & E & H1 & H2).
    - intros x y z Hin. apply in_cells in Hin. destruct Hin as (? & ? & ?). split; [apply Hs; assumption|apply in_local_cell; assumption].
    - exists f'. split; [exact E|]. split.
      + intros x y z Ho Hz. apply (holds_key _ _ _ _ _ _ Hr). apply (owned_iff r x y Hr) in Ho. rewrite <- (H1 (x - LX r) (y - myg) z) by (apply in_cells; tauto).
        f_equal; lia.
      + intros x y z Hn. apply H2. intros Hin. apply in_cells in Hin. apply Hn. split; [apply (owned_iff r x y Hr)|]; tauto. }
  destruct (Z.eqb_spec r d) as [->|N].
  - rewrite S1, S2, S3, S4, (gsize_eq d Hd). apply (FIN (fun x y z => rd V (nx * ny * nz) g (gidx nz (M d) (x + xorig (M d) d) (y + yorig (M d) d) z))).
    intros i j k Hi Hj Hk. apply RD; assumption.
  - rewrite S1, S2, S3, S4, T1, T2, (gsize_eq d Hd), (msg_len_eq d r Hd Hr), (msg_len_eq r r Hr Hr).
    destruct (each_buf (cells nz (SX r) my) (fun x y z => rd V (nx * ny * nz) g (gidx nz (M d) (x + xorig (M d) r) (y + yorig (M d) r) z)) (SX r * my * nz)
      (bkey r) (fun x y z => g (gkey r x y z)) jb) as (b & E & H1 & _).
    + intros x y z Hin. apply in_cells in Hin. destruct Hin as (Hx & Hy & Hz). split; [apply RD; assumption|apply bkey_range; assumption].
    + intros x y z x' y' z' Hin Hin' E. apply in_cells in Hin, Hin'. apply bkey_inj in E; tauto.
    + unfold bkey in E. rewrite E. cbn [bind]. rewrite Z.ltb_irrefl.
      apply (FIN (fun x y z => rd V (SX r * my * nz) b (x * my * nz + y * nz + z))).
      intros i j k Hi Hj Hk. change (i * my * nz + j * nz + k) with (bkey r i j k). pose proof (bkey_range r i j k Hi Hj Hk). unfold rd.
      replace ((0 <=? bkey r i j k) && (bkey r i j k <? SX r * my * nz)) with true by (symmetry; apply andb_true_intro; split; [apply Z.leb_le|apply Z.ltb_lt]; lia).
      rewrite H1 by (apply in_cells; auto). reflexivity.
Qed.
End M.
