Require Import ZArith List Bool Reals Lia Lra FinFun.
Require Import Verif.Base Verif.BndryModel Verif.BndrySpec Verif.BndryProofs Verif.BndryProofs2 Verif.BndryProofs3.
Import ListNotations.
Local Open Scope Z_scope.

Definition e2 (i : Z) : lstmt := (i, 0%R, [(2%R, i - 1); ((-1)%R, i - 2)]).
Definition e3 (i : Z) : lstmt := (i, 0%R, [(3%R, i - 1); ((-3)%R, i - 2); (1%R, i - 3)]).
Definition e4 (i : Z) : lstmt := (i, 0%R, [(4%R, i - 1); ((-6)%R, i - 2); (4%R, i - 3); ((-1)%R, i - 4)]).

Definition ex2 (h : Z -> R) (k : Z) : R := (2 * h (k - 1)%Z - h (k - 2)%Z)%R.
Definition ex3 (h : Z -> R) (k : Z) : R := (3 * h (k - 1)%Z - 3 * h (k - 2)%Z + h (k - 3)%Z)%R.
Definition ex4 (h : Z -> R) (k : Z) : R := (4 * h (k - 1)%Z - 6 * h (k - 2)%Z + 4 * h (k - 3)%Z - h (k - 4)%Z)%R.

Ltac inl H := cbn [In map snd lreads] in H; repeat (destruct H as [H|H]; [subst; try lia|]); try contradiction.
Lemma e2_seq a w g : let h := lrun (map e2 (zrange a w)) g in
  (forall k, ~ (a <= k < w) -> h k = g k) /\ (forall k, a <= k < w -> h k = ex2 h k).
Proof.
  cbv zeta. destruct (lrun_seq e2 a w g) as [A B]; [reflexivity| |].
  - intros i j Hj. unfold lreads, e2 in Hj. inl Hj.
  - split; [exact A|]. intros k Hk. rewrite B by auto. unfold lval, e2, ex2. cbn [fst snd fold_left]. ring.
Qed.
Lemma e3_seq a w g : let h := lrun (map e3 (zrange a w)) g in
  (forall k, ~ (a <= k < w) -> h k = g k) /\ (forall k, a <= k < w -> h k = ex3 h k).
Proof.
  cbv zeta. destruct (lrun_seq e3 a w g) as [A B]; [reflexivity| |].
  - intros i j Hj. unfold lreads, e3 in Hj. inl Hj.
  - split; [exact A|]. intros k Hk. rewrite B by auto. unfold lval, e3, ex3. cbn [fst snd fold_left]. ring.
Qed.
Lemma e4_seq a w g : let h := lrun (map e4 (zrange a w)) g in
  (forall k, ~ (a <= k < w) -> h k = g k) /\
  (forall k, a <= k < w -> h k = ex4 h k).
Proof.
  cbv zeta. destruct (lrun_seq e4 a w g) as [A B]; [reflexivity| |].
  - intros i j Hj. unfold lreads, e4 in Hj. inl Hj.
  - split; [exact A|]. intros k Hk. rewrite B by auto. unfold lval, e4, ex4. cbn [fst snd fold_left]. ring.
Qed.

(* extrapolations continue polynomials *)
Lemma samples_ext_up (h : Z -> R) at_ cs lo a w :
  samples h at_ cs lo a -> lo <= a ->
  (forall k, a <= k < w -> samples h at_ cs lo k -> h k = peval cs (at_ k)) -> samples h at_ cs lo w.
Proof.
  intros S La Step.
  assert (X : forall n, samples h at_ cs lo (Z.min (a + Z.of_nat n) (Z.max a w))).
  { induction n as [|n IH].
    - intros k Hk. apply S. lia.
    - intros k Hk. destruct (Z_lt_le_dec k (Z.min (a + Z.of_nat n) (Z.max a w))) as [C|C]; [apply IH; lia|].
      assert (k = a + Z.of_nat n) by lia. subst k. apply Step; [lia|].
      intros j Hj. apply IH. lia. }
  intros k Hk. apply (X (Z.to_nat (w - a))). lia.
Qed.

Definition affine (at_ : Z -> R) : Prop := exists c, forall k, at_ k = (IZR k + c)%R.
Lemma affine_dist : affine dist. Proof. exists (1/2)%R. reflexivity. Qed.
Lemma affine_from e : affine (dist_from e).
Proof. exists (- IZR e)%R. intros k. unfold dist_from. rewrite minus_IZR. ring. Qed.

Ltac len cs H := repeat (destruct cs as [|? cs]; [try (exfalso; cbn [length] in H; lia)|]); try (exfalso; cbn [length] in H; lia).

Lemma samples_e2 h at_ cs a w : affine at_ -> length cs = 2%nat ->
  (forall k, a <= k < w -> h k = ex2 h k) ->
  samples h at_ cs (a - 2) a -> samples h at_ cs (a - 2) w.
Proof.
  intros [c Ha] L R S. apply (samples_ext_up h at_ cs (a - 2) a w S ltac:(lia)).
  intros k Hk Sk. rewrite R by auto. unfold ex2. rewrite (Sk (k - 1)), (Sk (k - 2)) by lia. rewrite !Ha, !minus_IZR.
  do 2 (destruct cs as [|? cs]; [discriminate L|]). destruct cs; [|discriminate L]. cbn [peval]. ring.
Qed.
Lemma samples_e3 h at_ cs a w : affine at_ -> length cs = 3%nat ->
  (forall k, a <= k < w -> h k = ex3 h k) ->
  samples h at_ cs (a - 3) a -> samples h at_ cs (a - 3) w.
Proof.
  intros [c Ha] L R S. apply (samples_ext_up h at_ cs (a - 3) a w S ltac:(lia)).
  intros k Hk Sk. rewrite R by auto. unfold ex3. rewrite (Sk (k - 1)), (Sk (k - 2)), (Sk (k - 3)) by lia. rewrite !Ha, !minus_IZR.
  do 3 (destruct cs as [|? cs]; [discriminate L|]). destruct cs; [|discriminate L]. cbn [peval]. ring.
Qed.
Lemma samples_e4 h at_ cs a w : affine at_ -> length cs = 4%nat ->
  (forall k, a <= k < w -> h k = ex4 h k) ->
  samples h at_ cs (a - 4) a -> samples h at_ cs (a - 4) w.
Proof.
  intros [c Ha] L R S. apply (samples_ext_up h at_ cs (a - 4) a w S ltac:(lia)).
  intros k Hk Sk. rewrite R by auto. unfold ex4. rewrite (Sk (k - 1)), (Sk (k - 2)), (Sk (k - 3)), (Sk (k - 4)) by lia. rewrite !Ha, !minus_IZR.
  do 4 (destruct cs as [|? cs]; [discriminate L|]). destruct cs; [|discriminate L]. cbn [peval]. ring.
Qed.

Lemma samples_sub h at_ cs lo hi lo' hi' : samples h at_ cs lo hi -> lo <= lo' -> hi' <= hi -> samples h at_ cs lo' hi'.
Proof. intros S A B k Hk. apply S. lia. Qed.
Lemma samples_eq h g at_ cs lo hi : samples h at_ cs lo hi -> (forall k, lo <= k < hi -> g k = h k) -> samples g at_ cs lo hi.
Proof. intros S E k Hk. rewrite E by auto. now apply S. Qed.
Lemma samples_snoc h at_ cs lo hi : samples h at_ cs lo hi -> h hi = peval cs (at_ hi) -> samples h at_ cs lo (hi + 1).
Proof. intros S E k Hk. destruct (Z.eq_dec k hi) as [->|]; [exact E|]. apply S. lia. Qed.

Lemma kernel_zs m b body K : (forall p, body p = flat_map (fun z => map (place b p z) (K p z)) (zrange 0 (LNz m))) ->
  kernel b (zrange 0 (LNz m)) body K.
Proof. apply kernel_by_z, NoDup_zrange. Qed.

(* ---------- kernels ---------- *)
Section K.
Variables (m : lmesh) (b : breg) (stagger : bool) (loc : cloc) (val dx dy : vfun).
Let w := b_width b.
Let st := staggered_here stagger loc (b_side b).
Let up := is_upper (b_side b).

Definition Kdir2 (p : pos) (z : Z) : list lstmt :=
  if st then
    if up then (0, val p z, []) :: map e2 (zrange 1 w)
    else (-1, val p z, []) :: map e2 (zrange 0 w)
  else (0, (2 * val p z)%R, [((-1)%R, -1)]) :: map e2 (zrange 1 w).
Definition Kdir3 (p : pos) (z : Z) : list lstmt :=
  if st then
    if up then (0, val p z, []) :: map e3 (zrange 1 w)
    else (-1, val p z, []) :: map e3 (zrange 0 w)
  else (0, (8 / 3 * val p z)%R, [((-2)%R, -1); ((1 / 3)%R, -2)]) :: map e3 (zrange 1 w).
Definition Kdir4 (p : pos) (z : Z) : list lstmt :=
  if st then
    if up then (0, val p z, []) :: map e4 (zrange 1 w)
    else (-1, val p z, []) :: map e4 (zrange 0 w)
  else (0, (16 / 5 * val p z)%R, [((-3)%R, -1); (1%R, -2); ((-(1 / 5))%R, -3)]) :: map e4 (zrange 1 w).
(* the 3-d version *)
Definition Kdir (p : pos) (z : Z) : list lstmt :=
  if stagger && match loc with XLOW | YLOW => true | _ => false end then
    if st then
      if up then (0, val p z, []) :: map e2 (zrange 1 w)
      else match b_side b with
           | XIn => [(-1, val p z, []); (0, 0%R, [(1%R, -1)])]
           | _ => [(-1, val p z, [])]
           end ++ map e2 (zrange 0 w)
    else (0, (2 * val p z)%R, [((-1)%R, -1)]) :: map e2 (zrange 1 w)
  else (0, (2 * val p z)%R, [((-1)%R, -1)]) :: map (fun i => (i, val p z, [])) (zrange 1 w).

Lemma map_place_e2 p z a c : map (place b p z) (map e2 (zrange a c)) = map (extrap2 b p z) (zrange a c).
Proof. rewrite map_map. reflexivity. Qed.
Lemma map_place_e3 p z a c : map (place b p z) (map e3 (zrange a c)) = map (extrap3 b p z) (zrange a c).
Proof. rewrite map_map. reflexivity. Qed.
Lemma map_place_e4 p z a c : map (place b p z) (map e4 (zrange a c)) = map (extrap4 b p z) (zrange a c).
Proof. rewrite map_map. reflexivity. Qed.

Lemma kernel_dir2 : kernel b (zrange 0 (LNz m)) (dirichlet_2d m stagger loc b val) Kdir2.
Proof.
  apply kernel_zs. intros p. unfold dirichlet_2d. apply flat_map_ext. intros z. unfold Kdir2, st, up, w.
  destruct (staggered_here stagger loc (b_side b)); [destruct (is_upper (b_side b))|]; cbn [map]; rewrite map_place_e2; reflexivity.
Qed.
Lemma kernel_dir3 : kernel b (zrange 0 (LNz m)) (dirichlet_o3 m stagger loc b val) Kdir3.
Proof.
  apply kernel_zs. intros p. unfold dirichlet_o3. apply flat_map_ext. intros z. unfold Kdir3, st, up, w.
  destruct (staggered_here stagger loc (b_side b)); [destruct (is_upper (b_side b))|]; cbn [map]; rewrite map_place_e3; reflexivity.
Qed.
Lemma kernel_dir4 : kernel b (zrange 0 (LNz m)) (dirichlet_o4 m stagger loc b val) Kdir4.
Proof.
  apply kernel_zs. intros p. unfold dirichlet_o4. apply flat_map_ext. intros z. unfold Kdir4, st, up, w.
  destruct (staggered_here stagger loc (b_side b)); [destruct (is_upper (b_side b))|]; cbn [map]; rewrite map_place_e4; reflexivity.
Qed.

Lemma flat_map_single_out {A B} (f : A -> list B) (l : list A) : (forall u, In u l -> f u = []) -> flat_map f l = [].
Proof. induction l as [|a l IH]; intros H; [reflexivity|]. cbn [flat_map]. rewrite H by now left. apply IH. intros; apply H; now right. Qed.

Lemma kernel_dir : kernel b (zrange 0 (LNz m)) (dirichlet m stagger loc b val) Kdir.
Proof.
  destruct (stagger && match loc with XLOW | YLOW => true | _ => false end) eqn:C.
  - apply kernel_zs. intros p. unfold dirichlet, Kdir. rewrite C. apply flat_map_ext. intros z. unfold st, up, w.
    destruct (staggered_here stagger loc (b_side b)); [destruct (is_upper (b_side b))|].
    + cbn [map]; rewrite map_place_e2; reflexivity.
    + destruct (b_side b); cbn [map app]; rewrite map_place_e2; reflexivity.
    + cbn [map]; rewrite map_place_e2; reflexivity.
  - intros p. unfold dirichlet, Kdir. rewrite C.
    exists (map (fun z => (p, z, (0, (2 * val p z)%R, [((-1)%R, -1)]))) (zrange 0 (LNz m)) ++
       flat_map (fun i => map (fun z => (p, z, (i, val p z, []))) (zrange 0 (LNz m))) (zrange 1 w)).
    split; [|split].
    + rewrite map_app, map_map. f_equal. fold w. generalize (zrange 1 w). induction l as [|i l IH]; [reflexivity|].
      cbn [flat_map]. rewrite map_app, IH, map_map. reflexivity.
    + intros u Hu. apply in_app_iff in Hu as [Hu|Hu].
      * apply in_map_iff in Hu as [z [<- Hz]]. auto.
      * apply in_flat_map in Hu as [i [_ Hu]]. apply in_map_iff in Hu as [z [<- Hz]]. auto.
    + intros z Hz. rewrite filter_app, filter_flat_map.
      assert (G : forall (g : Z -> lstmt), filter (fun u : pos * Z * lstmt => z =? snd (fst u)) (map (fun z => (p, z, g z)) (zrange 0 (LNz m))) = [(p, z, g z)]).
      { intros g. rewrite filter_map_comm. cbn [fst snd].
        rewrite (filter_ext (fun a => z =? a) (fun a => a =? z)) by (intros; apply Z.eqb_sym).
        apply in_zrange in Hz.
        apply (filter_zrange_eq (fun z => (p, z, g z)) (fun u => u)); auto. }
      rewrite (G (fun z => (0, (2 * val p z)%R, [((-1)%R, -1)]))). cbn [app map]. f_equal.
      generalize (zrange 1 w). induction l as [|i l IH]; [reflexivity|]. cbn [flat_map map].
      rewrite (G (fun z => (i, val p z, []))). cbn [app]. f_equal. exact IH.
Qed.
End K.

Ltac okc := intros; match goal with
  | |- cells_ok _ _ _ _ => let s := fresh "s" in let Hs := fresh "Hs" in intros s Hs
  end.

Lemma cells_ok_cons b d k s l : (- d <= k + ltgt s < b_width b /\ forall j, In j (lreads s) -> - d <= k + j < b_width b) ->
  cells_ok b d k l -> cells_ok b d k (s :: l).
Proof. intros H1 H2 u [<-|Hu]; auto. Qed.
Lemma cells_ok_nil b d k : cells_ok b d k []. Proof. intros s []. Qed.
Lemma cells_ok_map b d k (e : Z -> lstmt) a w' :
  (forall i, a <= i < w' -> - d <= k + ltgt (e i) < b_width b /\ forall j, In j (lreads (e i)) -> - d <= k + j < b_width b) ->
  cells_ok b d k (map e (zrange a w')).
Proof. intros H s Hs. apply in_map_iff in Hs as [i [<- Hi]]. apply in_zrange in Hi. auto. Qed.
Lemma cells_ok_app b d k l l' : cells_ok b d k l -> cells_ok b d k l' -> cells_ok b d k (l ++ l').
Proof. intros H H' s Hs. apply in_app_iff in Hs as [?|?]; auto. Qed.

Ltac cell1 := unfold e2, e3, e4; split; [unfold ltgt; cbn [fst snd]; lia | let j := fresh in let H := fresh in intros j H; unfold lreads in H; inl H].
Ltac cells := repeat first [apply cells_ok_nil | apply cells_ok_app | apply cells_ok_cons; [cell1|] | apply cells_ok_map; intros; cell1 ].
Lemma tgt_map k0 (e : Z -> lstmt) a w' s : In s (map e (zrange a w')) -> (forall i, ltgt (e i) = i) -> k0 <= a -> k0 <= ltgt s.
Proof. intros H E L. apply in_map_iff in H as [i [<- Hi]]. apply in_zrange in Hi. rewrite E. lia. Qed.

(* l' after a head assignment and a run of extrapolations: split the line program *)
Lemma lrun_cons s l g : lrun (s :: l) g = lrun l (lexec g s).
Proof. reflexivity. Qed.

(* ---------- Dirichlet, any order n, the parts the orders share ---------- *)
Lemma imposes_of_weights2 w (l l' : Z -> R) (v : R) :
  (forall k, ~ (0 <= k < w) -> l' k = l k) -> 0 < w ->
  l' 0 = (2 * v - l (-1)%Z)%R ->
  (forall k, 1 <= k < w -> l' k = ex2 l' k) ->
  imposes_value 2 w l l' v.
Proof.
  intros O Hw H0 R cs L.
  assert (L' : length cs = 2%nat) by lia.
  assert (E : samples l' dist cs (1 - 2) 1 -> samples l' dist cs (1 - 2) w).
  { intros S. apply (samples_e2 l' dist cs 1 w affine_dist L' R S). }
  split.
  - intros S. split; [|auto].
    pose proof (S 0 ltac:(lia)) as A0. pose proof (S (-1) ltac:(lia)) as A1.
    rewrite (O (-1)) in A1 by lia. unfold dist in *.
    do 2 (destruct cs as [|? cs]; [discriminate L'|]). destruct cs; [|discriminate L']. cbn [peval] in *. lra.
  - intros S V. apply E. apply (samples_snoc l' dist cs (1 - 2) 0).
    + apply (samples_eq l); [exact S|]. intros k Hk. apply O. lia.
    + pose proof (S (-1) ltac:(lia)) as A1. rewrite H0. unfold dist in *.
      do 2 (destruct cs as [|? cs]; [discriminate L'|]). destruct cs; [|discriminate L']. cbn [peval] in *. lra.
Qed.
Lemma imposes_of_weights3 w (l l' : Z -> R) (v : R) :
  (forall k, ~ (0 <= k < w) -> l' k = l k) -> 0 < w ->
  l' 0 = (8 / 3 * v - 2 * l (-1)%Z + l (-2)%Z / 3)%R ->
  (forall k, 1 <= k < w -> l' k = ex3 l' k) ->
  imposes_value 3 w l l' v.
Proof.
  intros O Hw H0 R cs L.
  assert (L' : length cs = 3%nat) by lia.
  assert (E : samples l' dist cs (1 - 3) 1 -> samples l' dist cs (1 - 3) w).
  { intros S. apply (samples_e3 l' dist cs 1 w affine_dist L' R S). }
  split.
  - intros S. split; [|auto].
    pose proof (S 0 ltac:(lia)) as A0. pose proof (S (-1) ltac:(lia)) as A1. pose proof (S (-2) ltac:(lia)) as A2.
    rewrite (O (-1)) in A1 by lia. rewrite (O (-2)) in A2 by lia. unfold dist in *.
    do 3 (destruct cs as [|? cs]; [discriminate L'|]). destruct cs; [|discriminate L']. cbn [peval] in *. lra.
  - intros S V. apply E. apply (samples_snoc l' dist cs (1 - 3) 0).
    + apply (samples_eq l); [exact S|]. intros k Hk. apply O. lia.
    + pose proof (S (-1) ltac:(lia)) as A1. pose proof (S (-2) ltac:(lia)) as A2. rewrite H0. unfold dist in *.
      do 3 (destruct cs as [|? cs]; [discriminate L'|]). destruct cs; [|discriminate L']. cbn [peval] in *. lra.
Qed.
Lemma imposes_of_weights4 w (l l' : Z -> R) (v : R) :
  (forall k, ~ (0 <= k < w) -> l' k = l k) -> 0 < w ->
  l' 0 = (16 / 5 * v - 3 * l (-1)%Z + l (-2)%Z - 1 / 5 * l (-3)%Z)%R ->
  (forall k, 1 <= k < w -> l' k = ex4 l' k) ->
  imposes_value 4 w l l' v.
Proof.
  intros O Hw H0 R cs L.
  assert (L' : length cs = 4%nat) by lia.
  assert (E : samples l' dist cs (1 - 4) 1 -> samples l' dist cs (1 - 4) w).
  { intros S. apply (samples_e4 l' dist cs 1 w affine_dist L' R S). }
  split.
  - intros S. split; [|auto].
    pose proof (S 0 ltac:(lia)) as A0. pose proof (S (-1) ltac:(lia)) as A1. pose proof (S (-2) ltac:(lia)) as A2. pose proof (S (-3) ltac:(lia)) as A3.
    rewrite (O (-1)) in A1 by lia. rewrite (O (-2)) in A2 by lia. rewrite (O (-3)) in A3 by lia. unfold dist in *.
    do 4 (destruct cs as [|? cs]; [discriminate L'|]). destruct cs; [|discriminate L']. cbn [peval] in *. lra.
  - intros S V. apply E. apply (samples_snoc l' dist cs (1 - 4) 0).
    + apply (samples_eq l); [exact S|]. intros k Hk. apply O. lia.
    + pose proof (S (-1) ltac:(lia)) as A1. pose proof (S (-2) ltac:(lia)) as A2. pose proof (S (-3) ltac:(lia)) as A3. rewrite H0. unfold dist in *.
      do 4 (destruct cs as [|? cs]; [discriminate L'|]). destruct cs; [|discriminate L']. cbn [peval] in *. lra.
Qed.

Lemma continues2 e w l' :
  (forall k, e + 1 <= k < w -> l' k = ex2 l' k) -> continues 2 e w l'.
Proof.
  intros R cs L S. replace (e + 1 - 2) with (e + 1 - 2) in * by lia.
  apply (samples_e2 l' (dist_from e) cs (e + 1) w (affine_from e) ltac:(lia) R S).
Qed.
Lemma continues3 e w l' :
  (forall k, e + 1 <= k < w -> l' k = ex3 l' k) -> continues 3 e w l'.
Proof. intros R cs L S. apply (samples_e3 l' (dist_from e) cs (e + 1) w (affine_from e) ltac:(lia) R S). Qed.
Lemma continues4 e w l' :
  (forall k, e + 1 <= k < w -> l' k = ex4 l' k) -> continues 4 e w l'.
Proof. intros R cs L S. apply (samples_e4 l' (dist_from e) cs (e + 1) w (affine_from e) ltac:(lia) R S). Qed.

Ltac headE := match goal with E : forall k : Z, ?l' k = lrun (?s :: ?r) ?l k |- _ => change (forall k, l' k = lrun r (lexec l s) k) in E end.
Lemma dir2_line b stagger loc val l l' p z : 0 < b_width b ->
  (forall k, l' k = lrun (Kdir2 b stagger loc val p z) l k) -> dirichlet_line 2 stagger loc b l l' (val p z).
Proof.
  intros Hw E. unfold Kdir2 in E; cbv zeta in E. revert E. unfold dirichlet_line, edge_cell.
  destruct (staggered_here stagger loc (b_side b)); [destruct (is_upper (b_side b))|]; intros E; headE.
  - destruct (e2_seq 1 (b_width b) (lexec l (0, val p z, []))) as [A B]. split.
    + rewrite E, A by lia. reflexivity.
    + apply continues2. intros k Hk. unfold ex2. rewrite !E. apply B. lia.
  - destruct (e2_seq 0 (b_width b) (lexec l (-1, val p z, []))) as [A B]. split.
    + rewrite E, A by lia. reflexivity.
    + apply continues2. intros k Hk. unfold ex2. rewrite !E. apply B. lia.
  - destruct (e2_seq 1 (b_width b) (lexec l (0, (2 * val p z)%R, [((-1)%R, -1)]))) as [A B].
    apply imposes_of_weights2; auto.
    + intros k Hk. rewrite E, A by lia. unfold lexec, ltgt. cbn [fst]. destruct (Z.eqb_spec k 0); [lia|reflexivity].
    + rewrite E, A by lia. unfold lexec, ltgt, lval. cbn [fst snd fold_left Z.eqb]. ring.
    + intros k Hk. unfold ex2. rewrite !E. apply B. lia.
Qed.
Lemma dir3_line b stagger loc val l l' p z : 0 < b_width b ->
  (forall k, l' k = lrun (Kdir3 b stagger loc val p z) l k) -> dirichlet_line 3 stagger loc b l l' (val p z).
Proof.
  intros Hw E. unfold Kdir3 in E; cbv zeta in E. revert E. unfold dirichlet_line, edge_cell.
  destruct (staggered_here stagger loc (b_side b)); [destruct (is_upper (b_side b))|]; intros E; headE.
  - destruct (e3_seq 1 (b_width b) (lexec l (0, val p z, []))) as [A B]. split.
    + rewrite E, A by lia. reflexivity.
    + apply continues3. intros k Hk. unfold ex3. rewrite !E. apply B. lia.
  - destruct (e3_seq 0 (b_width b) (lexec l (-1, val p z, []))) as [A B]. split.
    + rewrite E, A by lia. reflexivity.
    + apply continues3. intros k Hk. unfold ex3. rewrite !E. apply B. lia.
  - match type of E with forall k, _ = lrun _ (lexec l ?s) k => destruct (e3_seq 1 (b_width b) (lexec l s)) as [A B] end.
    apply imposes_of_weights3; auto.
    + intros k Hk. rewrite E, A by lia. unfold lexec, ltgt. cbn [fst]. destruct (Z.eqb_spec k 0); [lia|reflexivity].
    + rewrite E, A by lia. unfold lexec, ltgt, lval. cbn [fst snd fold_left Z.eqb]. field.
    + intros k Hk. unfold ex3. rewrite !E. apply B. lia.
Qed.
Lemma dir4_line b stagger loc val l l' p z : 0 < b_width b ->
  (forall k, l' k = lrun (Kdir4 b stagger loc val p z) l k) -> dirichlet_line 4 stagger loc b l l' (val p z).
Proof.
  intros Hw E. unfold Kdir4 in E; cbv zeta in E. revert E. unfold dirichlet_line, edge_cell.
  destruct (staggered_here stagger loc (b_side b)); [destruct (is_upper (b_side b))|]; intros E; headE.
  - destruct (e4_seq 1 (b_width b) (lexec l (0, val p z, []))) as [A B]. split.
    + rewrite E, A by lia. reflexivity.
    + apply continues4. intros k Hk. unfold ex4. rewrite !E. apply B. lia.
  - destruct (e4_seq 0 (b_width b) (lexec l (-1, val p z, []))) as [A B]. split.
    + rewrite E, A by lia. reflexivity.
    + apply continues4. intros k Hk. unfold ex4. rewrite !E. apply B. lia.
  - match type of E with forall k, _ = lrun _ (lexec l ?s) k => destruct (e4_seq 1 (b_width b) (lexec l s)) as [A B] end.
    apply imposes_of_weights4; auto.
    + intros k Hk. rewrite E, A by lia. unfold lexec, ltgt. cbn [fst]. destruct (Z.eqb_spec k 0); [lia|reflexivity].
    + rewrite E, A by lia. unfold lexec, ltgt, lval. cbn [fst snd fold_left Z.eqb]. field.
    + intros k Hk. unfold ex4. rewrite !E. apply B. lia.
Qed.
