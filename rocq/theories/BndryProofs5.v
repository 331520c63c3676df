Require Import ZArith List Bool Reals Lia Lra FinFun.
Require Import Verif.Base Verif.BndryModel Verif.BndrySpec Verif.BndryProofs Verif.BndryProofs2 Verif.BndryProofs3 Verif.BndryProofs4.
Import ListNotations.
Local Open Scope Z_scope.

Lemma const_seq v a w g : let h := lrun (map (fun i => (i, v, [])) (zrange a w)) g in
  (forall k, ~ (a <= k < w) -> h k = g k) /\ (forall k, a <= k < w -> h k = v).
Proof.
  cbv zeta. destruct (lrun_seq (fun i => (i, v, [])) a w g) as [A B]; [reflexivity|intros i j []|].
  split; [exact A|]. intros k Hk. rewrite B by auto. reflexivity.
Qed.

Lemma dir_line b stagger loc val l l' p z : 0 < b_width b ->
  (forall k, l' k = lrun (Kdir b stagger loc val p z) l k) ->
  if stagger && match loc with XLOW | YLOW => true | _ => false end
  then dirichlet_line 2 stagger loc b l l' (val p z)
  else imposes_value 2 1 l l' (val p z) /\ forall k, 1 <= k < b_width b -> l' k = val p z.
Proof.
  intros Hw E. unfold Kdir in E; cbv zeta in E. revert E.
  destruct (stagger && match loc with XLOW | YLOW => true | _ => false end).
  - unfold dirichlet_line, edge_cell.
    destruct (staggered_here stagger loc (b_side b)); [destruct (is_upper (b_side b))|]; intros E.
    + headE. destruct (e2_seq 1 (b_width b) (lexec l (0, val p z, []))) as [A B]. split.
      * rewrite E, A by lia. reflexivity.
      * apply continues2. intros k Hk. unfold ex2. rewrite !E. apply B. lia.
    + match type of E with forall k, _ = lrun (?h ++ _) _ k => set (hd := h) in E end.
      assert (E' : forall k, l' k = lrun (map e2 (zrange 0 (b_width b))) (lrun hd l) k) by (intros k; rewrite E, lrun_app; reflexivity).
      clear E. rename E' into E.
      destruct (e2_seq 0 (b_width b) (lrun hd l)) as [A B]. split.
      * rewrite E, A by lia. unfold hd. destruct (b_side b); reflexivity.
      * apply continues2. intros k Hk. unfold ex2. rewrite !E. apply B. lia.
    + headE. destruct (e2_seq 1 (b_width b) (lexec l (0, (2 * val p z)%R, [((-1)%R, -1)]))) as [A B].
      apply imposes_of_weights2; auto.
      * intros k Hk. rewrite E, A by lia. unfold lexec, ltgt. cbn [fst]. destruct (Z.eqb_spec k 0); [lia|reflexivity].
      * rewrite E, A by lia. unfold lexec, ltgt, lval. cbn [fst snd fold_left Z.eqb Pos.eqb]. ring.
      * intros k Hk. unfold ex2. rewrite !E. apply B. lia.
  - intros E. headE. destruct (const_seq (val p z) 1 (b_width b) (lexec l (0, (2 * val p z)%R, [((-1)%R, -1)]))) as [A B].
    split.
    + set (l1 := lexec l (0, (2 * val p z)%R, [((-1)%R, -1)])) in *.
      assert (I : imposes_value 2 1 l l1 (val p z)).
      { apply imposes_of_weights2; [|lia| |lia].
        - intros k Hk. unfold l1, lexec, ltgt. cbn [fst]. destruct (Z.eqb_spec k 0); [lia|reflexivity].
        - unfold l1, lexec, ltgt, lval. cbn [fst snd fold_left Z.eqb Pos.eqb]. ring. }
      intros cs L. destruct (I cs L) as [I1 I2]. split.
      * intros S. assert (S1 : samples l1 dist cs (1 - 2) 1).
        { apply (samples_eq l'); [exact S|]. intros k Hk. rewrite E, A by lia. reflexivity. }
        destruct (I1 S1) as [V _]. split; [exact V|exact S].
      * intros S V. apply (samples_eq l1); [auto|]. intros k Hk. rewrite E, A by lia. reflexivity.
    + intros k Hk. rewrite E. apply B. lia.
Qed.

(* ---------- Neumann ---------- *)
Section KN.
Variables (m : lmesh) (b : breg) (stagger : bool) (loc : cloc) (val dx dy : vfun).
Let w := b_width b.
Let st := staggered_here stagger loc (b_side b).
Let up := is_upper (b_side b).
Definition Kneu (p : pos) (z : Z) : list lstmt :=
  if st then
    if up then (0, (2 * (val p z * spacing b dx dy p z) / 3)%R, [((4 / 3)%R, -1); ((-(1 / 3))%R, -2)]) :: map e3 (zrange 1 w)
    else (-1, (- (2 * (val p z * spacing b dx dy (off b p (-1)) z)) / 3)%R, [((4 / 3)%R, -2); ((-(1 / 3))%R, -3)]) :: map e3 (zrange 0 w)
  else (0, (delta b dx dy p z * val p z)%R, [(1%R, -1)]) ::
       (if w =? 2 then [(1, (3 * delta b dx dy p z * val p z)%R, [(1%R, -2)])] else []).
Lemma kernel_neu : kernel b (zrange 0 (LNz m)) (neumann m stagger loc b val dx dy) Kneu.
Proof.
  apply kernel_zs. intros p. unfold neumann. apply flat_map_ext. intros z. unfold Kneu, st, up, w, spacing.
  destruct (staggered_here stagger loc (b_side b)); [destruct (is_upper (b_side b))|]; cbn [map].
  - rewrite map_place_e3. reflexivity.
  - rewrite map_place_e3. reflexivity.
  - destruct (b_width b =? 2); reflexivity.
Qed.
Definition Kneu4 (p : pos) (z : Z) : list lstmt :=
  [(0, (12 * delta b dx dy p z * val p z / 11)%R, [((17 / 22)%R, -1); ((9 / 22)%R, -2); ((-(5 / 22))%R, -3); ((1 / 22)%R, -4)])].
Lemma kernel_neu4 : kernel b (zrange 0 (LNz m)) (neumann_o4 m b val dx dy) Kneu4.
Proof. apply kernel_zs. reflexivity. Qed.
Definition Kneu4th (p : pos) (z : Z) : list lstmt :=
  [(0, (12 * (- delta b dx dy p z) / 11 * val p z)%R, [((17 / 22)%R, -1); ((9 / 22)%R, -2); ((-(5 / 22))%R, -3); ((1 / 22)%R, -4)]);
   (1, (-24 * (- delta b dx dy p z) * val p z)%R, [(27%R, 0); ((-27)%R, -1); (1%R, -2)])].
Lemma kernel_neu4th : kernel b (zrange 0 (LNz m)) (neumann_4th m b val dx dy) Kneu4th.
Proof. apply kernel_zs. reflexivity. Qed.
Definition Kdir4th (p : pos) (z : Z) : list lstmt :=
  [(0, (128 / 35 * val p z)%R, [((-4)%R, -1); (2%R, -2); ((-(4 / 3))%R, -3); ((1 / 7)%R, -4)]);
   (1, (- (128 / 5) * val p z)%R, [(9%R, 0); (18%R, -1); ((-4)%R, -2); ((3 / 5)%R, -3)])].
Lemma kernel_dir4th : kernel b (zrange 0 (LNz m)) (dirichlet_4th m b val) Kdir4th.
Proof. apply kernel_zs. reflexivity. Qed.
Definition Kfree2 (p : pos) (z : Z) : list lstmt := map e2 (zrange (if st && negb up then -1 else 0) w).
Definition Kfree3 (p : pos) (z : Z) : list lstmt := map e3 (zrange (if st && negb up then -1 else 0) w).
Lemma kernel_free2 : kernel b (zrange 0 (LNz m)) (free_o2 m stagger loc b) Kfree2.
Proof. apply kernel_zs. intros p. unfold free_o2, Kfree2. apply flat_map_ext. intros z. rewrite map_place_e2. reflexivity. Qed.
Lemma kernel_free3 : kernel b (zrange 0 (LNz m)) (free_o3 m stagger loc b) Kfree3.
Proof. apply kernel_zs. intros p. unfold free_o3, Kfree3. apply flat_map_ext. intros z. rewrite map_place_e3. reflexivity. Qed.
End KN.

(* what BoundaryNeumann does on a line *)
Ltac poly cs L' := repeat (destruct cs as [|? cs]; [discriminate L'|]); destruct cs; [|discriminate L']; cbn [peval pderiv] in *.

Lemma neu_line b stagger loc val dx dy l l' p z : 0 < b_width b ->
  (forall k, l' k = lrun (Kneu b stagger loc val dx dy p z) l k) ->
  if staggered_here stagger loc (b_side b) then
    let e := edge_cell (b_side b) in
    (forall cs, length cs = 3%nat -> samples l' (dist_from e) cs (e - 2) (e + 1) ->
       pderiv cs 0 = (IZR (bx (b_side b) + by_ (b_side b)) * val p z * spacing b dx dy (off b p e) z)%R) /\
    continues 3 e (b_width b) l'
  else imposes_gradient 3 (-1) (if b_width b =? 2 then 2 else 1) l l' (delta b dx dy p z * val p z).
Proof.
  intros Hw E. unfold Kneu in E; cbv zeta in E. revert E.
  destruct (staggered_here stagger loc (b_side b)).
  - unfold edge_cell. destruct (is_upper (b_side b)) eqn:U; intros E; headE; cbv zeta.
    + match type of E with forall k, _ = lrun _ (lexec l ?s) k => destruct (e3_seq 1 (b_width b) (lexec l s)) as [A B] end.
      split.
      * intros cs L' S. pose proof (S 0 ltac:(lia)) as A0. pose proof (S (-1) ltac:(lia)) as A1. pose proof (S (-2) ltac:(lia)) as A2.
        rewrite E, A in A0, A1, A2 by lia. unfold lexec, ltgt, lval, dist_from in *.
        change (0 - 0) with 0 in *; change (-1 - 0) with (-1) in *; change (-2 - 0) with (-2) in *.
        cbn [fst snd fold_left Z.eqb Pos.eqb] in *.
        replace (off b p 0) with p by (unfold off; destruct p; cbn [fst snd]; f_equal; lia).
        replace (IZR (bx (b_side b) + by_ (b_side b))) with 1%R by (destruct (b_side b); try discriminate U; reflexivity).
        poly cs L'. lra.
      * apply continues3. intros k Hk. unfold ex3. rewrite !E. apply B. lia.
    + match type of E with forall k, _ = lrun _ (lexec l ?s) k => destruct (e3_seq 0 (b_width b) (lexec l s)) as [A B] end.
      split.
      * intros cs L' S. pose proof (S (-1) ltac:(lia)) as A0. pose proof (S (-2) ltac:(lia)) as A1. pose proof (S (-3) ltac:(lia)) as A2.
        rewrite E, A in A0, A1, A2 by lia. unfold lexec, ltgt, lval, dist_from in *.
        change (-1 - -1) with 0 in *; change (-2 - -1) with (-1) in *; change (-3 - -1) with (-2) in *.
        cbn [fst snd fold_left Z.eqb Pos.eqb] in *.
        replace (IZR (bx (b_side b) + by_ (b_side b))) with (-1)%R by (destruct (b_side b); try discriminate U; reflexivity).
        poly cs L'. lra.
      * apply continues3. intros k Hk. unfold ex3. rewrite !E. apply B. lia.
  - intros E.
    assert (H0 : l' 0 = (delta b dx dy p z * val p z + l (-1)%Z)%R /\
       (b_width b = 2 -> l' 1 = (3 * (delta b dx dy p z * val p z) + l (-2)%Z)%R) /\ (forall k, k < 0 -> l' k = l k)).
    { revert E. destruct (Z.eqb_spec (b_width b) 2) as [W|W]; intros E; repeat split.
      - rewrite E. unfold lrun, lexec, ltgt, lval. cbn [fst snd fold_left Z.eqb Pos.eqb]. ring.
      - intros _. rewrite E. unfold lrun, lexec, ltgt, lval. cbn [fst snd fold_left Z.eqb Pos.eqb]. ring.
      - intros k Hk. rewrite E. unfold lrun, lexec, ltgt. cbn [fst snd fold_left].
        destruct (Z.eqb_spec k 1); [lia|]. destruct (Z.eqb_spec k 0); [lia|]. reflexivity.
      - rewrite E. unfold lrun, lexec, ltgt, lval. cbn [fst snd fold_left Z.eqb Pos.eqb]. ring.
      - lia.
      - intros k Hk. rewrite E. unfold lrun, lexec, ltgt. cbn [fst snd fold_left].
        destruct (Z.eqb_spec k 0); [lia|]. reflexivity. }
    clear E. destruct H0 as (H0 & H1 & H2). set (g := (delta b dx dy p z * val p z)%R) in *. clearbody g.
    intros cs L. assert (L' : length cs = 3%nat) by lia. split.
    + intros S. pose proof (S 0 ltac:(lia)) as A0. pose proof (S (-1) ltac:(lia)) as A1.
      rewrite (H2 (-1)) in A1 by lia. unfold dist in *. poly cs L'. lra.
    + intros S G. destruct (Z.eqb_spec (b_width b) 2) as [W|W].
      * intros k Hk. destruct (Z_lt_le_dec k 0) as [C|C]; [rewrite H2 by lia; apply S; lia|].
        pose proof (S (-1) ltac:(lia)) as A1. pose proof (S (-2) ltac:(lia)) as A2. unfold dist in *.
        assert (k = 0 \/ k = 1) as [->| ->] by lia.
        -- rewrite H0. poly cs L'. lra.
        -- rewrite H1 by auto. poly cs L'. lra.
      * intros k Hk. destruct (Z_lt_le_dec k 0) as [C|C]; [rewrite H2 by lia; apply S; lia|].
        pose proof (S (-1) ltac:(lia)) as A1. unfold dist in *.
        assert (k = 0) as -> by lia. rewrite H0. poly cs L'. lra.
Qed.

Lemma grad5 (l l' : Z -> R) g w :
  1 <= w <= 4 ->
  l' 0 = (12 * g / 11 + (17 * l (-1)%Z + 9 * l (-2)%Z - 5 * l (-3)%Z + l (-4)%Z) / 22)%R ->
  (2 <= w -> l' 1 = (- 24 * g + 27 * l' 0%Z - 27 * l (-1)%Z + l (-2)%Z)%R) -> w <= 2 ->
  (forall k, k < 0 -> l' k = l k) -> imposes_gradient 5 (-4) w l l' g.
Proof.
  intros Hw H0 H1 Hw2 H2 cs L. assert (L' : length cs = 5%nat) by lia. split.
  - intros S. pose proof (S 0 ltac:(lia)) as A0. pose proof (S (-1) ltac:(lia)) as A1. pose proof (S (-2) ltac:(lia)) as A2.
    pose proof (S (-3) ltac:(lia)) as A3. pose proof (S (-4) ltac:(lia)) as A4.
    rewrite H2 in A1, A2, A3, A4 by lia. unfold dist in *. poly cs L'. lra.
  - intros S G k Hk. destruct (Z_lt_le_dec k 0) as [C|C]; [rewrite H2 by lia; apply S; lia|].
    pose proof (S (-1) ltac:(lia)) as A1. pose proof (S (-2) ltac:(lia)) as A2.
    pose proof (S (-3) ltac:(lia)) as A3. pose proof (S (-4) ltac:(lia)) as A4. unfold dist in *.
    assert (E0 : l' 0 = peval cs (0 + 1 / 2)). { rewrite H0. poly cs L'. lra. }
    assert (k = 0 \/ k = 1 /\ 2 <= w) as [->|[-> W]] by lia; [exact E0|].
    rewrite H1 by auto. rewrite E0. clear E0 H0 H1. poly cs L'. lra.
Qed.

Lemma neu4_line b val dx dy l l' p z :
  (forall k, l' k = lrun (Kneu4 b val dx dy p z) l k) ->
  imposes_gradient 5 (-4) 1 l l' (delta b dx dy p z * val p z).
Proof.
  intros E. apply grad5; try lia.
  - rewrite E. unfold Kneu4, lrun, lexec, ltgt, lval. cbn [fst snd fold_left Z.eqb Pos.eqb]. field.
  - intros k Hk. rewrite E. unfold Kneu4, lrun, lexec, ltgt. cbn [fst snd fold_left].
    destruct (Z.eqb_spec k 0); [lia|reflexivity].
Qed.
Lemma neu4th_line b val dx dy l l' p z :
  (forall k, l' k = lrun (Kneu4th b val dx dy p z) l k) ->
  imposes_gradient 5 (-4) 2 l l' (- (delta b dx dy p z * val p z)).
Proof.
  intros E. apply grad5; try lia.
  - rewrite E. unfold Kneu4th, lrun, lexec, ltgt, lval. cbn [fst snd fold_left Z.eqb Pos.eqb]. field.
  - intros _. rewrite !E. unfold Kneu4th, lrun, lexec, ltgt, lval. cbn [fst snd fold_left Z.eqb Pos.eqb]. field.
  - intros k Hk. rewrite E. unfold Kneu4th, lrun, lexec, ltgt. cbn [fst snd fold_left].
    destruct (Z.eqb_spec k 1); [lia|]. destruct (Z.eqb_spec k 0); [lia|reflexivity].
Qed.
