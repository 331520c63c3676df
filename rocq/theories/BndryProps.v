(* Properties C31 (boundary conditions) and C48 (boundary regions). *)
Require Import ZArith List Bool Reals Lia Lra.
Require Import Verif.Base Verif.BndryModel Verif.BndrySpec Verif.BndryProofs Verif.BndryProofs2 Verif.BndryProofs3
  Verif.BndryProofs4 Verif.BndryProofs5 Verif.BndryProofs6.
Import ListNotations.
Local Open Scope Z_scope.

(* C48. Looping over a boundary region with first/next/isDone, or with the nested
   nextY/nextX loops, visits every guard cell of the region once and nothing else; on each grid
   line the cells come from the domain outwards. first/next1d visits the cells next to the
   domain, in order. The loops end. *)
Theorem C48_all_guard_cells_once : forall m b fuel, fits m b 0 -> b_lo b <= b_hi b -> enough b fuel ->
  exists ps, walk_all m b fuel = Some ps /\ NoDup ps /\
    (forall p, In p ps <-> in_strip m b 0 (b_width b) p) /\
    (forall t, b_lo b <= t <= b_hi b ->
       filter (fun p => tang b p =? t) ps = map (fun k => gcell m b k t) (zrange 0 (b_width b))).
Proof.
  intros m b fuel F Hlh [Hf _]. exists (all_cells m b). split; [now apply (walk_all_spec m b 0 fuel F)|].
  split; [apply NoDup_all_cells|]. split; [apply in_all_cells|]. apply filter_all_cells.
Qed.
Theorem C48_nested_loops : forall m b fuel infuel, fits m b 0 -> b_lo b <= b_hi b -> 0 < b_width b ->
  Z.max (b_width b) (b_hi b + 1 - b_lo b) <= Z.of_nat fuel ->
  Z.max (b_width b) (b_hi b + 1 - b_lo b) <= Z.of_nat infuel ->
  exists ps, walk_out m b fuel infuel (first m b) = Some ps /\ NoDup ps /\
    (forall p, In p ps <-> in_strip m b 0 (b_width b) p) /\
    (forall t, b_lo b <= t <= b_hi b ->
       filter (fun p => tang b p =? t) ps = map (fun k => gcell m b k t) (zrange 0 (b_width b))).
Proof.
  intros m b fuel infuel F Hlh Hw Hf Hif. exists (nested_cells m b 0 (b_lo b)).
  split; [apply (walk_nested m b 0); auto; lia|].
  split; [apply NoDup_nested|]. split; [apply in_nested|]. apply filter_nested.
Qed.
Theorem C48_innermost_cells : forall m b fuel, fits m b 0 -> 0 < b_width b -> enough b fuel ->
  walk1d m b fuel = Some (map (gcell m b 0) (zrange (b_lo b) (b_hi b + 1))).
Proof. intros m b fuel F Hw [_ Hf]. now apply (walk1d_spec m b 0). Qed.
(* The constructors: whichever way round the limits are given, the region is the guard cells
   of the local array on that side. *)
Theorem C48_construction : forall m s mn mx,
  let b := mk_region m s mn mx in
  b_lo b = Z.min mn mx /\ b_hi b = Z.max mn mx /\
  forall k t, 0 <= k < b_width b ->
    gcell m b k t = match s with
                    | XIn => (m_xstart m - 1 - k, t)
                    | XOut => (m_xend m + 1 + k, t)
                    | YDown => (t, m_ystart m - 1 - k)
                    | YUp => (t, m_yend m + 1 + k)
                    end.
Proof.
  intros m s mn mx. unfold mk_region. cbv zeta.
  destruct (Z.ltb_spec mx mn); cbn [b_lo b_hi b_width b_side]; (split; [lia|]; split; [lia|]); intros k t Hk;
    destruct s; unfold gcell; cbn [b_side b_width]; f_equal; lia.
Qed.

(* C31. Dirichlet conditions. On a field at cell centres (or shifted tangentially) dirichlet sets
   the first guard cell so that the straight line through it and the last domain cell takes the
   value on the boundary, and the further guard cells to the value; on a field shifted onto the
   boundary the cell on the boundary takes the value and the others continue the line. Nothing
   else changes. *)
Theorem C31_dirichlet : forall m b stagger loc val f fuel,
  fits m b 2 -> 0 < b_width b -> enough b fuel ->
  exists f', apply1d m b fuel (dirichlet m stagger loc b val) f = Ok f' /\
    on_lines m b f f' (fun l l' p z =>
      if stagger && match loc with XLOW | YLOW => true | _ => false end
      then dirichlet_line 2 stagger loc b l l' (val p z)
      else imposes_value 2 1 l l' (val p z) /\ forall k, 1 <= k < b_width b -> l' k = val p z) /\
    only_changes m b (if staggered_here stagger loc (b_side b) then edge_cell (b_side b) else 0) (b_width b) f f'.
Proof.
  intros m b stagger loc val f fuel F Hw [_ Hf].
  destruct (apply1d_spec m b 2 F ltac:(lia) _ (Kdir b stagger loc val) f fuel
    (if staggered_here stagger loc (b_side b) then edge_cell (b_side b) else 0) Hw Hf (kernel_dir m b stagger loc val)) as (f' & E & L & O).
  - intros p z. unfold Kdir; cbv zeta. destruct (stagger && _).
    + destruct (staggered_here _ _ _); [destruct (is_upper (b_side b))|]; cells. all: destruct (b_side b); cells.
    + cells.
  - intros p z s. unfold Kdir, edge_cell; cbv zeta. intros Hs.
    assert (G : forall l, In s (map e2 l) -> exists i, In i l /\ ltgt s = i) by (intros l H; apply in_map_iff in H as [i [<- Hi]]; exists i; auto).
    assert (G' : forall v l, In s (map (fun i => (i, v, [])) l) -> exists i, In i l /\ ltgt s = i) by (intros v l H; apply in_map_iff in H as [i [<- Hi]]; exists i; auto).
    revert Hs. destruct (stagger && match loc with XLOW | YLOW => true | _ => false end) eqn:C.
    + destruct (staggered_here stagger loc (b_side b)); [destruct (is_upper (b_side b))|]; intros Hs.
      * destruct Hs as [<-|Hs]; [unfold ltgt; cbn; lia|]. apply G in Hs as [i [Hi ->]]. apply in_zrange in Hi. lia.
      * apply in_app_iff in Hs as [Hs|Hs]; [|apply G in Hs as [i [Hi ->]]; apply in_zrange in Hi; lia].
        destruct (b_side b); cbn [In] in Hs; repeat (destruct Hs as [<-|Hs]; [unfold ltgt; cbn [fst]; lia|]); contradiction.
      * destruct Hs as [<-|Hs]; [unfold ltgt; cbn; lia|]. apply G in Hs as [i [Hi ->]]. apply in_zrange in Hi. lia.
    + assert (N : staggered_here stagger loc (b_side b) = false).
      { unfold staggered_here. destruct stagger; [|reflexivity]. cbn [andb] in *. destruct loc; try discriminate C; reflexivity. }
      rewrite N. intros [<-|Hs]; [unfold ltgt; cbn; lia|]. apply G' in Hs as [i [Hi ->]]. apply in_zrange in Hi. lia.
  - exists f'. split; [exact E|]. split; [|exact O]. intros t z Ht Hz. apply dir_line; [exact Hw|].
    intros k. apply (L t z Ht Hz k).
Qed.

(* Shared by the conditions of the form "line by line". *)
Lemma by_lines m b d body K f fuel k0 (P : (Z -> R) -> (Z -> R) -> pos -> Z -> Prop) :
  fits m b d -> 0 <= d -> 0 < b_width b -> enough b fuel ->
  kernel b (zrange 0 (LNz m)) body K ->
  (forall p z, cells_ok b d 0 (K p z)) ->
  (forall p z s, In s (K p z) -> k0 <= ltgt s) ->
  (forall l l' p z, (forall k, l' k = lrun (K p z) l k) -> P l l' p z) ->
  exists f', apply1d m b fuel body f = Ok f' /\ on_lines m b f f' P /\ only_changes m b k0 (b_width b) f f'.
Proof.
  intros F Hd Hw [_ Hf] HK Hc Hk HP.
  destruct (apply1d_spec m b d F Hd body K f fuel k0 Hw Hf HK Hc Hk) as (f' & E & L & O).
  exists f'. split; [exact E|]. split; [|exact O]. intros t z Ht Hz. apply HP. intros k. apply (L t z Ht Hz k).
Qed.
Ltac tgts := intros p z s Hs; cbn [In] in Hs; repeat (destruct Hs as [<-|Hs]; [unfold ltgt; cbn [fst]; lia|]);
  try contradiction; try (apply (tgt_map _ _ _ _ _ Hs); [reflexivity|lia]).

Theorem C31_dirichlet_field2d : forall m b stagger loc val f fuel,
  fits m b 2 -> 0 < b_width b -> enough b fuel ->
  exists f', apply1d m b fuel (dirichlet_2d m stagger loc b val) f = Ok f' /\
    on_lines m b f f' (fun l l' p z => dirichlet_line 2 stagger loc b l l' (val p z)) /\
    only_changes m b (if staggered_here stagger loc (b_side b) then edge_cell (b_side b) else 0) (b_width b) f f'.
Proof.
  intros m b stagger loc val f fuel F Hw Hf.
  apply (by_lines m b 2 _ (Kdir2 b stagger loc val)); auto; [lia|apply kernel_dir2| | |intros; now apply dir2_line].
  - intros p z. unfold Kdir2; cbv zeta. destruct (staggered_here _ _ _); [destruct (is_upper (b_side b))|]; cells.
  - unfold Kdir2, edge_cell; cbv zeta. destruct (staggered_here _ _ _); [destruct (is_upper (b_side b))|]; tgts.
Qed.
Theorem C31_dirichlet_o3 : forall m b stagger loc val f fuel,
  fits m b 3 -> 0 < b_width b -> enough b fuel ->
  exists f', apply1d m b fuel (dirichlet_o3 m stagger loc b val) f = Ok f' /\
    on_lines m b f f' (fun l l' p z => dirichlet_line 3 stagger loc b l l' (val p z)) /\
    only_changes m b (if staggered_here stagger loc (b_side b) then edge_cell (b_side b) else 0) (b_width b) f f'.
Proof.
  intros m b stagger loc val f fuel F Hw Hf.
  apply (by_lines m b 3 _ (Kdir3 b stagger loc val)); auto; [lia|apply kernel_dir3| | |intros; now apply dir3_line].
  - intros p z. unfold Kdir3; cbv zeta. destruct (staggered_here _ _ _); [destruct (is_upper (b_side b))|]; cells.
  - unfold Kdir3, edge_cell; cbv zeta. destruct (staggered_here _ _ _); [destruct (is_upper (b_side b))|]; tgts.
Qed.
Theorem C31_dirichlet_o4 : forall m b stagger loc val f fuel,
  fits m b 4 -> 0 < b_width b -> enough b fuel ->
  exists f', apply1d m b fuel (dirichlet_o4 m stagger loc b val) f = Ok f' /\
    on_lines m b f f' (fun l l' p z => dirichlet_line 4 stagger loc b l l' (val p z)) /\
    only_changes m b (if staggered_here stagger loc (b_side b) then edge_cell (b_side b) else 0) (b_width b) f f'.
Proof.
  intros m b stagger loc val f fuel F Hw Hf.
  apply (by_lines m b 4 _ (Kdir4 b stagger loc val)); auto; [lia|apply kernel_dir4| | |intros; now apply dir4_line].
  - intros p z. unfold Kdir4; cbv zeta. destruct (staggered_here _ _ _); [destruct (is_upper (b_side b))|]; cells.
  - unfold Kdir4, edge_cell; cbv zeta. destruct (staggered_here _ _ _); [destruct (is_upper (b_side b))|]; tgts.
Qed.

(* dirichlet_4thorder does not impose its value: applied to a constant field that already has the
   boundary value everywhere, it changes both guard cells (7/15 of the value, and then a multiple
   that is not 1), and on a boundary one cell wide it writes outside the array. *)
Theorem C31_dirichlet_4thorder_refuted : forall m b fuel v (val : vfun), v <> 0%R -> (forall p z, val p z = v) ->
  fits m b 4 -> 2 <= b_width b -> enough b fuel ->
  exists f', apply1d m b fuel (dirichlet_4th m b val) (fun _ _ => v) = Ok f' /\
    forall t z, b_lo b <= t <= b_hi b -> 0 <= z < LNz m ->
      f' (gcell m b 0 t) z = (7 / 15 * v)%R /\ f' (gcell m b 1 t) z = (-34 / 5 * v)%R /\
      ~ imposes_value 5 1 (fun _ => v) (fun k => f' (gcell m b k t) z) v.
Proof.
  intros m b fuel v val Hv Hval F Hw Hf.
  destruct (by_lines m b 4 (dirichlet_4th m b val) (Kdir4th val) (fun _ _ => v) fuel 0
    (fun l l' p z => l (-1) = v -> l (-2) = v -> l (-3) = v -> l (-4) = v -> l' 0 = (7 / 15 * v)%R /\ l' 1 = (-34 / 5 * v)%R)) as (f' & E & L & O); auto; try lia.
  - apply kernel_dir4th.
  - intros p z. unfold Kdir4th. cells.
  - unfold Kdir4th. tgts.
  - intros l l' p z H E1 E2 E3 E4. rewrite !H. unfold Kdir4th, lrun, lexec, ltgt, lval. cbn [fst snd fold_left Z.eqb Pos.eqb].
    rewrite Hval, E1, E2, E3, E4. split; field.
  - exists f'. split; [exact E|]. intros t z Ht Hz. destruct (L t z Ht Hz eq_refl eq_refl eq_refl eq_refl) as [A B].
    split; [exact A|]. split; [exact B|]. intros I. destruct (I [v; 0; 0; 0; 0]%R eq_refl) as [_ I2].
    assert (X : f' (gcell m b 0 t) z = v).
    { transitivity (peval [v; 0; 0; 0; 0]%R (dist 0)).
      - apply I2; [|cbn [peval]; ring|lia]. intros k Hk. cbn [peval]. ring.
      - cbn [peval]. ring. }
    rewrite A in X. apply Hv. lra.
Qed.
(* Both "4thorder" conditions write two guard cells whatever the width is. *)
Theorem C31_4thorder_width1_out_of_bounds : forall m b fuel val dx dy f,
  fits m b 4 -> b_width b = 1 -> b_lo b <= b_hi b -> 0 < LNz m -> enough b fuel ->
  apply1d m b fuel (dirichlet_4th m b val) f = UB /\
  apply1d m b fuel (neumann_4th m b val dx dy) f = UB.
Proof.
  intros m b fuel val dx dy f F Hw Hlh Hz [_ Hf]. unfold apply1d. rewrite (walk1d_spec m b 4) by (auto; lia).
  assert (OOB : in_bounds m (gcell m b 1 (b_lo b)) 0 = false).
  { unfold in_bounds, gcell, fits in *. rewrite Hw in *. destruct (b_side b); cbn [fst snd].
    all: apply not_true_iff_false; rewrite !andb_true_iff, !Z.leb_le, !Z.ltb_lt; lia. }
  assert (P : In (gcell m b 0 (b_lo b)) (map (gcell m b 0) (zrange (b_lo b) (b_hi b + 1)))) by (apply in_map, in_zrange; lia).
  split.
  - apply (exec_all_oob m _ f (nth 1 (flat_map (fun z : Z => map (place b (gcell m b 0 (b_lo b)) z) (Kdir4th val (gcell m b 0 (b_lo b)) z)) [0]) (mkS (0,0) 0 0%R []))).
    + apply in_flat_map. exists (gcell m b 0 (b_lo b)). split; [exact P|]. unfold dirichlet_4th. apply in_flat_map. exists 0.
      split; [apply in_zrange; lia|]. right; left. reflexivity.
    + cbn [flat_map map app nth place s_tgt s_z Kdir4th]. unfold ltgt; cbn [fst]. rewrite off_gcell. exact OOB.
  - apply (exec_all_oob m _ f (nth 1 (flat_map (fun z : Z => map (place b (gcell m b 0 (b_lo b)) z) (Kneu4th b val dx dy (gcell m b 0 (b_lo b)) z)) [0]) (mkS (0,0) 0 0%R []))).
    + apply in_flat_map. exists (gcell m b 0 (b_lo b)). split; [exact P|]. unfold neumann_4th. apply in_flat_map. exists 0.
      split; [apply in_zrange; lia|]. right; left. reflexivity.
    + cbn [flat_map map app nth place s_tgt s_z Kneu4th]. unfold ltgt; cbn [fst]. rewrite off_gcell. exact OOB.
Qed.

(* Neumann: the coordinate derivative at the boundary is the value. delta is the (signed) grid
   spacing across the boundary, so the outward derivative per cell is delta * value. At cell
   centres, the derivative of every quadratic through the two cells next to the boundary is right
   and, for a boundary two cells wide, so is the second guard cell; for other widths only the
   first guard cell is written. On the boundary, the one-sided derivative is. *)
Theorem C31_neumann : forall m b stagger loc val dx dy f fuel,
  fits m b 3 -> 0 < b_width b -> enough b fuel ->
  exists f', apply1d m b fuel (neumann m stagger loc b val dx dy) f = Ok f' /\
    on_lines m b f f' (fun l l' p z =>
      if staggered_here stagger loc (b_side b) then
        let e := edge_cell (b_side b) in
        (forall cs, length cs = 3%nat -> samples l' (dist_from e) cs (e - 2) (e + 1) ->
           pderiv cs 0 = (IZR (bx (b_side b) + by_ (b_side b)) * val p z * spacing b dx dy (off b p e) z)%R) /\
        continues 3 e (b_width b) l'
      else imposes_gradient 3 (-1) (if b_width b =? 2 then 2 else 1) l l' (delta b dx dy p z * val p z)) /\
    only_changes m b (if staggered_here stagger loc (b_side b) then edge_cell (b_side b) else 0) (b_width b) f f' /\
    (staggered_here stagger loc (b_side b) = false -> b_width b <> 2 -> only_changes m b 0 1 f f').
Proof.
  intros m b stagger loc val dx dy f fuel F Hw Hf.
  destruct (by_lines m b 3 (neumann m stagger loc b val dx dy) (Kneu b stagger loc val dx dy) f fuel
    (if staggered_here stagger loc (b_side b) then edge_cell (b_side b) else 0)
    (fun l l' p z => (if staggered_here stagger loc (b_side b) then
        let e := edge_cell (b_side b) in
        (forall cs, length cs = 3%nat -> samples l' (dist_from e) cs (e - 2) (e + 1) ->
           pderiv cs 0 = (IZR (bx (b_side b) + by_ (b_side b)) * val p z * spacing b dx dy (off b p e) z)%R) /\
        continues 3 e (b_width b) l'
      else imposes_gradient 3 (-1) (if b_width b =? 2 then 2 else 1) l l' (delta b dx dy p z * val p z)) /\
      (staggered_here stagger loc (b_side b) = false -> b_width b <> 2 -> forall k, k <> 0 -> l' k = l k))) as (f' & E & L & O); auto; try lia.
  - apply kernel_neu.
  - intros p z. unfold Kneu; cbv zeta. destruct (staggered_here _ _ _); [destruct (is_upper (b_side b))|]; cells.
    destruct (Z.eqb_spec (b_width b) 2); cells.
  - unfold Kneu, edge_cell; cbv zeta. destruct (staggered_here _ _ _); [destruct (is_upper (b_side b))|]; tgts.
    destruct (b_width b =? 2); cbn [In] in Hs; [destruct Hs as [<-|[]]; unfold ltgt; cbn [fst]; lia|contradiction].
  - intros l l' p z H. split; [now apply neu_line|]. intros N W k Hk. rewrite H. unfold Kneu; cbv zeta. rewrite N.
    destruct (Z.eqb_spec (b_width b) 2); [contradiction|]. unfold lrun, lexec, ltgt. cbn [fst snd fold_left].
    destruct (Z.eqb_spec k 0); [contradiction|reflexivity].
  - exists f'. split; [exact E|]. split; [|split; [exact O|]].
    + intros t z Ht Hz. apply (proj1 (L t z Ht Hz)).
    + intros N W p z Hn. rewrite N in O.
      destruct (classic_strip m b z p) as [[[k [t [Hk [Ht ->]]]] Hz]|Hs].
      * destruct (Z.eq_dec k 0) as [->|Hk0].
        -- exfalso. apply Hn. split; [|exact Hz]. exists 0, t. repeat split; auto; lia.
        -- apply (proj2 (L t z Ht Hz) N W k Hk0).
      * apply O. exact Hs.
Qed.

(* neumann_o4 (fields at cell centres, boundary width not 2: the code refuses the rest): the
   derivative of the quartic through the first guard cell and the four cells inwards. *)
Theorem C31_neumann_o4 : forall m b val dx dy f fuel,
  fits m b 4 -> 0 < b_width b -> enough b fuel ->
  exists f', apply1d m b fuel (neumann_o4 m b val dx dy) f = Ok f' /\
    on_lines m b f f' (fun l l' p z => imposes_gradient 5 (-4) 1 l l' (delta b dx dy p z * val p z)) /\
    only_changes m b 0 1 f f'.
Proof.
  intros m b val dx dy f fuel F Hw Hf.
  destruct (by_lines m b 4 (neumann_o4 m b val dx dy) (Kneu4 b val dx dy) f fuel 0
    (fun l l' p z => imposes_gradient 5 (-4) 1 l l' (delta b dx dy p z * val p z) /\ forall k, k <> 0 -> l' k = l k)) as (f' & E & L & O); auto; try lia.
  - apply kernel_neu4.
  - intros p z. unfold Kneu4. cells.
  - unfold Kneu4. tgts.
  - intros l l' p z H. split; [now apply neu4_line|]. intros k Hk. rewrite H. unfold Kneu4, lrun, lexec, ltgt. cbn [fst snd fold_left].
    destruct (Z.eqb_spec k 0); [contradiction|reflexivity].
  - exists f'. split; [exact E|]. split; [intros t z Ht Hz; apply (proj1 (L t z Ht Hz))|].
    intros p z Hn. destruct (classic_strip m b z p) as [[[k [t [Hk [Ht ->]]]] Hz]|Hs].
    + destruct (Z.eq_dec k 0) as [->|Hk0].
      * exfalso. apply Hn. split; [|exact Hz]. exists 0, t. repeat split; auto; lia.
      * apply (proj2 (L t z Ht Hz) k Hk0).
    + apply O. exact Hs.
Qed.
(* neumann_4thorder imposes minus the gradient it is given: whenever the value and the spacing
   are not zero, no quartic with the requested gradient goes through the cells it leaves. *)
Theorem C31_neumann_4thorder_refuted : forall m b val dx dy f fuel,
  fits m b 4 -> 2 <= b_width b -> enough b fuel ->
  exists f', apply1d m b fuel (neumann_4th m b val dx dy) f = Ok f' /\
    on_lines m b f f' (fun l l' p z =>
      imposes_gradient 5 (-4) 2 l l' (- (delta b dx dy p z * val p z)) /\
      (forall cs, length cs = 5%nat -> (delta b dx dy p z * val p z <> 0)%R ->
         samples l' dist cs (-4) 1 -> pderiv cs 0 <> (delta b dx dy p z * val p z)%R)) /\
    only_changes m b 0 (b_width b) f f'.
Proof.
  intros m b val dx dy f fuel F Hw Hf.
  apply (by_lines m b 4 (neumann_4th m b val dx dy) (Kneu4th b val dx dy)); auto; try lia.
  - apply kernel_neu4th.
  - intros p z. unfold Kneu4th. cells.
  - unfold Kneu4th. tgts.
  - intros l l' p z H. pose proof (neu4th_line b val dx dy l l' p z H) as G. split; [exact G|].
    intros cs Lc Hn S Hp. destruct (G cs ltac:(lia)) as [G1 _]. specialize (G1 S). apply Hn. lra.
Qed.

(* free_o2 and free_o3 continue the line, or the parabola, through the cells inwards. *)
Theorem C31_free_o2 : forall m b stagger loc f fuel, fits m b 3 -> 0 < b_width b -> enough b fuel ->
  let k0 := if staggered_here stagger loc (b_side b) && negb (is_upper (b_side b)) then -1 else 0 in
  exists f', apply1d m b fuel (free_o2 m stagger loc b) f = Ok f' /\
    on_lines m b f f' (fun l l' p z => forall cs, length cs = 2%nat ->
      samples l dist cs (k0 - 2) k0 -> samples l' dist cs (k0 - 2) (b_width b)) /\
    only_changes m b k0 (b_width b) f f'.
Proof.
  intros m b stagger loc f fuel F Hw Hf. cbv zeta.
  set (k0 := if _ && _ then -1 else 0). assert (-1 <= k0 <= 0) by (subst k0; destruct (_ && _); lia).
  apply (by_lines m b 3 _ (Kfree2 b stagger loc)); auto; try lia.
  - apply kernel_free2.
  - intros p z. unfold Kfree2. fold k0. clearbody k0. cells.
  - unfold Kfree2. fold k0. clearbody k0. tgts.
  - intros l l' p z E. unfold Kfree2 in E. fold k0 in E. clearbody k0. intros cs Lc S.
    destruct (e2_seq k0 (b_width b) l) as [A B].
    apply (samples_eq (lrun (map e2 (zrange k0 (b_width b))) l)); [|intros; apply E].
    apply samples_e2; auto; [apply affine_dist|]. apply (samples_eq l); auto. intros k Hk. apply A. lia.
Qed.
Theorem C31_free_o3 : forall m b stagger loc f fuel, fits m b 4 -> 0 < b_width b -> enough b fuel ->
  let k0 := if staggered_here stagger loc (b_side b) && negb (is_upper (b_side b)) then -1 else 0 in
  exists f', apply1d m b fuel (free_o3 m stagger loc b) f = Ok f' /\
    on_lines m b f f' (fun l l' p z => forall cs, length cs = 3%nat ->
      samples l dist cs (k0 - 3) k0 -> samples l' dist cs (k0 - 3) (b_width b)) /\
    only_changes m b k0 (b_width b) f f'.
Proof.
  intros m b stagger loc f fuel F Hw Hf. cbv zeta.
  set (k0 := if _ && _ then -1 else 0). assert (-1 <= k0 <= 0) by (subst k0; destruct (_ && _); lia).
  apply (by_lines m b 4 _ (Kfree3 b stagger loc)); auto; try lia.
  - apply kernel_free3.
  - intros p z. unfold Kfree3. fold k0. clearbody k0. cells.
  - unfold Kfree3. fold k0. clearbody k0. tgts.
  - intros l l' p z E. unfold Kfree3 in E. fold k0 in E. clearbody k0. intros cs Lc S.
    destruct (e3_seq k0 (b_width b) l) as [A B].
    apply (samples_eq (lrun (map e3 (zrange k0 (b_width b))) l)); [|intros; apply E].
    apply samples_e3; auto; [apply affine_dist|]. apply (samples_eq l); auto. intros k Hk. apply A. lia.
Qed.

(* Conditions applied at every guard cell, from the domain outwards: each guard cell is related
   to the (new) cell inwards of it. *)
Theorem C31_constgradient : forall m b f fuel, fits m b 2 -> b_lo b <= b_hi b -> enough b fuel ->
  exists f', apply_all m b fuel (const_gradient m b) f = Ok f' /\
    on_lines m b f f' (fun l l' p z => forall k, 0 <= k < b_width b ->
      (l' k - l' (k - 1)%Z = l (-1)%Z - l (-2)%Z)%R) /\
    only_changes m b 0 (b_width b) f f'.
Proof.
  intros m b f fuel F Hlh Hf.
  destruct (all_line m b 2 (const_gradient m b) (fun p z => e2 0) f fuel) as (f' & E & L & O); auto; try lia.
  - intros p z j Hj. unfold e2, lreads in Hj. inl Hj.
  - exists f'. split; [exact E|]. split; [|exact O]. intros t z Ht Hz.
    assert (U : forall k, k < 0 -> f' (gcell m b k t) z = f (gcell m b k t) z).
    { intros k Hk. apply O. intros [[k' [t' [Hk' [_ Ek]]]] _]. apply gcell_inj in Ek. lia. }
    assert (Sx : forall k, 0 <= k < b_width b -> f' (gcell m b k t) z = (2 * f' (gcell m b (k - 1)%Z t) z - f' (gcell m b (k - 2)%Z t) z)%R).
    { intros k Hk. rewrite (L t z Ht Hz k Hk). unfold lval, e2. cbn [fst snd fold_left].
      replace (k + (0 - 1)) with (k - 1) by lia. replace (k + (0 - 2)) with (k - 2) by lia. ring. }
    assert (X : forall n k, k = Z.of_nat n -> k < b_width b ->
       (f' (gcell m b k t) z - f' (gcell m b (k - 1)%Z t) z = f (gcell m b (-1)%Z t) z - f (gcell m b (-2)%Z t) z)%R).
    { induction n as [|n IH]; intros k -> Hk.
      - rewrite Sx by lia. rewrite (U (Z.of_nat 0 - 1)), (U (Z.of_nat 0 - 2)) by lia. change (Z.of_nat 0) with 0. change (0 - 1) with (-1). change (0 - 2) with (-2). ring.
      - rewrite Sx by lia. specialize (IH (Z.of_nat n) eq_refl ltac:(lia)).
        replace (Z.of_nat (S n) - 1) with (Z.of_nat n) by lia. replace (Z.of_nat (S n) - 2) with (Z.of_nat n - 1) by lia. lra. }
    intros k Hk. apply (X (Z.to_nat k)); lia.
Qed.

(* robin(a,b,g): a f + b df/dn-per-cell (outwards positive up, so + at upper sides, - at lower
   ones) = g between each guard cell and the next cell inwards; when b is taken for 0, f = g/a. *)
Theorem C31_robin : forall m b aval bval gval f fuel, fits m b 1 -> b_lo b <= b_hi b -> enough b fuel ->
  let sign := if is_upper (b_side b) then 1%R else (-1)%R in
  (bval <> 0%R ->
   exists f', apply_all m b fuel (robin m b aval bval gval false) f = Ok f' /\
    on_lines m b f f' (fun l l' p z => forall k, 0 <= k < b_width b ->
      (aval * l' (k - 1)%Z + bval * (sign * (l' k - l' (k - 1)%Z)) = gval)%R) /\
    only_changes m b 0 (b_width b) f f') /\
  exists f', apply_all m b fuel (robin m b aval bval gval true) f = Ok f' /\
    on_lines m b f f' (fun l l' p z => forall k, 0 <= k < b_width b -> l' k = (gval / aval)%R) /\
    only_changes m b 0 (b_width b) f f'.
Proof.
  intros m b aval bval gval f fuel F Hlh Hf sign.
  assert (HS : (if (bx (b_side b) <? 0) || (by_ (b_side b) <? 0) then (-1)%R else 1%R) = sign) by (unfold sign; destruct (b_side b); reflexivity).
  assert (H2 : (sign * sign = 1)%R) by (unfold sign; destruct (is_upper _); ring).
  split.
  - intros Hb.
    destruct (all_line m b 1 (robin m b aval bval gval false) (fun p z => (0, (sign * gval / bval)%R, [((1 - sign * aval / bval)%R, -1)])) f fuel) as (f' & E & L & O); auto; try lia.
    + intros p. unfold robin. rewrite HS. reflexivity.
    + intros p z j Hj. unfold lreads in Hj. inl Hj.
    + exists f'. split; [exact E|]. split; [|exact O]. intros t z Ht Hz k Hk.
      rewrite (L t z Ht Hz k Hk). unfold lval. cbn [fst snd fold_left]. change (k + -1) with (k - 1).
      set (u := f' (gcell m b (k - 1) t) z).
      replace (aval * u + bval * (sign * (sign * gval / bval + (1 - sign * aval / bval) * u - u)))%R
        with (aval * u + (sign * sign) * gval - (sign * sign) * aval * u)%R by (field; auto).
      rewrite H2. ring.
  - destruct (all_line m b 1 (robin m b aval bval gval true) (fun p z => (0, (gval / aval)%R, [])) f fuel) as (f' & E & L & O); auto; try lia.
    + intros p z j [].
    + exists f'. split; [exact E|]. split; [|exact O]. intros t z Ht Hz k Hk. rewrite (L t z Ht Hz k Hk). reflexivity.
Qed.

(* neumannpar: f/sqrt(g_22) is the same in every guard cell as in the last domain cell. *)
Theorem C31_neumannpar : forall m b g_22 f fuel, fits m b 1 -> b_lo b <= b_hi b -> enough b fuel ->
  (forall p z, (0 < g_22 p z)%R) ->
  exists f', apply_all m b fuel (neumann_par m b g_22) f = Ok f' /\
    (forall t z, b_lo b <= t <= b_hi b -> 0 <= z < LNz m -> forall k, -1 <= k < b_width b ->
      (f' (gcell m b k t) z / sqrt (g_22 (gcell m b k t) z)
       = f (gcell m b (-1) t) z / sqrt (g_22 (gcell m b (-1) t) z))%R) /\
    only_changes m b 0 (b_width b) f f'.
Proof.
  intros m b g_22 f fuel F Hlh Hf Hg.
  destruct (all_line m b 1 (neumann_par m b g_22) (fun p z => (0, 0%R, [(sqrt (g_22 p z / g_22 (off b p (-1)) z), -1)])) f fuel) as (f' & E & L & O); auto; try lia.
  - intros p z j Hj. unfold lreads in Hj. inl Hj.
  - exists f'. split; [exact E|]. split; [|exact O]. intros t z Ht Hz.
    assert (SP : forall k, (sqrt (g_22 (gcell m b k t) z) <> 0)%R).
    { intros k. apply Rgt_not_eq, sqrt_lt_R0, Hg. }
    assert (X : forall n k, k = Z.of_nat n - 1 -> k < b_width b ->
       (f' (gcell m b k t) z / sqrt (g_22 (gcell m b k t) z) = f (gcell m b (-1) t) z / sqrt (g_22 (gcell m b (-1) t) z))%R).
    { induction n as [|n IH]; intros k -> Hk.
      - change (Z.of_nat 0 - 1) with (-1). f_equal. apply O. intros [[k' [t' [Hk' [_ Ek]]]] _]. apply gcell_inj in Ek. lia.
      - rewrite (L t z Ht Hz (Z.of_nat (S n) - 1) ltac:(lia)). unfold lval. cbn [fst snd fold_left]. rewrite off_gcell.
        replace (Z.of_nat (S n) - 1 + -1) with (Z.of_nat n - 1) by lia. set (k := Z.of_nat (S n) - 1).
        rewrite <- (IH (Z.of_nat n - 1) eq_refl ltac:(lia)). rewrite sqrt_div by (try apply Rlt_le; apply Hg).
        field. split; apply SP. }
    intros k Hk. apply (X (Z.to_nat (k + 1))); lia.
Qed.

(* width(n, op): the operation acts on the n outermost guard cells. *)
Theorem C31_width : forall m b n p, 0 <= n ->
  (in_strip m (with_width b n) 0 n p <-> in_strip m b (b_width b - n) (b_width b) p).
Proof.
  intros m b n p Hn. unfold in_strip, with_width. cbn [b_lo b_hi b_width].
  split; intros (k & t & Hk & Ht & ->).
  - exists (k + (b_width b - n)), t. split; [lia|]. split; [lia|].
    unfold gcell. cbn [b_side b_width]. destruct (b_side b); f_equal; lia.
  - exists (k - (b_width b - n)), t. split; [lia|]. split; [lia|].
    unfold gcell. cbn [b_side b_width]. destruct (b_side b); f_equal; lia.
Qed.

(* relax(op, r): on the guard cells the time derivative is r times the change op would make to
   the field; elsewhere it is untouched. The other conditions set it to zero there. *)
Theorem C31_relax_ddt : forall m b rate op f g dt fuel, fits m b 0 -> b_lo b <= b_hi b -> enough b fuel ->
  op f = Ok g ->
  exists dt', relax_ddt m b rate fuel op f dt = Ok dt' /\ only_changes m b 0 (b_width b) dt dt' /\
    forall p z, in_strip m b 0 (b_width b) p -> 0 <= z < LNz m -> dt' p z = (rate * (g p z - f p z))%R.
Proof.
  intros m b rate op f g dt fuel F Hlh Hf Hop. unfold relax_ddt. rewrite Hop. cbn [bind].
  destruct (set_all m b 0 fuel (fun p z => rate * (g p z - f p z))%R dt F ltac:(lia) Hlh Hf) as (ps & E & O & V).
  rewrite E. eexists. split; [reflexivity|]. split; [exact O|exact V].
Qed.
Theorem C31_zero_ddt : forall m b dt fuel, fits m b 0 -> b_lo b <= b_hi b -> enough b fuel ->
  exists dt', zero_ddt m b fuel dt = Ok dt' /\ only_changes m b 0 (b_width b) dt dt' /\
    forall p z, in_strip m b 0 (b_width b) p -> 0 <= z < LNz m -> dt' p z = 0%R.
Proof.
  intros m b dt fuel F Hlh Hf. unfold zero_ddt.
  destruct (set_all m b 0 fuel (fun _ _ => 0%R) dt F ltac:(lia) Hlh Hf) as (ps & E & O & V).
  rewrite E. eexists. split; [reflexivity|]. split; [exact O|exact V].
Qed.

(* ---------- the hypotheses are met ---------- *)
Definition cmesh := mkL 12 10 4 2 9 2 7.
Definition cside := mk_region cmesh XOut 2 7.
Example C48_case : fits cmesh cside 4 /\ b_lo cside <= b_hi cside /\ enough cside 12 /\ 0 < b_width cside /\
  walk_all cmesh cside 12 = Some ([(10,2);(10,3);(10,4);(10,5);(10,6);(10,7);(11,2);(11,3);(11,4);(11,5);(11,6);(11,7)]) /\
  walk_out cmesh (mk_region cmesh YDown 3 5) 4 4 (first cmesh (mk_region cmesh YDown 3 5)) =
    Some [(3,1);(4,1);(5,1);(3,0);(4,0);(5,0)].
Proof. unfold fits, enough. cbn. repeat split; lia. Qed.
(* The hypotheses of C31 (mesh, region, fuel) and a case that separates a wrong value: with
   boundary value 5 and last domain cell 3, the first guard cell becomes 7. *)
Example C31_case : exists f', apply1d cmesh cside 12 (dirichlet cmesh false CENTRE cside (fun _ _ => 5%R)) (fun _ _ => 3%R) = Ok f' /\
  f' (10, 4) 1 = 7%R /\ f' (9, 4) 1 = 3%R /\ f' (11, 4) 1 = 5%R.
Proof. eexists. split; [vm_compute; reflexivity|]. repeat split; vm_compute; ring. Qed.
Example C31_neumannpar_case : forall p z, (0 < (fun (_ : pos) (_ : Z) => 4) p z)%R.
Proof. intros; lra. Qed.

Print Assumptions C48_all_guard_cells_once.
Print Assumptions C48_nested_loops.
Print Assumptions C48_innermost_cells.
Print Assumptions C48_construction.
Print Assumptions C31_dirichlet.
Print Assumptions C31_dirichlet_field2d.
Print Assumptions C31_dirichlet_o3.
Print Assumptions C31_dirichlet_o4.
Print Assumptions C31_dirichlet_4thorder_refuted.
Print Assumptions C31_4thorder_width1_out_of_bounds.
Print Assumptions C31_neumann.
Print Assumptions C31_neumann_o4.
Print Assumptions C31_neumann_4thorder_refuted.
Print Assumptions C31_free_o2.
Print Assumptions C31_free_o3.
Print Assumptions C31_constgradient.
Print Assumptions C31_robin.
Print Assumptions C31_neumannpar.
Print Assumptions C31_width.
Print Assumptions C31_relax_ddt.
Print Assumptions C31_zero_ddt.
