(** Property theorems C75 (fields from the grid file) and C76 (numbers and strings from the grid file). *)
From Coq Require Import ZArith Reals List Bool Lia Lra String.
From Verif Require Import Base StringsModel OptConvModel MeshModel RegionModel CommModel GridModel GridSpec GridProofs.
Import ListNotations.
Open Scope Z_scope.

(** ** C75. Every processor reads its part of a 2D or 3D variable, guard cells included, whether or not the file holds the y
    boundaries and with any value of CHECK. [nyf] is ny_inner in the file. *)
Theorem C75_field2d npes r nx ny mxg myg s s' user m nxp chk g nyf fft asreal nz D name def init n1 d :
  0 < ny -> 0 <= mxg -> 0 <= myg -> 0 <= r < npes -> 0 <= nz ->
  load_decomposition npes r nx ny mxg myg s user = Ok m -> setYDecompositionIndices ny s = Ok (s', nxp) ->
  (nxp = 2 -> g <> 0 -> nyf = nyin s') ->
  D name = Some (Arr2 nx n1 d, false) -> (g = 0 /\ n1 = ny \/ 0 < g /\ g = myg /\ n1 = GlobalNy m) ->
  exists f, getField chk m nxp g nyf fft asreal false nz D name def init = Ok (true, f) /\
    forall x y, 0 <= x < LocalNx m -> 0 <= y < LocalNy m ->
      cell m 1 f x y 0 = elem3 n1 1 d (getGlobalXIndex m x) (local_file_row m g nyf (nxp =? 2) y) 0.
Proof.
  intros Hny Hmxg Hmyg Hr Hz HM HY Hnyf HD Hg.
  destruct (getField_ok npes r nx ny mxg myg s s' user m nxp chk g nyf Hny Hmxg Hmyg Hr HM HY Hnyf fft asreal false nz D name def init (Arr2 nx n1 d) nx n1 1 d false) as (f & E & H); auto; [discriminate|].
  exists f. split; [exact E|]. intros x y Hx Hy. apply H; lia.
Qed.
Theorem C75_field3d npes r nx ny mxg myg s s' user m nxp chk g nyf fft asreal nz D name def init n1 d :
  0 < ny -> 0 <= mxg -> 0 <= myg -> 0 <= r < npes -> 0 <= nz ->
  load_decomposition npes r nx ny mxg myg s user = Ok m -> setYDecompositionIndices ny s = Ok (s', nxp) ->
  (nxp = 2 -> g <> 0 -> nyf = nyin s') -> hasVar D "nz" = true ->
  D name = Some (Arr3 nx n1 nz d, false) -> (g = 0 /\ n1 = ny \/ 0 < g /\ g = myg /\ n1 = GlobalNy m) ->
  exists f, getField chk m nxp g nyf fft asreal true nz D name def init = Ok (true, f) /\
    forall x y z, 0 <= x < LocalNx m -> 0 <= y < LocalNy m -> 0 <= z < nz ->
      cell m nz f x y z = elem3 n1 nz d (getGlobalXIndex m x) (local_file_row m g nyf (nxp =? 2) y) z.
Proof.
  intros Hny Hmxg Hmyg Hr Hz HM HY Hnyf HV HD Hg.
  exact (getField_ok npes r nx ny mxg myg s s' user m nxp chk g nyf Hny Hmxg Hmyg Hr HM HY Hnyf fft asreal true nz D name def init (Arr3 nx n1 nz d) nx n1 nz d false Hz (fun _ => HV) HD eq_refl eq_refl eq_refl eq_refl Hg).
Qed.
(** The guard cells of a processor at a target hold the boundary rows of that target: with [g] boundary rows in the file these
    are rows 0..g-1 at the lower end, the last [g] at the upper end, and in the middle the [g] rows after the first
    [ny_inner + g] and the [g] rows after these. *)
Theorem C75_target_rows m g nyf (two : bool) k : 0 < g -> g = MYG m -> ystart m = MYG m -> 0 <= k < g ->
  let first := getGlobalYIndexNoBoundaries m (ystart m) in let last := getGlobalYIndexNoBoundaries m (yend m) in
  let row := local_file_row m g nyf two in ystart m <= yend m ->
  (first = 0 -> (two = true -> 0 < nyf) -> row k = k) /\
  (two = true -> first = nyf -> row k = nyf + 2 * g + k) /\
  (two = true -> last = nyf - 1 -> row (yend m + 1 + k) = nyf + g + k) /\
  (forall ny, last = ny - 1 -> (two = true -> nyf < ny) -> row (yend m + 1 + k) = ny + g + k + (if two then 2 * g else 0)).
Proof.
  intros Hg -> HY Hk. cbv zeta. intros Hye. unfold local_file_row, file_row. replace (MYG m =? 0) with false by (symmetry; apply Z.eqb_neq; lia).
  replace (k <? ystart m) with true by (symmetry; apply Z.ltb_lt; lia).
  replace (yend m + 1 + k <? ystart m) with false by (symmetry; apply Z.ltb_ge; lia). replace (yend m + 1 + k <=? yend m) with false by (symmetry; apply Z.leb_gt; lia).
  split; [|split; [|split]].
  - intros E N. rewrite E. destruct two; cbn [andb]; [|lia]. replace (nyf <=? 0) with false by (symmetry; apply Z.leb_gt; auto). lia.
  - intros -> E. rewrite E. cbn [andb]. rewrite Z.leb_refl. lia.
  - intros -> E. rewrite E. cbn [andb]. replace (nyf <=? nyf - 1) with false by (symmetry; apply Z.leb_gt; lia). lia.
  - intros ny E N. rewrite E. destruct two; cbn [andb]; [|lia]. specialize (N eq_refl). replace (nyf <=? ny - 1) with true by (symmetry; apply Z.leb_le; lia). lia.
Qed.
(** What is not an array of the right number of dimensions. *)
Theorem C75_other chk m nxp g nyf fft asreal k3 nz D name def init :
  (isSet D name = false -> getField chk m nxp g nyf fft asreal k3 nz D name def init = Ok (false, fun _ => def)) /\
  (forall v r, D name = Some (Scalar v, false) -> asreal v = Ok r -> getField chk m nxp g nyf fft asreal k3 nz D name def init = Ok (true, fun _ => r)) /\
  (forall n d, D name = Some (Arr1 n d, false) -> getField chk m nxp g nyf fft asreal k3 nz D name def init = Throw) /\
  (forall n0 n1 n2 d, D name = Some (Arr3 n0 n1 n2 d, false) -> k3 = false -> getField chk m nxp g nyf fft asreal k3 nz D name def init = Ok (false, fun _ => def)).
Proof.
  unfold getField. split; [|split; [|split]].
  - intros ->. reflexivity.
  - intros v r H E. unfold isSet. rewrite H. cbn [negb]. rewrite E. reflexivity.
  - intros n d H. unfold isSet. rewrite H. reflexivity.
  - intros n0 n1 n2 d H ->. unfold isSet. rewrite H. reflexivity.
Qed.

(** A small double null grid: 4 points in x with one guard cell on each side, 24 in y, on six processors. *)
Definition seps_dn : yseps := mkyseps 3 7 15 19 12.
Definition mesh_dn (r : Z) : res mesh := load_decomposition 6 r 4 24 1 1 seps_dn (Some (inr 6)).
Definition one_var (e : entry) : store := fun n => if String.eqb n "f" then Some (e, false) else if String.eqb n "nz" then Some (Scalar (OI 4), false) else None.
Definition as_number (v : oval) : res R := match v with OI n => Ok (IZR n) | OR r => Ok r | _ => Throw end.
Definition no_fft : entry -> Z -> Z -> Z -> Z -> Z -> Z -> (Z -> R) -> res (Z -> R) := fun _ _ _ _ _ _ _ _ => Throw.
Definition read_dn (chk r g nyf : Z) (k3 : bool) (e : entry) : res (bool * (Z -> R)) :=
  do m <- mesh_dn r; getField chk m 2 g nyf no_fft as_number k3 4 (one_var e) "f" 0%R (fun _ => 0%R).
Definition outcome {A} (r : res A) : Z := match r with Ok _ => 0 | Throw => 1 | UB => 2 end.
(** A variable without the x boundaries (meant to be supported, 262-267) is an error with CHECK > 0 and otherwise written
    outside of the field; one with more x guard cells than MXG (meant to be supported: the message at 271) is written outside
    of the field even with CHECK = 1, 2. *)
Theorem C75_xguards_refuted : forall d, outcome (read_dn 1 0 0 12 false (Arr2 2 24 d)) = 1 /\ outcome (read_dn 0 0 0 12 false (Arr2 2 24 d)) = 2 /\
  outcome (read_dn 2 0 0 12 false (Arr2 6 24 d)) = 2.
Proof. intros d. split; [|split]; vm_compute; reflexivity. Qed.
(** More boundary rows than MYG (the message at 290): an error, or written outside of the field with CHECK = 0. *)
Theorem C75_yguards_refuted : forall d, outcome (read_dn 1 0 2 12 false (Arr2 4 32 d)) = 1 /\ outcome (read_dn 0 0 2 12 false (Arr2 4 32 d)) = 2.
Proof. intros d. split; vm_compute; reflexivity. Qed.
(** Without ny_inner in the file (the mesh then has a default of its own) GridFile assumes 0, and the processors below the
    upper targets read rows that are not theirs. *)
Theorem C75_ny_inner_refuted : exists m f, mesh_dn 0 = Ok m /\ read_dn 2 0 1 0 false (Arr2 4 28 IZR) = Ok (true, f) /\
  cell m 1 f 1 1 0 <> elem3 28 1 IZR (getGlobalXIndex m 1) (local_file_row m 1 (nyin (seps m)) true 1) 0.
Proof.
  unfold read_dn. destruct (mesh_dn 0) as [m| |] eqn:E; [|vm_compute in E; discriminate|vm_compute in E; discriminate]. cbn [bind].
  vm_compute in E. injection E as E. subst m. eexists. eexists. split; [reflexivity|]. split; [vm_compute; reflexivity|]. vm_compute. lra.
Qed.
(** A 2D variable for a Field3D (said to be read, 122-127) reads beyond the vector of sizes. *)
Theorem C75_2d_for_3d_refuted : forall d chk, outcome (read_dn chk 0 0 12 true (Arr2 4 24 d)) = 2.
Proof.
  intros d chk. unfold read_dn. destruct (mesh_dn 0) as [m| |] eqn:E; [|vm_compute in E; discriminate|vm_compute in E; discriminate]. cbn [bind].
  vm_compute in E. injection E as E. subst m. unfold getField, isSet, one_var. cbn [String.eqb Ascii.eqb Bool.eqb negb LocalNx LocalNy xend xstart yend ystart OffsetX OffsetY GlobalNx GlobalNy].
  assert (AT : assert1 chk true = Ok tt) by (unfold assert1; cbn [negb]; rewrite andb_false_r; reflexivity).
  cbv beta iota zeta delta [Z.quot Z.rem Z.eqb Z.sub Z.add Z.opp Z.pos_sub]. 
  repeat (match goal with |- context [assert1 chk ?b] => replace (assert1 chk b) with (Ok tt) by (symmetry; replace b with true by (vm_compute; reflexivity); exact AT) end; cbn [bind]).
  reflexivity.
Qed.
Print Assumptions C75_field2d.
Print Assumptions C75_field3d.
Print Assumptions C75_target_rows.
Print Assumptions C75_other.
Print Assumptions C75_xguards_refuted.
Print Assumptions C75_yguards_refuted.
Print Assumptions C75_ny_inner_refuted.
Print Assumptions C75_2d_for_3d_refuted.
(** Non-vacuity: the fourth processor (points 12..15, just above the upper targets) of the grid with its boundary rows in the
    file: local row 0 is a boundary row of the target. *)
Example C75_case : exists m f, mesh_dn 3 = Ok m /\ setYDecompositionIndices 24 seps_dn = Ok (seps m, 2) /\ GlobalNy m = 28 /\
  read_dn 3 3 1 12 false (Arr2 4 28 IZR) = Ok (true, f) /\
  map (fun y => local_file_row m 1 12 true y) [0; 1; 4; 5] = [14; 15; 18; 19] /\ f 6 = 42%R.
Proof.
  unfold read_dn. destruct (mesh_dn 3) as [m| |] eqn:E; [|vm_compute in E; discriminate|vm_compute in E; discriminate]. cbn [bind].
  vm_compute in E. injection E as E. subst m. eexists. eexists. split; [reflexivity|]. repeat (split; [vm_compute; reflexivity|]). vm_compute. reflexivity.
Qed.

(** ** C76. Numbers and strings: what is in the file is found, always the same, and asking changes nothing; what is not in the file gives the
    default and a failure. *)
Section C76.
Variable rtext : R -> str.
Variable L : ExprModel.lang.
Variable power : R -> R -> R.
Variable named : str -> list (ExprEvalModel.ctx -> res R) -> ExprEvalModel.ctx -> res R.
Variable resolved : str -> ExprEvalModel.ctx -> res R.
Notation gi := (get_int L power named resolved).
Notation gr := (get_real L power named resolved).
Notation gs := (get_string rtext).
(** A request for a number or a string. *)
Inductive request := RI (name : string) (def : Z) | RR (name : string) (def : R) | RS (name : string) (def : str).
Definition asked (q : request) : string := match q with RI n _ | RR n _ | RS n _ => n end.
(** The tree after some requests, none of which failed. *)
Inductive after (D : store) : list request -> store -> Prop :=
| af_nil : after D [] D
| af_int l n d D1 v b D2 : after D l D1 -> gi D1 n d = Ok (v, b, D2) -> after D (l ++ [RI n d]) D2
| af_real l n d D1 v b D2 : after D l D1 -> gr D1 n d = Ok (v, b, D2) -> after D (l ++ [RR n d]) D2
| af_str l n d D1 v b D2 : after D l D1 -> gs D1 n d = Ok (v, b, D2) -> after D (l ++ [RS n d]) D2.
Lemma get_store A (conv : oval -> res A) D n (e : entry) (fl : bool) v b D2 :
  (let success := isSet D n in let D' := if success then D else force D n e fl in do v <- as_scalar conv D' n; Ok (v, success, D')) = Ok (v, b, D2) ->
  b = isSet D n /\ D2 = if isSet D n then D else force D n e fl.
Proof.
  cbv zeta. intros H. destruct (as_scalar conv _ n); [|discriminate|discriminate]. cbn [bind] in H. injection H as _ <- <-. auto.
Qed.
(** Whatever was asked before, what is in the file stays. *)
Lemma after_keeps D l D2 n e : after D l D2 -> D n = Some (e, false) -> D2 n = Some (e, false).
Proof.
  induction 1 as [|l q d D1 v b D2 _ IH E|l q d D1 v b D2 _ IH E|l q d D1 v b D2 _ IH E]; intros H; [exact H| | |];
    specialize (IH H); apply get_store in E; destruct E as [_ ->]; destruct (isSet D1 q) eqn:S; try exact IH;
    unfold force; destruct (String.eqb_spec n q) as [->|]; auto; unfold isSet in S; rewrite IH in S; discriminate.
Qed.
Lemma after_other D l D2 n : after D l D2 -> ~ In n (map asked l) -> D2 n = D n.
Proof.
  induction 1 as [|l q d D1 v b D2 _ IH E|l q d D1 v b D2 _ IH E|l q d D1 v b D2 _ IH E]; intros H; [reflexivity| | |];
    rewrite map_app, in_app_iff in H; cbn [map asked In] in H; rewrite <- IH by tauto; apply get_store in E; destruct E as [_ ->];
    destruct (isSet D1 q); auto; unfold force; destruct (String.eqb_spec n q) as [->|]; auto; tauto.
Qed.
Theorem C76_present D l D2 n v : after D l D2 -> D n = Some (Scalar v, false) ->
  (forall def, gi D2 n def = (do i <- as_int L power named resolved v; Ok (i, true, D2))) /\
  (forall def, gr D2 n def = (do x <- as_real L power named resolved v; Ok (x, true, D2))) /\
  (forall def, gs D2 n def = (do x <- as_string rtext v; Ok (x, true, D2))).
Proof.
  intros HA HD. pose proof (after_keeps _ _ _ _ _ HA HD) as H. unfold get_int, get_real, get_string, isSet, as_scalar. rewrite H. cbn [negb]. rewrite H. auto.
Qed.
Theorem C76_missing_partial D l D2 n : after D l D2 -> D n = None -> ~ In n (map asked l) ->
  (forall def, exists D3, gi D2 n def = Ok (def, false, D3)) /\ (forall def, exists D3, gr D2 n def = Ok (def, false, D3)) /\
  (forall def, exists D3, gs D2 n def = Ok (def, false, D3)).
Proof.
  intros HA HD HN. pose proof (after_other _ _ _ _ HA HN) as H. rewrite HD in H. unfold get_int, get_real, get_string, isSet, as_scalar, force. rewrite H. cbn [negb].
  rewrite String.eqb_refl. cbn. eauto 10.
Qed.
(** Strings: also when they were asked for before. *)
Theorem C76_missing_string D n d1 d2 D1 v b : D n = None -> gs D n d1 = Ok (v, b, D1) -> exists D2, gs D1 n d2 = Ok (d2, false, D2).
Proof.
  intros HD E. apply get_store in E. destruct E as [_ ->]. unfold isSet at 1. rewrite HD. unfold get_string, isSet, as_scalar, force. rewrite String.eqb_refl. cbn [negb]. rewrite String.eqb_refl. cbn. eauto.
Qed.
(** Numbers: asked for a second time, the first default is found as if it were in the file. *)
Theorem C76_missing_refuted D n d1 d2 : D n = None -> d1 <> d2 -> exists D1 D2,
  gi D n d1 = Ok (d1, false, D1) /\ gi D1 n d2 = Ok (d1, true, D2).
Proof.
  intros HD N. unfold get_int at 1, isSet, as_scalar. rewrite HD. unfold force at 1. rewrite String.eqb_refl. cbn. eexists. eexists. split; [reflexivity|].
  unfold get_int, isSet, as_scalar, force. rewrite !String.eqb_refl. cbn [negb]. rewrite !String.eqb_refl. cbn. reflexivity.
Qed.
(** So after BoutMesh::load has asked for nz (boutmesh.cxx:421), every file has nz, and a 3D variable in FFT format cannot be read. *)
Theorem C76_fft_refuted D def D1 v b chk m nxp g nyf fft asreal nz name n0 n1 n2 d df init : gi D "nz" def = Ok (v, b, D1) ->
  D1 name = Some (Arr3 n0 n1 n2 d, false) -> n2 <> nz ->
  is_ok (getField chk m nxp g nyf fft asreal true nz D1 name df init) = false.
Proof.
  intros E H N. assert (HV : hasVar D1 "nz" = true).
  { apply get_store in E. destruct E as [_ ->]. unfold hasVar. destruct (isSet D "nz") eqn:S; [exact S|]. unfold isSet, force. now rewrite String.eqb_refl. }
  unfold getField, isSet. rewrite H. cbn [negb andb]. cbv zeta.
  repeat (match goal with |- is_ok (bind ?a _) = _ => destruct a; cbn [bind]; [|reflexivity|reflexivity] end;
    match goal with |- context [readField] => idtac | _ => fail 1 end).
  all: unfold readField; cbn [negb]; rewrite HV; replace (n2 =? nz) with false by (symmetry; apply Z.eqb_neq; exact N); reflexivity.
Qed.
End C76.
(** Vectors: the part that is asked for. *)
Theorem C76_vector D name len offset n d : 0 <= len -> D name = Some (Arr1 n d, false) -> 0 <= offset -> offset + len <= n ->
  exists l, get_vector D name len offset = Ok (Some l) /\ Z.of_nat (List.length l) = len /\ forall i, 0 <= i < len -> nth (Z.to_nat i) l 0%R = d (offset + i).
Proof.
  intros Hl HD Ho Hn. unfold get_vector, isSet. rewrite HD. cbn [negb].
  replace ((0 <=? offset) && (offset + len <=? n)) with true by (symmetry; rewrite andb_true_iff, !Z.leb_le; lia).
  eexists. split; [reflexivity|]. split.
  - rewrite map_length, CommProofs.zrange_len. lia.
  - intros i Hi. rewrite (nth_indep _ 0%R (d 0)) by (rewrite map_length, CommProofs.zrange_len; lia). rewrite map_nth. f_equal.
    unfold zrange. replace (Z.to_nat (offset + len - offset)) with (Z.to_nat len) by lia.
    assert (G : forall k a i, (i < k)%nat -> nth i (zrange_from a k) 0 = a + Z.of_nat i).
    { induction k as [|k IH]; intros a [|j] Hj; try lia; cbn [zrange_from nth]; [lia|]. rewrite IH by lia. lia. }
    rewrite G by lia. lia.
Qed.
Theorem C76_vector_missing D name len offset : D name = None -> get_vector D name len offset = Ok None.
Proof. intros H. unfold get_vector, isSet. now rewrite H. Qed.
Print Assumptions C76_present.
Print Assumptions C76_missing_partial.
Print Assumptions C76_missing_string.
Print Assumptions C76_missing_refuted.
Print Assumptions C76_fft_refuted.
Print Assumptions C76_vector.
Print Assumptions C76_vector_missing.
(** Non-vacuity. *)
Example C76_case L power named resolved : let D := one_var (Scalar (OI 7)) in
  exists D2, after (fun _ => []) L power named resolved D [RI "nx" 3; RI "f" 1] D2 /\ D "f"%string = Some (Scalar (OI 7), false) /\ D "g"%string = None /\ ~ In "g"%string (map asked [RI "nx" 3; RI "f" 1]).
Proof.
  cbv zeta. eexists. split; [|split; [reflexivity|split; [reflexivity|cbn; intuition discriminate]]].
  eapply (af_int _ _ _ _ _ _ [RI "nx" 3]); [eapply (af_int _ _ _ _ _ _ []); [constructor|reflexivity]|reflexivity].
Qed.
