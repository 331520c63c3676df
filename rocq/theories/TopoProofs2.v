From Coq Require Import ZArith List Bool Lia.
From Verif Require Import Base MeshModel MeshSpec MeshProofs TopoModel TopoSpec TopoProofs.
Import ListNotations.
Open Scope Z_scope.

(** What happens at the upper (lower) edge of y-processor [p]. *)
Inductive link := NoLink | Cut | Link (q xlt : Z) (ts : bool).

(** Cuts in units of processors: the cut after j11 is below processor [cA], etc. *)
Record cuts := mkcuts { cA : Z; cB : Z; cN : Z; cC : Z; cD : Z; dn : bool; lo : Z; up : Z; ts1 : bool; ts2 : bool }.

Definition link_up (k : cuts) (p : Z) : link :=
  if p =? cD k - 1 then Link (cA k) (lo k) (ts1 k)
  else if p =? cA k - 1 then Link (cD k) (lo k) false
  else if dn k && (p =? cB k - 1) then Link (cC k) (up k) (ts2 k)
  else if dn k && (p =? cC k - 1) then Link (cB k) (up k) false
  else if dn k && (p =? cN k - 1) then Cut
  else NoLink.
Definition link_down (k : cuts) (p : Z) : link :=
  if p =? cA k then Link (cD k - 1) (lo k) (ts1 k)
  else if p =? cD k then Link (cA k - 1) (lo k) false
  else if dn k && (p =? cC k) then Link (cB k - 1) (up k) (ts2 k)
  else if dn k && (p =? cB k) then Link (cC k - 1) (up k) false
  else if dn k && (p =? cN k) then Cut
  else NoLink.

Record cuts_ok (Y : Z) (k : cuts) : Prop := {
  k_A : 0 <= cA k; k_AD : cA k < cD k; k_D : cD k <= Y;
  k_ends : cA k = 0 <-> cD k = Y;
  k_dn : dn k = true -> cA k < cB k /\ cB k < cN k /\ cN k < cC k /\ cC k < cD k
}.

(** Triple (XSPLIT, IN, OUT) resulting from a link. *)
Definition triple (m : mesh) (l : link) (dflt : Z) : Z * Z * Z :=
  match l with
  | NoLink => (0, -1, dflt)
  | Cut => (LocalNx m, -1, -1)
  | Link q xlt _ => let w := width m xlt in
      if 0 <? w then (w, q * NXPE m + PE_XIND m, if w =? LocalNx m then -1 else dflt) else (0, -1, dflt)
  end.
Definition link_ts (m : mesh) (l : link) : bool :=
  match l with Link _ xlt ts => (0 <? width m xlt) && ts | _ => false end.

Definition final_conn (m : mesh) (mype : Z) (k : cuts) (per : bool) : conn :=
  let c0 := default_connections m per in
  let c1 := sc m c0 (cD k - 1) (cA k) (lo k) (ts1 k) in
  let c2 := sc m c1 (cA k - 1) (cD k) (lo k) false in
  let c := if dn k then
     let c3 := sc m c2 (cB k - 1) (cC k) (up k) (ts2 k) in
     let c4 := sc m c3 (cC k - 1) (cB k) (up k) false in
     tg m c4 (cN k - 1)
   else c2 in
  let c := if D_XSPLIT c >? LocalNx m
           then set_down c (LocalNx m) (D_IN c) (D_OUT c) (TS_di c) (TS_do c) else c in
  if U_XSPLIT c >? LocalNx m
           then set_up c (LocalNx m) (U_IN c) (U_OUT c) (TS_ui c) (TS_uo c) else c.

Section Final.
Variables (npes mype : Z) (m : mesh).
Hypothesis DD : decomposed npes mype m.
Hypothesis HG : 0 <= MXG m.
Hypothesis HYG : 0 <= MYG m.
Hypothesis HS : 2 <= MYSUB m.
Variable k : cuts.
Hypothesis K : cuts_ok (NYPE m) k.
Variable per : bool.

Lemma width_le xlt : width m xlt <= LocalNx m.
Proof. unfold width. lia. Qed.

Ltac kill := 
  repeat match goal with
  | |- context [(PE_YIND m =? ?b)] => 
      first [ replace (PE_YIND m =? b) with true by (symmetry; apply Z.eqb_eq; lia)
            | replace (PE_YIND m =? b) with false by (symmetry; apply Z.eqb_neq; lia)
            | let E := fresh "E" in destruct (PE_YIND m =? b) eqn:E; [apply Z.eqb_eq in E|apply Z.eqb_neq in E]; cbn [andb orb] ]
  end.

Definition U3 c := (U_XSPLIT c, U_IN c, U_OUT c).
Definition D3 c := (D_XSPLIT c, D_IN c, D_OUT c).

Lemma sc_U3 c u d x ts : U3 (sc m c u d x ts) =
  if (PE_YIND m =? u) && (0 <? width m x) then (width m x, d * NXPE m + PE_XIND m, if width m x =? LocalNx m then -1 else U_OUT c)
  else U3 c.
Proof. unfold U3. destruct (sc_U m c u d x ts) as (-> & -> & -> & _). destruct ((PE_YIND m =? u) && (0 <? width m x)); reflexivity. Qed.
Lemma sc_D3 c u d x ts : D3 (sc m c u d x ts) =
  if (PE_YIND m =? d) && (0 <? width m x) then (width m x, u * NXPE m + PE_XIND m, if width m x =? LocalNx m then -1 else D_OUT c)
  else D3 c.
Proof. unfold D3. destruct (sc_D m c u d x ts) as (-> & -> & -> & _). destruct ((PE_YIND m =? d) && (0 <? width m x)); reflexivity. Qed.
Lemma tg_U3 c u : U3 (tg m c u) = if PE_YIND m =? u then (g_nx m - PE_XIND m * MXSUB m, -1, -1) else U3 c.
Proof. unfold U3. destruct (tg_U m c u) as (-> & -> & -> & _). destruct (PE_YIND m =? u); reflexivity. Qed.
Lemma tg_D3 c u : D3 (tg m c u) = if PE_YIND m =? u + 1 then (g_nx m - PE_XIND m * MXSUB m, -1, -1) else D3 c.
Proof. unfold D3. destruct (tg_D m c u) as (-> & -> & -> & _). destruct (PE_YIND m =? u + 1); reflexivity. Qed.

Definition clamp3 (t : Z * Z * Z) : Z * Z * Z := match t with (a, b, c) => (Z.min a (LocalNx m), b, c) end.

Lemma clamp_U c : U3 (if U_XSPLIT c >? LocalNx m
           then set_up c (LocalNx m) (U_IN c) (U_OUT c) (TS_ui c) (TS_uo c) else c) = clamp3 (U3 c).
Proof.
  unfold U3, clamp3. destruct (U_XSPLIT c >? LocalNx m) eqn:E; bz; cbn [set_up U_XSPLIT U_IN U_OUT]; f_equal; f_equal; lia.
Qed.
Lemma clamp_D c : D3 (if D_XSPLIT c >? LocalNx m
           then set_down c (LocalNx m) (D_IN c) (D_OUT c) (TS_di c) (TS_do c) else c) = clamp3 (D3 c).
Proof.
  unfold D3, clamp3. destruct (D_XSPLIT c >? LocalNx m) eqn:E; bz; cbn [set_down D_XSPLIT D_IN D_OUT]; f_equal; f_equal; lia.
Qed.
Lemma setdown_U3 c a b d e f : U3 (set_down c a b d e f) = U3 c.
Proof. reflexivity. Qed.
Lemma setup_D3 c a b d e f : D3 (set_up c a b d e f) = D3 c.
Proof. reflexivity. Qed.

Definition pre (k : cuts) : conn :=
  let c0 := default_connections m per in
  let c1 := sc m c0 (cD k - 1) (cA k) (lo k) (ts1 k) in
  let c2 := sc m c1 (cA k - 1) (cD k) (lo k) false in
  if dn k then
     let c3 := sc m c2 (cB k - 1) (cC k) (up k) (ts2 k) in
     let c4 := sc m c3 (cC k - 1) (cB k) (up k) false in
     tg m c4 (cN k - 1)
   else c2.

Lemma final_U3 : U3 (final_conn m mype k per) = clamp3 (U3 (pre k)).
Proof.
  unfold final_conn. fold (pre k). cbn zeta.
  rewrite clamp_U. destruct (D_XSPLIT (pre k) >? LocalNx m); reflexivity.
Qed.
Lemma final_D3 : D3 (final_conn m mype k per) = clamp3 (D3 (pre k)).
Proof.
  unfold final_conn. fold (pre k). cbn zeta.
  match goal with |- D3 (if ?b then _ else ?c) = _ => destruct b; [rewrite setup_D3|]; apply clamp_D end.
Qed.
Lemma final_TSu : TS_ui (final_conn m mype k per) = TS_ui (pre k) /\ TS_uo (final_conn m mype k per) = TS_uo (pre k)
  /\ TS_di (final_conn m mype k per) = TS_di (pre k) /\ TS_do (final_conn m mype k per) = TS_do (pre k)
  /\ I_DEST (final_conn m mype k per) = I_DEST (pre k) /\ O_DEST (final_conn m mype k per) = O_DEST (pre k).
Proof.
  unfold final_conn. fold (pre k). cbn zeta.
  match goal with |- context [if ?b then set_up ?x _ _ _ _ _ else _] => destruct b end;
  destruct (D_XSPLIT (pre k) >? LocalNx m); repeat split; reflexivity.
Qed.

Let dfu := PROC_NUM m (PE_XIND m) (PE_YIND m + 1).
Let dfd := PROC_NUM m (PE_XIND m) (PE_YIND m - 1).

Lemma U3_out c a b d : U3 c = (a, b, d) -> U_OUT c = d. Proof. intros H. now inversion H. Qed.
Lemma D3_out c a b d : D3 c = (a, b, d) -> D_OUT c = d. Proof. intros H. now inversion H. Qed.

(** Step lemmas: a hit on a side still at its default, and a miss. *)
Lemma U_hit c u d x ts : PE_YIND m = u -> U3 c = (0, -1, dfu) ->
  U3 (sc m c u d x ts) = triple m (Link d x ts) dfu.
Proof. intros E H. rewrite sc_U3. apply Z.eqb_eq in E. rewrite E. cbn [andb triple].
  rewrite (U3_out _ _ _ _ H). rewrite H. reflexivity. Qed.
Lemma U_miss c u d x ts : PE_YIND m <> u -> U3 (sc m c u d x ts) = U3 c.
Proof. intros E. rewrite sc_U3. apply Z.eqb_neq in E. rewrite E. reflexivity. Qed.
Lemma D_hit c u d x ts : PE_YIND m = d -> D3 c = (0, -1, dfd) ->
  D3 (sc m c u d x ts) = triple m (Link u x ts) dfd.
Proof. intros E H. rewrite sc_D3. apply Z.eqb_eq in E. rewrite E. cbn [andb triple].
  rewrite (D3_out _ _ _ _ H). rewrite H. reflexivity. Qed.
Lemma D_miss c u d x ts : PE_YIND m <> d -> D3 (sc m c u d x ts) = D3 c.
Proof. intros E. rewrite sc_D3. apply Z.eqb_neq in E. rewrite E. reflexivity. Qed.
Lemma T_miss c u : PE_YIND m <> u -> U3 (tg m c u) = U3 c.
Proof. intros E. rewrite tg_U3. apply Z.eqb_neq in E. rewrite E. reflexivity. Qed.
Lemma T_missD c u : PE_YIND m <> u + 1 -> D3 (tg m c u) = D3 c.
Proof. intros E. rewrite tg_D3. apply Z.eqb_neq in E. rewrite E. reflexivity. Qed.

Lemma clamp_triple l d : clamp3 (triple m l d) = triple m l d.
Proof.
  pose proof (d_lnx _ _ _ DD). pose proof (d_mxsub _ _ _ DD).
  destruct l; cbn [triple clamp3]; f_equal; f_equal; try lia.
  destruct (0 <? width m xlt); cbn [clamp3]; f_equal; f_equal; try lia. pose proof (width_le xlt). lia.
Qed.

Lemma U_def : U3 (default_connections m per) = (0, -1, dfu). Proof. reflexivity. Qed.
Lemma D_def : D3 (default_connections m per) = (0, -1, dfd). Proof. reflexivity. Qed.

Theorem final_up : U3 (final_conn m mype k per) = triple m (link_up k (PE_YIND m)) dfu.
Proof.
  rewrite final_U3. destruct K as [A AD Dy En Dn]. pose proof (d_py _ _ _ DD) as Hp.
  pose proof U_def as UD.
  unfold pre, link_up. cbn zeta.
  destruct (PE_YIND m =? cD k - 1) eqn:E1; bz.
  { rewrite <- clamp_triple. f_equal. destruct (dn k); [destruct (Dn eq_refl) as (?&?&?&?)|].
    - rewrite T_miss, !U_miss by lia. now apply U_hit.
    - rewrite U_miss by lia. now apply U_hit. }
  destruct (PE_YIND m =? cA k - 1) eqn:E2; bz.
  { rewrite <- clamp_triple. f_equal. destruct (dn k); [destruct (Dn eq_refl) as (?&?&?&?)|].
    - rewrite T_miss, !(U_miss (sc m _ _ _ _ _)) by lia. apply U_hit; [lia|]. now rewrite U_miss by lia.
    - apply U_hit; [lia|]. now rewrite U_miss by lia. }
  destruct (dn k) eqn:EN; cbn [andb].
  2:{ rewrite !U_miss by lia. rewrite UD. rewrite <- (clamp_triple NoLink). reflexivity. }
  destruct (Dn eq_refl) as (?&?&?&?).
  destruct (PE_YIND m =? cB k - 1) eqn:E3; bz.
  { rewrite <- clamp_triple. f_equal. rewrite T_miss, U_miss by lia. apply U_hit; [lia|]. now rewrite !U_miss by lia. }
  destruct (PE_YIND m =? cC k - 1) eqn:E4; bz.
  { rewrite <- clamp_triple. f_equal. rewrite T_miss by lia. apply U_hit; [lia|]. now rewrite !U_miss by lia. }
  destruct (PE_YIND m =? cN k - 1) eqn:E5; bz.
  { rewrite tg_U3. replace (PE_YIND m =? cN k - 1) with true by (symmetry; apply Z.eqb_eq; lia).
    cbn [clamp3 triple]. rewrite Z.min_r by exact (full_width npes mype m DD). reflexivity. }
  rewrite T_miss, !U_miss by lia. rewrite UD. rewrite <- (clamp_triple NoLink). reflexivity.
Qed.

Theorem final_down : D3 (final_conn m mype k per) = triple m (link_down k (PE_YIND m)) dfd.
Proof.
  rewrite final_D3. destruct K as [A AD Dy En Dn]. pose proof (d_py _ _ _ DD) as Hp.
  pose proof D_def as UD.
  unfold pre, link_down. cbn zeta.
  destruct (PE_YIND m =? cA k) eqn:E1; bz.
  { rewrite <- clamp_triple. f_equal. destruct (dn k); [destruct (Dn eq_refl) as (?&?&?&?)|].
    - rewrite T_missD, !D_miss by lia. now apply D_hit.
    - rewrite D_miss by lia. now apply D_hit. }
  destruct (PE_YIND m =? cD k) eqn:E2; bz.
  { rewrite <- clamp_triple. f_equal. destruct (dn k); [destruct (Dn eq_refl) as (?&?&?&?)|].
    - rewrite T_missD, !(D_miss (sc m _ _ _ _ _)) by lia. apply D_hit; [lia|]. now rewrite D_miss by lia.
    - apply D_hit; [lia|]. now rewrite D_miss by lia. }
  destruct (dn k) eqn:EN; cbn [andb].
  2:{ rewrite !D_miss by lia. rewrite UD. rewrite <- (clamp_triple NoLink). reflexivity. }
  destruct (Dn eq_refl) as (?&?&?&?).
  destruct (PE_YIND m =? cC k) eqn:E3; bz.
  { rewrite <- clamp_triple. f_equal. rewrite T_missD, D_miss by lia. apply D_hit; [lia|]. now rewrite !D_miss by lia. }
  destruct (PE_YIND m =? cB k) eqn:E4; bz.
  { rewrite <- clamp_triple. f_equal. rewrite T_missD by lia. apply D_hit; [lia|]. now rewrite !D_miss by lia. }
  destruct (PE_YIND m =? cN k) eqn:E5; bz.
  { rewrite tg_D3. replace (PE_YIND m =? cN k - 1 + 1) with true by (symmetry; apply Z.eqb_eq; lia).
    cbn [clamp3 triple]. rewrite Z.min_r by exact (full_width npes mype m DD). reflexivity. }
  rewrite T_missD, !D_miss by lia. rewrite UD. rewrite <- (clamp_triple NoLink). reflexivity.
Qed.

Lemma sc_TSu c u d x ts : TS_ui (sc m c u d x ts) = if (PE_YIND m =? u) && (0 <? width m x) then ts else TS_ui c.
Proof. apply (sc_U m c u d x ts). Qed.
Lemma sc_TSd c u d x ts : TS_di (sc m c u d x ts) = if (PE_YIND m =? d) && (0 <? width m x) then ts else TS_di c.
Proof. apply (sc_D m c u d x ts). Qed.
Lemma sc_TSo c u d x ts : TS_uo (sc m c u d x ts) = TS_uo c /\ TS_do (sc m c u d x ts) = TS_do c.
Proof. split; [apply (sc_U m c u d x ts)|apply (sc_D m c u d x ts)]. Qed.
Lemma tg_TS c u : TS_ui (tg m c u) = TS_ui c /\ TS_di (tg m c u) = TS_di c /\ TS_uo (tg m c u) = TS_uo c /\ TS_do (tg m c u) = TS_do c.
Proof. destruct (tg_U m c u) as (_&_&_&?&?). destruct (tg_D m c u) as (_&_&_&?&?). auto. Qed.

Theorem final_ts : TS_ui (final_conn m mype k per) = link_ts m (link_up k (PE_YIND m)) /\
  TS_di (final_conn m mype k per) = link_ts m (link_down k (PE_YIND m)) /\
  TS_uo (final_conn m mype k per) = false /\ TS_do (final_conn m mype k per) = false.
Proof.
  destruct final_TSu as (-> & -> & -> & -> & _). destruct K as [A AD Dy En Dn]. pose proof (d_py _ _ _ DD) as Hp.
  unfold pre, link_up, link_down. cbn zeta.
  destruct (dn k) eqn:EN; cbn [andb].
  - destruct (Dn eq_refl) as (?&?&?&?).
    repeat match goal with |- context [tg m ?c ?u] => destruct (tg_TS c u) as (-> & -> & -> & ->) end.
    rewrite !sc_TSu, !sc_TSd.
    repeat match goal with |- context [sc m ?c ?a ?b ?d ?e] => destruct (sc_TSo c a b d e) as (-> & ->) end.
    split; [|split; [|split; reflexivity]].
    + kill; try lia; cbn [link_ts andb]; try reflexivity;
      try (destruct (0 <? width m (lo k)); reflexivity); try (destruct (0 <? width m (up k)); reflexivity).
    + kill; try lia; cbn [link_ts andb]; try reflexivity;
      try (destruct (0 <? width m (lo k)); reflexivity); try (destruct (0 <? width m (up k)); reflexivity).
  - rewrite !sc_TSu, !sc_TSd.
    repeat match goal with |- context [sc m ?c ?a ?b ?d ?e] => destruct (sc_TSo c a b d e) as (-> & ->) end.
    split; [|split; [|split; reflexivity]].
    + kill; try lia; cbn [link_ts andb]; try reflexivity; destruct (0 <? width m (lo k)); reflexivity.
    + kill; try lia; cbn [link_ts andb]; try reflexivity; destruct (0 <? width m (lo k)); reflexivity.
Qed.

Lemma final_X : I_DEST (final_conn m mype k per) = I_DEST (default_connections m per) /\
                O_DEST (final_conn m mype k per) = O_DEST (default_connections m per).
Proof.
  destruct final_TSu as (_ & _ & _ & _ & -> & ->). unfold pre. cbn zeta.
  destruct (dn k); repeat match goal with
   | |- context [tg m ?c ?u] => destruct (tg_X m c u) as (-> & ->)
   | |- context [sc m ?c ?a ?b ?d ?e] => destruct (sc_X m c a b d e) as (-> & ->) end; split; reflexivity.
Qed.
End Final.

(** topology() computes exactly that. *)
Definition cuts_of (m : mesh) (ix1 ix2 : Z) : cuts :=
  let s := seps m in
  mkcuts ((j11 s + 1) / MYSUB m) ((j21 s + 1) / MYSUB m) (nyin s / MYSUB m) ((j12 s + 1) / MYSUB m) ((j22 s + 1) / MYSUB m)
         (is_double s) ix1 (x_upper s ix1 ix2) (if is_double s then ix1 <=? ix2 else true) (ix1 >? ix2).

Lemma cut_div M y : 0 < M -> (M | y + 1) -> y = (y + 1) / M * M - 1.
Proof.
  intros HM [q Hq]. rewrite Hq. rewrite Z.div_mul by lia. lia.
Qed.

Lemma cuts_of_ok npes mype m ix1 ix2 : decomposed npes mype m -> regular (g_ny m) (MYSUB m) (seps m) ->
  let k := cuts_of m ix1 ix2 in let s := seps m in let M := MYSUB m in
  cuts_ok (NYPE m) k /\ j11 s = cA k * M - 1 /\ j22 s = cD k * M - 1 /\
  (is_double s = true -> j21 s = cB k * M - 1 /\ j12 s = cC k * M - 1 /\ nyin s = cN k * M).
Proof.
  intros D R. cbn zeta. destruct R as [R1 R2 R3 R4]. pose proof (d_cuts _ _ _ D) as DC. pose proof (d_mysub _ _ _ D) as HM.
  pose proof (d_order _ _ _ D) as (O1 & O2 & O3 & O4 & O5). pose proof (d_y _ _ _ D) as DY.
  pose proof (cut_div _ _ HM (DC (j11 (seps m)) ltac:(left; reflexivity))) as E11.
  pose proof (cut_div _ _ HM (DC (j22 (seps m)) ltac:(right; left; reflexivity))) as E22.
  assert (DN : is_double (seps m) = true -> double_null (seps m)).
  { unfold is_double, double_null. intros E. bz. assumption. }
  assert (EDN : is_double (seps m) = true ->
     j21 (seps m) = (j21 (seps m) + 1) / MYSUB m * MYSUB m - 1 /\ j12 (seps m) = (j12 (seps m) + 1) / MYSUB m * MYSUB m - 1 /\
     nyin (seps m) = nyin (seps m) / MYSUB m * MYSUB m).
  { intros E. specialize (DN E). repeat split.
    - apply cut_div; auto. apply DC. right; right; auto.
    - apply cut_div; auto. apply DC. right; right; auto.
    - pose proof (cut_div _ _ HM (DC (nyin (seps m) - 1) ltac:(right; right; auto))) as Q.
      replace (nyin (seps m) - 1 + 1) with (nyin (seps m)) in Q by lia. lia. }
  unfold cuts_of. cbn [cA cB cC cD cN dn].
  split; [|split; [exact E11|split; [exact E22|exact EDN]]].
  set (a := (j11 (seps m) + 1) / MYSUB m) in *. set (d := (j22 (seps m) + 1) / MYSUB m) in *.
  set (b := (j21 (seps m) + 1) / MYSUB m) in *. set (c := (j12 (seps m) + 1) / MYSUB m) in *. set (n := nyin (seps m) / MYSUB m) in *.
  assert (MONO : forall p q, p * MYSUB m < q * MYSUB m -> p < q) by (intros p q L; apply (Zmult_lt_reg_r _ _ (MYSUB m)); lia).
  clearbody a b c d n.
  assert (J : j11 (seps m) < j22 (seps m)).
  { destruct (is_double (seps m)) eqn:E; [specialize (R4 (DN eq_refl)); lia|]. unfold is_double in E. bz. apply R3. lia. }
  constructor; cbn [cA cB cC cD cN dn].
  - nia.
  - apply MONO. lia.
  - assert (d < NYPE m + 1); [|lia]. apply MONO. nia.
  - split; intros Q.
    + assert (j22 (seps m) = g_ny m - 1) by (apply R2; nia). apply (Z.mul_reg_r _ _ (MYSUB m)); nia.
    + assert (j11 (seps m) = -1) by (apply R2; nia). apply (Z.mul_reg_r _ _ (MYSUB m)); nia.
  - intros E. destruct (EDN E) as (F1 & F2 & F3). specialize (R4 (DN E)).
    repeat split; apply MONO; lia.
Qed.

Lemma topology_final npes mype m ix1 ix2 per :
  decomposed npes mype m -> 0 <= MXG m -> 0 <= MYG m -> regular (g_ny m) (MYSUB m) (seps m) ->
  MYG m <= MYSUB m -> (NXPE m = 1 \/ MXG m <= MXSUB m) ->
  exists core, topology npes mype m ix1 ix2 per = Ok (final_conn m mype (cuts_of m ix1 ix2) per, core) /\
    (core = true <-> 0 < (if is_double (seps m) then Z.min ix1 ix2 else ix1) /\
       ((j11 (seps m) < PE_YIND m * MYSUB m /\ PE_YIND m * MYSUB m <= j21 (seps m)) \/
        (j12 (seps m) < PE_YIND m * MYSUB m /\ PE_YIND m * MYSUB m <= j22 (seps m)))).
Proof.
  intros D HG HYG R HGM HXM.
  destruct (cuts_of_ok npes mype m ix1 ix2 D R) as (K & EA & ED & EDN). cbn zeta in *.
  pose proof (r_mysub _ _ _ R) as HS.
  pose proof (d_npes _ _ _ D) as D1. pose proof (d_x _ _ _ D) as D2. pose proof (d_y _ _ _ D) as D3'. pose proof (d_my _ _ _ D) as D4. pose proof (d_mx _ _ _ D) as D5.
  pose proof (d_nxpe _ _ _ D) as D6.
  set (k := cuts_of m ix1 ix2) in *.
  unfold topology.
  replace (npes =? NXPE m * NYPE m) with true by (symmetry; apply Z.eqb_eq; lia).
  replace (MYSUB m * NYPE m =? MY m) with true by (symmetry; apply Z.eqb_eq; lia).
  replace (MXSUB m * NXPE m =? MX m) with true by (symmetry; apply Z.eqb_eq; lia).
  replace (MYSUB m <? MYG m) with false by (symmetry; apply Z.ltb_ge; lia).
  replace ((NXPE m >? 1) && (MXSUB m <? MXG m)) with false.
  2:{ symmetry. apply andb_false_iff. rewrite Z.gtb_ltb. destruct HXM; [left; apply Z.ltb_ge; lia|right; apply Z.ltb_ge; lia]. }
  cbn [negb].
  destruct K as [KA KAD KD KE KN].
  assert (C1 : forall c x t, set_connection m mype c (j11 (seps m) + 1) (j22 (seps m)) 0 x t = Ok (sc m c (cD k - 1) (cA k) x t)).
  { intros. apply (sc_general npes mype m D HG HS); [lia|lia|left; nia]. }
  assert (C2 : forall c x t, set_connection m mype c (j11 (seps m)) (j22 (seps m) + 1) 0 x t = Ok (sc m c (cA k - 1) (cD k) x t)).
  { intros. destruct (Z.eq_dec (cA k) 0) as [Z0|Z0].
    - rewrite (sc_skip npes mype m D) by (left; nia). f_equal. unfold sc.
      pose proof (d_py _ _ _ D). destruct (width m x <=? 0); [reflexivity|].
      replace (PE_YIND m =? cA k - 1) with false by (symmetry; apply Z.eqb_neq; lia).
      replace (PE_YIND m =? cD k) with false by (symmetry; apply Z.eqb_neq; lia). reflexivity.
    - apply (sc_general npes mype m D HG HS); [lia|lia|right; nia]. }
  destruct (j21 (seps m) =? j12 (seps m)) eqn:EN.
  - assert (E : is_double (seps m) = false) by (unfold is_double; rewrite EN; reflexivity).
    rewrite C1. cbn [bind]. rewrite C2. cbn [bind fst snd].
    eexists. split.
    + f_equal. f_equal. unfold final_conn. replace (dn k) with false by (unfold k, cuts_of; cbn [dn]; congruence).
      replace (lo k) with ix1 by reflexivity. replace (ts1 k) with true by (unfold k, cuts_of; cbn [ts1]; rewrite E; reflexivity). reflexivity.
    + rewrite E, !Z.gtb_ltb. rewrite andb_true_iff, orb_true_iff, !andb_true_iff, !Z.ltb_lt, !Z.leb_le. tauto.
  - assert (E : is_double (seps m) = true) by (unfold is_double; rewrite EN; reflexivity).
    destruct (EDN E) as (F1 & F2 & F3). assert (KN' : dn k = true) by exact E. destruct (KN KN') as (G1 & G2 & G3 & G4).
    rewrite cmod_nz by lia. cbn [bind].
    replace (Z.rem (nyin (seps m) - j21 (seps m) - 1) (MYSUB m) =? 0) with true.
    2:{ symmetry. apply Z.eqb_eq. apply rem0_divide; [lia|]. exists (cN k - cB k). lia. }
    cbn [negb]. rewrite cmod_nz by lia. cbn [bind].
    replace (Z.rem (j12 (seps m) - nyin (seps m) + 1) (MYSUB m) =? 0) with true.
    2:{ symmetry. apply Z.eqb_eq. apply rem0_divide; [lia|]. exists (cC k - cN k). lia. }
    cbn [negb].
    assert (LO : (if ix1 =? ix2 then ix1 else if ix1 <? ix2 then ix1 else ix1) = ix1) by (destruct (ix1 =? ix2); destruct (ix1 <? ix2); reflexivity).
    assert (UP : (if ix1 =? ix2 then ix1 else if ix1 <? ix2 then ix2 else ix2) = ix2) by (destruct (ix1 =? ix2) eqn:Q; destruct (ix1 <? ix2); bz; congruence || reflexivity).
    assert (IN : (if ix1 =? ix2 then ix1 else if ix1 <? ix2 then ix1 else ix2) = Z.min ix1 ix2) by (destruct (ix1 =? ix2) eqn:Q; destruct (ix1 <? ix2) eqn:Q2; bz; lia).
    rewrite LO, UP, IN.
    rewrite C1. cbn [bind]. rewrite C2. cbn [bind].
    rewrite (sc_general npes mype m D HG HS _ _ _ (cB k - 1) (cC k)) by (try lia; right; nia). cbn [bind].
    rewrite (sc_general npes mype m D HG HS _ _ _ (cC k - 1) (cB k)) by (try lia; left; nia). cbn [bind].
    replace (nyin (seps m) - 1) with ((cN k - 1) * MYSUB m + (MYSUB m - 1)) by nia.
    rewrite (tg_general npes mype m D HG HS) by lia. cbn [bind fst snd].
    eexists. split.
    + f_equal. f_equal. unfold final_conn. rewrite KN'.
      replace (lo k) with ix1 by reflexivity. replace (up k) with ix2 by (unfold k, cuts_of, x_upper; cbn [up]; rewrite E; reflexivity).
      replace (ts1 k) with (ix1 <=? ix2) by (unfold k, cuts_of; cbn [ts1]; rewrite E; reflexivity).
      replace (ts2 k) with (ix1 >? ix2) by reflexivity. reflexivity.
    + rewrite E, !Z.gtb_ltb. rewrite andb_true_iff, orb_true_iff, !andb_true_iff, !Z.ltb_lt, !Z.leb_le. tauto.
Qed.
