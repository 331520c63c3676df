From Coq Require Import ZArith List Bool Lia.
From Verif Require Import Base MeshModel MeshSpec MeshProofs MeshProps TopoModel TopoSpec TopoProofs TopoProofs2.
Import ListNotations.
Open Scope Z_scope.

Section Links.
Variables (Y : Z) (k : cuts).
Hypothesis K : cuts_ok Y k.

Ltac go := 
  repeat match goal with
  | H : context [(?a =? ?b)] |- _ => 
      first [ replace (a =? b) with true in H by (symmetry; apply Z.eqb_eq; lia)
            | replace (a =? b) with false in H by (symmetry; apply Z.eqb_neq; lia)
            | let E := fresh "E" in destruct (a =? b) eqn:E; [apply Z.eqb_eq in E|apply Z.eqb_neq in E]; cbn [andb] in * ]
  | |- context [(?a =? ?b)] => 
      first [ replace (a =? b) with true by (symmetry; apply Z.eqb_eq; lia)
            | replace (a =? b) with false by (symmetry; apply Z.eqb_neq; lia)
            | let E := fresh "E" in destruct (a =? b) eqn:E; [apply Z.eqb_eq in E|apply Z.eqb_neq in E]; cbn [andb] in * ]
  end.
Ltac st := destruct K as [A AD Dy En Dn]; unfold link_up, link_down in *; 
  destruct (dn k) eqn:EN; [destruct (Dn eq_refl) as (?&?&?&?)|clear Dn]; cbn [andb] in *.

Lemma link_up_down p q x t : 0 <= p < Y -> link_up k p = Link q x t -> 0 <= q < Y /\ link_down k q = Link p x t.
Proof.
  intros Hp H. st; go; inversion H; subst; (split; [lia|]); go; f_equal; lia.
Qed.
Lemma link_down_up p q x t : 0 <= p < Y -> link_down k p = Link q x t -> 0 <= q < Y /\ link_up k q = Link p x t.
Proof.
  intros Hp H. st; go; inversion H; subst; (split; [lia|]); go; f_equal; lia.
Qed.
Lemma link_next p : 0 <= p -> p + 1 < Y ->
  match link_up k p with
  | NoLink => link_down k (p + 1) = NoLink
  | Cut => link_down k (p + 1) = Cut
  | Link _ x _ => exists q t, link_down k (p + 1) = Link q x t
  end.
Proof.
  intros Hp Hp1. st; go; try reflexivity; try (eexists; eexists; reflexivity).
Qed.
Lemma link_prev p : 0 <= p -> p + 1 < Y ->
  match link_down k (p + 1) with
  | NoLink => link_up k p = NoLink
  | Cut => link_up k p = Cut
  | Link _ x _ => exists q t, link_up k p = Link q x t
  end.
Proof.
  intros Hp Hp1. st; go; try reflexivity; try (eexists; eexists; reflexivity).
Qed.
End Links.

Lemma topology_inv npes mype m ix1 ix2 per c : topology npes mype m ix1 ix2 per = Ok c ->
  MYG m <= MYSUB m /\ (NXPE m <= 1 \/ MXG m <= MXSUB m).
Proof.
  unfold topology. intros H.
  destruct (negb (npes =? NXPE m * NYPE m)); [discriminate|].
  destruct (negb (MYSUB m * NYPE m =? MY m)); [discriminate|].
  destruct (negb (MXSUB m * NXPE m =? MX m)); [discriminate|].
  destruct ((NXPE m >? 1) && (MXSUB m <? MXG m)) eqn:E; [discriminate|].
  destruct (MYSUB m <? MYG m) eqn:F; [discriminate|]. bz. split; [lia|].
  apply andb_false_iff in E. destruct E; bz; lia.
Qed.

(** Everything about one processor, in terms of links. *)
Lemma topo_facts npes mype m ix1 ix2 per c core :
  decomposed npes mype m -> 0 <= MXG m -> 0 <= MYG m -> regular (g_ny m) (MYSUB m) (seps m) ->
  topology npes mype m ix1 ix2 per = Ok (c, core) ->
  let k := cuts_of m ix1 ix2 in
  cuts_ok (NYPE m) k /\
  U3 c = triple m (link_up k (PE_YIND m)) (PROC_NUM m (PE_XIND m) (PE_YIND m + 1)) /\
  D3 c = triple m (link_down k (PE_YIND m)) (PROC_NUM m (PE_XIND m) (PE_YIND m - 1)) /\
  (TS_ui c = link_ts m (link_up k (PE_YIND m)) /\ TS_di c = link_ts m (link_down k (PE_YIND m)) /\ TS_uo c = false /\ TS_do c = false) /\
  (I_DEST c = I_DEST (default_connections m per) /\ O_DEST c = O_DEST (default_connections m per)) /\
  (core = true <-> 0 < (if is_double (seps m) then Z.min ix1 ix2 else ix1) /\
       ((j11 (seps m) < PE_YIND m * MYSUB m /\ PE_YIND m * MYSUB m <= j21 (seps m)) \/
        (j12 (seps m) < PE_YIND m * MYSUB m /\ PE_YIND m * MYSUB m <= j22 (seps m)))).
Proof.
  intros D HG HYG R T k.
  destruct (topology_inv _ _ _ _ _ _ _ T) as [T1 T2].
  pose proof (d_nxpe _ _ _ D).
  destruct (topology_final npes mype m ix1 ix2 per D HG HYG R T1 ltac:(lia)) as (core' & E & HC).
  rewrite T in E. injection E as -> <-.
  destruct (cuts_of_ok npes mype m ix1 ix2 D R) as (K & _). fold k in K.
  pose proof (r_mysub _ _ _ R) as HS.
  split; [exact K|]. split; [exact (final_up npes mype m D HG k K per)|]. split; [exact (final_down npes mype m D HG k K per)|].
  split; [exact (final_ts npes mype m D k K per)|]. split; [exact (final_X mype m k per)|]. exact HC.
Qed.

Definition dest_up (c : conn) (xl : Z) : Z := if xl <? U_XSPLIT c then U_IN c else U_OUT c.
Definition dest_down (c : conn) (xl : Z) : Z := if xl <? D_XSPLIT c then D_IN c else D_OUT c.

Lemma triple_dest m l d a b o xl : triple m l d = (a, b, o) -> 0 <= xl < LocalNx m ->
  (if xl <? a then b else o) =
  match l with
  | NoLink => d
  | Cut => -1
  | Link q x _ => if xl + PE_XIND m * MXSUB m <? x then q * NXPE m + PE_XIND m else d
  end.
Proof.
  intros H Hx. destruct l as [| |q x t]; cbn [triple] in H.
  - inversion H; subst. replace (xl <? 0) with false by (symmetry; apply Z.ltb_ge; lia). reflexivity.
  - inversion H; subst. destruct (xl <? LocalNx m); reflexivity.
  - destruct (0 <? width m x) eqn:E; inversion H; subst; bz.
    + unfold width in *. destruct (xl <? Z.min (x - PE_XIND m * MXSUB m) (LocalNx m)) eqn:F; bz.
      * replace (xl + PE_XIND m * MXSUB m <? x) with true by (symmetry; apply Z.ltb_lt; lia). reflexivity.
      * replace (xl + PE_XIND m * MXSUB m <? x) with false by (symmetry; apply Z.ltb_ge; lia).
        replace (Z.min (x - PE_XIND m * MXSUB m) (LocalNx m) =? LocalNx m) with false by (symmetry; apply Z.eqb_neq; lia). reflexivity.
    + replace (xl <? 0) with false by (symmetry; apply Z.ltb_ge; lia).
      unfold width in E. replace (xl + PE_XIND m * MXSUB m <? x) with false by (symmetry; apply Z.ltb_ge; lia). reflexivity.
Qed.

(** Relating links to the field line. *)
Lemma above_link npes mype m ix1 ix2 : decomposed npes mype m -> regular (g_ny m) (MYSUB m) (seps m) ->
  forall x p, 0 <= p < NYPE m ->
  above (g_ny m) (seps m) ix1 (x_upper (seps m) ix1 ix2) x (p * MYSUB m + MYSUB m - 1) =
  match link_up (cuts_of m ix1 ix2) p with
  | Cut => None
  | NoLink => if p =? NYPE m - 1 then None else Some ((p + 1) * MYSUB m)
  | Link q xlt _ => if x <? xlt then Some (q * MYSUB m) else if p =? NYPE m - 1 then None else Some ((p + 1) * MYSUB m)
  end.
Proof.
  intros D R x p Hp. destruct (cuts_of_ok npes mype m ix1 ix2 D R) as (K & EA & ED & EDN). cbn zeta in *.
  set (k := cuts_of m ix1 ix2) in *. pose proof (d_mysub _ _ _ D) as HM. pose proof (d_y _ _ _ D) as DY.
  assert (L : lo k = ix1) by reflexivity. assert (U : up k = x_upper (seps m) ix1 ix2) by reflexivity.
  assert (N : dn k = is_double (seps m)) by reflexivity.
  destruct K as [KA KAD KD KE KN].
  clearbody k. unfold above, link_up. rewrite L, U, N in *. rewrite ED, EA, DY.
  assert (EQ : forall q, (p * MYSUB m + MYSUB m - 1 =? q * MYSUB m - 1) = (p =? q - 1)).
  { intros q. destruct (p =? q - 1) eqn:E; bz; [apply Z.eqb_eq; nia|apply Z.eqb_neq; intros Q; apply E; nia]. }
  rewrite !EQ.
  destruct (is_double (seps m)) eqn:ED'; cbn [andb].
  - destruct (EDN eq_refl) as (F1 & F2 & F3). destruct (KN eq_refl) as (G1 & G2 & G3 & G4). rewrite F1, F2, F3. rewrite !EQ.
    destruct (p =? cD k - 1) eqn:E1; bz.
    { destruct (x <? ix1); cbn [andb]; [f_equal; lia|].
      beq. rewrite ?andb_false_r. destruct (p =? NYPE m - 1); [reflexivity|f_equal; lia]. }
    destruct (p =? cA k - 1) eqn:E2; bz.
    { destruct (x <? ix1); cbn [andb]; [f_equal; lia|].
      beq. rewrite ?andb_false_r. f_equal; lia. }
    rewrite !andb_false_r.
    destruct (p =? cB k - 1) eqn:E3; bz.
    { destruct (x <? x_upper (seps m) ix1 ix2); cbn [andb]; [f_equal; lia|].
      beq. rewrite ?andb_false_r. f_equal; lia. }
    destruct (p =? cC k - 1) eqn:E4; bz.
    { destruct (x <? x_upper (seps m) ix1 ix2); cbn [andb]; [f_equal; lia|].
      beq. rewrite ?andb_false_r. f_equal; lia. }
    rewrite !andb_false_r.
    destruct (p =? cN k - 1) eqn:E5; bz; [reflexivity|].
    destruct (p =? NYPE m - 1); [reflexivity|f_equal; lia].
  - destruct (p =? cD k - 1) eqn:E1; bz.
    { destruct (x <? ix1); cbn [andb]; [f_equal; lia|].
      beq. rewrite ?andb_false_r. destruct (p =? NYPE m - 1); [reflexivity|f_equal; lia]. }
    destruct (p =? cA k - 1) eqn:E2; bz.
    { destruct (x <? ix1); cbn [andb]; [f_equal; lia|].
      beq. rewrite ?andb_false_r. f_equal; lia. }
    rewrite !andb_false_r. destruct (p =? NYPE m - 1); [reflexivity|f_equal; lia].
Qed.

Lemma below_link npes mype m ix1 ix2 : decomposed npes mype m -> regular (g_ny m) (MYSUB m) (seps m) ->
  forall x p, 0 <= p < NYPE m ->
  below (g_ny m) (seps m) ix1 (x_upper (seps m) ix1 ix2) x (p * MYSUB m) =
  match link_down (cuts_of m ix1 ix2) p with
  | Cut => None
  | NoLink => if p =? 0 then None else Some (p * MYSUB m - 1)
  | Link q xlt _ => if x <? xlt then Some (q * MYSUB m + MYSUB m - 1) else if p =? 0 then None else Some (p * MYSUB m - 1)
  end.
Proof.
  intros D R x p Hp. destruct (cuts_of_ok npes mype m ix1 ix2 D R) as (K & EA & ED & EDN). cbn zeta in *.
  set (k := cuts_of m ix1 ix2) in *. pose proof (d_mysub _ _ _ D) as HM. pose proof (d_y _ _ _ D) as DY.
  assert (L : lo k = ix1) by reflexivity. assert (U : up k = x_upper (seps m) ix1 ix2) by reflexivity.
  assert (N : dn k = is_double (seps m)) by reflexivity.
  destruct K as [KA KAD KD KE KN].
  clearbody k. unfold below, link_down. rewrite L, U, N in *. rewrite ED, EA.
  assert (EQ : forall q, (p * MYSUB m =? q * MYSUB m - 1 + 1) = (p =? q)).
  { intros q. destruct (p =? q) eqn:E; bz; [apply Z.eqb_eq; nia|apply Z.eqb_neq; intros Q; apply E; nia]. }
  assert (EQ0 : (p * MYSUB m =? 0) = (p =? 0)).
  { destruct (p =? 0) eqn:E; bz; [apply Z.eqb_eq; nia|apply Z.eqb_neq; intros Q; apply E; nia]. }
  assert (EQN : forall q, (p * MYSUB m =? q * MYSUB m) = (p =? q)).
  { intros q. destruct (p =? q) eqn:E; bz; [apply Z.eqb_eq; nia|apply Z.eqb_neq; intros Q; apply E; nia]. }
  rewrite !EQ, EQ0.
  destruct (is_double (seps m)) eqn:ED'; cbn [andb].
  - destruct (EDN eq_refl) as (F1 & F2 & F3). destruct (KN eq_refl) as (G1 & G2 & G3 & G4). rewrite F1, F2, F3. rewrite !EQ, !EQN.
    destruct (p =? cA k) eqn:E1; bz.
    { destruct (x <? ix1); cbn [andb]; [f_equal; lia|].
      beq. rewrite ?andb_false_r. destruct (p =? 0); [reflexivity|f_equal; lia]. }
    destruct (p =? cD k) eqn:E2; bz.
    { destruct (x <? ix1); cbn [andb]; [f_equal; lia|].
      beq. rewrite ?andb_false_r. f_equal; lia. }
    rewrite !andb_false_r.
    destruct (p =? cC k) eqn:E3; bz.
    { destruct (x <? x_upper (seps m) ix1 ix2); cbn [andb]; [f_equal; lia|].
      beq. rewrite ?andb_false_r. f_equal; lia. }
    destruct (p =? cB k) eqn:E4; bz.
    { destruct (x <? x_upper (seps m) ix1 ix2); cbn [andb]; [f_equal; lia|].
      beq. rewrite ?andb_false_r. f_equal; lia. }
    rewrite !andb_false_r.
    destruct (p =? cN k) eqn:E5; bz; [reflexivity|].
    destruct (p =? 0); [reflexivity|f_equal; lia].
  - destruct (p =? cA k) eqn:E1; bz.
    { destruct (x <? ix1); cbn [andb]; [f_equal; lia|].
      beq. rewrite ?andb_false_r. destruct (p =? 0); [reflexivity|f_equal; lia]. }
    destruct (p =? cD k) eqn:E2; bz.
    { destruct (x <? ix1); cbn [andb]; [f_equal; lia|].
      beq. rewrite ?andb_false_r. f_equal; lia. }
    rewrite !andb_false_r. destruct (p =? 0); [reflexivity|f_equal; lia].
Qed.
