From Coq Require Import ZArith List Bool String Lia Permutation Sorting.
From Verif Require Import Base MeshModel MeshSpec MeshProofs TopoModel TopoSpec TopoProofs4 TopoProps CommProofs3
  RegionModel RegionSpec RegionProofs BndryModel BndrySpec BoundsModel BoundsSpec.
Import ListNotations.
Open Scope Z_scope.

Ltac bool2 := repeat match goal with
  | |- context [?a <? ?b] => destruct (Z.ltb_spec a b)
  | |- context [?a >? ?b] => rewrite (Z.gtb_ltb a b)
  | |- context [?a >=? ?b] => rewrite (Z.geb_leb a b)
  | |- context [?a <=? ?b] => destruct (Z.leb_spec a b)
  | |- context [?a =? ?b] => destruct (Z.eqb_spec a b)
  end; cbn [andb orb negb fst snd].

Lemma y_limits_spec m din dout split : 0 <= xstart m -> xend m < LocalNx m ->
  let l := y_limits m din dout split in
  xstart m <= fst l /\ snd l <= xend m /\
  forall x, (fst l <= x <= snd l <-> inx m x /\ (if x <? split then din < 0 else dout < 0)).
Proof.
  intros H0 H1 l. unfold l, y_limits, inx. rewrite !Z.gtb_ltb, Z.geb_leb, Z.geb_leb.
  destruct (Z.leb_spec 0 din); destruct (Z.leb_spec 0 dout); destruct (Z.ltb_spec (xstart m) split); destruct (Z.ltb_spec split (xend m + 1));
    cbn [andb fst snd];
    repeat match goal with |- context [?a <? ?b] => lazymatch b with split => fail | _ => destruct (Z.ltb_spec a b) end end;
    (split; [lia|]; split; [lia|]); intros x; destruct (Z.ltb_spec x split); lia.
Qed.

Lemma corner_limits_spec m cc xs xe (P : Z -> Prop) : 0 <= xstart m -> xend m < LocalNx m ->
  xstart m <= xs -> xe <= xend m -> (forall x, xs <= x <= xe <-> inx m x /\ P x) ->
  let l := corner_limits m cc (xs, xe) in
  forall x, fst l <= x <= snd l <-> target_columns m cc P x.
Proof.
  intros H0 H1 Hs He HP l x.
  assert (T : target_columns m cc P x <->
     (xs <= x <= xe) \/ (cc = true /\ PE_XIND m = 0 /\ 0 <= x < xstart m /\ xs <= xstart m /\ xstart m + 1 <= xe) \/
     (cc = true /\ PE_XIND m = NXPE m - 1 /\ xend m < x < LocalNx m /\ xs <= xend m - 1 /\ xend m <= xe)).
  { unfold target_columns.
    pose proof (HP (xstart m)) as A1. pose proof (HP (xstart m + 1)) as A2. pose proof (HP (xend m)) as A3. pose proof (HP (xend m - 1)) as A4.
    pose proof (HP x) as A5. rewrite <- A5.
    assert (B1 : inx m (xstart m + 1) /\ P (xstart m) /\ P (xstart m + 1) <-> xs <= xstart m /\ xstart m + 1 <= xe).
    { split.
      - intros (Q1 & Q2 & Q3). assert (inx m (xstart m)) by (unfold inx in *; lia). apply (conj H) in Q2. apply (conj Q1) in Q3. rewrite <- A1 in Q2. rewrite <- A2 in Q3. lia.
      - intros Q. destruct (proj1 A1 ltac:(lia)). destruct (proj1 A2 ltac:(lia)). tauto. }
    assert (B2 : inx m (xend m - 1) /\ P (xend m) /\ P (xend m - 1) <-> xs <= xend m - 1 /\ xend m <= xe).
    { split.
      - intros (Q1 & Q2 & Q3). assert (inx m (xend m)) by (unfold inx in *; lia). apply (conj H) in Q2. apply (conj Q1) in Q3. rewrite <- A3 in Q2. rewrite <- A4 in Q3. lia.
      - intros Q. destruct (proj1 A3 ltac:(lia)). destruct (proj1 A4 ltac:(lia)). tauto. }
    rewrite B1, B2. reflexivity. }
  rewrite T. clear T HP. unfold l, corner_limits, firstX, lastX. rewrite !Z.gtb_ltb.
  destruct cc; cbn [andb].
  2:{ cbn [fst snd]. split; [tauto|]. intros [H|[[H _]|[H _]]]; [exact H|discriminate H|discriminate H]. }
  destruct (Z.eqb_spec (PE_XIND m) 0) as [F|F]; destruct (Z.eqb_spec (PE_XIND m) (NXPE m - 1)) as [G|G]; cbn [andb];
  destruct (Z.eqb_spec xs (xstart m)) as [E1|E1]; destruct (Z.ltb_spec (xstart m) xe) as [E2|E2]; cbn [andb];
    destruct (Z.eqb_spec xe (xend m)) as [E3|E3]; cbn [andb fst snd];
    repeat match goal with |- context [?a <? ?b] => destruct (Z.ltb_spec a b) end; cbn [fst snd]; clear l; intuition lia.
Qed.

(** * Regions *)
Lemma in_ind i l : In i l -> In (ind i) (map ind l). Proof. apply in_map. Qed.

(** Content only. *)
Definition content (r : region) (ny nz : Z) (P : Z -> Z -> Z -> Prop) : Prop :=
  (forall i, In i (indices r) -> iny i = ny /\ inz i = nz) /\
  (forall k, In k (map ind (indices r)) <-> exists x y z, P x y z /\ k = flat ny nz x y z).

Lemma content_ext r ny nz (P Q : Z -> Z -> Z -> Prop) : (forall x y z, P x y z <-> Q x y z) -> content r ny nz P -> content r ny nz Q.
Proof. intros H [A B]. split; [exact A|]. intros k. rewrite B. split; intros (x & y & z & HP & E); exists x, y, z; split; auto; apply H; exact HP. Qed.
Lemma enum_ext r ny nz (P Q : Z -> Z -> Z -> Prop) : (forall x y z, P x y z <-> Q x y z) -> enumerates r ny nz P -> enumerates r ny nz Q.
Proof. intros H (N & A). split; [exact N|]. exact (content_ext _ _ _ _ _ H A). Qed.

Lemma increasing_nodup l : increasing l -> NoDup l.
Proof.
  induction 1 as [|a l H IH F]; constructor; auto. intros Q. rewrite Forall_forall in F. specialize (F a Q). lia.
Qed.

Lemma NoDup_app2 {A} (l1 l2 : list A) : NoDup l1 -> NoDup l2 -> (forall x, In x l1 -> In x l2 -> False) -> NoDup (l1 ++ l2).
Proof.
  induction l1 as [|a l1 IH]; cbn [app]; intros N1 N2 D; [exact N2|]. inversion N1; subst. constructor.
  - rewrite in_app_iff. intros [H|H]; [contradiction|]. exact (D a (or_introl eq_refl) H).
  - apply IH; auto. intros x H H'. exact (D x (or_intror H) H').
Qed.

Section Enum.
Variables (ny nz mb : Z).
Hypothesis Hny : 0 < ny. Hypothesis Hnz : 0 < nz. Hypothesis Hmb : 0 < mb.

Lemma enum_box x0 x1 y0 y1 z0 z1 : 0 <= y0 -> y1 < ny -> 0 <= z0 -> z1 < nz ->
  exists r, region_box x0 x1 y0 y1 z0 z1 ny nz mb = Ok r /\
    enumerates r ny nz (fun x y z => x0 <= x <= x1 /\ y0 <= y <= y1 /\ z0 <= z <= z1).
Proof.
  intros A B C D. destruct (box_spec x0 x1 y0 y1 z0 z1 ny nz Hny Hnz A B C D) as (l & E & I & K & S).
  unfold region_box. rewrite E. cbn [bind]. replace (0 <? mb) with true by (symmetry; apply Z.ltb_lt; exact Hmb). cbn [negb].
  eexists. split; [reflexivity|]. split; [apply increasing_nodup; exact I|]. split; [exact S|].
  cbn [indices]. intros k. rewrite K. split; intros (x & y & z & H); exists x, y, z; tauto.
Qed.

Lemma content_plus a b P Q : content a ny nz P -> content b ny nz Q -> content (region_plus a b) ny nz (fun x y z => P x y z \/ Q x y z).
Proof.
  intros [A1 A2] [B1 B2]. unfold content, region_plus, region_of_indices. cbn [indices]. split.
  - intros i Hi. apply in_app_or in Hi. destruct Hi; auto.
  - intros k. rewrite map_app, in_app_iff, A2, B2. split.
    + intros [(x & y & z & H & E)|(x & y & z & H & E)]; exists x, y, z; auto.
    + intros (x & y & z & [H|H] & E); [left|right]; exists x, y, z; auto.
Qed.

Definition inr (P : Z -> Z -> Z -> Prop) : Prop := forall x y z, P x y z -> 0 <= x /\ 0 <= y < ny /\ 0 <= z < nz.

Lemma enum_plus a b P Q : inr P -> inr Q -> (forall x y z, P x y z -> Q x y z -> False) ->
  enumerates a ny nz P -> enumerates b ny nz Q -> enumerates (region_plus a b) ny nz (fun x y z => P x y z \/ Q x y z).
Proof.
  intros RP RQ D [NA A] [NB B]. split; [|apply content_plus; assumption].
  unfold region_plus, region_of_indices. cbn [indices]. rewrite map_app. apply NoDup_app2; auto.
  intros k Ha Hb. rewrite (proj2 A) in Ha. rewrite (proj2 B) in Hb.
  destruct Ha as (x & y & z & HP & ->). destruct Hb as (x' & y' & z' & HQ & E).
  destruct (RP _ _ _ HP) as (? & ? & ?). destruct (RQ _ _ _ HQ) as (? & ? & ?).
  destruct (flat_inj ny nz x y z x' y' z') as (-> & -> & ->); auto. exact (D _ _ _ HP HQ).
Qed.

Lemma enum_unique sortf a P : std_sort_contract sortf -> content a ny nz P -> enumerates (asUnique sortf a) ny nz P.
Proof.
  intros S [A B]. destruct (asUnique_spec sortf a S) as [I K]. split; [apply increasing_nodup; exact I|]. split.
  - intros i Hi. apply A. unfold asUnique, region_of_indices in Hi. cbn [indices] in Hi.
    apply (Permutation_in (l := sortf (indices a))); [apply Permutation_sym; apply S|].
    revert Hi. generalize (sortf (indices a)). intros l. unfold std_unique. destruct l as [|h l]; [auto|].
    intros [H|H]; [left; exact H|right]. revert H. revert h. induction l as [|b l IH]; intros h H; [exact H|].
    cbn [std_unique_from] in H. destruct (ieqb h b); [right; eapply IH; exact H|]. destruct H as [H|H]; [left; exact H|right; eapply IH; exact H].
  - intros k. rewrite K. apply B.
Qed.

Lemma in_inb k l : inb k l = true <-> In k l.
Proof.
  unfold inb. rewrite existsb_exists. split.
  - intros (x & H & E). apply Z.eqb_eq in E. subst. exact H.
  - intros H. exists k. split; [exact H|apply Z.eqb_refl].
Qed.

Lemma enum_mask sortf a b P Q : std_sort_contract sortf -> inr P -> inr Q ->
  enumerates a ny nz P -> enumerates b ny nz Q -> enumerates (mask sortf a b) ny nz (fun x y z => P x y z /\ ~ Q x y z).
Proof.
  intros S RP RQ (NA & A1 & A2) (_ & _ & B2). unfold enumerates. rewrite (mask_spec sortf a b S).
  assert (F : forall l p, NoDup (map ind l) -> NoDup (map ind (filter p l))).
  { intros l p. induction l as [|h l IH]; cbn [filter map]; intros H; [constructor|]. inversion H; subst.
    destruct (p h); [|auto]. cbn [map]. constructor; auto. intros Hin. apply H2. apply in_map_iff in Hin. destruct Hin as (u & E & Hu).
    apply filter_In in Hu. rewrite <- E. apply in_map. apply Hu. }
  split; [apply F; exact NA|]. split.
  - intros i Hi. apply filter_In in Hi. apply A1. apply Hi.
  - intros k. split.
    + intros Hk. apply in_map_iff in Hk. destruct Hk as (i & E & Hi). apply filter_In in Hi. destruct Hi as [Hi Hn].
      destruct (proj1 (A2 k)) as (x & y & z & HP & EF); [subst k; apply in_map; exact Hi|].
      exists x, y, z. split; [|exact EF]. split; [exact HP|]. intros HQ. apply negb_true_iff in Hn.
      assert (inb (ind i) (map ind (indices b)) = true); [|congruence]. apply in_inb. apply B2. exists x, y, z. split; [exact HQ|congruence].
    + intros (x & y & z & [HP HQ] & E). assert (In k (map ind (indices a))) as Hk by (apply A2; exists x, y, z; auto).
      apply in_map_iff in Hk. destruct Hk as (i & E' & Hi). apply in_map_iff. exists i. split; [exact E'|]. apply filter_In. split; [exact Hi|].
      apply negb_true_iff. destruct (inb (ind i) (map ind (indices b))) eqn:EB; [|reflexivity]. exfalso. apply in_inb in EB. apply B2 in EB.
      destruct EB as (x' & y' & z' & HQ' & E2). destruct (RP _ _ _ HP) as (? & ? & ?). destruct (RQ _ _ _ HQ') as (? & ? & ?).
      destruct (flat_inj ny nz x y z x' y' z') as (-> & -> & ->); auto; congruence.
Qed.
Lemma content_empty : content empty_region ny nz (fun _ _ _ => False).
Proof. split; [intros i []|]. intros k. cbn. split; [tauto|]. intros (_ & _ & _ & [] & _). Qed.
End Enum.
