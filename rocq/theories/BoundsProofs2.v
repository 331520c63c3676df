From Coq Require Import ZArith List Bool String Lia Permutation Sorting.
From Verif Require Import Base MeshModel MeshSpec MeshProofs TopoModel TopoSpec TopoProofs4 TopoProps CommProofs3
  RegionModel RegionSpec RegionProofs BndryModel BndrySpec BoundsModel BoundsSpec BoundsProofs.
Import ListNotations.
Open Scope Z_scope.

Lemma nocorners_pred nx ny nz xs xe ys ye zs ze x y z : 0 <= xs -> xs <= xe + 1 -> xe < nx -> 0 <= ys -> ys <= ye + 1 -> ye < ny -> 0 <= zs -> zs <= ze + 1 -> ze < nz ->
  ((((xs <= x <= xe /\ ys <= y <= ye /\ zs <= z <= ze) \/
     ((0 <= x <= xs - 1 /\ ys <= y <= ye /\ zs <= z <= ze) \/ (xe + 1 <= x <= nx - 1 /\ ys <= y <= ye /\ zs <= z <= ze))) \/
    ((xs <= x <= xe /\ 0 <= y <= ys - 1 /\ zs <= z <= ze) \/ (xs <= x <= xe /\ ye + 1 <= y <= ny - 1 /\ zs <= z <= ze))) \/
   ((xs <= x <= xe /\ ys <= y <= ye /\ 0 <= z <= zs - 1) \/ (xs <= x <= xe /\ ys <= y <= ye /\ ze + 1 <= z <= nz - 1))) <->
  (0 <= x < nx /\ 0 <= y < ny /\ 0 <= z < nz /\
   ((xs <= x <= xe /\ ys <= y <= ye) \/ (xs <= x <= xe /\ zs <= z <= ze) \/ (ys <= y <= ye /\ zs <= z <= ze))).
Proof.
  intros.
  assert (D : forall a b t n, 0 <= a -> a <= b + 1 -> b < n -> exists L I U A : Prop, (0 <= t <= a - 1 <-> L) /\ (a <= t <= b <-> I) /\ (b + 1 <= t <= n - 1 <-> U) /\ (0 <= t < n <-> A) /\
     (A <-> (~ I /\ (L \/ U)) \/ I) /\ (I \/ ~ I)).
  { intros a b t n Ha Hab Hb. exists (0 <= t <= a - 1), (a <= t <= b), (b + 1 <= t <= n - 1), (0 <= t < n). split; [reflexivity|]. split; [reflexivity|]. split; [reflexivity|]. split; [reflexivity|].
    split; lia. }
  destruct (D xs xe x nx) as (L1 & I1 & U1 & A1 & -> & -> & -> & -> & F1 & G1); [lia|lia|lia|].
  destruct (D ys ye y ny) as (L2 & I2 & U2 & A2 & -> & -> & -> & -> & F2 & G2); [lia|lia|lia|].
  destruct (D zs ze z nz) as (L3 & I3 & U3 & A3 & -> & -> & -> & -> & F3 & G3); [lia|lia|lia|].
  rewrite F1, F2, F3. clear - G1 G2 G3. tauto.
Qed.

Section Std.
Variables (sortf : list sind -> list sind) (nz zs ze mb : Z) (m : mesh) (c : conn) (cc per : bool).
Hypothesis HS : std_sort_contract sortf.
Hypotheses (Hnz : 0 < nz) (Hzs : 0 <= zs) (Hzz : zs <= ze + 1) (Hze : ze < nz) (Hmb : 0 < mb).
Hypotheses (X0 : 0 <= xstart m) (X1 : xstart m <= xend m) (X2 : xend m < LocalNx m).
Hypotheses (Y0 : 0 <= ystart m) (Y1 : ystart m <= yend m) (Y2 : yend m < LocalNy m).
Variables (lo up : Z -> Prop).
Hypothesis Hlo : forall x, fst (lower_y m c cc) <= x <= snd (lower_y m c cc) <-> lo x.
Hypothesis Hup : forall x, fst (upper_y m c cc) <= x <= snd (upper_y m c cc) <-> up x.
Hypothesis LO : forall x, lo x -> 0 <= x. Hypothesis UP : forall x, up x -> 0 <= x.

Definition inb_ : Prop := PE_XIND m = 0 /\ per = false.
Definition outb : Prop := PE_XIND m = NXPE m - 1 /\ per = false.

Notation ny := (LocalNy m).
Let Hny : 0 < ny. Proof. lia. Qed.

Lemma upper_inner_same : upper_inner_region m c cc = upper_inner m c cc.
Proof.
  unfold upper_inner_region, upper_inner. destruct (negb (lastY m)); [reflexivity|]. unfold no_limits, corner_limits.
  replace (-1 =? xstart m) with false by (symmetry; apply Z.eqb_neq; lia).
  replace (-2 =? xend m) with false by (symmetry; apply Z.eqb_neq; lia).
  rewrite !andb_false_r. reflexivity.
Qed.

Tactic Notation "next_box" ident(r) ident(E) :=
  match goal with |- context [region_box ?a ?b ?p ?q ?u ?v ny nz mb] =>
    let Q := fresh in
    destruct (enum_box ny nz mb Hny Hnz Hmb a b p q u v) as (r & Q & E); [lia|lia|lia|lia|]; rewrite Q; clear Q; cbn [bind]
  end.

Lemma default_regions : exists all nob nox noy noz gx1 gx2 gy1 gy2 gz1 gz2,
  createDefaultRegions sortf nz zs ze mb m = Ok (
    [("RGN_NOCORNERS", asUnique sortf (region_plus (region_plus (region_plus nob (region_plus gx1 gx2)) (region_plus gy1 gy2)) (region_plus gz1 gz2)));
     ("RGN_ZGUARDS", region_plus gz1 gz2); ("RGN_YGUARDS", region_plus gy1 gy2); ("RGN_XGUARDS", region_plus gx1 gx2);
     ("RGN_GUARDS", mask sortf all nob); ("RGN_NOZ", noz); ("RGN_NOY", noy); ("RGN_NOX", nox); ("RGN_NOBNDRY", nob); ("RGN_ALL", all)])%string /\
  (enumerates all ny nz (fun x y z => 0 <= x <= LocalNx m - 1 /\ 0 <= y <= ny - 1 /\ 0 <= z <= nz - 1) /\
  enumerates nob ny nz (fun x y z => xstart m <= x <= xend m /\ ystart m <= y <= yend m /\ zs <= z <= ze) /\
  enumerates nox ny nz (fun x y z => xstart m <= x <= xend m /\ 0 <= y <= ny - 1 /\ 0 <= z <= nz - 1) /\
  enumerates noy ny nz (fun x y z => 0 <= x <= LocalNx m - 1 /\ ystart m <= y <= yend m /\ 0 <= z <= nz - 1) /\
  enumerates noz ny nz (fun x y z => 0 <= x <= LocalNx m - 1 /\ 0 <= y <= ny - 1 /\ zs <= z <= ze)) /\
  (enumerates gx1 ny nz (fun x y z => 0 <= x <= xstart m - 1 /\ ystart m <= y <= yend m /\ zs <= z <= ze) /\
  enumerates gx2 ny nz (fun x y z => xend m + 1 <= x <= LocalNx m - 1 /\ ystart m <= y <= yend m /\ zs <= z <= ze) /\
  enumerates gy1 ny nz (fun x y z => xstart m <= x <= xend m /\ 0 <= y <= ystart m - 1 /\ zs <= z <= ze) /\
  enumerates gy2 ny nz (fun x y z => xstart m <= x <= xend m /\ yend m + 1 <= y <= ny - 1 /\ zs <= z <= ze) /\
  enumerates gz1 ny nz (fun x y z => xstart m <= x <= xend m /\ ystart m <= y <= yend m /\ 0 <= z <= zs - 1) /\
  enumerates gz2 ny nz (fun x y z => xstart m <= x <= xend m /\ ystart m <= y <= yend m /\ ze + 1 <= z <= nz - 1)).
Proof.
  unfold createDefaultRegions, box3.
  next_box all E1. change (addRegion "RGN_ALL" all []) with (@Ok rmap [("RGN_ALL"%string, all)]). cbn [bind].
  next_box nob E2. match goal with |- context [addRegion ?n ?r ?l] => change (addRegion n r l) with (Ok ((n, r) :: l)) end. cbn [bind].
  next_box nox E3. match goal with |- context [addRegion ?n ?r ?l] => change (addRegion n r l) with (Ok ((n, r) :: l)) end. cbn [bind].
  next_box noy E4. match goal with |- context [addRegion ?n ?r ?l] => change (addRegion n r l) with (Ok ((n, r) :: l)) end. cbn [bind].
  next_box noz E5. match goal with |- context [addRegion ?n ?r ?l] => change (addRegion n r l) with (Ok ((n, r) :: l)) end. cbn [bind].
  match goal with |- context [addRegion ?n ?r ?l] => change (addRegion n r l) with (Ok ((n, r) :: l)) end. cbn [bind].
  next_box gx1 E6. next_box gx2 E7.
  match goal with |- context [addRegion ?n ?r ?l] => change (addRegion n r l) with (Ok ((n, r) :: l)) end. cbn [bind].
  next_box gy1 E8. next_box gy2 E9.
  match goal with |- context [addRegion ?n ?r ?l] => change (addRegion n r l) with (Ok ((n, r) :: l)) end. cbn [bind].
  next_box gz1 E10. next_box gz2 E11.
  match goal with |- context [addRegion ?n ?r ?l] => change (addRegion n r l) with (Ok ((n, r) :: l)) end. cbn [bind].
  exists all, nob, nox, noy, noz, gx1, gx2, gy1, gy2, gz1, gz2. split; [reflexivity|].
  split; [exact (conj E1 (conj E2 (conj E3 (conj E4 E5))))|exact (conj E6 (conj E7 (conj E8 (conj E9 (conj E10 E11)))))].
Qed.

Ltac add1 := match goal with |- context [addRegion ?n ?r ?l] => change (addRegion n r l) with (Ok ((n, r) :: l)) end; cbn [bind].

Definition bx_ (l : Z * Z) (x : Z) : Prop := fst l <= x <= snd l.

Lemma boundary_regions (noc zg yg xg gu noz noy nox nob al : region) :
  let rs := [("RGN_NOCORNERS", noc); ("RGN_ZGUARDS", zg); ("RGN_YGUARDS", yg); ("RGN_XGUARDS", xg); ("RGN_GUARDS", gu); ("RGN_NOZ", noz);
     ("RGN_NOY", noy); ("RGN_NOX", nox); ("RGN_NOBNDRY", nob); ("RGN_ALL", al)]%string in
  exists li lo_ ly ui uo uy ix ox bj,
  addBoundaryRegions sortf nz mb m c cc per rs = Ok (
    ("RGN_WITH_BNDRIES", asUnique sortf (region_plus nob (asUnique sortf bj))) ::
    ("RGN_WITH_YBNDRIES", asUnique sortf (region_plus (region_plus nob ly) uy)) ::
    ("RGN_WITH_XBNDRIES", asUnique sortf (region_plus (region_plus nob ix) ox)) ::
    ("RGN_BNDRY", asUnique sortf bj) ::
    ("RGN_OUTER_X", ox) :: ("RGN_INNER_X", ix) :: ("RGN_UPPER_Y", uy) :: ("RGN_UPPER_OUTER_Y", uo) :: ("RGN_UPPER_INNER_Y", ui) ::
    ("RGN_LOWER_Y", ly) :: ("RGN_LOWER_OUTER_Y", lo_) :: ("RGN_LOWER_INNER_Y", li) :: rs)%string /\
  (enumerates li ny nz (fun x y z => bx_ (lower_inner m c cc) x /\ 0 <= y <= ystart m - 1 /\ 0 <= z <= nz - 1) /\
   enumerates lo_ ny nz (fun x y z => bx_ (lower_outer m c cc) x /\ 0 <= y <= ystart m - 1 /\ 0 <= z <= nz - 1) /\
   enumerates ly ny nz (fun x y z => bx_ (lower_y m c cc) x /\ 0 <= y <= ystart m - 1 /\ 0 <= z <= nz - 1) /\
   enumerates ui ny nz (fun x y z => bx_ (upper_inner m c cc) x /\ yend m + 1 <= y <= ny - 1 /\ 0 <= z <= nz - 1) /\
   enumerates uo ny nz (fun x y z => bx_ (upper_outer m c cc) x /\ yend m + 1 <= y <= ny - 1 /\ 0 <= z <= nz - 1) /\
   enumerates uy ny nz (fun x y z => bx_ (upper_y m c cc) x /\ yend m + 1 <= y <= ny - 1 /\ 0 <= z <= nz - 1)) /\
  (enumerates ix ny nz (fun x y z => inb_ /\ 0 <= x < xstart m /\ ystart m <= y <= yend m /\ 0 <= z <= nz - 1) /\
   enumerates ox ny nz (fun x y z => outb /\ xend m < x < LocalNx m /\ ystart m <= y <= yend m /\ 0 <= z <= nz - 1)) /\
  (forall Pl Po Py Qi Qo Qy Rx Ox,
     content li ny nz Pl -> content lo_ ny nz Po -> content ly ny nz Py -> content ui ny nz Qi -> content uo ny nz Qo -> content uy ny nz Qy ->
     content ix ny nz Rx -> content ox ny nz Ox -> (~ inb_ -> forall x y z, ~ Rx x y z) -> (~ outb -> forall x y z, ~ Ox x y z) ->
     content bj ny nz (fun x y z => Pl x y z \/ Po x y z \/ Py x y z \/ Qi x y z \/ Qo x y z \/ Qy x y z \/ Rx x y z \/ Ox x y z)).
Proof.
  intros rs. unfold addBoundaryRegions, box3. rewrite upper_inner_same. cbv zeta.
  next_box li E1. unfold rs. add1.
  next_box lo_ E2. add1.
  next_box ly E3. add1.
  next_box ui E4. add1.
  next_box uo E5. add1.
  next_box uy E6. add1.
  assert (IX : exists ix, (if firstX m && negb per then region_box 0 (xstart m - 1) (ystart m) (yend m) 0 (nz - 1) ny nz mb
           else region_box 0 (-1) 0 0 0 0 ny nz mb) = Ok ix /\
     enumerates ix ny nz (fun x y z => inb_ /\ 0 <= x < xstart m /\ ystart m <= y <= yend m /\ 0 <= z <= nz - 1)).
  { unfold firstX, inb_. destruct (Z.eqb_spec (PE_XIND m) 0) as [E|E]; destruct per eqn:EP; cbn [andb negb].
    1,3,4: destruct (enum_box ny nz mb Hny Hnz Hmb 0 (-1) 0 0 0 0) as (r & Q & E'); [lia|lia|lia|lia|]; exists r; split; [exact Q|]; refine (enum_ext _ _ _ _ _ _ E'); intros; split; [lia|intros [[? ?] _]; (discriminate || lia)].
    destruct (enum_box ny nz mb Hny Hnz Hmb 0 (xstart m - 1) (ystart m) (yend m) 0 (nz - 1)) as (r & Q & E'); [lia|lia|lia|lia|]; exists r; split; [exact Q|]; refine (enum_ext _ _ _ _ _ _ E'). intros; intuition lia. }
  destruct IX as (ix & Q & E7). rewrite Q. clear Q. cbn [bind]. add1.
  assert (OX : exists ox, (if lastX m && negb per then region_box (xend m + 1) (LocalNx m - 1) (ystart m) (yend m) 0 (nz - 1) ny nz mb
           else region_box 0 (-1) 0 0 0 0 ny nz mb) = Ok ox /\
     enumerates ox ny nz (fun x y z => outb /\ xend m < x < LocalNx m /\ ystart m <= y <= yend m /\ 0 <= z <= nz - 1)).
  { unfold lastX, outb. destruct (Z.eqb_spec (PE_XIND m) (NXPE m - 1)) as [E|E]; destruct per eqn:EP; cbn [andb negb].
    1,3,4: destruct (enum_box ny nz mb Hny Hnz Hmb 0 (-1) 0 0 0 0) as (r & Q & E'); [lia|lia|lia|lia|]; exists r; split; [exact Q|]; refine (enum_ext _ _ _ _ _ _ E'); intros; split; [lia|intros [[? ?] _]; (discriminate || lia)].
    destruct (enum_box ny nz mb Hny Hnz Hmb (xend m + 1) (LocalNx m - 1) (ystart m) (yend m) 0 (nz - 1)) as (r & Q & E'); [lia|lia|lia|lia|]; exists r; split; [exact Q|]; refine (enum_ext _ _ _ _ _ _ E'). intros; intuition lia. }
  destruct OX as (ox & Q & E8). rewrite Q. clear Q. cbn [bind]. add1.
  match goal with |- context [join_all ?l ?r ?e] => assert (JJ : exists bj, join_all l r e = Ok bj /\
   forall Pl Po Py Qi Qo Qy Rx Ox,
     content li ny nz Pl -> content lo_ ny nz Po -> content ly ny nz Py -> content ui ny nz Qi -> content uo ny nz Qo -> content uy ny nz Qy ->
     content ix ny nz Rx -> content ox ny nz Ox -> (~ inb_ -> forall x y z, ~ Rx x y z) -> (~ outb -> forall x y z, ~ Ox x y z) ->
     content bj ny nz (fun x y z => Pl x y z \/ Po x y z \/ Py x y z \/ Qi x y z \/ Qo x y z \/ Qy x y z \/ Rx x y z \/ Ox x y z)) end.
  { unfold firstX, lastX, inb_, outb.
    destruct (Z.eqb_spec (PE_XIND m) 0) as [EI|EI]; destruct (Z.eqb_spec (PE_XIND m) (NXPE m - 1)) as [EO|EO]; destruct per eqn:EP; cbn [andb negb app];
    (eexists; split; [reflexivity|]); intros Pl Po Py Qi Qo Qy Rx Ox C1 C2 C3 C4 C5 C6 C7 C8 N1 N2.
    all: try (assert (N1' := N1 ltac:(intuition (discriminate || lia)))).
    all: try (assert (N2' := N2 ltac:(intuition (discriminate || lia)))).
    all: pose proof (content_plus ny nz _ _ _ _ (content_plus ny nz _ _ _ _ (content_plus ny nz _ _ _ _ (content_plus ny nz _ _ _ _ (content_plus ny nz _ _ _ _ (content_plus ny nz _ _ _ _
          (content_empty ny nz) C1) C2) C3) C4) C5) C6) as CC.
    all: first [ refine (content_ext _ _ _ _ _ _ CC) | refine (content_ext _ _ _ _ _ _ (content_plus ny nz _ _ _ _ CC C7))
      | refine (content_ext _ _ _ _ _ _ (content_plus ny nz _ _ _ _ CC C8))
      | refine (content_ext _ _ _ _ _ _ (content_plus ny nz _ _ _ _ (content_plus ny nz _ _ _ _ CC C7) C8)) ].
    all: cbv beta; intros x y z; try specialize (N1' x y z); try specialize (N2' x y z); first [clear - N1' N2' | clear - N1' | clear - N2' | clear]; tauto. }
  destruct JJ as (bj & Q & E9). rewrite Q. clear Q. cbn [bind].
  exists li, lo_, ly, ui, uo, uy, ix, ox, bj. split; [reflexivity|].
  split; [exact (conj E1 (conj E2 (conj E3 (conj E4 (conj E5 E6)))))|]. split; [exact (conj E7 E8)|exact E9].
Qed.

Lemma li_spec x : bx_ (lower_inner m c cc) x <-> PE_YIND m = 0 /\ lo x.
Proof.
  unfold lower_inner, firstY, bx_. destruct (Z.eqb_spec (PE_YIND m) 0) as [E|E]; cbn [negb].
  - rewrite <- Hlo. unfold lower_y. tauto.
  - unfold no_limits. cbn [fst snd]. split; [lia|tauto].
Qed.
Lemma lo_spec x : bx_ (lower_outer m c cc) x <-> PE_YIND m <> 0 /\ lo x.
Proof.
  unfold lower_outer, firstY, bx_. destruct (Z.eqb_spec (PE_YIND m) 0) as [E|E]; cbn [negb].
  - unfold no_limits. cbn [fst snd]. split; [lia|tauto].
  - rewrite <- Hlo. unfold lower_y. tauto.
Qed.
Lemma ui_spec x : bx_ (upper_inner m c cc) x <-> PE_YIND m <> NYPE m - 1 /\ up x.
Proof.
  unfold upper_inner, lastY, bx_. destruct (Z.eqb_spec (PE_YIND m) (NYPE m - 1)) as [E|E]; cbn [negb].
  - unfold no_limits. cbn [fst snd]. split; [lia|tauto].
  - rewrite <- Hup. unfold upper_y. tauto.
Qed.
Lemma uo_spec x : bx_ (upper_outer m c cc) x <-> PE_YIND m = NYPE m - 1 /\ up x.
Proof.
  unfold upper_outer, lastY, bx_. destruct (Z.eqb_spec (PE_YIND m) (NYPE m - 1)) as [E|E]; cbn [negb].
  - rewrite <- Hup. unfold upper_y. tauto.
  - unfold no_limits. cbn [fst snd]. split; [lia|tauto].
Qed.

Lemma standard_regions_ok : exists rs, mesh_regions sortf nz zs ze mb m c cc per = Ok rs /\
  forall n P, In (n, P) (standard_regions m nz zs ze lo up inb_ outb) ->
    exists r, getRegion n rs = Ok r /\ enumerates r ny nz P.
Proof.
  unfold mesh_regions.
  destruct default_regions as (al & nob & nox & noy & noz & gx1 & gx2 & gy1 & gy2 & gz1 & gz2 & ED & (A1 & A2 & A3 & A4 & A5) & (B1 & B2 & B3 & B4 & B5 & B6)).
  rewrite ED. cbn [bind].
  destruct (boundary_regions (asUnique sortf (region_plus (region_plus (region_plus nob (region_plus gx1 gx2)) (region_plus gy1 gy2)) (region_plus gz1 gz2)))
     (region_plus gz1 gz2) (region_plus gy1 gy2) (region_plus gx1 gx2) (mask sortf al nob) noz noy nox nob al)
    as (li & lo_ & ly & ui & uo & uy & ix & ox & bj & EB & (C1 & C2 & C3 & C4 & C5 & C6) & (D1 & D2) & J).
  rewrite EB. clear EB ED.
  pose proof (J _ _ _ _ _ _ _ _ (proj2 C1) (proj2 C2) (proj2 C3) (proj2 C4) (proj2 C5) (proj2 C6) (proj2 D1) (proj2 D2)
    (fun N x y z H => N (proj1 H)) (fun N x y z H => N (proj1 H))) as CB. clear J.
  pose proof li_spec as S1. pose proof lo_spec as S2. pose proof ui_spec as S3. pose proof uo_spec as S4.
  assert (S5 : forall x, bx_ (lower_y m c cc) x <-> lo x) by exact Hlo. assert (S6 : forall x, bx_ (upper_y m c cc) x <-> up x) by exact Hup.
  assert (EU : forall a P, content a ny nz P -> enumerates (asUnique sortf a) ny nz P) by (intros a P; apply (enum_unique ny nz sortf a P HS)).
  pose proof (fun p q r => enum_plus ny nz gx1 gx2 _ _ p q r B1 B2) as GX; specialize (GX ltac:(intros x y z; cbv beta; lia) ltac:(intros x y z; cbv beta; lia) ltac:(intros x y z; cbv beta; lia)).
  pose proof (fun p q r => enum_plus ny nz gy1 gy2 _ _ p q r B3 B4) as GY; specialize (GY ltac:(intros x y z; cbv beta; lia) ltac:(intros x y z; cbv beta; lia) ltac:(intros x y z; cbv beta; lia)).
  pose proof (fun p q r => enum_plus ny nz gz1 gz2 _ _ p q r B5 B6) as GZ; specialize (GZ ltac:(intros x y z; cbv beta; lia) ltac:(intros x y z; cbv beta; lia) ltac:(intros x y z; cbv beta; lia)).
  pose proof (fun p q => enum_mask ny nz sortf al nob _ _ HS p q A1 A2) as GG; specialize (GG ltac:(intros x y z; cbv beta; lia) ltac:(intros x y z; cbv beta; lia)).
  pose proof (EU _ _ (content_plus ny nz _ _ _ _ (content_plus ny nz _ _ _ _ (content_plus ny nz _ _ _ _ (proj2 A2) (proj2 GX)) (proj2 GY)) (proj2 GZ))) as NC.
  pose proof (EU _ _ CB) as BN.
  pose proof (EU _ _ (content_plus ny nz _ _ _ _ (content_plus ny nz _ _ _ _ (proj2 A2) (proj2 D1)) (proj2 D2))) as WX.
  pose proof (EU _ _ (content_plus ny nz _ _ _ _ (content_plus ny nz _ _ _ _ (proj2 A2) (proj2 C3)) (proj2 C6))) as WY.
  pose proof (EU _ _ (content_plus ny nz _ _ _ _ (proj2 A2) (proj2 BN))) as WB.
  eexists. split; [reflexivity|]. intros n P Hin. unfold standard_regions in Hin. cbv zeta in Hin.
  repeat (destruct Hin as [Hin|Hin]; [injection Hin as <- <-; eexists; split; [reflexivity|]|]); [..|destruct Hin].
  - refine (enum_ext _ _ _ _ _ _ A1). intros; unfold anyx, anyy; lia.
  - refine (enum_ext _ _ _ _ _ _ A2). intros; unfold inx, iny_; lia.
  - refine (enum_ext _ _ _ _ _ _ A3). intros; unfold inx, anyy; lia.
  - refine (enum_ext _ _ _ _ _ _ A4). intros; unfold anyx, iny_; lia.
  - refine (enum_ext _ _ _ _ _ _ A5). intros; unfold anyx, anyy; lia.
  - refine (enum_ext _ _ _ _ _ _ GG). intros; unfold anyx, anyy, inx, iny_; lia.
  - refine (enum_ext _ _ _ _ _ _ GX). intros; unfold anyx, anyy, inx, iny_; lia.
  - refine (enum_ext _ _ _ _ _ _ GY). intros; unfold anyx, anyy, inx, iny_; lia.
  - refine (enum_ext _ _ _ _ _ _ GZ). intros; unfold anyx, anyy, inx, iny_; lia.
  - refine (enum_ext _ _ _ _ _ _ NC). intros x y z.
    exact (nocorners_pred (LocalNx m) ny nz (xstart m) (xend m) (ystart m) (yend m) zs ze x y z X0 (Z.le_trans _ _ _ X1 (Z.le_succ_diag_r _)) X2 Y0 (Z.le_trans _ _ _ Y1 (Z.le_succ_diag_r _)) Y2 Hzs Hzz Hze).
  - refine (enum_ext _ _ _ _ _ _ C1). intros x y z. rewrite S1. clear; intuition lia.
  - refine (enum_ext _ _ _ _ _ _ C2). intros x y z. rewrite S2. clear; intuition lia.
  - refine (enum_ext _ _ _ _ _ _ C3). intros x y z. rewrite S5. clear; intuition lia.
  - refine (enum_ext _ _ _ _ _ _ C4). intros x y z. rewrite S3. clear; intuition lia.
  - refine (enum_ext _ _ _ _ _ _ C5). intros x y z. rewrite S4. clear; intuition lia.
  - refine (enum_ext _ _ _ _ _ _ C6). intros x y z. rewrite S6. clear; intuition lia.
  - refine (enum_ext _ _ _ _ _ _ D1). intros x y z. unfold iny_. clear; intuition lia.
  - refine (enum_ext _ _ _ _ _ _ D2). intros x y z. unfold iny_. clear; intuition lia.
  - refine (enum_ext _ _ _ _ _ _ BN). intros x y z. rewrite S1, S2, S3, S4, S5, S6. unfold iny_.
    assert (U : 0 <= y <= ystart m - 1 <-> 0 <= y < ystart m) by lia. assert (V : yend m + 1 <= y <= ny - 1 <-> yend m < y < ny) by lia.
    assert (W : 0 <= z <= nz - 1 <-> 0 <= z < nz) by lia. rewrite U, V, W. clear. tauto.
  - refine (enum_ext _ _ _ _ _ _ WX). intros x y z. unfold inx, iny_. assert (W : 0 <= z <= nz - 1 <-> 0 <= z < nz) by lia. rewrite W. clear. tauto.
  - refine (enum_ext _ _ _ _ _ _ WY). intros x y z. rewrite S5, S6. unfold inx, iny_.
    assert (U : 0 <= y <= ystart m - 1 <-> 0 <= y < ystart m) by lia. assert (V : yend m + 1 <= y <= ny - 1 <-> yend m < y < ny) by lia.
    assert (W : 0 <= z <= nz - 1 <-> 0 <= z < nz) by lia. rewrite U, V, W. clear. tauto.
  - refine (enum_ext _ _ _ _ _ _ WB). intros x y z. rewrite S1, S2, S3, S4, S5, S6. unfold inx, iny_.
    assert (U : 0 <= y <= ystart m - 1 <-> 0 <= y < ystart m) by lia. assert (V : yend m + 1 <= y <= ny - 1 <-> yend m < y < ny) by lia.
    assert (W : 0 <= z <= nz - 1 <-> 0 <= z < nz) by lia. rewrite U, V, W. clear. tauto.
Qed.
End Std.
