(** Property theorems C71 (global numbering of cells) and C72 (stencils and the sparsity of the matrix). *)
From Coq Require Import ZArith List Bool String Lia Sorted Permutation.
From Verif Require Import Base MeshModel MeshSpec MeshProofs TopoModel TopoSpec TopoProofs4 TopoProps CommModel CommSpec CommProofs CommProofs2 CommProofs3 CommProofs4 CommProps
  RegionModel RegionSpec RegionProofs BoundsModel BoundsSpec BoundsProofs BoundsProps IndexerModel IndexerSpec IndexerProofs IndexerProofs2 IndexerProofs3
  IndexerProofs4 IndexerProofs5 IndexerProofs6.
Import ListNotations.
Open Scope Z_scope.

(** The indexers the ranks construct: each from the regions of its mesh and the stencil it is given. *)
Definition built (npes nz mb : Z) (cc per : bool) (sortf : list sind -> list sind) (M : Z -> mesh) (C : Z -> conn) (ST : Z -> stencil) (I : Z -> indexer) : Prop :=
  forall r, 0 <= r < npes -> exists rs, mesh_regions sortf nz 0 (nz - 1) mb (M r) (C r) cc per = Ok rs /\ indexer_regions sortf (ST r) rs = Ok (I r).
(** The fields of numbers before initialise. *)
Definition numbers (M : Z -> mesh) (nz : Z) (I : Z -> indexer) (r : Z) : list (field Z) := [own_field I (LocalNy (M r)) nz r].
(** The order in which messages arrive: any. *)
Definition any_order (npes nz : Z) (cc : bool) (M : Z -> mesh) (C : Z -> conn) (W : Z -> list (field Z)) (od : bool -> Z -> list nat) : Prop :=
  forall r, 0 <= r < npes ->
     if cc then Permutation (od false r) (pending YOnly (M r) (C r) nz (W r)) /\
                Permutation (od true r) (pending (XOnly true) (M r) (C r) nz (W r))
     else Permutation (od false r) (pending Both (M r) (C r) nz (W r)).

Lemma strongly_nth (l : list Z) : StronglySorted Z.lt l -> forall n n' a b, (n < n')%nat -> nth_error l n = Some a -> nth_error l n' = Some b -> a < b.
Proof.
  induction 1 as [|c l H IH HF]; intros n n' a b Hn Ha Hb; [destruct n; discriminate|]. destruct n' as [|n']; [lia|]. cbn [nth_error] in Hb.
  destruct n as [|n]; cbn [nth_error] in Ha.
  - injection Ha as <-. rewrite Forall_forall in HF. apply HF. eapply nth_error_In; exact Hb.
  - apply (IH n n'); auto; lia.
Qed.

(** ** C71. Construction succeeds on every processor, and its regions hold the interior and the boundary cells read by the stencil. *)
Theorem C71_constructed npes nx ny mxg myg s user ix1 ix2 per M C core sortf nz mb cc ST :
  loaded npes nx ny mxg myg s user ix1 ix2 per M C core ->
  regular ny (MYSUB (M 0)) (seps (M 0)) ->
  std_sort_contract sortf -> 0 < nz -> 0 < mb ->
  (forall r, 0 <= r < npes -> fits (ST r) (M r) nz) ->
  exists I, built npes nz mb cc per sortf M C ST I.
Proof.
  intros L R HS Hnz Hmb FT.
  exists (fun r => match mesh_regions sortf nz 0 (nz - 1) mb (M r) (C r) cc per with
                   | Ok rs => match indexer_regions sortf (ST r) rs with Ok J => J | _ => mkidx empty_region empty_region empty_region empty_region empty_region empty_region end
                   | _ => mkidx empty_region empty_region empty_region empty_region empty_region empty_region end).
  intros r Hr. destruct (regions_of _ _ _ _ _ _ _ _ _ _ _ _ _ L R sortf nz mb cc ST HS Hnz Hmb FT r Hr) as (rs & E1 & J & E2 & _).
  exists rs. split; [exact E1|]. rewrite E1, E2. reflexivity.
Qed.
(** The numbers are a bijection between the numbered cells of all processors and 0, 1, ..., N - 1; each processor has a
    contiguous range, in the order of the ranks, and within it the numbers increase in the order of storage. *)
Theorem C71_numbering npes nx ny mxg myg s user ix1 ix2 per M C core sortf nz mb cc ST I :
  loaded npes nx ny mxg myg s user ix1 ix2 per M C core ->
  regular ny (MYSUB (M 0)) (seps (M 0)) ->
  std_sort_contract sortf -> 0 < nz -> 0 < mb ->
  (forall r, 0 <= r < npes -> fits (ST r) (M r) nz) ->
  built npes nz mb cc per sortf M C ST I ->
  let numb r x y z := numbered (ST r) (M r) nz cc per ix1 ix2 x y z in
  let num r x y z := dat (own_field I (LocalNy (M r)) nz r) x y z in
  globalStart I 0 = 0 /\
  (forall r, 0 <= r -> r + 1 < npes -> globalStart I (r + 1) = globalEnd I r + 1) /\
  (forall r x y z, 0 <= r < npes -> numb r x y z -> globalStart I r <= num r x y z <= globalEnd I r) /\
  (forall r x y z r' x' y' z', 0 <= r < npes -> 0 <= r' < npes -> numb r x y z -> numb r' x' y' z' ->
     num r x y z = num r' x' y' z' -> r = r' /\ x = x' /\ y = y' /\ z = z') /\
  (forall g, 0 <= g <= globalEnd I (npes - 1) -> exists r x y z, 0 <= r < npes /\ numb r x y z /\ num r x y z = g) /\
  (forall r x y z x' y' z', 0 <= r < npes -> numb r x y z -> numb r x' y' z' ->
     flat (LocalNy (M r)) nz x y z < flat (LocalNy (M r)) nz x' y' z' -> num r x y z < num r x' y' z') /\
  (forall r x y z, 0 <= r < npes -> 0 <= x < LocalNx (M r) -> 0 <= y < LocalNy (M r) -> 0 <= z < nz -> ~ numb r x y z -> num r x y z = -1) /\
  (forall r, 0 <= r < npes -> enumerates (regionAll (I r)) (LocalNy (M r)) nz (numb r)).
Proof.
  intros L R HS Hnz Hmb FT HB numb num.
  pose proof (fun r x y z => num_range _ _ _ _ _ _ _ _ _ _ _ _ _ L R sortf nz mb cc ST HS Hnz Hmb FT I HB r x y z) as RANGE.
  pose proof (fun r x y z => num_nth _ _ _ _ _ _ _ _ _ _ _ _ _ L R sortf nz mb cc ST HS Hnz Hmb FT I HB r x y z) as NTH.
  pose proof (fun r => all_of _ _ _ _ _ _ _ _ _ _ _ _ _ L R sortf nz mb cc ST HS Hnz Hmb FT I HB r) as ALL.
  assert (INJ1 : forall r x y z x' y' z', 0 <= r < npes -> numb r x y z -> numb r x' y' z' -> num r x y z = num r x' y' z' -> x = x' /\ y = y' /\ z = z').
  { intros r x y z x' y' z' Hr H H' E. destruct (NTH r x y z Hr H) as (n & N1 & N2). destruct (NTH r x' y' z' Hr H') as (n' & N1' & N2').
    unfold num in E. assert (n = n') by lia. subst n'. rewrite N1 in N1'. injection N1' as N1'.
    assert (F1 : infield (M r) nz x y z) by (eapply numb_inr; eassumption). assert (F2 : infield (M r) nz x' y' z') by (eapply numb_inr; eassumption).
    apply (pt_inj (M r) nz); [exact F1|exact F2|]. unfold pt. cbn [ind]. exact N1'. }
  split.
  { destruct (start_psum I 0 ltac:(lia)) as [-> _]. reflexivity. }
  split.
  { intros r Hr Hr'. destruct (start_psum I r Hr) as [_ ->]. destruct (start_psum I (r + 1) ltac:(lia)) as [-> _].
    replace (Z.to_nat (r + 1)) with (Z.to_nat r + 1)%nat by lia. lia. }
  split; [exact RANGE|]. split.
  { intros r x y z r' x' y' z' Hr Hr' H H' E. pose proof (RANGE r x y z Hr H) as A. pose proof (RANGE r' x' y' z' Hr' H') as A'. fold num in A, A'.
    assert (r = r').
    { destruct (start_psum I r ltac:(lia)) as [S1 S2]. destruct (start_psum I r' ltac:(lia)) as [S1' S2'].
      destruct (Z.lt_trichotomy r r') as [Q|[Q|Q]]; [|exact Q|]; exfalso.
      - pose proof (psum_mono I (Z.to_nat r + 1) (Z.to_nat r') ltac:(lia)). unfold num in *. lia.
      - pose proof (psum_mono I (Z.to_nat r' + 1) (Z.to_nat r) ltac:(lia)). unfold num in *. lia. }
    subst r'. split; [reflexivity|]. exact (INJ1 r x y z x' y' z' Hr H H' E). }
  split.
  { intros g Hg. pose proof L as (Hn & _). destruct (start_psum I (npes - 1) ltac:(lia)) as [_ SE]. rewrite SE in Hg.
    destruct (psum_find I (Z.to_nat (npes - 1) + 1) g ltac:(lia)) as (r & R1 & R2).
    assert (HR : 0 <= Z.of_nat r < npes) by lia. destruct (start_psum I (Z.of_nat r) ltac:(lia)) as [SS _]. rewrite Nat2Z.id in SS.
    rewrite psum_S in R2. unfold idx_size in R2.
    destruct (nth_error (indices (regionAll (I (Z.of_nat r)))) (Z.to_nat (g - psum I r))) as [i|] eqn:EN; [|apply nth_error_None in EN; lia].
    destruct (nth_num _ _ _ _ _ _ _ _ _ _ _ _ _ L R sortf nz mb cc ST HS Hnz Hmb FT I HB _ _ _ HR EN) as (x & y & z & A & _ & B).
    exists (Z.of_nat r), x, y, z. split; [exact HR|]. split; [exact A|]. unfold num. lia. }
  split.
  { intros r x y z x' y' z' Hr H H' E. destruct (NTH r x y z Hr H) as (n & N1 & N2). destruct (NTH r x' y' z' Hr H') as (n' & N1' & N2').
    unfold num. rewrite N2, N2'. destruct (ALL r Hr) as [_ SR]. unfold increasing in SR.
    assert (n < n')%nat; [|lia]. destruct (Nat.lt_trichotomy n n') as [Q|[Q|Q]]; [exact Q| |]; exfalso.
    - subst n'. rewrite N1 in N1'. injection N1' as N1'. lia.
    - apply (map_nth_error ind) in N1. apply (map_nth_error ind) in N1'. pose proof (strongly_nth _ SR n' n _ _ Q N1' N1) as K. unfold pt in K. cbn [ind] in K. lia. }
  split.
  { intros r x y z Hr Hx Hy Hz HN. apply (num_none _ _ _ _ _ _ _ _ _ _ _ _ _ L R sortf nz mb cc ST HS Hnz Hmb FT I HB r x y z Hr); auto; lia. }
  intros r Hr. exact (proj1 (ALL r Hr)).
Qed.

(** After initialise() (an exchange of guard cells, whatever the order of the messages) a cell shows the number of the cell
    of the processor that owns the point it stands for, following the field lines; cells beyond the end of a field line show
    what their processor, or the neighbour in x, has there. *)
Theorem C71_initialise npes nx ny mxg myg s user ix1 ix2 per M C core nz I cc junk od :
  loaded npes nx ny mxg myg s user ix1 ix2 per M C core ->
  regular ny (MYSUB (M 0)) (seps (M 0)) ->
  (per = true -> mxg <= MXSUB (M 0)) -> 0 < nz ->
  any_order npes nz cc M C (numbers M nz I) od ->
  let num r x y z := dat (own_field I (LocalNy (M r)) nz r) x y z in
  forall r, 0 <= r < npes -> exists f, communicate cc M C nz junk (numbers M nz I) od r = Ok [f] /\
  forall x y z, 0 <= x < LocalNx (M r) -> 0 <= y < LocalNy (M r) -> 0 <= z < nz ->
    owned_x (M r) (C r) x \/ ystart (M r) <= y <= yend (M r) \/ cc = true ->
    let xg := wrapx per nx mxg (getGlobalXIndex (M r) x) in
    exists q xl yl, 0 <= q < npes /\ owned_x (M q) (C q) xl /\ getGlobalXIndex (M q) xl = xg /\ dat f x y z = num q xl yl z /\
      match row_target (M r) ix1 ix2 xg y with
      | Some y' => ystart (M q) <= yl <= yend (M q) /\ getGlobalYIndexNoBoundaries (M q) yl = y'
      | None => yl = y /\ PE_YIND (M q) = PE_YIND (M r) /\ (owned_x (M r) (C r) x -> q = r /\ xl = x)
      end.
Proof. intros L R PX Hnz HP num r Hr. exact (initialised _ _ _ _ _ _ _ _ _ _ _ _ _ L R PX nz Hnz I cc junk od HP r Hr). Qed.
(** Numbered cells keep their number in this exchange, unless they are corner cells of a periodic x direction or corner cells
    whose field line goes on (those are C71_corner_refuted). *)
Theorem C71_kept npes nx ny mxg myg s user ix1 ix2 per M C core nz I cc junk od ST :
  loaded npes nx ny mxg myg s user ix1 ix2 per M C core ->
  regular ny (MYSUB (M 0)) (seps (M 0)) ->
  (per = true -> mxg <= MXSUB (M 0)) -> 0 < nz ->
  any_order npes nz cc M C (numbers M nz I) od ->
  forall r f x y z, 0 <= r < npes -> fits (ST r) (M r) nz ->
  communicate cc M C nz junk (numbers M nz I) od r = Ok [f] ->
  numbered (ST r) (M r) nz cc per ix1 ix2 x y z ->
  inx (M r) x \/ iny_ (M r) y \/
    (per = false /\ (y < ystart (M r) -> leaves_below (M r) ix1 ix2 x) /\ (yend (M r) < y -> leaves_above (M r) ix1 ix2 x)) ->
  dat f x y z = dat (own_field I (LocalNy (M r)) nz r) x y z.
Proof. intros L R PX Hnz HP r f x y z. exact (kept _ _ _ _ _ _ _ _ _ _ _ _ _ L R PX nz Hnz I cc junk od HP ST r f x y z). Qed.
(** Without corner cells, or with the star stencil, this is the case of all numbered cells. *)
Theorem C71_settled m nz cc per ix1 ix2 st : 0 < nz -> fits st m nz ->
  cc = false \/ st = starStencil m 0 (nz - 1) -> settled st m nz cc per ix1 ix2.
Proof.
  intros Hnz FT HC x y z [(A & _)|[HB HR]]; [auto|]. destruct HC as [-> | ->].
  - destruct HB as [[HT _]|[[HT _]|[[_ T]|[_ T]]]]; auto; destruct HT as [[T _]|[[T _]|[T _]]]; auto; discriminate T.
  - destruct HR as (x' & y' & z' & part & o & (I1 & I2 & I3) & HP & Ho & -> & -> & ->).
    assert (EP : part = star_offsets \/ part = [mkoff 0 0 0]).
    { destruct HP as (n & t & N & _). destruct n as [|[|n]]; [left|right|destruct n; discriminate N]; cbn in N; congruence. }
    assert (odx o = 0 \/ ody o = 0) as [->| ->].
    { destruct EP as [-> | ->]; cbn [star_offsets In] in Ho; repeat (destruct Ho as [<-|Ho]; [cbn [odx ody]; auto|]); destruct Ho. }
    + left. rewrite Z.add_0_r. exact I1.
    + right. left. rewrite Z.add_0_r. exact I2.
Qed.
Print Assumptions C71_constructed.
Print Assumptions C71_numbering.
Print Assumptions C71_initialise.
Print Assumptions C71_kept.
Print Assumptions C71_settled.

(** ** C72. getIndicesWithStencilIncluding finds exactly the interior points whose stencil contains the given cell. *)
Theorem C72_inverse npes nx ny mxg myg s user ix1 ix2 per M C core nz st :
  loaded npes nx ny mxg myg s user ix1 ix2 per M C core ->
  regular ny (MYSUB (M 0)) (seps (M 0)) -> 0 < nz ->
  forall r x y z x' y' z', 0 <= r < npes -> fits st (M r) nz ->
  0 <= x < LocalNx (M r) -> 0 <= y < LocalNy (M r) -> 0 <= z < nz -> interior (M r) nz x' y' z' ->
  In (pt (LocalNy (M r)) nz x' y' z') (getIndicesWithStencilIncluding st (pt (LocalNy (M r)) nz x y z)) <->
  exists part o, offsets_at st (pt (LocalNy (M r)) nz x' y' z') part /\ In o part /\ x = x' + odx o /\ y = y' + ody o /\ z = (z' + odz o) mod nz.
Proof.
  intros L R Hnz r x y z x' y' z' Hr FT Hx Hy Hz HI.
  pose proof (fam _ _ _ _ _ _ _ _ _ _ _ _ _ L r Hr) as (D & E1 & E2 & E3 & E4 & E5 & E6 & E7 & E8 & E9). destruct L as (_ & _ & Hmx & Hmy & _).
  pose proof (d_lnx _ _ _ D). pose proof (d_lny _ _ _ D). pose proof (d_xs _ _ _ D). pose proof (d_xe _ _ _ D). pose proof (d_ys _ _ _ D). pose proof (d_ye _ _ _ D).
  pose proof (d_mxsub _ _ _ D). pose proof (d_mysub _ _ _ D).
  apply (inverse (M r) nz Hnz ltac:(lia) ltac:(lia) ltac:(lia) st x y z x' y' z' FT); [split; [exact Hx|split; assumption]|exact HI].
Qed.

(** The sparsity of a matrix with an interior stencil [offs] and the identity on the boundaries (squareStencil, starStencil):
    the row of an interior cell has as many off-diagonal entries as its stencil has cells numbered by other processors, the
    other entries are counted as diagonal; rows of boundary cells have one diagonal entry. *)
Theorem C72_sparsity npes nx ny mxg myg s user ix1 ix2 per M C core sortf nz mb cc offs I junk od :
  loaded npes nx ny mxg myg s user ix1 ix2 per M C core ->
  regular ny (MYSUB (M 0)) (seps (M 0)) ->
  (per = true -> mxg <= MXSUB (M 0)) ->
  std_sort_contract sortf -> 0 < nz -> 0 < mb ->
  (forall o, In o offs -> - mxg <= odx o <= mxg /\ - myg <= ody o <= myg) ->
  built npes nz mb cc per sortf M C (fun r => with_interior offs (M r) 0 (nz - 1)) I ->
  any_order npes nz cc M C (numbers M nz I) od ->
  forall r f rs guards, 0 <= r < npes -> settled (with_interior offs (M r) 0 (nz - 1)) (M r) nz cc per ix1 ix2 ->
  communicate cc M C nz junk (numbers M nz I) od r = Ok [f] ->
  mesh_regions sortf nz 0 (nz - 1) mb (M r) (C r) cc per = Ok rs -> getRegion "RGN_GUARDS" rs = Ok guards ->
  exists d o,
    calculateSparsity (with_interior offs (M r) 0 (nz - 1)) (LocalNx (M r) * LocalNy (M r) * nz) (globalStart I r) (globalEnd I r) f
      (idx_size (I r)) (indices (regionAll (I r))) (indices guards) = Ok (d, o) /\
    (forall x y z, interior (M r) nz x y z -> let n := dat f x y z - globalStart I r in
       o n = Z.of_nat (List.length (filter (fun j => let g := dat f (x + odx j) (y + ody j) ((z + odz j) mod nz) in
                (0 <=? g) && ((g <? globalStart I r) || (globalEnd I r <? g))) offs)) /\
       d n + o n = Z.of_nat (List.length offs)) /\
    (forall x y z, numbered (with_interior offs (M r) 0 (nz - 1)) (M r) nz cc per ix1 ix2 x y z -> ~ interior (M r) nz x y z ->
       let n := dat f x y z - globalStart I r in d n = 1 /\ o n = 0).
Proof.
  intros L R PX HS Hnz Hmb HO HB HP r f rs guards Hr ST EC ER EG.
  set (S := fun q => with_interior offs (M q) 0 (nz - 1)) in *.
  assert (DIM : forall q, 0 <= q < npes -> 0 < LocalNy (M q) /\
     (xstart (M q) = MXG (M q) /\ 0 <= MXG (M q) /\ LocalNx (M q) = xend (M q) + 1 + MXG (M q) /\ xstart (M q) <= xend (M q)) /\
     (ystart (M q) = MYG (M q) /\ 0 <= MYG (M q) /\ LocalNy (M q) = yend (M q) + 1 + MYG (M q) /\ ystart (M q) <= yend (M q)) /\
     MXG (M q) = mxg /\ MYG (M q) = myg).
  { intros q Hq. pose proof (fam _ _ _ _ _ _ _ _ _ _ _ _ _ L q Hq) as (D & E1 & E2 & E3 & E4 & E5 & E6 & E7 & E8 & E9). pose proof L as (_ & _ & Hmx & Hmy & _).
    pose proof (d_lnx _ _ _ D). pose proof (d_lny _ _ _ D). pose proof (d_xs _ _ _ D). pose proof (d_xe _ _ _ D). pose proof (d_ys _ _ _ D). pose proof (d_ye _ _ _ D).
    pose proof (d_mxsub _ _ _ D). pose proof (d_mysub _ _ _ D). lia. }
  assert (FT : forall q, 0 <= q < npes -> fits (S q) (M q) nz).
  { intros q Hq. destruct (DIM q Hq) as (D1 & D2 & D3 & D4 & D5). apply (st_fits (M q) nz Hnz D1 D2 D3 offs). intros o Ho. rewrite D4, D5. apply HO. exact Ho. }
  pose proof (C71_numbering npes nx ny mxg myg s user ix1 ix2 per M C core sortf nz mb cc S I L R HS Hnz Hmb FT HB) as (_ & _ & RANGE & INJ & _ & _ & _ & ALL).
  assert (KEPT : forall x y z, numbered (S r) (M r) nz cc per ix1 ix2 x y z -> dat f x y z = dat (own_field I (LocalNy (M r)) nz r) x y z).
  { intros x y z HN. apply (C71_kept npes nx ny mxg myg s user ix1 ix2 per M C core nz I cc junk od S L R PX Hnz HP r f x y z Hr (FT r Hr) EC HN). exact (ST x y z HN). }
  destruct (DIM r Hr) as (D1 & D2 & D3 & D4 & D5).
  destruct (regions_of _ _ _ _ _ _ _ _ _ _ _ _ _ L R sortf nz mb cc S HS Hnz Hmb FT r Hr) as (rs' & E1 & J & E2 & _ & _ & _ & _ & g & EG' & EN).
  rewrite ER in E1. injection E1 as <-. rewrite EG in EG'. injection EG' as <-.
  assert (PTS : forall a P, enumerates a (LocalNy (M r)) nz P -> forall i, In i (indices a) <-> exists x y z, P x y z /\ i = pt (LocalNy (M r)) nz x y z).
  { intros a P (N1 & N2 & N3) i. split.
    - intros Hi. destruct (proj1 (N3 (ind i)) (in_map ind _ _ Hi)) as (x & y & z & HPx & E). exists x, y, z. split; [exact HPx|].
      unfold pt. rewrite <- E. apply (keys_pts _ _ _ _ N2 Hi).
    - intros (x & y & z & HPx & ->). assert (K : In (flat (LocalNy (M r)) nz x y z) (map ind (indices a))) by (apply N3; exists x, y, z; auto).
      apply in_map_iff in K. destruct K as (j & E & Hj). rewrite (keys_pts _ _ _ _ N2 Hj), E in Hj. exact Hj. }
  replace (idx_size (I r)) with (globalEnd I r - globalStart I r + 1) by (unfold globalStart; lia).
  assert (NIN : forall x y z, numbered (S r) (M r) nz cc per ix1 ix2 x y z -> infield (M r) nz x y z).
  { intros x y z H. eapply (numb_inr _ _ _ _ _ _ _ _ _ _ _ _ _ L); eassumption. }
  destruct (sparsity (M r) nz Hnz D1 D2 D3 offs ltac:(rewrite D4, D5; exact HO) f (globalStart I r) (globalEnd I r)
     (numbered (S r) (M r) nz cc per ix1 ix2) (indices (regionAll (I r))) (indices guards)) as (d & o & E & H1 & H2).
  - intros x y z H. left. exact H.
  - exact NIN.
  - intros x y z H. rewrite (KEPT x y z H). apply (RANGE r x y z Hr H).
  - intros x y z x' y' z' H H' EQ. rewrite (KEPT x y z H), (KEPT x' y' z' H') in EQ. destruct (INJ r x y z r x' y' z' Hr Hr H H' EQ) as (_ & K). exact K.
  - apply PTS. exact (ALL r Hr).
  - intros i. rewrite (PTS _ _ EN i). split.
    + intros (x & y & z & (A & B & D & F) & EI). exists x, y, z. split; [split; [exact A|split; [exact B|exact D]]|]. split; [exact F|exact EI].
    + intros (x & y & z & (A & B & D) & F & EI). exists x, y, z. split; [|exact EI]. split; [exact A|]. split; [exact B|]. split; [exact D|exact F].
  - exact (proj1 EN).
  - exists d, o. split; [exact E|]. split.
    + intros x y z HI. destruct (H1 x y z HI) as [A B]. split; [|exact B]. rewrite A. unfold cnt. f_equal. f_equal. apply filter_ext_in. intros j Hj.
      unfold foreign, locb. rewrite gval_pt.
      2:{ destruct (HO j Hj) as [HX HY]. destruct HI as (I1 & I2 & I3). unfold inx, iny_ in *. pose proof (Z.mod_pos_bound (z + odz j) nz Hnz). unfold infield. lia. }
      cbv zeta. f_equal. rewrite negb_andb, !Z.leb_antisym, !negb_involutive. reflexivity.
    + intros x y z HN HI. destruct (H2 x y z HN HI) as [A B]. split; [exact B|exact A].
Qed.
Print Assumptions C72_inverse.
Print Assumptions C72_sparsity.

(** With include_corner_cells (the default) and a periodic x direction, the corner cells of a processor at both ends of x get
    numbers of their own, but the exchange in x replaces them: no cell shows such a number, the matrix has rows nobody sets. *)
Definition M_p := mesh_of 1 4 4 1 1 s_lim (Some (inl 1)).
Definition C_p r := fst (conn_of 1 r (M_p r) 0 0 true).
Definition k_p r := snd (conn_of 1 r (M_p r) 0 0 true).
Lemma loaded_p : loaded 1 4 4 1 1 s_lim (Some (inl 1)) 0 0 true M_p C_p k_p /\ regular 4 (MYSUB (M_p 0)) (seps (M_p 0)).
Proof.
  split.
  - repeat (split; [lia|]). intros r Hr. replace r with 0 by lia. split; vm_compute; reflexivity.
  - change (MYSUB (M_p 0)) with 4. change (seps (M_p 0)) with s_lim. constructor; cbn; lia.
Qed.
Definition rs_p := match mesh_regions RegionProofs.isort 1 0 0 8 (M_p 0) (C_p 0) true true with Ok rs => rs | _ => [] end.
Definition I_p (r : Z) : indexer := match indexer_regions RegionProofs.isort (squareStencil (M_p 0) 0 0) rs_p with Ok J => J | _ => mkidx empty_region empty_region empty_region empty_region empty_region empty_region end.
Definition od_p (b : bool) (r : Z) : list nat := pending (if b then XOnly true else YOnly) (M_p r) (C_p r) 1 (numbers M_p 1 I_p r).
Definition f_p : field Z := match communicate true M_p C_p 1 (fun _ => -9) (numbers M_p 1 I_p) od_p 0 with Ok [f] => f | _ => mkfield true (fun _ _ _ => -77) end.
Definition cells_p : list (Z * Z * Z) := list_prod (list_prod [0; 1; 2; 3] [0; 1; 2; 3; 4; 5]) [0].
Theorem C71_corner_refuted : exists npes nx ny mxg myg s user ix1 ix2 per M C core sortf nz mb cc I junk od f g,
  loaded npes nx ny mxg myg s user ix1 ix2 per M C core /\ regular ny (MYSUB (M 0)) (seps (M 0)) /\ (per = true -> mxg <= MXSUB (M 0)) /\
  std_sort_contract sortf /\ (forall r, 0 <= r < npes -> fits (squareStencil (M r) 0 (nz - 1)) (M r) nz) /\
  built npes nz mb cc per sortf M C (fun r => squareStencil (M r) 0 (nz - 1)) I /\ any_order npes nz cc M C (numbers M nz I) od /\
  npes = 1 /\ communicate cc M C nz junk (numbers M nz I) od 0 = Ok [f] /\ globalStart I 0 <= g <= globalEnd I 0 /\
  forall x y z, 0 <= x < LocalNx (M 0) -> 0 <= y < LocalNy (M 0) -> 0 <= z < nz -> dat f x y z <> g.
Proof.
  exists 1, 4, 4, 1, 1, s_lim, (Some (inl 1)), 0, 0, true, M_p, C_p, k_p, RegionProofs.isort, 1, 8, true, I_p, (fun _ => -9), od_p, f_p, 0.
  destruct loaded_p as [A B]. split; [exact A|]. split; [exact B|]. split; [intros _; vm_compute; discriminate|]. split; [exact RegionProofs.isort_contract|].
  split.
  { intros r Hr. replace r with 0 by lia. apply (st_fits (M_p 0) 1 ltac:(lia)).
    - vm_compute. reflexivity.
    - vm_compute. intuition discriminate.
    - vm_compute. intuition discriminate.
    - intros o Ho. change (MXG (M_p 0)) with 1. change (MYG (M_p 0)) with 1. cbn [square_offsets In] in Ho.
      repeat (destruct Ho as [<-|Ho]; [cbn [odx ody]; lia|]). destruct Ho. }
  split.
  { intros r Hr. replace r with 0 by lia. exists rs_p. split; vm_compute; reflexivity. }
  split; [intros r Hr; split; apply Permutation_refl|]. split; [reflexivity|]. split; [vm_compute; reflexivity|]. split; [vm_compute; intuition discriminate|].
  intros x y z Hx Hy Hz. change (LocalNx (M_p 0)) with 4 in Hx. change (LocalNy (M_p 0)) with 6 in Hy.
  assert (K : forallb (fun c => match c with (x, y, z) => negb (dat f_p x y z =? 0) end) cells_p = true) by (vm_compute; reflexivity).
  rewrite forallb_forall in K. specialize (K (x, y, z)). cbv beta iota in K.
  assert (HIn : In (x, y, z) cells_p).
  { unfold cells_p. rewrite !in_prod_iff. cbn [In]. lia. }
  apply K in HIn. apply negb_true_iff, Z.eqb_neq in HIn. exact HIn.
Qed.
Print Assumptions C71_corner_refuted.

(** Non-vacuity: two processors, one above the other in y, 3 x 2 interior points each, square stencil, no corner cells. *)
Definition s_two : yseps := mkyseps (-1) 1 1 3 2.
Definition M_t := mesh_of 2 5 4 1 1 s_two (Some (inl 1)).
Definition C_t r := fst (conn_of 2 r (M_t r) 0 0 false).
Definition k_t r := snd (conn_of 2 r (M_t r) 0 0 false).
Definition rs_t (r : Z) := match mesh_regions RegionProofs.isort 1 0 0 8 (M_t r) (C_t r) false false with Ok rs => rs | _ => [] end.
Definition I_t (r : Z) : indexer := match indexer_regions RegionProofs.isort (squareStencil (M_t r) 0 0) (rs_t r) with Ok J => J | _ => mkidx empty_region empty_region empty_region empty_region empty_region empty_region end.
Definition od_t (b : bool) (r : Z) : list nat := pending Both (M_t r) (C_t r) 1 (numbers M_t 1 I_t r).
Definition f_t : field Z := match communicate false M_t C_t 1 (fun _ => -9) (numbers M_t 1 I_t) od_t 1 with Ok [f] => f | _ => mkfield true (fun _ _ _ => -77) end.
Example C71_case : loaded 2 5 4 1 1 s_two (Some (inl 1)) 0 0 false M_t C_t k_t /\ regular 4 (MYSUB (M_t 0)) (seps (M_t 0)) /\
  built 2 1 8 false false RegionProofs.isort M_t C_t (fun r => squareStencil (M_t r) 0 0) I_t /\ any_order 2 1 false M_t C_t (numbers M_t 1 I_t) od_t /\
  communicate false M_t C_t 1 (fun _ => -9) (numbers M_t 1 I_t) od_t 1 = Ok [f_t] /\
  map (fun r => (globalStart I_t r, globalEnd I_t r)) [0; 1] = [(0, 12); (13, 25)] /\
  map (fun y => dat f_t 1 y 0) [0; 1; 2; 3] = [4; 15; 16; 17].
Proof.
  split.
  { repeat (split; [lia|]). intros r Hr. assert (C : r = 0 \/ r = 1) by lia. destruct C as [-> | ->]; split; vm_compute; reflexivity. }
  split.
  { change (MYSUB (M_t 0)) with 2. change (seps (M_t 0)) with s_two. constructor; cbn; lia. }
  split.
  { intros r Hr. assert (C : r = 0 \/ r = 1) by lia. destruct C as [-> | ->]; [exists (rs_t 0)|exists (rs_t 1)]; split; vm_compute; reflexivity. }
  split; [intros r Hr; apply Permutation_refl|]. split; [vm_compute; reflexivity|]. vm_compute. auto.
Qed.
(** Its matrix: the row of the first interior point of processor 1 has five entries on processor 0. *)
Example C72_case : exists d o,
  calculateSparsity (squareStencil (M_t 1) 0 0) (LocalNx (M_t 1) * LocalNy (M_t 1) * 1) (globalStart I_t 1) (globalEnd I_t 1) f_t
    (idx_size (I_t 1)) (indices (regionAll (I_t 1))) (match getRegion "RGN_GUARDS" (rs_t 1) with Ok g => indices g | _ => [] end) = Ok (d, o) /\
  d (dat f_t 1 1 0 - globalStart I_t 1) = 14 /\ o (dat f_t 1 1 0 - globalStart I_t 1) = 5 /\
  settled (squareStencil (M_t 1) 0 0) (M_t 1) 1 false false 0 0.
Proof.
  eexists. eexists. split; [vm_compute; reflexivity|]. split; [vm_compute; reflexivity|]. split; [vm_compute; reflexivity|].
  apply C71_settled; [lia| |auto]. apply (st_fits (M_t 1) 1 ltac:(lia)).
  - vm_compute. reflexivity.
  - vm_compute. intuition discriminate.
  - vm_compute. intuition discriminate.
  - intros o Ho. change (MXG (M_t 1)) with 1. change (MYG (M_t 1)) with 1. cbn [square_offsets In] in Ho.
    repeat (destruct Ho as [<-|Ho]; [cbn [odx ody]; lia|]). destruct Ho.
Qed.
