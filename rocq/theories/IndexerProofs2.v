(** Proofs for the global numbering: regionAll of one processor. *)
From Coq Require Import ZArith List Bool String Lia Sorted Permutation.
From Verif Require Import Base MeshModel MeshSpec MeshProofs TopoModel TopoSpec TopoProofs4 CommProofs3 RegionModel RegionSpec RegionProofs BoundsModel BoundsSpec BoundsProofs BoundsProps IndexerModel IndexerSpec IndexerProofs.
Import ListNotations.
Open Scope Z_scope.

Lemma keys_pts (l : list sind) ny nz i : (forall j, In j l -> iny j = ny /\ inz j = nz) -> In i l -> i = mkInd (ind i) ny nz.
Proof. intros H Hi. destruct (H i Hi) as [<- <-]. symmetry. apply mkInd_eta. Qed.

Section One.
Context (m : mesh) (nz : Z) (cc per : bool) (ix1 ix2 : Z) (st : stencil) (rs : rmap) (sortf : list sind -> list sind).
Notation ny := (LocalNy m).
Hypothesis Hnz : 0 < nz. Hypothesis Hny : 0 < ny.
Hypothesis HS : std_sort_contract sortf.
Hypothesis GX : xstart m = MXG m /\ 0 <= MXG m /\ LocalNx m = xend m + 1 + MXG m /\ xstart m <= xend m.
Hypothesis GY : ystart m = MYG m /\ 0 <= MYG m /\ ny = yend m + 1 + MYG m /\ ystart m <= yend m.
Hypothesis FT : fits st m nz.
Let low x y z := target_columns m cc (leaves_below m ix1 ix2) x /\ 0 <= y < ystart m /\ 0 <= z < nz.
Let upp x y z := target_columns m cc (leaves_above m ix1 ix2) x /\ yend m < y < ny /\ 0 <= z < nz.
Let inn x y z := (PE_XIND m = 0 /\ per = false) /\ 0 <= x < xstart m /\ iny_ m y /\ 0 <= z < nz.
Let out x y z := (PE_XIND m = NXPE m - 1 /\ per = false) /\ xend m < x < LocalNx m /\ iny_ m y /\ 0 <= z < nz.
Hypothesis RG : forall n P, In (n, P) [("RGN_NOBNDRY", fun x y z => inx m x /\ iny_ m y /\ 0 <= z <= nz - 1);
   ("RGN_LOWER_Y", low); ("RGN_UPPER_Y", upp); ("RGN_INNER_X", inn); ("RGN_OUTER_X", out)]%string ->
  exists g, getRegion n rs = Ok g /\ enumerates g ny nz P.

Lemma read_inr : BoundsProofs.inr ny nz (read_by_stencil st m nz).
Proof.
  intros x y z (x' & y' & z' & part & o & (A & B & C) & HO & Ho & -> & -> & ->). unfold inx, iny_ in *.
  destruct (proj1 FT x' y' z' part o) as [D E]; [split; [exact A|split; [exact B|exact C]]|exact HO|exact Ho|].
  pose proof (Z.mod_pos_bound (z' + odz o) nz Hnz). lia.
Qed.
Lemma target_inr_l x : target_columns m cc (leaves_below m ix1 ix2) x -> 0 <= x.
Proof. unfold target_columns, inx. lia. Qed.
Lemma target_inr_u x : target_columns m cc (leaves_above m ix1 ix2) x -> 0 <= x.
Proof. unfold target_columns, inx. lia. Qed.
Let Pint x y z := interior m nz x y z.
Lemma int_inr : BoundsProofs.inr ny nz Pint.
Proof. intros x y z (A & B & C). unfold inx, iny_ in *. lia. Qed.

Lemma iadd_pt x y z o : 0 <= x -> 0 <= y -> 0 <= z < nz -> iadd (pt ny nz x y z) o = pt ny nz (x + odx o) (y + ody o) ((z + odz o) mod nz).
Proof. intros. unfold iadd, pt. apply ioffset_spec; assumption. Qed.

Lemma candidate_region nob : enumerates nob ny nz Pint ->
  exists a, (match st with
     | [] => Ok empty_region
     | _ => let allIndices := fold_left (fun l i => fst (set_insert i l)) (RegionModel.indices nob) [] in
            do s <- insert_stencils st (RegionModel.indices nob) (allIndices, []);
            do all <- candidates 2 (snd s) (fst s);
            Ok (region_of_indices all MAXREGIONBLOCKSIZE)
     end) = Ok a /\ enumerates a ny nz (fun x y z => (st <> [] /\ Pint x y z) \/ read_by_stencil st m nz x y z).
Proof.
  intros (N & A & B).
  assert (PT : forall i, In i (indices nob) -> exists x y z, Pint x y z /\ i = pt ny nz x y z).
  { intros i Hi. destruct (proj1 (B (ind i))) as (x & y & z & HP & E); [apply in_map; exact Hi|]. exists x, y, z. split; [exact HP|].
    unfold pt. rewrite <- E. apply (keys_pts (indices nob)); assumption. }
  assert (TP : forall x y z, Pint x y z -> In (pt ny nz x y z) (indices nob)).
  { intros x y z HP. assert (Hk : In (flat ny nz x y z) (map ind (indices nob))) by (apply B; exists x, y, z; auto).
    apply in_map_iff in Hk. destruct Hk as (i & E & Hi). unfold pt. rewrite <- E. rewrite <- (keys_pts (indices nob) ny nz i A Hi). exact Hi. }
  destruct st as [|s0 st'] eqn:EST.
  - exists empty_region. split; [reflexivity|]. split; [constructor|]. split; [intros i []|]. intros k. cbn. split; [tauto|].
    intros (x & y & z & [[H _]|(x' & y' & z' & p & o & _ & (n & t & H & _) & _)] & _); [congruence|destruct n; discriminate].
  - rewrite <- EST in *. destruct (sset_of_list (indices nob) [] (SSorted_nil _)) as (S1 & K1 & J1). cbn zeta in S1, K1, J1. cbv zeta.
    set (ai := fold_left (fun l i => fst (set_insert i l)) (indices nob) []) in *.
    assert (SO : st_ok (ai, [])) by (split; [exact S1|]; split; [constructor|intros k []]).
    destruct (insert_stencils_spec st (indices nob) (ai, []) SO) as (r & E & S2 & K2 & J2).
    { intros i Hi. destruct (PT i Hi) as (x & y & z & HP & ->). apply (proj2 FT); [congruence|exact HP]. }
    rewrite E. cbn [bind]. rewrite (candidates_spec r 0 S2). cbn [bind]. eexists. split; [reflexivity|]. cbn [fst] in K2, J2.
    split; [apply increasing_nodup; apply S2|]. cbn [indices region_of_indices]. split.
    + intros j Hj. apply J2 in Hj. destruct Hj as [Hj|(i & p & o & Hi & HO & Ho & ->)].
      * apply J1 in Hj. destruct Hj as [Hj|[]]. apply A. exact Hj.
      * destruct (PT i Hi) as (x & y & z & HP & ->). destruct (int_inr _ _ _ HP) as (? & ? & ?). rewrite iadd_pt by lia. split; reflexivity.
    + intros k. unfold keys in K2, K1. rewrite K2, K1, B. cbn [map In]. split.
      * intros [[(x & y & z & HP & ->)|[]]|(i & p & o & Hi & HO & Ho & ->)].
        { exists x, y, z. split; [left; split; [congruence|exact HP]|reflexivity]. }
        destruct (PT i Hi) as (x & y & z & HP & ->). destruct (int_inr _ _ _ HP) as (? & ? & ?). rewrite iadd_pt by lia. cbn [ind pt].
        exists (x + odx o), (y + ody o), ((z + odz o) mod nz). split; [|reflexivity]. right. exists x, y, z, p, o. auto 10.
      * intros (x & y & z & [[_ HP]|(x' & y' & z' & p & o & HP & HO & Ho & -> & -> & ->)] & ->).
        { left. left. exists x, y, z. auto. }
        right. exists (pt ny nz x' y' z'), p, o. split; [apply TP; exact HP|]. split; [exact HO|]. split; [exact Ho|].
        destruct (int_inr _ _ _ HP) as (? & ? & ?). rewrite iadd_pt by lia. reflexivity.
Qed.

Definition bndry_numbered x y z : Prop := boundary_cell m cc per ix1 ix2 x y /\ read_by_stencil st m nz x y z.
Lemma indexer_ok : exists I, indexer_regions sortf st rs = Ok I /\
  enumerates (regionAll I) ny nz (numbered st m nz cc per ix1 ix2) /\ increasing (map ind (indices (regionAll I))) /\
  enumerates (regionBndry I) ny nz bndry_numbered /\ increasing (map ind (indices (regionBndry I))) /\
  (let rd := read_by_stencil st m nz in
   enumerates (regionLowerY I) ny nz (fun x y z => rd x y z /\ low x y z) /\ enumerates (regionUpperY I) ny nz (fun x y z => rd x y z /\ upp x y z) /\
   enumerates (regionInnerX I) ny nz (fun x y z => rd x y z /\ inn x y z) /\ enumerates (regionOuterX I) ny nz (fun x y z => rd x y z /\ out x y z)).
Proof.
  destruct (RG "RGN_NOBNDRY" _ ltac:(cbn; tauto)) as (nob & E1 & N1).
  destruct (RG "RGN_LOWER_Y" _ ltac:(cbn; tauto)) as (gl & E2 & N2).
  destruct (RG "RGN_UPPER_Y" _ ltac:(cbn; tauto)) as (gu & E3 & N3).
  destruct (RG "RGN_INNER_X" _ ltac:(cbn; tauto)) as (gi & E4 & N4).
  destruct (RG "RGN_OUTER_X" _ ltac:(cbn; tauto)) as (go & E5 & N5).
  assert (N1' : enumerates nob ny nz Pint).
  { eapply enum_ext; [|exact N1]. intros x y z. unfold Pint, interior. split; intros (A & B & C); (split; [exact A|]; split; [exact B|]; lia). }
  unfold indexer_regions. rewrite E1. cbn [bind].
  destruct (candidate_region nob N1') as (a & EA & NA). cbv zeta in EA |- *. rewrite EA. cbn [bind]. rewrite E2, E3, E4, E5. cbn [bind].
  assert (RA : BoundsProofs.inr ny nz (fun x y z => (st <> [] /\ Pint x y z) \/ read_by_stencil st m nz x y z)).
  { intros x y z [[_ H]|H]; [exact (int_inr x y z H)|exact (read_inr x y z H)]. }
  pose proof (enum_mask ny nz sortf a nob _ _ HS RA int_inr NA N1') as NM.
  set (bc := mask sortf a nob) in *.
  assert (NM' : enumerates bc ny nz (fun x y z => read_by_stencil st m nz x y z /\ ~ Pint x y z)).
  { eapply enum_ext; [|exact NM]. intros x y z. cbv beta. clear. intuition. }
  assert (RM : BoundsProofs.inr ny nz (fun x y z => read_by_stencil st m nz x y z /\ ~ Pint x y z)) by (intros x y z [H _]; exact (read_inr x y z H)).
  assert (RL : BoundsProofs.inr ny nz low) by (intros x y z (A & B & C); pose proof (target_inr_l x A); lia).
  assert (RU : BoundsProofs.inr ny nz upp) by (intros x y z (A & B & C); pose proof (target_inr_u x A); lia).
  assert (RI : BoundsProofs.inr ny nz inn) by (intros x y z (A & B & C & D); unfold iny_ in C; lia).
  assert (RO : BoundsProofs.inr ny nz out) by (intros x y z (A & B & C & D); unfold iny_ in C; lia).
  assert (DL : forall x y z, low x y z -> ~ Pint x y z) by (intros x y z (A & B & C) (_ & D & _); unfold iny_ in D; lia).
  assert (DU : forall x y z, upp x y z -> ~ Pint x y z) by (intros x y z (A & B & C) (_ & D & _); unfold iny_ in D; lia).
  assert (DI : forall x y z, inn x y z -> ~ Pint x y z) by (intros x y z (A & B & _) (D & _); unfold inx in D; lia).
  assert (DO : forall x y z, out x y z -> ~ Pint x y z) by (intros x y z (A & B & _) (D & _); unfold inx in D; lia).
  assert (INT : forall g P, BoundsProofs.inr ny nz P -> (forall x y z, P x y z -> ~ Pint x y z) -> enumerates g ny nz P ->
    enumerates (getIntersection sortf bc g) ny nz (fun x y z => read_by_stencil st m nz x y z /\ P x y z)).
  { intros g P RP DP NP. eapply enum_ext; [|apply (enum_inter ny nz sortf bc g _ _ HS RM RP NM' NP)].
    intros x y z. cbv beta. specialize (DP x y z). clear -DP. tauto. }
  pose proof (INT gl low RL DL N2) as IL. pose proof (INT gu upp RU DU N3) as IU.
  pose proof (INT gi inn RI DI N4) as II. pose proof (INT go out RO DO N5) as IO.
  assert (RR : forall P, BoundsProofs.inr ny nz P -> BoundsProofs.inr ny nz (fun x y z => read_by_stencil st m nz x y z /\ P x y z)).
  { intros P H x y z [_ Q]. exact (H x y z Q). }
  assert (ROR : forall P Q, BoundsProofs.inr ny nz P -> BoundsProofs.inr ny nz Q -> BoundsProofs.inr ny nz (fun x y z => P x y z \/ Q x y z)).
  { intros P Q H H' x y z [K|K]; auto. }
  pose proof (enum_plus ny nz _ _ _ _ (RR low RL) (RR inn RI)
    ltac:(intros x y z [_ (A & B & _)] [_ (_ & _ & C & _)]; unfold iny_ in C; lia) IL II) as P1.
  pose proof (enum_plus ny nz _ _ _ _ (ROR _ _ (RR low RL) (RR inn RI)) (RR out RO)
    ltac:(intros x y z [[_ (A & B & _)]|[_ (A & B & _)]] [_ (_ & C & D & _)]; unfold iny_ in D; [lia|];
          destruct FT as [_ _]; lia) P1 IO) as P2.
  pose proof (enum_plus ny nz _ _ _ _ (ROR _ _ (ROR _ _ (RR low RL) (RR inn RI)) (RR out RO)) (RR upp RU)
    ltac:(intros x y z [[[_ (A & B & _)]|[_ (_ & _ & D & _)]]|[_ (_ & _ & D & _)]] [_ (_ & C & _)]; unfold iny_ in *; lia) P2 IU) as P3.
  cbv beta in P1, P2, P3.
  eexists. split; [reflexivity|]. cbn [regionAll regionBndry regionLowerY regionUpperY regionInnerX regionOuterX].
  assert (NB : enumerates (region_plus (region_plus (region_plus (getIntersection sortf bc gl) (getIntersection sortf bc gi)) (getIntersection sortf bc go)) (getIntersection sortf bc gu)) ny nz bndry_numbered).
  { eapply enum_ext; [|exact P3]. intros x y z. unfold bndry_numbered, boundary_cell, beyond_inner, beyond_outer, low, upp, inn, out.
    split.
    - clear. tauto.
    - intros [H RD]. pose proof (read_inr x y z RD) as (_ & _ & HZ). clear -H RD HZ. tauto. }
  pose proof (enum_plus ny nz nob _ Pint bndry_numbered int_inr
     ltac:(intros x y z [_ H]; exact (read_inr x y z H))
     ltac:(intros x y z (A & B & _) [[[_ H]|[[_ H]|[[(_ & _ & H) _]|[(_ & _ & H) _]]]] _]; unfold inx, iny_ in *; lia) N1' NB) as NALL.
  destruct (enum_sorted ny nz sortf _ _ HS NALL) as [S1 S2]. destruct (enum_sorted ny nz sortf _ _ HS NB) as [S3 S4].
  split; [exact S1|]. split; [exact S2|]. split; [exact S3|]. split; [exact S4|]. split; [exact IL|]. split; [exact IU|]. split; [exact II|exact IO].
Qed.
End One.
