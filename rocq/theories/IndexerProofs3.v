(** Proofs for the global numbering: numbers across processors, and their communication. *)
From Coq Require Import ZArith List Bool String Lia Sorted Permutation.
From Verif Require Import Base MeshModel MeshSpec MeshProofs TopoModel TopoSpec TopoProofs4 CommModel CommSpec CommProofs CommProofs2 CommProofs3 CommProofs4 CommProps
  RegionModel RegionSpec RegionProofs BoundsModel BoundsSpec BoundsProofs BoundsProps IndexerModel IndexerSpec IndexerProofs IndexerProofs2.
Import ListNotations.
Open Scope Z_scope.

(** * Numbers *)
Lemma assign_spec is : forall c f, NoDup (map ind is) ->
  (forall n i, nth_error is n = Some i -> assign is c f (ind i) = c + Z.of_nat n) /\ (forall k, ~ In k (map ind is) -> assign is c f k = f k).
Proof.
  induction is as [|a is IH]; intros c f N; cbn [assign].
  - split; [intros n i H; destruct n; discriminate|auto].
  - cbn [map] in N. inversion N; subst. destruct (IH (c + 1) (fun k => if k =? ind a then c else f k) H2) as [A B]. split.
    + intros n i H. destruct n as [|n]; cbn [nth_error] in H.
      * injection H as <-. rewrite B by assumption. rewrite Z.eqb_refl. lia.
      * rewrite (A n i H). lia.
    + intros k Hk. rewrite B by (intros Q; apply Hk; right; exact Q). destruct (k =? ind a) eqn:E; [|reflexivity].
      apply Z.eqb_eq in E. exfalso. apply Hk. left. auto.
Qed.

Section Num.
Variable I : Z -> indexer.
Definition psum (n : nat) : Z := fold_left (fun a k => a + idx_size (I (Z.of_nat k))) (seq 0 n) 0.
Lemma psum_S n : psum (S n) = psum n + idx_size (I (Z.of_nat n)).
Proof. unfold psum. rewrite seq_S, fold_left_app. reflexivity. Qed.
Lemma size_nonneg r : 0 <= idx_size (I r). Proof. unfold idx_size. lia. Qed.
Lemma psum_mono a b : (a <= b)%nat -> psum a <= psum b.
Proof. induction 1 as [|b H IH]; [lia|]. rewrite psum_S. pose proof (size_nonneg (Z.of_nat b)). lia. Qed.
Lemma start_psum r : 0 <= r -> globalStart I r = psum (Z.to_nat r) /\ globalEnd I r = psum (Z.to_nat r + 1) - 1.
Proof.
  intros Hr. unfold globalStart, globalEnd, scan. split; [|reflexivity].
  change (psum (Z.to_nat r + 1) - 1 - idx_size (I r) + 1 = psum (Z.to_nat r)).
  replace (Z.to_nat r + 1)%nat with (S (Z.to_nat r)) by lia. rewrite psum_S. replace (Z.of_nat (Z.to_nat r)) with r by lia. lia.
Qed.
Lemma psum_find N : forall g, 0 <= g < psum N -> exists r, (r < N)%nat /\ psum r <= g < psum (S r).
Proof.
  induction N as [|N IH]; intros g Hg; [change (psum 0) with 0 in Hg; lia|]. destruct (Z_lt_ge_dec g (psum N)) as [H|H].
  - destruct (IH g ltac:(lia)) as (r & A & B). exists r. split; [lia|exact B].
  - exists N. split; [lia|lia].
Qed.
End Num.

(** * Owners of grid points *)
Section P.
Context (npes nx ny mxg myg : Z) (s : yseps) (user : option (Z + Z)) (ix1 ix2 : Z) (per : bool)
        (M : Z -> mesh) (C : Z -> conn) (core : Z -> bool).
Hypothesis L : loaded npes nx ny mxg myg s user ix1 ix2 per M C core.
Hypothesis R : regular ny (MYSUB (M 0)) (seps (M 0)).
Notation X := (NXPE (M 0)). Notation mx := (MXSUB (M 0)). Notation my := (MYSUB (M 0)).

Lemma kx_aux mxg0 mx0 X0 px x0 : 0 < mx0 -> 0 <= px < X0 -> (mxg0 <= x0 < mxg0 + mx0 \/ (px = 0 /\ 0 <= x0 < mxg0) \/ (px = X0 - 1 /\ mx0 + mxg0 <= x0 < mx0 + 2 * mxg0)) ->
  let g := x0 + px * mx0 in (g < mxg0 -> px = 0) /\ (mxg0 + X0 * mx0 <= g -> px = X0 - 1) /\ (mxg0 <= g < mxg0 + X0 * mx0 -> px = (g - mxg0) / mx0).
Proof.
  clear. intros Hm Hp Hx g. unfold g. assert (P0 : 0 <= px * mx0) by (apply Z.mul_nonneg_nonneg; lia).
  assert (P1 : px = X0 - 1 \/ (px + 2) * mx0 <= X0 * mx0) by (destruct (Z.eq_dec px (X0 - 1)); [auto|right; apply Z.mul_le_mono_nonneg_r; lia]).
  rewrite Z.mul_add_distr_r in P1. split; [|split].
  - intros H. destruct Hx as [Hx|[Hx|Hx]]; lia.
  - intros H. destruct P1 as [P1|P1]; [exact P1|]. destruct Hx as [Hx|[Hx|Hx]]; lia.
  - intros Hg. apply Z.div_unique with (x0 - mxg0); [|lia]. destruct Hx as [Hx|[[-> Hx]|[-> Hx]]]; [lia|lia|].
    rewrite Z.mul_sub_distr_r in Hg. lia.
Qed.
Lemma owner_unique r q x x' y y' : 0 <= r < npes -> 0 <= q < npes -> owned_x (M r) (C r) x -> owned_x (M q) (C q) x' ->
  ystart (M r) <= y <= yend (M r) -> ystart (M q) <= y' <= yend (M q) ->
  getGlobalXIndex (M r) x = getGlobalXIndex (M q) x' -> getGlobalYIndexNoBoundaries (M r) y = getGlobalYIndexNoBoundaries (M q) y' ->
  r = q /\ x = x' /\ y = y'.
Proof.
  intros Hr Hq Ox Ox' Hy Hy' EX EY.
  destruct (fam _ _ _ _ _ _ _ _ _ _ _ _ _ L r Hr) as (D & E1 & E2 & E3 & E4 & E5 & E6 & E7 & E8 & E9).
  destruct (fam _ _ _ _ _ _ _ _ _ _ _ _ _ L q Hq) as (D' & G1 & G2 & G3 & G4 & G5 & G6 & G7 & G8 & G9).
  destruct (CommProofs4.rows _ _ _ _ _ _ _ _ _ _ _ _ _ L r Hr) as (Y1 & Y2 & Y3 & Y4). destruct (CommProofs4.rows _ _ _ _ _ _ _ _ _ _ _ _ _ L q Hq) as (Z1 & Z2 & Z3 & Z4).
  destruct (in_neighbour _ _ _ _ _ _ _ _ _ _ _ _ _ L R r Hr) as (A1 & _). destruct (in_neighbour _ _ _ _ _ _ _ _ _ _ _ _ _ L R q Hq) as (A2 & _).
  destruct (out_neighbour _ _ _ _ _ _ _ _ _ _ _ _ _ L R r Hr) as (B1 & _). destruct (out_neighbour _ _ _ _ _ _ _ _ _ _ _ _ _ L R q Hq) as (B2 & _).
  pose proof (d_px _ _ _ D) as P1. pose proof (d_px _ _ _ D') as P2. rewrite E1 in P1. rewrite G1 in P2.
  pose proof (d_py _ _ _ D) as P3. pose proof (d_py _ _ _ D') as P4.
  pose proof (d_mxsub _ _ _ D) as MX0. rewrite E3 in MX0. pose proof (r_mysub _ _ _ R).
  unfold owned_x in Ox, Ox'. rewrite Y4, E3, E5 in Ox. rewrite Z4, G3, G5 in Ox'. rewrite Y1, Y2 in Hy. rewrite Z1, Z2 in Hy'.
  unfold getGlobalXIndex in EX. unfold getGlobalYIndexNoBoundaries in EY. rewrite E3, G3 in EX. rewrite E4, E6, G4, G6 in EY.
  assert (PY : PE_YIND (M r) = PE_YIND (M q)).
  { clear - Hy Hy' EY H. assert (forall a b u v, 0 <= u < my -> 0 <= v < my -> u + a * my = v + b * my -> a = b) as Q by (intros; nia).
    apply (Q _ _ (y - myg) (y' - myg)); lia. }
  assert (KX : forall px x0, 0 <= px < X -> (mxg <= x0 < mxg + mx \/ (px = 0 /\ 0 <= x0 < mxg) \/ (px = X - 1 /\ mx + mxg <= x0 < mx + 2 * mxg)) ->
    let g := x0 + px * mx in (g < mxg -> px = 0) /\ (mxg + X * mx <= g -> px = X - 1) /\ (mxg <= g < mxg + X * mx -> px = (g - mxg) / mx)).
  { intros px x0 Hp Hx. exact (kx_aux mxg mx X px x0 ltac:(clear - MX0; lia) Hp Hx). }
  assert (PX : PE_XIND (M r) = PE_XIND (M q)).
  { pose proof (KX (PE_XIND (M r)) x P1 ltac:(destruct Ox as [Q|[[Q1 Q2]|[Q1 Q2]]]; [auto|right; left; split; [apply A1; exact Q1|exact Q2]|right; right; split; [apply B1; exact Q1|exact Q2]])) as K1.
    pose proof (KX (PE_XIND (M q)) x' P2 ltac:(destruct Ox' as [Q|[[Q1 Q2]|[Q1 Q2]]]; [auto|right; left; split; [apply A2; exact Q1|exact Q2]|right; right; split; [apply B2; exact Q1|exact Q2]])) as K2.
    cbn zeta in K1, K2. rewrite EX in K1. set (g := x' + PE_XIND (M q) * mx) in *. clear -K1 K2.
    destruct (Z_lt_ge_dec g mxg); [lia|]. destruct (Z_lt_ge_dec g (mxg + X * mx)); lia. }
  rewrite PX in EX. rewrite PY in EY. split; [|lia].
  pose proof (d_rank _ _ _ D) as RK. pose proof (d_rank _ _ _ D') as RK'. rewrite E1 in RK. rewrite G1 in RK'. rewrite PX, PY in RK. congruence.
Qed.

Context (sortf : list sind -> list sind) (nz mb : Z) (cc : bool) (ST : Z -> stencil).
Hypothesis HS : std_sort_contract sortf. Hypothesis Hnz : 0 < nz. Hypothesis Hmb : 0 < mb.
Hypothesis FT : forall r, 0 <= r < npes -> fits (ST r) (M r) nz.

Lemma regions_of r : 0 <= r < npes -> exists rs, mesh_regions sortf nz 0 (nz - 1) mb (M r) (C r) cc per = Ok rs /\
  exists J, indexer_regions sortf (ST r) rs = Ok J /\
  enumerates (regionAll J) (LocalNy (M r)) nz (numbered (ST r) (M r) nz cc per ix1 ix2) /\ increasing (map ind (indices (regionAll J))) /\
  enumerates (regionBndry J) (LocalNy (M r)) nz (bndry_numbered (M r) nz cc per ix1 ix2 (ST r)) /\ increasing (map ind (indices (regionBndry J))) /\
  exists g, getRegion "RGN_GUARDS" rs = Ok g /\ enumerates g (LocalNy (M r)) nz (fun x y z => 0 <= x < LocalNx (M r) /\ 0 <= y < LocalNy (M r) /\ 0 <= z < nz /\ ~ interior (M r) nz x y z).
Proof.
  intros Hr. destruct (C68_standard_regions npes nx ny mxg myg s user ix1 ix2 per M C core L R sortf nz 0 (nz - 1) mb cc r Hr HS Hnz ltac:(lia) ltac:(lia) ltac:(lia) Hmb) as (rs & E & H).
  exists rs. split; [exact E|].
  destruct (fam _ _ _ _ _ _ _ _ _ _ _ _ _ L r Hr) as (D & E1 & E2 & E3 & E4 & E5 & E6 & E7 & E8 & E9). destruct L as (_ & _ & Hmx & Hmy & _).
  pose proof (d_lnx _ _ _ D). pose proof (d_lny _ _ _ D). pose proof (d_xs _ _ _ D). pose proof (d_xe _ _ _ D). pose proof (d_ys _ _ _ D). pose proof (d_ye _ _ _ D).
  pose proof (d_mxsub _ _ _ D). pose proof (d_mysub _ _ _ D).
  destruct (indexer_ok (M r) nz cc per ix1 ix2 (ST r) rs sortf Hnz ltac:(lia) HS ltac:(lia) ltac:(lia) (FT r Hr)) as (J & EJ & A1 & A2 & A3 & A4 & _).
  { intros n P HIn. apply H. cbn [In] in HIn. unfold standard_regions. cbv zeta. cbn [In].
    destruct HIn as [<-|[<-|[<-|[<-|[<-|[]]]]]]; tauto. }
  exists J. split; [exact EJ|]. split; [exact A1|]. split; [exact A2|]. split; [exact A3|]. split; [exact A4|].
  destruct (H "RGN_GUARDS" (fun x y z => (anyx (M r) x /\ anyy (M r) y /\ 0 <= z < nz) /\ ~ (inx (M r) x /\ iny_ (M r) y /\ 0 <= z <= nz - 1)))%string as (g & EG & NG);
    [unfold standard_regions; cbv zeta; cbn [In]; tauto|].
  exists g. split; [exact EG|]. eapply enum_ext; [|exact NG]. intros x y z. unfold anyx, anyy, interior.
  assert (K : 0 <= z <= nz - 1 <-> 0 <= z < nz) by lia. rewrite K. tauto.
Qed.

Variable I : Z -> indexer.
Hypothesis HI : forall r, 0 <= r < npes -> exists rs, mesh_regions sortf nz 0 (nz - 1) mb (M r) (C r) cc per = Ok rs /\ indexer_regions sortf (ST r) rs = Ok (I r).
Notation numb r := (numbered (ST r) (M r) nz cc per ix1 ix2).
Notation num r x y z := (dat (own_field I (LocalNy (M r)) nz r) x y z).

Lemma all_of r : 0 <= r < npes -> enumerates (regionAll (I r)) (LocalNy (M r)) nz (numb r) /\ increasing (map ind (indices (regionAll (I r)))).
Proof.
  intros Hr. destruct (HI r Hr) as (rs & E1 & E2). destruct (regions_of r Hr) as (rs' & E1' & J & E2' & A & B & _).
  rewrite E1 in E1'. injection E1' as <-. rewrite E2 in E2'. injection E2' as <-. auto.
Qed.
Lemma numb_inr r x y z : 0 <= r < npes -> numb r x y z -> 0 <= x < LocalNx (M r) /\ 0 <= y < LocalNy (M r) /\ 0 <= z < nz.
Proof.
  intros Hr. destruct (fam _ _ _ _ _ _ _ _ _ _ _ _ _ L r Hr) as (D & E1 & E2 & E3 & E4 & E5 & E6 & E7 & E8 & E9). destruct L as (_ & _ & Hmx & Hmy & _).
  pose proof (d_lnx _ _ _ D). pose proof (d_lny _ _ _ D). pose proof (d_xs _ _ _ D). pose proof (d_xe _ _ _ D). pose proof (d_ys _ _ _ D). pose proof (d_ye _ _ _ D).
  pose proof (d_mxsub _ _ _ D). pose proof (d_mysub _ _ _ D).
  intros [(A & B & C0)|[_ (x' & y' & z' & part & o & A & HO & Ho & -> & -> & ->)]].
  - unfold inx, iny_ in *. lia.
  - destruct (proj1 (FT r Hr) x' y' z' part o A HO Ho). destruct A as (A1 & A2 & A3). unfold inx, iny_ in *.
    pose proof (Z.mod_pos_bound (z' + odz o) nz Hnz). lia.
Qed.

(** Numbered cells are the elements of regionAll. *)
Lemma nth_num r n i : 0 <= r < npes -> nth_error (indices (regionAll (I r))) n = Some i ->
  exists x y z, numb r x y z /\ i = pt (LocalNy (M r)) nz x y z /\ num r x y z = globalStart I r + Z.of_nat n.
Proof.
  intros Hr Hn. destruct (all_of r Hr) as ((N & A & B) & _). pose proof (nth_error_In _ _ Hn) as Hi.
  destruct (proj1 (B (ind i))) as (x & y & z & HP & E); [apply in_map; exact Hi|]. exists x, y, z. split; [exact HP|].
  split; [unfold pt; rewrite <- E; apply (keys_pts _ _ _ _ A Hi)|].
  cbn [own_field dat]. change (tensor_flat (LocalNy (M r)) nz x y z) with (flat (LocalNy (M r)) nz x y z). rewrite <- E.
  unfold own_indices. apply (proj1 (assign_spec _ _ _ N)). exact Hn.
Qed.
Lemma num_nth r x y z : 0 <= r < npes -> numb r x y z ->
  exists n, nth_error (indices (regionAll (I r))) n = Some (pt (LocalNy (M r)) nz x y z) /\ num r x y z = globalStart I r + Z.of_nat n.
Proof.
  intros Hr HP. destruct (all_of r Hr) as ((N & A & B) & _).
  assert (Hk : In (flat (LocalNy (M r)) nz x y z) (map ind (indices (regionAll (I r))))) by (apply B; exists x, y, z; auto).
  apply in_map_iff in Hk. destruct Hk as (i & E & Hi). pose proof (keys_pts _ _ _ _ A Hi) as EI. rewrite E in EI.
  destruct (In_nth_error _ _ Hi) as (n & Hn). exists n. split; [rewrite Hn, EI; reflexivity|].
  cbn [own_field dat]. change (tensor_flat (LocalNy (M r)) nz x y z) with (flat (LocalNy (M r)) nz x y z). rewrite <- E.
  unfold own_indices. apply (proj1 (assign_spec _ _ _ N)). exact Hn.
Qed.
Lemma num_range r x y z : 0 <= r < npes -> numb r x y z -> globalStart I r <= num r x y z <= globalEnd I r.
Proof.
  intros Hr HP. destruct (num_nth r x y z Hr HP) as (n & Hn & ->). pose proof (nth_error_Some (indices (regionAll (I r))) n) as K.
  unfold globalStart, globalEnd, idx_size. assert (lt n (List.length (indices (regionAll (I r))))) by (apply K; congruence). lia.
Qed.
Lemma num_none r x y z : 0 <= r < npes -> 0 <= x -> 0 <= y < LocalNy (M r) -> 0 <= z < nz -> ~ numb r x y z -> num r x y z = -1.
Proof.
  intros Hr Hx Hy Hz HN. destruct (all_of r Hr) as ((N & A & B) & _). cbn [own_field dat]. unfold own_indices.
  rewrite (proj2 (assign_spec _ _ _ N)); [reflexivity|]. rewrite B. intros (x' & y' & z' & HP & E). apply HN.
  destruct (numb_inr r x' y' z' Hr HP) as (? & ? & ?).
  destruct (flat_inj (LocalNy (M r)) nz x y z x' y' z') as (-> & -> & ->); try lia; auto.
Qed.

End P.

(** * Communication *)
Section Q.
Context (npes nx ny mxg myg : Z) (s : yseps) (user : option (Z + Z)) (ix1 ix2 : Z) (per : bool)
        (M : Z -> mesh) (C : Z -> conn) (core : Z -> bool).
Hypothesis L : loaded npes nx ny mxg myg s user ix1 ix2 per M C core.
Hypothesis R : regular ny (MYSUB (M 0)) (seps (M 0)).
Context (nz : Z) (I : Z -> indexer).
Notation num r x y z := (dat (own_field I (LocalNy (M r)) nz r) x y z).
Definition W_idx (r : Z) : list (field Z) := [own_field I (LocalNy (M r)) nz r].
Definition cells_of_all : list (Z * Z * Z) := list_prod (list_prod (CommModel.zrange 0 npes) (CommModel.zrange 0 (LocalNx (M 0)))) (CommModel.zrange 0 (LocalNy (M 0))).
Definition owner_test (xg yg : Z) (c : Z * Z * Z) : bool :=
  match c with (r, x, y) => own_b (M r) (C r) x && (0 <=? x) && (x <? LocalNx (M r)) && (ystart (M r) <=? y) && (y <=? yend (M r)) &&
     (getGlobalXIndex (M r) x =? xg) && (getGlobalYIndexNoBoundaries (M r) y =? yg) end.
Definition F_idx (k : nat) (xg yg z : Z) : option Z :=
  match k with
  | O => match find (owner_test xg yg) cells_of_all with Some (r, x, y) => Some (num r x y z) | None => None end
  | _ => None
  end.
Lemma own_b_spec r x : 0 <= r < npes -> 0 <= x < LocalNx (M r) -> own_b (M r) (C r) x = true <-> owned_x (M r) (C r) x.
Proof.
  intros Hr Hx. unfold own_b, owned_x. rewrite !orb_true_iff, !andb_true_iff, !Z.leb_le, !Z.ltb_lt, !Z.eqb_eq. lia.
Qed.
Lemma test_spec xg yg r x y : 0 <= r < npes -> owner_test xg yg (r, x, y) = true <->
  (owned_x (M r) (C r) x /\ ystart (M r) <= y <= yend (M r) /\ getGlobalXIndex (M r) x = xg /\ getGlobalYIndexNoBoundaries (M r) y = yg).
Proof.
  intros Hr. unfold owner_test. rewrite !andb_true_iff, !Z.leb_le, Z.ltb_lt, !Z.eqb_eq. split.
  - intros H. rewrite <- own_b_spec; [|exact Hr|lia]. tauto.
  - intros (A & B & D & E). pose proof (owned_range _ _ _ _ _ _ _ _ _ _ _ _ _ L r x Hr A) as Q. rewrite own_b_spec by assumption. tauto.
Qed.
Lemma in_cells r x y : 0 <= r < npes -> 0 <= x < LocalNx (M r) -> 0 <= y < LocalNy (M r) -> In (r, x, y) cells_of_all.
Proof.
  intros Hr Hx Hy. unfold cells_of_all. assert (H0 : 0 <= 0 < npes) by lia.
  destruct (CommProofs4.rows _ _ _ _ _ _ _ _ _ _ _ _ _ L r Hr) as (Y1 & Y2 & Y3 & Y4). destruct (CommProofs4.rows _ _ _ _ _ _ _ _ _ _ _ _ _ L 0 H0) as (Z1 & Z2 & Z3 & Z4).
  apply in_prod; [apply in_prod|]; apply CommProofs.zrange_in; lia.
Qed.
Lemma find_owner r x y xg yg : 0 <= r < npes -> owned_x (M r) (C r) x -> ystart (M r) <= y <= yend (M r) ->
  getGlobalXIndex (M r) x = xg -> getGlobalYIndexNoBoundaries (M r) y = yg -> find (owner_test xg yg) cells_of_all = Some (r, x, y).
Proof.
  intros Hr Ho Hy EX EY. assert (T : owner_test xg yg (r, x, y) = true) by (apply test_spec; auto).
  pose proof (owned_range _ _ _ _ _ _ _ _ _ _ _ _ _ L r x Hr Ho) as Q.
  destruct (CommProofs4.rows _ _ _ _ _ _ _ _ _ _ _ _ _ L r Hr) as (Y1 & Y2 & Y3 & Y4). destruct L as (_ & _ & _ & Hmy & _).
  assert (HIn : In (r, x, y) cells_of_all) by (apply in_cells; [exact Hr|exact Q|lia]).
  destruct (find (owner_test xg yg) cells_of_all) as [[[r' x'] y']|] eqn:EF.
  - apply find_some in EF. destruct EF as [H1 H2]. unfold cells_of_all in H1. rewrite !in_prod_iff in H1. destruct H1 as [[H1 _] _].
    apply CommProofs.zrange_in in H1. apply test_spec in H2; [|lia]. destruct H2 as (A & B & D & E).
    destruct (owner_unique _ _ _ _ _ _ _ _ _ _ _ _ _ L R r r' x x' y y') as (-> & -> & ->); auto; try lia; try congruence.
  - exfalso. pose proof (find_none _ _ EF _ HIn). congruence.
Qed.
Lemma holds_idx : holds npes nz M C W_idx F_idx.
Proof.
  intros r k x y z Hr Ho Hy Hz. destruct k as [|k]; [|destruct k; discriminate Hz].
  unfold val, F_idx. cbn [W_idx nth_error]. rewrite (find_owner r x y _ _ Hr Ho Hy eq_refl eq_refl). reflexivity.
Qed.
End Q.
