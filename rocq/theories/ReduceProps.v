(** Property theorem C77 (min, max, mean and uniformity of a field). *)
From Coq Require Import ZArith Reals List Bool Permutation Lia Lra.
From Verif Require Import Base RegionModel RegionSpec MeshModel ReduceModel ReduceSpec ReduceProofs ReduceProofs2.
Import ListNotations.
Open Scope Z_scope.

(** ** C77. On any region with a cell on every rank, for every distribution of the region's blocks over threads and every order
    of the ranks: the least and the greatest value, over all ranks or on this one. *)
Theorem C77_min ranks rg s f r : ranks <> [] -> In r ranks -> (forall q, In q ranks -> good_region (rg q) /\ allowed (rg q) (s q) /\ cells (rg q) <> []) ->
  (exists v, fmin ranks rg s f true r = Ok v /\ is_least (values ranks rg f) v) /\
  (exists v, fmin ranks rg s f false r = Ok v /\ is_least (values [r] rg f) v).
Proof.
  intros N Hr H. split.
  - apply (extreme_ok Rlt Rlt_dec Rle); auto using Rle_refl, Rlt_le, Rnot_lt_le. intros; eapply Rle_trans; eauto.
  - unfold values. cbn [flat_map]. rewrite app_nil_r. destruct (H r Hr) as (A & B & C).
    apply (extreme_local_ok Rlt Rlt_dec Rle); auto using Rle_refl, Rlt_le, Rnot_lt_le. intros; eapply Rle_trans; eauto.
Qed.
Theorem C77_max ranks rg s f r : ranks <> [] -> In r ranks -> (forall q, In q ranks -> good_region (rg q) /\ allowed (rg q) (s q) /\ cells (rg q) <> []) ->
  (exists v, fmax ranks rg s f true r = Ok v /\ is_greatest (values ranks rg f) v) /\
  (exists v, fmax ranks rg s f false r = Ok v /\ is_greatest (values [r] rg f) v).
Proof.
  intros N Hr H.
  assert (T : forall a b c : R, (b <= a)%R -> (c <= b)%R -> (c <= a)%R) by (intros; lra).
  split.
  - apply (extreme_ok Rgt _ (fun a b => (b <= a)%R)); auto using Rle_refl; intros; lra.
  - unfold values. cbn [flat_map]. rewrite app_nil_r. destruct (H r Hr) as (A & B & C).
    apply (extreme_local_ok Rgt _ (fun a b => (b <= a)%R)); auto using Rle_refl; intros; lra.
Qed.
(** The mean, on any region with at least one cell on some rank. *)
Theorem C77_mean ranks rg s f r : (forall q, In q ranks -> good_region (rg q) /\ allowed (rg q) (s q)) -> In r ranks ->
  (values ranks rg f <> [] -> exists v, mean ranks rg s f true r = Some v /\ is_mean (values ranks rg f) v) /\
  (values [r] rg f <> [] -> exists v, mean ranks rg s f false r = Some v /\ is_mean (values [r] rg f) v).
Proof.
  intros H Hr. split; intros N.
  - rewrite mean_all by assumption. replace (Z.of_nat (length (values ranks rg f)) =? 0) with false; [eexists; split; [reflexivity|]; now apply is_mean_div|].
    symmetry. apply Z.eqb_neq. destruct (values ranks rg f); [contradiction|cbn [length]; lia].
  - unfold mean. destruct (H r Hr) as [A B]. rewrite (sum_count_ok _ _ _ A B). unfold values in *. cbn [flat_map] in *. rewrite app_nil_r in *.
    rewrite <- (map_length (f r)). replace (Z.of_nat (length (map (f r) (cells (rg r)))) =? 0) with false; [eexists; split; [reflexivity|]; now apply is_mean_div|].
    symmetry. apply Z.eqb_neq. destruct (map (f r) (cells (rg r))); [contradiction|cbn [length]; lia].
Qed.
(** On the default region, over all ranks, the reductions of the part of a function that is on each rank are those of the
    function on the whole grid: they do not depend on the number of processors, the decomposition or the threads. *)
Theorem C77_decomposition npes nx ny mxg myg nz maxsz s user (M : Z -> mesh) (F : Z -> Z -> Z -> R) ranks rg sch f r :
  0 < npes -> 0 < ny -> 0 <= mxg -> 0 <= myg -> 0 < nz -> 0 < maxsz ->
  (forall q, 0 <= q < npes -> load_decomposition npes q nx ny mxg myg s user = Ok (M q)) ->
  Permutation ranks (upto npes) -> 0 <= r < npes ->
  (forall q, 0 <= q < npes -> nobndry (M q) nz maxsz = Ok (rg q) /\ allowed (rg q) (sch q)) ->
  (forall q x y z, 0 <= q < npes -> xstart (M q) <= x <= xend (M q) -> ystart (M q) <= y <= yend (M q) -> 0 <= z < nz ->
     f q (flat (LocalNy (M q)) nz x y z) = F (getGlobalXIndexNoBoundaries (M q) x) (getGlobalYIndexNoBoundaries (M q) y) z) ->
  let all := map (fun p => F (fst (fst p)) (snd (fst p)) (snd p)) (grid_points (nx - 2 * mxg) ny nz) in
  (exists v, fmin ranks rg sch f true r = Ok v /\ is_least all v) /\ (exists v, fmax ranks rg sch f true r = Ok v /\ is_greatest all v) /\
  (exists v, mean ranks rg sch f true r = Some v /\ is_mean all v).
Proof.
  intros Hn Hny Hmxg Hmyg Hnz Hmb HM P Hr HR HF all.
  pose proof (values_grid npes nx ny mxg myg nz maxsz s user M Hn Hny Hmxg Hmyg Hnz Hmb HM ranks rg f F P (fun q H => proj1 (HR q H)) HF) as V. fold all in V.
  assert (IR : forall q, In q ranks <-> 0 <= q < npes). { intros q. rewrite <- in_upto. split; apply Permutation_in; [exact P|apply Permutation_sym, P]. }
  assert (G : forall q, In q ranks -> good_region (rg q) /\ allowed (rg q) (sch q) /\ cells (rg q) <> []).
  { intros q Hq. apply IR in Hq. destruct (HR q Hq) as [E A]. destruct (nobndry_ok npes nx ny mxg myg nz maxsz s user M Hny Hmxg Hmyg Hnz Hmb HM q Hq) as (g & E' & B & _ & C & _).
    rewrite E in E'. injection E' as <-. auto. }
  assert (Hr' : In r ranks) by (apply IR, Hr). assert (N : ranks <> []) by (intros ->; destruct Hr').
  destruct (C77_min ranks rg sch f r N Hr' G) as [(v1 & E1 & A1 & B1) _]. destruct (C77_max ranks rg sch f r N Hr' G) as [(v2 & E2 & A2 & B2) _].
  assert (IN : forall x, In x (values ranks rg f) <-> In x all). { intros x. split; apply Permutation_in; [exact V|apply Permutation_sym, V]. }
  split; [|split].
  - exists v1. split; [exact E1|]. split; [apply IN, A1|]. intros x Hx. apply B1, IN, Hx.
  - exists v2. split; [exact E2|]. split; [apply IN, A2|]. intros x Hx. apply B2, IN, Hx.
  - destruct (C77_mean ranks rg sch f r (fun q H => conj (proj1 (G q H)) (proj1 (proj2 (G q H)))) Hr') as [K _].
    destruct K as (v & E & A & B); [intros C; rewrite C in A1; exact A1|]. exists v. split; [exact E|].
    rewrite (Permutation_length V), (total_perm _ _ V) in B. split; [|exact B]. intros C. rewrite C in V. apply Permutation_sym, Permutation_nil in V. contradiction.
Qed.
(** isUniform on one rank, for a comparison that is exact or better; getUniform is then the common value. *)
Theorem C77_uniform_local almost chk ranks rg f r : good_region (rg r) -> cells (rg r) <> [] -> (forall a b, almost a b = true -> a = b) ->
  (isUniform almost ranks rg f false r = Ok true /\ all_equal (values [r] rg f) /\ exists v, getUniform almost chk ranks rg f false r = Ok v /\ forall x, In x (values [r] rg f) -> x = v) \/
  (isUniform almost ranks rg f false r = Ok false /\ ~ all_equal (values [r] rg f) /\ (1 < chk -> getUniform almost chk ranks rg f false r = Throw)).
Proof.
  intros G N HA. unfold getUniform, isUniform, uniform_local, values, all_equal. cbn [flat_map]. rewrite app_nil_r. unfold cells in N |- *. unfold good_region, cells in G.
  destruct (indices (rg r)) as [|i0 t] eqn:E; [contradiction|].
  set (test := fun i : sind => _). destruct (forallb test (getRegionIndices (blocks (rg r)))) eqn:T.
  - left. split; [reflexivity|].
    assert (K : forall k, In k (map ind (i0 :: t)) -> f r k = f r (ind i0)).
    { intros k Hk. rewrite <- G in Hk. apply in_map_iff in Hk. destruct Hk as (i & <- & Hi). rewrite forallb_forall in T. specialize (T i Hi). unfold test in T.
      destruct (Req_EM_T (f r (ind i)) (f r (ind i0))); [assumption|]. apply HA, T. }
    assert (K' : forall x, In x (map (f r) (map ind (i0 :: t))) -> x = f r (ind i0)) by (intros x Hx; apply in_map_iff in Hx; destruct Hx as (k & <- & Hk); now apply K).
    split; [intros x y Hx Hy; rewrite (K' x Hx), (K' y Hy); reflexivity|]. exists (f r (ind i0)). split; [destruct (1 <? chk); reflexivity|exact K'].
  - right. split; [reflexivity|]. split.
    + intros C. enough (forallb test (getRegionIndices (blocks (rg r))) = true) by congruence. apply forallb_forall. intros i Hi. unfold test.
      destruct (Req_EM_T (f r (ind i)) (f r (ind i0))) as [_|D]; [reflexivity|]. exfalso. apply D. apply C.
      * apply in_map. rewrite <- G. now apply in_map.
      * now left.
    + intros Hc. replace (1 <? chk) with true by (symmetry; apply Z.ltb_lt; exact Hc). reflexivity.
Qed.
(** With allpe, isUniform is true when the field is uniform on any one rank (MPI_LOR), and different ranks are not compared. *)
Definition two_cells : Z -> region := fun _ => region_of_indices [mkInd 0 1 1; mkInd 1 1 1] 64.
Definition exact (a b : R) : bool := if Req_EM_T a b then true else false.
Theorem C77_uniform_allpe_refuted :
  (exists f, (~ all_equal (values [1] two_cells f)) /\ isUniform exact [0; 1] two_cells f true 0 = Ok true) /\
  (exists f, (forall q, all_equal (values [q] two_cells f)) /\ ~ all_equal (values [0; 1] two_cells f) /\ isUniform exact [0; 1] two_cells f true 0 = Ok true /\
     getUniform exact 3 [0; 1] two_cells f true 0 = Ok 0%R /\ getUniform exact 3 [0; 1] two_cells f true 1 = Ok 1%R).
Proof.
  split.
  - exists (fun q k => IZR (q * k)). split.
    + intros C. specialize (C (IZR (1 * 0)) (IZR (1 * 1))). assert (IZR (1 * 0) = IZR (1 * 1)) as H by (apply C; vm_compute; auto). apply eq_IZR in H. discriminate.
    + unfold isUniform, all_op, on_all, uniform_local, exact. cbn [two_cells region_of_indices indices blocks]. unfold forallb, getRegionIndices. cbn [flat_map getContiguousBlocks]. 
      unfold bind. cbn -[Req_EM_T]. destruct (Req_EM_T 0 0) as [_|N]; [|contradiction]. cbn -[Req_EM_T].
      repeat match goal with |- context [Req_EM_T ?a ?b] => destruct (Req_EM_T a b) end; reflexivity.
  - exists (fun q _ => IZR q).
    assert (U : isUniform exact [0; 1] two_cells (fun q _ => IZR q) true 0 = Ok true).
    { unfold isUniform, all_op, on_all, uniform_local, exact. cbn -[Req_EM_T]. destruct (Req_EM_T 0 0) as [_|N]; [|contradiction]. reflexivity. }
    assert (U1 : isUniform exact [0; 1] two_cells (fun q _ => IZR q) true 1 = Ok true) by exact U.
    split; [|split; [|split; [exact U|split]]].
    + intros q x y Hx Hy. cbn in Hx, Hy. intuition congruence.
    + intros C. specialize (C 0%R 1%R). assert (0 = 1)%R by (apply C; cbn; auto). lra.
    + unfold getUniform. change (1 <? 3) with true. cbv iota. rewrite U. reflexivity.
    + unfold getUniform. change (1 <? 3) with true. cbv iota. rewrite U1. reflexivity.
Qed.
(** min and max over all ranks read the first element of an empty vector on a rank where the region has no cell. *)
Theorem C77_empty_region_refuted ranks rg s f r q : In q ranks -> cells (rg q) = [] ->
  fmin ranks rg s f true r = UB /\ fmax ranks rg s f true r = UB.
Proof.
  intros Hq E.
  assert (K : forall less dec, extreme less dec ranks rg s f true r = UB).
  { intros less dec. unfold extreme, all_op. replace (on_all ranks _) with (@UB (list R)); [reflexivity|].
    induction ranks as [|a t IH]; [destruct Hq|]. cbn [on_all].
    assert (EL : forall p, (exists v, extreme_local less dec (rg p) (s p) (f p) = Ok v) \/ extreme_local less dec (rg p) (s p) (f p) = UB).
    { intros p. unfold extreme_local. destruct (indices (rg p)); [now right|]. destruct (reduce _ _ _ _ _ _); [left; eauto|now right]. }
    destruct Hq as [->|Hq]; [rewrite extreme_local_empty by assumption; reflexivity|].
    destruct (EL a) as [(v & ->)| ->]; cbn [bind]; [|reflexivity]. rewrite <- (IH Hq). reflexivity. }
  split; apply K.
Qed.
Print Assumptions C77_min.
Print Assumptions C77_max.
Print Assumptions C77_mean.
Print Assumptions C77_decomposition.
Print Assumptions C77_uniform_local.
Print Assumptions C77_uniform_allpe_refuted.
Print Assumptions C77_empty_region_refuted.
(** Non-vacuity: four processors, 2 by 2 points each, nz = 3, blocks of at most 2 cells, dealt to two threads in reverse. *)
Example C77_case : forall q, 0 <= q < 4 -> exists m rg,
  load_decomposition 4 q 6 4 1 1 (mkyseps (-1) 1 1 3 2) (Some (inl 2)) = Ok m /\ nobndry m 3 2 = Ok rg /\
  allowed rg (Threads [rev (skipn 3 (blocks rg)); rev (firstn 3 (blocks rg))]) /\ List.length (blocks rg) = 6%nat /\ List.length (cells rg) = 12%nat.
Proof.
  intros q Hq. assert (q = 0 \/ q = 1 \/ q = 2 \/ q = 3) as [->|[->|[->| ->]]] by lia.
  all: eexists; eexists; split; [vm_compute; reflexivity|]; split; [vm_compute; reflexivity|]; split; [|split; vm_compute; reflexivity].
  all: unfold allowed; cbn [concat]; rewrite app_nil_r; rewrite <- !Permutation_rev; rewrite Permutation_app_comm; rewrite firstn_skipn; reflexivity.
Qed.
