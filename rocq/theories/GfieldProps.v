(** C81: gathering a distributed field into one array and scattering it again. *)
From Coq Require Import ZArith List Bool Lia.
From Verif Require Import Base MeshModel MeshProofs MeshProps AverageModel GfieldModel GfieldSpec GfieldProofs.
Import ListNotations.
Open Scope Z_scope.

(** gather on rank [d]: whatever the order in which the messages of the other ranks arrive, the array holds the value of every
    owned cell of every rank at its global position. *)
Theorem C81_gather npes nx ny mxg myg s user M (V : Type) nz d (f : Z -> Z -> Z -> Z -> V) order junk g :
  ranks npes nx ny mxg myg s user M -> 0 < nz -> 0 <= d < npes ->
  NoDup order -> (forall p, In p order <-> 0 <= p < npes /\ p <> d) ->
  exists g', gather V M npes nz d f order junk g = Ok g' /\
    forall p x y z, 0 <= p < npes -> owned (M p) x y -> 0 <= z < nz ->
      holds ny nz g' (getGlobalXIndex (M p) x) (getGlobalYIndexNoBoundaries (M p) y) z (f p x y z).
Proof. intros HR Hz Hd ND HO. exact (gather_ok npes nx ny mxg myg s user M HR V nz Hz d f order junk g Hd ND HO). Qed.

(** The owned cells of the ranks partition the global grid, with its x boundaries and without its y boundaries. *)
Theorem C81_partition npes nx ny mxg myg s user M :
  ranks npes nx ny mxg myg s user M ->
  (forall p x y, 0 <= p < npes -> owned (M p) x y -> 0 <= getGlobalXIndex (M p) x < nx /\ 0 <= getGlobalYIndexNoBoundaries (M p) y < ny) /\
  (forall gx gy, 0 <= gx < nx -> 0 <= gy < ny -> exists p x y, 0 <= p < npes /\ owned (M p) x y /\
     getGlobalXIndex (M p) x = gx /\ getGlobalYIndexNoBoundaries (M p) y = gy) /\
  (forall p x y p' x' y', 0 <= p < npes -> 0 <= p' < npes -> owned (M p) x y -> owned (M p') x' y' ->
     getGlobalXIndex (M p) x = getGlobalXIndex (M p') x' -> getGlobalYIndexNoBoundaries (M p) y = getGlobalYIndexNoBoundaries (M p') y' ->
     p = p' /\ x = x' /\ y = y').
Proof.
  intros HR. split; [|split].
  - intros p x y Hp Ho. apply (owned_iff npes nx ny mxg myg s user M HR p x y Hp) in Ho.
    destruct (global_xy npes nx ny mxg myg s user M HR p x y Hp) as (-> & ->).
    destruct (global_range npes nx ny mxg myg s user M HR p _ _ Hp (proj1 Ho) (proj2 Ho)). lia.
  - exact (covered npes nx ny mxg myg s user M HR).
  - intros p x y p' x' y' Hp Hp' Ho Ho' E1 E2.
    apply (owned_iff npes nx ny mxg myg s user M HR p x y Hp) in Ho. apply (owned_iff npes nx ny mxg myg s user M HR p' x' y' Hp') in Ho'.
    destruct (global_xy npes nx ny mxg myg s user M HR p x y Hp) as (X1 & Y1). destruct (global_xy npes nx ny mxg myg s user M HR p' x' y' Hp') as (X2 & Y2).
    rewrite X1, X2 in E1. rewrite Y1, Y2 in E2.
    destruct (global_inj npes nx ny mxg myg s user M HR p p' _ _ _ _ Hp Hp' (proj1 Ho) (proj2 Ho) (proj1 Ho') (proj2 Ho')) as (-> & A & B); [lia|lia|]. lia.
Qed.

(** The gathered array does not depend on the decomposition: if the ranks hold pieces of one function F of the global
    position, the array is F at every point. *)
Theorem C81_decomposition npes nx ny mxg myg s user M (V : Type) nz d (F : Z -> Z -> Z -> V) (f : Z -> Z -> Z -> Z -> V) order junk g g' :
  ranks npes nx ny mxg myg s user M -> 0 < nz -> 0 <= d < npes ->
  NoDup order -> (forall p, In p order <-> 0 <= p < npes /\ p <> d) ->
  (forall p x y z, 0 <= p < npes -> owned (M p) x y -> 0 <= z < nz -> f p x y z = F (getGlobalXIndex (M p) x) (getGlobalYIndexNoBoundaries (M p) y) z) ->
  gather V M npes nz d f order junk g = Ok g' ->
  forall gx gy z, 0 <= gx < nx -> 0 <= gy < ny -> 0 <= z < nz -> holds ny nz g' gx gy z (F gx gy z).
Proof.
  intros HR Hz Hd ND HO HF E gx gy z Hx Hy Hz'.
  destruct (C81_gather npes nx ny mxg myg s user M V nz d f order junk g HR Hz Hd ND HO) as (g2 & E2 & H). rewrite E in E2. injection E2 as <-.
  destruct (covered npes nx ny mxg myg s user M HR gx gy Hx Hy) as (p & x & y & Hp & Ho & <- & <-). rewrite <- HF by assumption. apply H; assumption.
Qed.

(** scatter of the array of rank [d]: the owned cells of every rank get the value at their global position. The other cells
    (guard cells between processors, all y guard cells and boundaries) keep what was in the memory of the new field. *)
Theorem C81_scatter npes nx ny mxg myg s user M (V : Type) nz d r (g : Z -> V) jb junk :
  ranks npes nx ny mxg myg s user M -> 0 < nz -> 0 <= d < npes -> 0 <= r < npes ->
  exists f', scatter V M nz d r g jb junk = Ok f' /\
  (forall x y z, owned (M r) x y -> 0 <= z < nz -> holds ny nz g (getGlobalXIndex (M r) x) (getGlobalYIndexNoBoundaries (M r) y) z (f' x y z)) /\
  (forall x y z, ~ (owned (M r) x y /\ 0 <= z < nz) -> f' x y z = junk x y z).
Proof. intros HR Hz Hd Hr. exact (scatter_ok npes nx ny mxg myg s user M HR V nz d r g jb junk Hd Hr). Qed.

(** Scattering what was gathered gives the field back. *)
Theorem C81_roundtrip npes nx ny mxg myg s user M (V : Type) nz d r (f : Z -> Z -> Z -> Z -> V) order junk g jb jf :
  ranks npes nx ny mxg myg s user M -> 0 < nz -> 0 <= d < npes -> 0 <= r < npes ->
  NoDup order -> (forall p, In p order <-> 0 <= p < npes /\ p <> d) ->
  exists f', (do g' <- gather V M npes nz d f order junk g; scatter V M nz d r g' jb jf) = Ok f' /\
    forall x y z, owned (M r) x y -> 0 <= z < nz -> f' x y z = f r x y z.
Proof.
  intros HR Hz Hd Hr ND HO. destruct (C81_gather npes nx ny mxg myg s user M V nz d f order junk g HR Hz Hd ND HO) as (g' & -> & H).
  cbn [bind]. destruct (C81_scatter npes nx ny mxg myg s user M V nz d r g' jb jf HR Hz Hd Hr) as (f' & -> & H' & _).
  exists f'. split; [reflexivity|]. intros x y z Ho Hz'. specialize (H' x y z Ho Hz'). specialize (H r x y z Hr Ho Hz'). unfold holds in *. congruence.
Qed.

(** The constructor refuses a processor that does not exist. *)
Theorem C81_bad_processor M npes nz r proc : 0 < gsize nz (M r) -> (construct M npes nz r proc = Throw <-> ~ 0 <= proc < npes) /\
  (construct M npes nz r proc = Ok tt <-> 0 <= proc < npes).
Proof.
  intros H. unfold construct. replace (gsize nz (M r) <=? 0) with false by (symmetry; apply Z.leb_gt; lia).
  destruct (Z.ltb_spec proc 0), (Z.leb_spec npes proc); cbn [orb]; split; split; intros; try discriminate; try reflexivity; lia.
Qed.

(** A scatter is not a whole field: a guard cell of the result is whatever the memory held. *)
Theorem C81_guard_refuted : exists npes nx ny mxg myg s user M nz d r,
  ranks npes nx ny mxg myg s user M /\ 0 < nz /\ 0 <= d < npes /\ 0 <= r < npes /\
  exists x y, 0 <= x < LocalNx (M r) /\ 0 <= y < LocalNy (M r) /\ xstart (M r) <= x <= xend (M r) /\
  forall (g jb : Z -> Z), exists f1 f2, scatter Z M nz d r g jb (fun _ _ _ => 0) = Ok f1 /\ scatter Z M nz d r g jb (fun _ _ _ => 1) = Ok f2 /\ f1 x y 0 <> f2 x y 0.
Proof.
  set (s := mkyseps (-1) 3 3 7 4).
  set (M := fun p => match load_decomposition 2 p 6 8 1 1 s (Some (inr 1)) with Ok m => m | _ => match load_decomposition 2 0 6 8 1 1 s (Some (inr 1)) with Ok m => m | _ => mkmesh 0 0 0 0 0 0 0 0 0 0 0 0 0 0 0 0 0 0 0 0 0 0 s end end).
  exists 2, 6, 8, 1, 1, s, (Some (inr 1)), M, 1, 0, 1.
  assert (HR : ranks 2 6 8 1 1 s (Some (inr 1)) M).
  { split; [lia|]. split; [lia|]. split; [lia|]. split; [lia|]. intros p Hp. assert (p = 0 \/ p = 1) as [->| ->] by lia; reflexivity. }
  split; [exact HR|]. split; [lia|]. split; [lia|]. split; [lia|]. exists 1, 0.
  split; [vm_compute; split; [discriminate|reflexivity]|]. split; [vm_compute; split; [discriminate|reflexivity]|]. split; [vm_compute; split; discriminate|].
  intros g jb. destruct (C81_scatter _ _ _ _ _ _ _ M Z 1 0 1 g jb (fun _ _ _ => 0) HR ltac:(lia) ltac:(lia) ltac:(lia)) as (f1 & E1 & _ & K1).
  destruct (C81_scatter _ _ _ _ _ _ _ M Z 1 0 1 g jb (fun _ _ _ => 1) HR ltac:(lia) ltac:(lia) ltac:(lia)) as (f2 & E2 & _ & K2).
  exists f1, f2. split; [exact E1|]. split; [exact E2|].
  assert (N : ~ (owned (M 1) 1 0 /\ 0 <= 0 < 1)) by (intros ((_ & H) & _); vm_compute in H; destruct H as (H & _); apply H; reflexivity).
  rewrite (K1 _ _ _ N), (K2 _ _ _ N). discriminate.
Qed.

(** A case: six ranks, 2 in x; messages arriving in an arbitrary order; the array computed for a field that numbers its points. *)
Definition mesh6 (p : Z) : res mesh := load_decomposition 6 p 6 12 1 1 (mkyseps (-1) 5 5 11 6) (Some (inl 2)).
Definition mesh_of (r : res mesh) (dflt : mesh) : mesh := match r with Ok m => m | _ => dflt end.
Definition dummy_mesh : mesh := mesh_of (mesh6 0) (mkmesh 0 0 0 0 0 0 0 0 0 0 0 0 0 0 0 0 0 0 0 0 0 0 (mkyseps 0 0 0 0 0)).
Definition M6 (p : Z) : mesh := mesh_of (mesh6 p) dummy_mesh.
Example C81_case : ranks 6 6 12 1 1 (mkyseps (-1) 5 5 11 6) (Some (inl 2)) M6 /\ NoDup [4; 1; 0; 5; 2] /\
  (forall p, In p [4; 1; 0; 5; 2] <-> 0 <= p < 6 /\ p <> 3) /\
  (exists x y, owned (M6 3) x y) /\
  match gather Z M6 6 2 3 (fun p x y z => 1000 * getGlobalXIndex (M6 p) x + 10 * getGlobalYIndexNoBoundaries (M6 p) y + z) [4; 1; 0; 5; 2] (fun _ _ => -7) (fun _ => -8) with
  | Ok g => map g [0; 1; 2; 25; 143] = [0; 1; 10; 1001 + 0; 5000 + 110 + 1] | _ => False end.
Proof.
  split; [|split; [|split; [|split]]].
  - split; [lia|]. split; [lia|]. split; [lia|]. split; [lia|]. intros p Hp.
    assert (p = 0 \/ p = 1 \/ p = 2 \/ p = 3 \/ p = 4 \/ p = 5) as [->|[->|[->|[->|[->| ->]]]]] by lia; reflexivity.
  - repeat constructor; cbn; intuition discriminate.
  - intros p. cbn. lia.
  - exists 1, 1. vm_compute. intuition discriminate.
  - vm_compute. reflexivity.
Qed.

Print Assumptions C81_gather.
Print Assumptions C81_partition.
Print Assumptions C81_decomposition.
Print Assumptions C81_scatter.
Print Assumptions C81_roundtrip.
Print Assumptions C81_bad_processor.
Print Assumptions C81_guard_refuted.
