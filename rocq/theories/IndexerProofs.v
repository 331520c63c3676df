(** Proofs for the global numbering: the regions of one processor. *)
From Coq Require Import ZArith List Bool String Lia Sorted Permutation.
From Verif Require Import Base MeshModel MeshSpec TopoModel TopoSpec RegionModel RegionSpec RegionProofs BoundsModel BoundsSpec BoundsProofs IndexerModel IndexerSpec.
Import ListNotations.
Open Scope Z_scope.

(** * Stencils *)
Lemma part_spec st i p : getStencilPart st i = Ok p <-> offsets_at st i p.
Proof.
  induction st as [|[t q] st IH].
  - split; [discriminate|]. intros (n & test & H & _). destruct n; discriminate.
  - cbn [getStencilPart]. destruct (t i) eqn:E.
    + split.
      * intros H. injection H as <-. exists O, t. split; [reflexivity|]. split; [exact E|]. intros k t' p' Hk. lia.
      * intros (n & test & H & T & F). destruct n as [|n]; [cbn in H; injection H as <- <-; reflexivity|].
        exfalso. rewrite (F O t q) in E; [discriminate|lia|reflexivity].
    + rewrite IH. split.
      * intros (n & test & H & T & F). exists (S n), test. split; [exact H|]. split; [exact T|].
        intros k t' p' Hk HN. destruct k as [|k]; [cbn in HN; injection HN as <- <-; exact E|]. apply (F k t' p'); [lia|exact HN].
      * intros (n & test & H & T & F). destruct n as [|n]; [cbn in H; injection H as <- <-; congruence|].
        exists n, test. split; [exact H|]. split; [exact T|]. intros k t' p' Hk HN. apply (F (S k) t' p'); [lia|exact HN].
Qed.
Lemma offsets_unique st i p q : offsets_at st i p -> offsets_at st i q -> p = q.
Proof. rewrite <- !part_spec. congruence. Qed.

(** * std::set *)
Definition keys (l : list sind) := map ind l.
Definition sset (l : list sind) : Prop := increasing (keys l).
Lemma set_insert_spec i l : sset l ->
  sset (fst (set_insert i l)) /\ (forall k, In k (keys (fst (set_insert i l))) <-> k = ind i \/ In k (keys l)) /\
  (forall j, In j (fst (set_insert i l)) -> j = i \/ In j l) /\
  (snd (set_insert i l) = true <-> ~ In (ind i) (keys l)).
Proof.
  unfold sset, keys, increasing. induction l as [|a l IH]; intros S.
  - cbn. split; [repeat constructor|]. split; [intros; intuition|]. split; [intros; intuition|]. tauto.
  - cbn [map] in S. inversion S as [|? ? S' F]; subst. specialize (IH S'). cbn [set_insert]. unfold iltb.
    destruct (ind i <? ind a) eqn:E1.
    + apply Z.ltb_lt in E1. cbn [fst snd map]. split.
      { constructor; [exact S|]. constructor; [exact E1|]. rewrite Forall_forall in *. intros x Hx. specialize (F x Hx). lia. }
      split; [intros k; cbn [In]; intuition|]. split; [intros j; cbn [In]; intuition|]. split; [|reflexivity]. intros _ [H|H]; [lia|].
      rewrite Forall_forall in F. specialize (F _ H). lia.
    + apply Z.ltb_ge in E1. destruct (ind a <? ind i) eqn:E2.
      * apply Z.ltb_lt in E2. destruct (set_insert i l) as [r b] eqn:ES. cbn [fst snd] in *. destruct IH as (I1 & I2 & I3 & I4). cbn [map]. split.
        { constructor; [exact I1|]. rewrite Forall_forall in *. intros x Hx. apply I2 in Hx. destruct Hx as [->|Hx]; [exact E2|exact (F x Hx)]. }
        split; [intros k; cbn [In]; rewrite I2; intuition|]. split; [intros j; cbn [In]; intros [H|H]; [auto|]; destruct (I3 j H); auto|].
        rewrite I4. cbn [In]. split; [intros H [Q|Q]; [lia|auto]|tauto].
      * apply Z.ltb_ge in E2. assert (ind i = ind a) by lia. cbn [fst snd map]. split; [exact S|].
        split; [intros k; cbn [In]; intuition|]. split; [auto|]. split; [discriminate|]. intros H0. exfalso. apply H0. left. auto.
Qed.
Lemma set_insert_old i l : sset l -> In (ind i) (keys l) -> fst (set_insert i l) = l /\ snd (set_insert i l) = false.
Proof.
  unfold sset, keys, increasing. induction l as [|a l IH]; intros S H; [destruct H|]. cbn [map] in S, H. inversion S as [|? ? S' F]; subst.
  cbn [set_insert]. unfold iltb. destruct (ind i <? ind a) eqn:E1.
  - apply Z.ltb_lt in E1. exfalso. destruct H as [H|H]; [lia|]. rewrite Forall_forall in F. specialize (F _ H). lia.
  - apply Z.ltb_ge in E1. destruct (ind a <? ind i) eqn:E2.
    + apply Z.ltb_lt in E2. destruct H as [H|H]; [lia|]. destruct (IH S' H) as [A B]. destruct (set_insert i l) as [r b]. cbn [fst snd] in *. subst. auto.
    + auto.
Qed.

Lemma sset_of_list (l acc : list sind) : sset acc -> let r := fold_left (fun l i => fst (set_insert i l)) l acc in
  sset r /\ (forall k, In k (keys r) <-> In k (keys l) \/ In k (keys acc)) /\ (forall j, In j r -> In j l \/ In j acc).
Proof.
  revert acc. induction l as [|a l IH]; intros acc S; cbn [fold_left].
  - cbn zeta. split; [exact S|]. split; [intros k; cbn; tauto|auto].
  - destruct (set_insert_spec a acc S) as (A & B & C & _). destruct (IH _ A) as (D & E & F). cbn zeta in *. split; [exact D|]. split.
    + intros k. rewrite E, B. unfold keys. cbn [map In]. intuition.
    + intros j Hj. apply F in Hj. cbn [In]. destruct Hj as [Hj|Hj]; [auto|]. apply C in Hj. intuition.
Qed.

(** insertIndex keeps the new indices among all indices. *)
Definition st_ok (s : list sind * list sind) : Prop := sset (fst s) /\ sset (snd s) /\ (forall k, In k (keys (snd s)) -> In k (keys (fst s))).
Lemma insertIndex_spec i s : st_ok s -> st_ok (insertIndex i s) /\
  (forall k, In k (keys (fst (insertIndex i s))) <-> k = ind i \/ In k (keys (fst s))) /\
  (forall j, In j (fst (insertIndex i s)) -> j = i \/ In j (fst s)).
Proof.
  intros (A & B & C). unfold insertIndex. pose proof (set_insert_spec i (fst s) A) as (D & E & F & G).
  destruct (set_insert i (fst s)) as [all' b] eqn:ES. cbn [fst snd] in *. split; [|split; assumption]. destruct b.
  - destruct (set_insert_spec i (snd s) B) as (D' & E' & _). split; [exact D|]. split; [exact D'|]. cbn [fst snd]. intros k Hk.
    apply E' in Hk. apply E. destruct Hk; auto.
  - split; [exact D|]. split; [exact B|]. cbn [fst snd]. intros k Hk. apply E. auto.
Qed.
Lemma insert_all (l : list sind) : forall s, st_ok s -> let r := fold_left (fun s i => insertIndex i s) l s in
  st_ok r /\ (forall k, In k (keys (fst r)) <-> In k (keys l) \/ In k (keys (fst s))) /\ (forall j, In j (fst r) -> In j l \/ In j (fst s)).
Proof.
  induction l as [|a l IH]; intros s S; cbn [fold_left]; cbn zeta.
  - split; [exact S|]. split; [intros k; cbn; tauto|auto].
  - destruct (insertIndex_spec a s S) as (A & B & C). destruct (IH _ A) as (D & E & F). cbn zeta in *. split; [exact D|]. split.
    + intros k. rewrite E, B. unfold keys. cbn [map In]. intuition.
    + intros j Hj. apply F in Hj. cbn [In]. destruct Hj as [Hj|Hj]; [auto|]. apply C in Hj. intuition.
Qed.
Lemma fold_map {A B C} (f : A -> C -> A) (g : B -> C) (l : list B) : forall a, fold_left (fun a b => f a (g b)) l a = fold_left f (map g l) a.
Proof. induction l; intros; cbn; auto. Qed.

Lemma insert_stencils_spec st : forall is s, st_ok s -> (forall i, In i is -> exists p, offsets_at st i p) ->
  exists r, insert_stencils st is s = Ok r /\ st_ok r /\
    (forall k, In k (keys (fst r)) <-> In k (keys (fst s)) \/ exists i p o, In i is /\ offsets_at st i p /\ In o p /\ k = ind (iadd i o)) /\
    (forall j, In j (fst r) -> In j (fst s) \/ exists i p o, In i is /\ offsets_at st i p /\ In o p /\ j = iadd i o).
Proof.
  induction is as [|a is IH]; intros s S HP; cbn [insert_stencils].
  - exists s. split; [reflexivity|]. split; [exact S|]. split.
    + intros k. split; [auto|]. intros [H|(i & _ & _ & [] & _)]. exact H.
    + auto.
  - destruct (HP a (or_introl eq_refl)) as (p & Hp). rewrite (proj2 (part_spec st a p) Hp). cbn [bind].
    rewrite (fold_map (fun s i => insertIndex i s) (iadd a)).
    destruct (insert_all (map (iadd a) p) s S) as (A & B & C). cbn zeta in *.
    destruct (IH _ A (fun i H => HP i (or_intror H))) as (r & E & D & F & G). exists r. split; [exact E|]. split; [exact D|]. split.
    + intros k. rewrite F, B. unfold keys. rewrite map_map, in_map_iff. split.
      * intros [[(o & <- & Ho)|H]|(i & q & o & H)]; [right|auto|right].
        { exists a, p, o. split; [left; reflexivity|]. auto. }
        { exists i, q, o. destruct H as (H1 & H2). split; [right; exact H1|exact H2]. }
      * intros [H|(i & q & o & [->|H1] & H2 & H3 & H4)]; [auto| |].
        { left. left. rewrite (offsets_unique st i q p H2 Hp) in H3. exists o. auto. }
        { right. exists i, q, o. auto. }
    + intros j Hj. apply G in Hj. destruct Hj as [Hj|(i & q & o & H1 & H2)].
      * apply C in Hj. destruct Hj as [Hj|Hj]; [|auto]. apply in_map_iff in Hj. destruct Hj as (o & <- & Ho). right. exists a, p, o.
        split; [left; reflexivity|]. auto.
      * right. exists i, q, o. split; [right; exact H1|exact H2].
Qed.

(** The while loop finds nothing new. *)
Lemma insert_again cand all : sset all -> (forall k, In k (keys cand) -> In k (keys all)) ->
  fold_left (fun s i => insertIndex i s) cand (all, []) = (all, []).
Proof.
  intros S. induction cand as [|a cand IH]; intros H; [reflexivity|]. cbn [fold_left]. unfold insertIndex at 2. cbn [fst snd].
  destruct (set_insert_old a all S) as [A B]; [apply H; left; reflexivity|]. destruct (set_insert a all) as [x b]. cbn [fst snd] in *. subst.
  apply IH. intros k Hk. apply H. right. exact Hk.
Qed.
Lemma candidates_spec s f : st_ok s -> candidates (S (S f)) (snd s) (fst s) = Ok (fst s).
Proof.
  intros (A & B & C). cbn [candidates]. destruct (snd s) as [|c cs] eqn:E; [reflexivity|].
  rewrite insert_again; [|exact A|rewrite <- E; rewrite <- E in C; exact C]. cbn [fst snd candidates]. reflexivity.
Qed.

(** * Intersections *)
Lemma nodup_filter l p : NoDup (map ind l) -> NoDup (map ind (filter p l)).
Proof.
  induction l as [|h l IH]; cbn [filter map]; intros H; [constructor|]. inversion H; subst.
  destruct (p h); [|auto]. cbn [map]. constructor; auto. intros Hin. apply H2. apply in_map_iff in Hin. destruct Hin as (u & E & Hu).
  apply filter_In in Hu. rewrite <- E. apply in_map. apply Hu.
Qed.
Lemma in_filter_keys l p k : In k (map ind (filter p l)) <-> exists i, In i l /\ p i = true /\ ind i = k.
Proof. rewrite in_map_iff. split; intros (i & A & B); exists i; rewrite filter_In in *; tauto. Qed.

Section Regions.
Variables (ny nz : Z).
Hypothesis Hny : 0 < ny. Hypothesis Hnz : 0 < nz.
Notation inr' := (BoundsProofs.inr ny nz).
Lemma enum_inter sortf a b P Q : std_sort_contract sortf -> inr' P -> inr' Q ->
  enumerates a ny nz P -> enumerates b ny nz Q -> enumerates (getIntersection sortf a b) ny nz (fun x y z => P x y z /\ Q x y z).
Proof.
  intros S RP RQ (NA & A1 & A2) (_ & _ & B2). unfold enumerates. rewrite (intersection_spec sortf a b S).
  split; [apply nodup_filter; exact NA|]. split.
  - intros i Hi. apply filter_In in Hi. apply A1. apply Hi.
  - intros k. rewrite in_filter_keys. split.
    + intros (i & Hi & Hb & <-). apply in_inb in Hb. apply B2 in Hb. destruct Hb as (x & y & z & HQ & E).
      destruct (proj1 (A2 (ind i))) as (x' & y' & z' & HP & E'); [apply in_map; exact Hi|].
      destruct (RP _ _ _ HP) as (? & ? & ?). destruct (RQ _ _ _ HQ) as (? & ? & ?).
      destruct (flat_inj ny nz x y z x' y' z') as (-> & -> & ->); auto; [congruence|]. exists x', y', z'. auto.
    + intros (x & y & z & [HP HQ] & E). assert (Hk : In k (map ind (indices a))) by (apply A2; exists x, y, z; auto).
      apply in_map_iff in Hk. destruct Hk as (i & E' & Hi). exists i. split; [exact Hi|]. split; [|exact E']. apply in_inb. apply B2. exists x, y, z. split; [exact HQ|congruence].
Qed.
Lemma enum_sorted sortf a P : std_sort_contract sortf -> enumerates a ny nz P ->
  enumerates (asSorted sortf a) ny nz P /\ increasing (map ind (indices (asSorted sortf a))).
Proof.
  intros S (N & A & B). destruct (S (indices a)) as [PP SS].
  assert (E : indices (asSorted sortf a) = sortf (indices a)) by reflexivity. unfold enumerates. rewrite E.
  assert (N' : NoDup (map ind (sortf (indices a)))) by (eapply Permutation_NoDup; [apply Permutation_map; exact PP|exact N]).
  split; [split; [exact N'|split]|].
  - intros i Hi. apply A. eapply Permutation_in; [apply Permutation_sym; exact PP|exact Hi].
  - intros k. rewrite <- B. split; apply Permutation_in; [apply Permutation_sym|]; apply Permutation_map; exact PP.
  - revert SS N'. generalize (sortf (indices a)). unfold increasing, isorted. induction l as [|h l IH]; cbn [map]; intros SS N'; [constructor|].
    inversion SS; subst. inversion N'; subst. constructor; [apply IH; assumption|]. rewrite Forall_forall in *. intros x Hx.
    apply in_map_iff in Hx. destruct Hx as (i & <- & Hi). specialize (H2 i Hi). destruct (Z.eq_dec (ind h) (ind i)) as [E'|]; [|lia].
    exfalso. apply H3. rewrite E'. apply in_map. exact Hi.
Qed.
End Regions.
