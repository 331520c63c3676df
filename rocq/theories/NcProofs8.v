(** OptionsNetCDF: histories, for the theorems. *)
From Coq Require Import List Arith ZArith Reals String Bool Lia.
From Verif Require Import NcModel NcSpec NcProofs NcProofs2 NcProofs3 NcProofs4 NcProofs5 NcProofs6 NcProofs7.
Import ListNotations.
Local Open Scope nat_scope.
Open Scope string_scope.

Lemma log_from_in : forall (P : opt * string -> Prop) l m o acc bs,
  (forall w, In w (writes l) -> P w) -> (forall w, In w acc -> P (fst w)) ->
  forall w, In w (log_from m o acc l bs) -> P (fst w).
Proof.
  intros P. induction l as [|x l IH]; intros m o acc bs H A w Hw; cbn [log_from] in Hw.
  - apply A, Hw.
  - destruct x as [m'|t s], bs as [|b bs]; try (apply A, Hw).
    + revert w Hw. apply IH; [|exact A]. intros w h. apply H. exact h.
    + revert w Hw. apply IH.
      * intros w h. apply H. right. exact h.
      * intros w h. apply in_app_or in h. destruct h as [h|[<-|[]]]; [|apply H; left; reflexivity].
        destruct o, m; try (apply A, h). destruct h.
Qed.

Lemma log_writes : forall l bs w, In w (log l bs) -> In (fst w) (writes l).
Proof.
  intros l bs w. apply (log_from_in (fun w => In w (writes l))); [auto|intros _ []].
Qed.

Lemma op_ok_writes : forall l, Forall op_ok l -> forall w, In w (writes l) -> Forall entry_ok (entries (fst w) [] (snd w)).
Proof.
  intros l H w Hw. apply in_flat_map in Hw. destruct Hw as (x & Hx & Hw). rewrite Forall_forall in H. specialize (H x Hx).
  destruct x as [m|o t]; [destruct Hw|]. destruct Hw as [<-|[]]. exact H.
Qed.

Lemma done_in : forall ws dn, Forall2 done_by ws dn -> forall e, In e (List.concat dn) ->
  exists w, In w ws /\ In e (entries (fst (fst w)) [] (snd (fst w))).
Proof.
  induction 1 as [|[[o t] b] d ws dn (rest & E & _) _ IH]; intros e He; [destruct He|].
  cbn [List.concat] in He. apply in_app_or in He. destruct He as [He|He].
  - exists (o, t, b). split; [left; reflexivity|]. cbn [fst snd]. rewrite E. apply in_or_app. left. exact He.
  - destruct (IH e He) as (w & h1 & h2). exists w. split; [right; exact h1|exact h2].
Qed.

Lemma done_ok : forall l bs dn, Forall op_ok l -> Forall2 done_by (log l bs) dn ->
  Forall entry_ok (List.concat dn).
Proof.
  intros l bs dn H D. apply Forall_forall. intros e He. destruct (done_in _ _ D e He) as (w & h1 & h2).
  pose proof (op_ok_writes l H _ (log_writes _ _ _ h1)) as F. rewrite Forall_forall in F. apply F, h2.
Qed.

Lemma log_from_flags : forall l m o acc bs, Forall (fun b => b = true) bs ->
  Forall (fun w : opt * string * bool => snd w = true) acc ->
  Forall (fun w : opt * string * bool => snd w = true) (log_from m o acc l bs).
Proof.
  induction l as [|x l IH]; intros m o acc bs H A; cbn [log_from]; [exact A|].
  destruct x as [m'|t s], bs as [|b bs]; try exact A; inversion H; subst; (apply IH; [assumption|]); [exact A|].
  apply Forall_app. split; [destruct o, m; try exact A; constructor|repeat constructor].
Qed.

Lemma done_all : forall l bs dn, Forall (fun b => b = true) bs -> Forall2 done_by (log l bs) dn ->
  List.concat dn = written l bs.
Proof.
  intros l bs dn H D. unfold written. pose proof (log_from_flags l replace false [] bs H (Forall_nil _)) as F.
  change (log_from replace false [] l bs) with (log l bs) in F.
  induction D as [|[[o t] b] d ws dn (rest & E & R) _ IH]; [reflexivity|]. inversion F; subst. cbn [snd] in *. subst b.
  cbn [List.concat flat_map fst snd]. rewrite IH by assumption. rewrite E, (R eq_refl), app_nil_r. reflexivity.
Qed.

Lemma run_start : forall l w bs, run start l = (w, bs) -> Forall op_ok l ->
  exists dn, Forall2 done_by (log l bs) dn /\
    match w_disk w with
    | Some f => Inv f (List.concat dn)
    | None => log l bs = []
    end.
Proof.
  intros l w bs E H. apply (run_ok l start w bs [] [] E H); [constructor|]. split; reflexivity.
Qed.

Lemma run_start_nodup : forall l w bs f, run start l = (w, bs) -> w_disk w = Some f -> nodup f.
Proof. intros l w bs f E D. pose proof (run_nodup l start w bs E Logic.I) as N. rewrite D in N. exact N. Qed.
Lemma run_start_gok : forall l w bs f, run start l = (w, bs) -> w_disk w = Some f -> gok f.
Proof. intros l w bs f E D. pose proof (run_gok l start w bs E Logic.I) as N. rewrite D in N. exact N. Qed.

(** Times in a planned history. *)
Definition plan_time (S : schema) (k : key) : string := match s_time S k with Some t => t | None => "" end.

Lemma planned_time : forall S l bs dn, planned S l -> Forall2 done_by (log l bs) dn ->
  forall k e, In e (recs k (List.concat dn)) -> e_time e = plan_time S k.
Proof.
  intros S l bs dn [P _] D k e He. apply in_recs in He. destruct He as [He Hr].
  destruct (done_in _ _ D e He) as (w & h1 & h2). destruct w as [[o t] b].
  pose proof (P o t (log_writes _ _ _ h1)) as F. rewrite Forall_forall in F. specialize (F e h2).
  destruct (is_record_facts _ _ Hr) as (hk & hs & ht). destruct (F hs) as (_ & _ & _ & ha).
  unfold plan_time. rewrite hk, ht in ha. destruct (s_time S k); [congruence|discriminate].
Qed.

(** The number of records in a complete history. *)
Lemma complete_count : forall S l bs dn, planned S l -> Forall (fun b => b = true) bs ->
  Forall2 done_by (log l bs) dn -> complete (map fst (log l bs)) ->
  forall k, recs k (List.concat dn) <> [] ->
  List.length (recs k (List.concat dn)) =
  List.length (filter (fun w => String.eqb (snd w) (plan_time S k)) (map fst (log l bs))).
Proof.
  intros S l bs dn P B D C k. rewrite (done_all l bs dn B D).
  assert (E : written l bs = flat_map tree_entries (map fst (log l bs))).
  { unfold written. rewrite flat_map_concat_map, (flat_map_concat_map tree_entries), map_map. reflexivity. }
  rewrite E. apply count_writes; [exact C|]. intros k0 e. rewrite <- E, <- (done_all l bs dn B D). apply (planned_time S l bs dn P D).
Qed.

(** All variables of a dimension have all its steps, in a complete history. *)
Lemma full_size : forall f l time, Inv f l ->
  (forall k e, In e (recs k l) -> e_time e = time k) ->
  (forall k k', recs k l <> [] -> recs k' l <> [] -> time k = time k' ->
     List.length (recs k l) = List.length (recs k' l)) ->
  forall k v d r, recs k l <> [] -> get k (f_vars f) = Some v -> v_dims v = d :: r ->
  d_size (dim_of f d) = List.length (recs k l).
Proof.
  intros f l time I T C k v dd r hr G Ed. pose proof (proj2 (proj2 I) k) as V. unfold var_inv in V. rewrite G in V.
  destruct V as [[Tv [_ hp]]|[_ [Z _]]]; [|congruence].
  destruct (timed_dim f l k v (time k) I G Tv hr (T k)) as (tid & sp & d & Dv & Kd & Gd & u & le & A).
  rewrite Dv in Ed. injection Ed as <- <-. unfold dim_of. rewrite Gd.
  destruct (proj1 (proj2 I) tid d Gd u) as [Z|(k' & v' & r' & g1 & g2 & g3)].
  - destruct (recs k l); [congruence|]. cbn [List.length] in le. lia.
  - pose proof (proj2 (proj2 I) k') as V'. unfold var_inv in V'. rewrite g1 in V'.
    destruct V' as [[Tv' [hr' hp']]|[Tv' _]].
    + destruct (timed_dim f l k' v' (time k') I g1 Tv' hr' (T k')) as (tid' & sp' & d' & Dv' & Kd' & _).
      rewrite g2 in Dv'. injection Dv' as <- _.
      rewrite (tv_index _ _ _ _ Tv') in g3. injection g3 as g3. rewrite <- g3.
      apply C; try assumption. pose proof (proj1 (get_dim_spec _ _ _ _ _ Kd)). pose proof (proj1 (get_dim_spec _ _ _ _ _ Kd')). congruence.
    + exfalso. destruct (pv_dims _ _ _ Tv') as (sh & F & _). rewrite g2 in F. inversion F as [|? ? ? ? (_ & d1 & G1 & _ & u1) _]; subst.
      rewrite Gd in G1. injection G1 as <-. congruence.
Qed.

Lemma att_back : forall a, (match NcPutAttVisitor a with NInt z => AInt z | NReal x => AReal x | NStr s => AStr s end) = att_readback a.
Proof. intros [[]| | |]; reflexivity. Qed.

Lemma put_data_spec : forall v, put_data v = data v.
Proof. intros [| | | | | | |]; reflexivity. Qed.

Lemma filter_recs_map : forall k l x vs, records k l = x :: vs ->
  exists e es, recs k l = e :: es /\ e_val e = x /\ map e_val es = vs.
Proof.
  intros k l x vs H. unfold records in H. fold (recs k l) in H. destruct (recs k l) as [|e es]; [discriminate H|].
  cbn [map] in H. injection H as H1 H2. exists e, es. auto.
Qed.

Lemma series_read : forall f l k fn, Inv f l -> Forall entry_ok l -> forall x vs, records k l = x :: vs ->
  exists n att v, S (List.length vs) <= n /\ read_var fn f k = Some (series n x vs, att) /\
    get k (f_vars f) = Some v /\ (exists d r, v_dims v = d :: r /\ n = d_size (dim_of f d)) /\
    (forall l' e, recs k l = (l' ++ [e])%list -> forall m a, lookup_att m (e_atts e) = Some a ->
       lookup_att m att = Some (att_readback a)).
Proof.
  intros f l k fn I OK x vs E. destruct (filter_recs_map _ _ _ _ E) as (e & es & Er & Ex & Es).
  assert (N : recs k l <> []) by (rewrite Er; discriminate).
  assert (Vk : Forall (fun e => val_ok (e_val e)) (recs k l)).
  { apply Forall_forall. intros y hy. apply in_recs in hy. rewrite Forall_forall in OK. apply (OK y), hy. }
  destruct (read_timed f l k I N Vk) as (v & n & sh & G & Sz & le & A & C & At).
  exists n, (read_attributes fn v), v. unfold read_var. rewrite G. split.
  { rewrite Er in le. cbn [List.length] in le. rewrite <- Es, map_length. exact le. }
  split; [|split; [reflexivity|split]].
  - f_equal. f_equal. unfold read_value. rewrite Sz.
    rewrite Er in A. pose proof A as A0. inversion A0 as [|? ? [h1 h2] A1]; subst. rewrite Er in C.
    assert (Dat : forall es', flat_map (fun e : entry => map (@Some cell) (put_data (e_val e))) es' =
                  flat_map (fun w => map (@Some cell) (data w)) (map e_val es')).
    { intros es'. rewrite !flat_map_concat_map, map_map. reflexivity. }
    assert (Dbl : v_type v = TDouble -> Forall (fun e0 => stored_type (e_val e0) = TDouble) (e :: es)).
    { intros Et. eapply Forall_impl; [|exact A]. intros y [_ hy]. rewrite Et in hy.
      destruct (e_val y); try reflexivity; discriminate hy. }
    rewrite Dat in C. cbn [List.length] in C. rewrite <- (map_length e_val es) in C. cbn [map] in C.
    destruct (e_val e) as [b|z|r0|s|nx ny dd|nx ny nz dd|nx nz dd|]; cbn [shape NcTypeVisitor] in *; try discriminate h2; injection h2 as h2;
      rewrite <- h2 in *; try reflexivity; rewrite C by (apply Dbl; reflexivity); cbn [series prod]; rewrite ?Nat.mul_1_r; reflexivity.
  - destruct (v_dims v) as [|d r]; [discriminate Sz|]. cbn [map] in Sz. injection Sz as <- _. exists d, r. auto.
  - intros l' e0 El m a La. unfold read_attributes. rewrite (read_atts_lookup _ _ _ _ (At l' e0 El m a La)). f_equal. apply att_back.
Qed.

Lemma plain_read : forall f l k fn, Inv f l -> Forall entry_ok l -> forall l' e, plns k l = (l' ++ [e])%list ->
  exists att, read_var fn f k = Some (readback (e_val e), att) /\
    (forall m a, lookup_att m (e_atts e) = Some a -> lookup_att m att = Some (att_readback a)).
Proof.
  intros f l k fn I OK l' e E.
  assert (V : val_ok (e_val e)).
  { assert (He : In e (plns k l)) by (rewrite E; apply in_or_app; right; left; reflexivity).
    apply filter_In in He. rewrite Forall_forall in OK. apply (OK e), He. }
  destruct (read_plain f l k I l' e E V) as (v & G & Ty & Sz & C & At).
  exists (read_attributes fn v). unfold read_var. rewrite G. split.
  - f_equal. f_equal. unfold read_value. rewrite Sz, C. rewrite put_data_spec in C. rewrite put_data_spec.
    destruct (e_val e) as [b|z|r0|s|nx ny dd|nx ny nz dd|nx nz dd|]; cbn [shape NcTypeVisitor readback] in *; try discriminate Ty;
      injection Ty as <-; try reflexivity; unfold read_cells in C; cbn [all_idx map data] in C; injection C as ->; reflexivity.
  - intros m a La. unfold read_attributes. rewrite (read_atts_lookup _ _ _ _ (At m a La)). f_equal. apply att_back.
Qed.
