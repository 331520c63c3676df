(** OptionsNetCDF: writes that keep to a plan never throw. *)
From Coq Require Import List Arith ZArith Reals String Bool Lia.
From Verif Require Import NcModel NcSpec NcProofs NcProofs2 NcProofs3 NcProofs4.
Import ListNotations.
Local Open Scope nat_scope.
Open Scope string_scope.

Section Plan.
Variable S : schema.
Variable Gp : path -> Prop.
Variable Vk : key -> Prop.
Hypothesis disj : forall p n, Gp (n :: p) -> Vk (p, n) -> False.

(** The size of a spatial dimension. *)
Definition dsize (n : string) : nat :=
  if string_dec n "x" then s_nx S else if string_dec n "y" then s_ny S else s_nz S.

Definition uniform (ds : list (key * ncdim)) : Prop := forall k d, get k ds = Some d ->
  xyz (snd k) = true -> d_size d = dsize (snd k).

Definition Ex (f : ncfile) : Prop :=
  uniform (f_dims f) /\ (forall g, In g (f_groups f) -> Gp g) /\
  (forall k, get k (f_vars f) <> None -> Vk k).

Lemma uniform_put : forall ds p n s u, uniform ds -> (xyz n = true -> s = dsize n) ->
  uniform (put (p, n) {| d_unlim := u; d_size := s |} ds).
Proof.
  intros ds p n s u H hs k d. rewrite get_put. destruct (key_dec k (p, n)) as [e|e]; [|apply H].
  subst k. intros [= <-]. cbn [snd d_size]. exact hs.
Qed.

Lemma needDimension_some : forall p n f, xyz n = true -> Ex f ->
  exists f' k, needDimension p n (dsize n) f = (f', Some k) /\ Ex f'.
Proof.
  intros p n f hx (U & G & V). unfold needDimension, bind, findDimension.
  destruct (get_dim (f_dims f) p n) as [[k d]|] eqn:E.
  - apply get_dim_spec in E. destruct E as [En E]. rewrite (U k d E) by (rewrite En; exact hx).
    rewrite En, Nat.eqb_refl. cbv [ret]. eexists. eexists. split; [reflexivity|]. split; [|split]; assumption.
  - cbv [bind addDim ret]. eexists. eexists. split; [reflexivity|]. split; [|split]; [|exact G|exact V].
    cbn [f_dims set_dims]. apply uniform_put; auto.
Qed.

Lemma NcDimVisitor_some : forall p v f, grid_sizes S v -> Ex f ->
  exists f' sp, NcDimVisitor p v f = (f', Some sp) /\ Ex f'.
Proof.
  intros p v f g H. destruct v as [b|z|x|s|nx ny d|nx ny nz d|nx nz d|]; cbn [NcDimVisitor grid_sizes] in *;
    try (exists f, []; split; [reflexivity|exact H]).
  - destruct g as [-> ->].
    destruct (needDimension_some p "x" f eq_refl H) as (f1 & k1 & E1 & H1).
    destruct (needDimension_some p "y" f1 eq_refl H1) as (f2 & k2 & E2 & H2).
    exists f2, [k1; k2]. split; [|exact H2]. unfold bind.
    change (dsize "x") with (s_nx S) in E1. change (dsize "y") with (s_ny S) in E2. rewrite E1, E2. reflexivity.
  - destruct g as (-> & -> & ->).
    destruct (needDimension_some p "x" f eq_refl H) as (f1 & k1 & E1 & H1).
    destruct (needDimension_some p "y" f1 eq_refl H1) as (f2 & k2 & E2 & H2).
    destruct (needDimension_some p "z" f2 eq_refl H2) as (f3 & k3 & E3 & H3).
    exists f3, [k1; k2; k3]. split; [|exact H3]. unfold bind.
    change (dsize "x") with (s_nx S) in E1. change (dsize "y") with (s_ny S) in E2.
    change (dsize "z") with (s_nz S) in E3. rewrite E1, E2, E3. reflexivity.
  - destruct g as [-> ->].
    destruct (needDimension_some p "x" f eq_refl H) as (f1 & k1 & E1 & H1).
    destruct (needDimension_some p "z" f1 eq_refl H1) as (f2 & k2 & E2 & H2).
    exists f2, [k1; k2]. split; [|exact H2]. unfold bind.
    change (dsize "x") with (s_nx S) in E1. change (dsize "z") with (s_nz S) in E2. rewrite E1, E2. reflexivity.
Qed.

Lemma stored_type_eq : forall v, supported v = true -> NcTypeVisitor v = Some (stored_type v).
Proof. intros []; cbn; congruence. Qed.

Lemma dims_compatible_same : forall f a b sh, fixed_dims (f_dims f) a sh -> fixed_dims (f_dims f) b sh ->
  dims_compatible f a b = true.
Proof.
  intros f a b sh H. revert b. induction H as [|k s a sh (_ & d & G & hs & u) _ IH]; intros b F;
    inversion F as [|k' ? b' ? (_ & d' & G' & hs' & u') F']; subst; [reflexivity|].
  cbn [dims_compatible]. rewrite (IH b' F'), andb_true_r. destruct (key_dec k k'); [reflexivity|].
  unfold dim_of. rewrite G, G', u, u', hs'. cbn [Bool.eqb]. rewrite Nat.eqb_refl. reflexivity.
Qed.

Lemma nctype_eqb_refl : forall a, nctype_eqb a a = true.
Proof. intros []; reflexivity. Qed.

Lemma in_recs : forall k e l, In e (recs k l) -> In e l /\ is_record k e = true.
Proof. intros k e l H. apply filter_In in H. exact H. Qed.

Lemma is_record_facts : forall k e, is_record k e = true ->
  e_key e = k /\ supported (e_val e) = true /\ time_attr e = Some (AStr (e_time e)).
Proof.
  intros k e H. unfold is_record in H. rewrite !andb_true_iff in H. destruct H as [[H1 H2] H3].
  destruct (key_dec (e_key e) k) as [E|E]; [|discriminate]. split; [exact E|]. split; [exact H2|].
  destruct (time_attr e) as [[| | |s]|]; try discriminate. apply String.eqb_eq in H3. congruence.
Qed.

Lemma is_plain_facts : forall k e, is_plain k e = true ->
  e_key e = k /\ supported (e_val e) = true /\ time_attr e = None.
Proof.
  intros k e H. unfold is_plain in H. rewrite !andb_true_iff in H. destruct H as [[H1 H2] H3].
  destruct (key_dec (e_key e) k) as [E|E]; [|discriminate]. split; [exact E|]. split; [exact H2|].
  destruct (time_attr e) as [[| | |s]|]; try discriminate. reflexivity.
Qed.

Lemma write_value_some : forall p n x a t f l,
  let e := mk p n x a t in
  Inv f l -> Forall (keeps_to S) l -> Ex f -> Vk (p, n) -> entry_ok e -> keeps_to S e ->
  exists f', write_value p n x a t f = (f', Some tt) /\ Ex f'.
Proof.
  intros p n x a t f l e I Pl X Vkn OK Ke. unfold write_value.
  destruct (NcTypeVisitor x) as [ty|] eqn:Ty; [|exists f; split; [reflexivity|exact X]].
  pose proof (supported_type _ _ Ty) as Sx. destruct (Ke Sx) as (Gs & Ts & Sh & Ta).
  cbn [e mk e_val e_key] in Gs, Ts, Sh. rewrite (time_attr_mk p n x a t : time_attr e = _) in Ta.
  change (e_key e) with (p, n) in Ta.
  pose proof (stored_type_eq x Sx) as Ty'. rewrite Ty in Ty'. injection Ty' as Ty'.
  pose proof OK as (V & ND & NA & NT). cbn [e mk e_val e_atts e_time] in V, ND, NA, NT.
  apply xyz_not_in in NT.
  destruct (NcDimVisitor_some p x f Gs X) as (f1 & sp & E1 & X1).
  destruct (NcDimVisitor_spec _ _ _ _ _ E1 V (proj1 I)) as [S1 K1].
  pose proof (Inv_dimstep _ _ _ S1 I) as I1. specialize (K1 sp eq_refl).
  unfold bind at 1. rewrite E1. unfold bind at 1.
  destruct (time_dim_of p a t f1) as [f2 r2] eqn:E2.
  destruct (time_dim_of_spec _ _ _ _ _ _ E2 NT (proj1 I1)) as [S2 K2].
  pose proof (Inv_dimstep _ _ _ S2 I1) as I2.
  assert (X2 : Ex f2).
  { destruct X1 as (U & G & Vv). destruct S2 as (hv & hg & _ & D & _ & _).
    split; [|split; [rewrite hg; exact G|rewrite hv; exact Vv]].
    unfold time_dim_of in E2. destruct (lookup_att "time_dimension" a) as [[| | |s]|]; cbv [throw ret] in E2;
      try (injection E2 as <- _; exact U). revert E2.
    destruct (string_dec s t); [|intros [= <- _]; exact U].
    destruct (get_dim (f_dims f1) p s) as [[kk dd]|]; [intros [= <- _]; exact U|].
    unfold bind, addDim, ret. intros [= <- _]. cbn [f_dims set_dims]. apply uniform_put; [exact U|].
    subst s. congruence. }
  assert (Pk : Forall (keeps_to S) l) by exact Pl.
  assert (F2 : fixed_dims (f_dims f2) sp (shape x)) by (eapply fixed_dims_ext; [apply S2|exact K1]).
  assert (notgrp : ~ In (n :: p) (f_groups f2)).
  { intros Hin. apply (disj p n); [|exact Vkn]. apply X2, Hin. }
  destruct I2 as (J1 & J3 & J2).
  assert (KT : forall e0, In e0 (recs (p, n) l) -> s_time S (p, n) = Some (e_time e0)).
  { intros e0 Hin. apply in_recs in Hin. destruct Hin as [Hin Hr]. destruct (is_record_facts _ _ Hr) as (k0 & s0 & t0).
    rewrite Forall_forall in Pl. destruct (Pl e0 Hin s0) as (_ & _ & _ & T0). rewrite k0, t0 in T0.
    destruct (s_time S (p, n)); congruence. }
  assert (KP : forall e0, In e0 (plns (p, n) l) -> s_time S (p, n) = None).
  { intros e0 Hin. unfold plns in Hin. apply filter_In in Hin. destruct Hin as [Hin Hr].
    destruct (is_plain_facts _ _ Hr) as (k0 & s0 & t0).
    rewrite Forall_forall in Pl. destruct (Pl e0 Hin s0) as (_ & _ & _ & T0). rewrite k0, t0 in T0.
    destruct (s_time S (p, n)); congruence. }
  assert (KE : forall e0, In e0 l -> e_key e0 = (p, n) -> supported (e_val e0) = true ->
                 shape (e_val e0) = shape x /\ NcTypeVisitor (e_val e0) = Some ty).
  { intros e0 Hin k0 s0. rewrite Forall_forall in Pl. destruct (Pl e0 Hin s0) as (_ & T0 & S0 & _).
    rewrite k0 in T0, S0. split; [congruence|]. rewrite (stored_type_eq _ s0). congruence. }
  destruct r2 as [[[td|]|]|].
  - destruct K2 as (La & hs & Gt & K).
    assert (FC : exists f3 vd, find_or_create (p, n) ty (td :: sp) true f2 = (f3, Some vd)).
    { unfold find_or_create. specialize (J2 (p, n)). revert J2.
      destruct (get (p, n) (f_vars f2)) as [v|] eqn:Gv; intros J2.
      - cbn [var_inv fst] in J2. destruct J2 as [[T [hr hp]]|[T [hr hp]]].
        + destruct (tv_dims _ _ _ _ T) as (tid & sp' & sh & d & Dv & hx & Gd & u & le & (d1 & Kd) & hd & F0 & A0).
          destruct (recs (p, n) l) as [|e0 es0] eqn:Er; [congruence|].
          pose proof (hd e0 es0 eq_refl) as h0. specialize (KT e0 (or_introl eq_refl)).
          rewrite KT in Ta. rewrite La in Ta. injection Ta as Ta.
          assert (td = tid).
          { destruct K as [d' K]. rewrite h0, <- Ta in Kd. rewrite Kd in K. congruence. }
          subst td.
          assert (He0 : In e0 (recs (p, n) l)) by (rewrite Er; left; reflexivity).
          apply in_recs in He0. destruct He0 as [Hin Hr]. destruct (is_record_facts _ _ Hr) as (k0 & s0 & t0).
          destruct (KE e0 Hin k0 s0) as [Sh0 Ty0].
          inversion A0 as [|? ? [Sh1 Ty1] _]; subst. rewrite Ty1 in Ty0. injection Ty0 as Ty0. rewrite Ty0.
          rewrite nctype_eqb_refl. cbn [negb]. rewrite Sh0 in F0.
          rewrite Dv. cbn [List.length]. rewrite (fixed_length _ _ _ F0), (fixed_length _ _ _ F2), Nat.eqb_refl. cbn [negb].
          cbn [dims_compatible]. destruct (key_dec tid tid) as [_|c]; [|congruence]. cbn [andb].
          rewrite (dims_compatible_same _ _ _ _ F0 F2). cbn [negb]. eexists. eexists. reflexivity.
        + exfalso. destruct (plns (p, n) l) as [|e0 es0] eqn:Er; [congruence|].
          rewrite (KP e0 (or_introl eq_refl)) in Ta. congruence.
      - unfold bind, addVar. cbn [fst snd]. destruct (in_dec _ _ _) as [c|c]; [contradiction|].
        unfold nc_put_att. cbn [f_vars set_vars]. rewrite get_put_same. eexists. eexists. reflexivity. }
    destruct FC as (f3 & vd & E3). unfold bind at 1. rewrite E3.
    pose proof (find_or_create_timed p n x a t ty td sp f2 l f3 (Some vd) (conj J1 (conj J3 J2)) Ty F2 NT hs Gt K E3) as H3.
    destruct H3 as (D3 & O3 & _ & _ & v & G3 & -> & T & _ & tid & sp' & Dv & F' & Tt).
    destruct (tv_dims _ _ _ _ T) as (tid0 & sp0 & sh0 & d & Dv0 & hx0 & Gd & u & _).
    rewrite Dv in Dv0. injection Dv0 as <- <-.
    destruct (put_value_timed (p, n) x f3 v tid sp' d _ V Sx G3 Dv F' Gd u hx0 (tv_index _ _ _ _ T))
      as (f4 & v4 & E4 & D4 & O4 & G4 & _).
    unfold bind. rewrite E4.
    destruct (put_atts_spec (p, n) a f4 v4 G4) as (f5 & v5 & E5 & D5 & Gr5 & G5 & O5 & _).
    exists f5. split; [exact E5|]. destruct X2 as (U & G & Vv). split; [|split].
    + rewrite D5, D4, D3. destruct tid as [q m]. apply uniform_put; [exact U|]. cbn [snd] in hx0. congruence.
    + rewrite Gr5, (proj1 O4), (proj1 O3). exact G.
    + intros k hk. destruct (key_dec k (p, n)) as [e0|e0]; [subst k; exact Vkn|]. apply Vv.
      rewrite O5, (proj2 O4), (proj2 O3) in hk by exact e0. exact hk.
  - assert (FC : exists f3 vd, find_or_create (p, n) ty sp false f2 = (f3, Some vd)).
    { unfold find_or_create. specialize (J2 (p, n)). revert J2.
      destruct (get (p, n) (f_vars f2)) as [v|] eqn:Gv; intros J2.
      - cbn [var_inv fst] in J2. destruct J2 as [[T [hr hp]]|[T [hr hp]]].
        + exfalso. destruct (recs (p, n) l) as [|e0 es0] eqn:Er; [congruence|].
          rewrite (KT e0 (or_introl eq_refl)) in Ta. congruence.
        + destruct (pv_dims _ _ _ T) as (sh & F0 & A0).
          destruct (plns (p, n) l) as [|e0 es0] eqn:Er; [congruence|].
          assert (He0 : In e0 (plns (p, n) l)) by (rewrite Er; left; reflexivity).
          unfold plns in He0. apply filter_In in He0. destruct He0 as [Hin Hr].
          destruct (is_plain_facts _ _ Hr) as (k0 & s0 & t0).
          destruct (KE e0 Hin k0 s0) as [Sh0 Ty0].
          inversion A0 as [|? ? [Sh1 Ty1] _]; subst. rewrite Ty1 in Ty0. injection Ty0 as Ty0. rewrite Ty0.
          rewrite nctype_eqb_refl. cbn [negb]. rewrite Sh0 in F0.
          rewrite (fixed_length _ _ _ F0), (fixed_length _ _ _ F2), Nat.eqb_refl. cbn [negb].
          rewrite (dims_compatible_same _ _ _ _ F0 F2). cbn [negb]. eexists. eexists. reflexivity.
      - unfold bind, addVar. cbn [fst snd]. destruct (in_dec _ _ _) as [c|c]; [contradiction|].
        eexists. eexists. reflexivity. }
    destruct FC as (f3 & vd & E3). unfold bind at 1. rewrite E3.
    pose proof (find_or_create_plain p n x ty sp f2 l f3 (Some vd) (conj J1 (conj J3 J2)) Ty F2 E3) as H3.
    destruct H3 as (D3 & O3 & _ & _ & v & G3 & -> & _ & F' & Tt & _).
    destruct (put_value_plain (p, n) x f3 v V Sx G3 F') as (f4 & v4 & E4 & D4 & O4 & G4 & _).
    unfold bind. rewrite E4.
    destruct (put_atts_spec (p, n) a f4 v4 G4) as (f5 & v5 & E5 & D5 & Gr5 & G5 & O5 & _).
    exists f5. split; [exact E5|]. destruct X2 as (U & G & Vv). split; [|split].
    + rewrite D5, D4, D3. exact U.
    + rewrite Gr5, (proj1 O4), (proj1 O3). exact G.
    + intros k hk. destruct (key_dec k (p, n)) as [e0|e0]; [subst k; exact Vkn|]. apply Vv.
      rewrite O5, (proj2 O4), (proj2 O3) in hk by exact e0. exact hk.
  - exists f2. split; [reflexivity|exact X2].
  - exfalso. revert E2. unfold time_dim_of. rewrite Ta. destruct (s_time S (p, n)) as [s|]; cbv [throw ret]; [|discriminate].
    destruct (string_dec s t); [|discriminate]. destruct (get_dim (f_dims f1) p s) as [[kk dd]|]; [discriminate|].
    unfold bind, addDim. discriminate.
Qed.

(** Trees. *)
Definition wg_some (m : M unit) (es : list entry) (gs : list path) : Prop := forall f l,
  Inv f l -> Forall (keeps_to S) l -> Ex f -> Forall entry_ok es -> Forall (keeps_to S) es ->
  Forall (fun e => Vk (e_key e)) es -> Forall Gp gs ->
  exists f', m f = (f', Some tt) /\ Ex f'.

Lemma writeGroup_some : forall o p t, wg_some (writeGroup o p t) (entries o p t) (sections o p).
Proof.
  intros o. induction o as [v a|c IH] using opt_ind'; intros p t.
  - intros f l I Pl X _ _ _ _. exists f. split; [reflexivity|exact X].
  - rewrite writeGroup_sec, entries_sec. cbn [sections]. induction IH as [|[n o] c Ho _ IHc].
    + intros f l I Pl X _ _ _ _. exists f. split; [reflexivity|exact X].
    + cbn [write_children flat_map fst snd]. intros f l I Pl X OK Ke Vs Gs.
      apply Forall_app in OK. destruct OK as [OK1 OK2]. apply Forall_app in Ke. destruct Ke as [Ke1 Ke2].
      apply Forall_app in Vs. destruct Vs as [Vs1 Vs2]. apply Forall_app in Gs. destruct Gs as [Gs1 Gs2].
      unfold child_entries in *. cbn [fst snd] in *. destruct o as [v a|c'].
      * inversion OK1; subst. inversion Ke1; subst. inversion Vs1; subst.
        destruct (write_value_some p n v a t f l I Pl X) as (f1 & E1 & X1); try assumption.
        destruct (write_value_step p n v a t f l f1 _ I H1 E1) as (h1 & _). specialize (h1 ltac:(discriminate)).
        unfold bind. rewrite E1. eapply (IHc f1 (l ++ [mk p n v a t])%list); try assumption.
        apply Forall_app. split; [exact Pl|]. constructor; [assumption|constructor].
      * inversion Gs1 as [|? ? g1 g2]; subst.
        assert (OG : exists f0, open_group p n f = (f0, Some tt) /\ Ex f0 /\ f_dims f0 = f_dims f /\ f_vars f0 = f_vars f).
        { unfold open_group. destruct X as (U & G & Vv).
          destruct (in_dec _ _ _); [exists f; split; [reflexivity|]; split; [split; [|split]; assumption|auto]|].
          destruct (get (p, n) (f_vars f)) as [vv|] eqn:Gv.
          - exfalso. apply (disj p n g1). apply Vv. intros Z. assert (C0 : Some vv = None) by (rewrite <- Gv; exact Z). discriminate C0.
          - eexists. split; [reflexivity|]. split; [|split; reflexivity]. split; [exact U|split; [|exact Vv]].
            cbn [f_groups set_groups]. intros g Hg. apply in_app_or in Hg. destruct Hg as [Hg|[<-|[]]]; [apply G, Hg|exact g1]. }
        destruct OG as (f0 & E0 & X0 & hd & hv). pose proof (Inv_same _ _ _ hd hv I) as I0.
        destruct (Ho (n :: p) t f0 l I0 Pl X0 OK1 Ke1 Vs1 g2) as (f1 & E1 & X1).
        destruct (writeGroup_ok _ _ _ f0 l f1 _ I0 OK1 E1) as (d & rest & Ed & I1 & R1).
        rewrite (R1 ltac:(discriminate)), app_nil_r in Ed. subst d.
        unfold bind. rewrite E0, E1. eapply (IHc f1 _ I1); try assumption.
        apply Forall_app. split; assumption.
Qed.

Lemma Ex_empty : Ex empty_file.
Proof. split; [intros k d H; discriminate H|]. split; [intros g []|intros k H; destruct (H eq_refl)]. Qed.

Lemma run_some : forall l w w' bs acc, run w l = (w', bs) -> Forall op_ok l ->
  (forall o t, In (o, t) (writes l) -> Forall (keeps_to S) (entries o [] t) /\
     Forall (fun e => Vk (e_key e)) (entries o [] t) /\ Forall Gp (sections o [])) ->
  match w_disk w with
  | Some f => Inv f acc /\ Forall (keeps_to S) acc /\ Ex f
  | None => w_open w = false
  end -> Forall (fun b => b = true) bs.
Proof.
  induction l as [|x l IH]; intros w w' bs acc E OK P I.
  - cbn [run] in E. injection E as <- <-. constructor.
  - cbn [run] in E. destruct (step w x) as [w1 b] eqn:E1. destruct (run w1 l) as [w2 bs2] eqn:E2.
    injection E as <- <-. inversion OK as [|? ? OK1 OK2]; subst. destruct x as [m|o t].
    + cbn [step] in E1. injection E1 as <- <-. constructor; [reflexivity|].
      apply (IH _ _ _ acc E2 OK2 P). cbn [w_disk w_open]. destruct (w_disk w); [exact I|reflexivity].
    + cbn [step] in E1.
      set (f0 := if w_open w then match w_disk w with Some f => f | None => empty_file end
                 else match w_mode w, w_disk w with append, Some f => f | append, None => empty_file | replace, _ => empty_file end) in E1.
      destruct (P o t (or_introl eq_refl)) as (P1 & P2 & P3).
      assert (I0 : exists acc0, Inv f0 acc0 /\ Forall (keeps_to S) acc0 /\ Ex f0).
      { unfold f0. destruct (w_disk w) as [f|]; destruct (w_open w), (w_mode w);
          try (exists acc; exact I); try (exists []; split; [apply Inv_empty|split; [constructor|apply Ex_empty]]). }
      destruct I0 as (acc0 & I0 & A0 & X0).
      destruct (writeGroup_some o [] t f0 acc0 I0 A0 X0 OK1 P1 P2 P3) as (f1 & Ew & X1).
      destruct (writeGroup_ok o [] t f0 _ f1 _ I0 OK1 Ew) as (d & rest & Es & I1 & R).
      rewrite (R ltac:(discriminate)), app_nil_r in Es. subst d.
      rewrite Ew in E1. injection E1 as <- <-. constructor; [reflexivity|].
      apply (IH _ _ _ (acc0 ++ entries o [] t)%list E2 OK2).
      * intros o' t' H. apply P. right. exact H.
      * cbn [w_disk]. split; [exact I1|]. split; [apply Forall_app; split; assumption|exact X1].
Qed.
End Plan.

Lemma planned_ok : forall S l w bs, run start l = (w, bs) -> Forall op_ok l -> planned S l ->
  Forall (fun b => b = true) bs.
Proof.
  intros S l w bs E OK [P NC].
  apply (run_some S (fun g => exists o t, In (o, t) (writes l) /\ In g (sections o []))
                    (fun k => exists o t e, In (o, t) (writes l) /\ In e (entries o [] t) /\ e_key e = k))
    with (l := l) (w := start) (w' := w) (acc := []); try assumption.
  - intros p n (o & t & H1 & H2) (o' & t' & e & H3 & H4 & H5). exact (NC o t o' t' p n H1 H3 H2 e H4 H5).
  - intros o t H. split; [apply P, H|]. split.
    + apply Forall_forall. intros e He. exists o, t, e. auto.
    + apply Forall_forall. intros g Hg. exists o, t. auto.
  - reflexivity.
Qed.
