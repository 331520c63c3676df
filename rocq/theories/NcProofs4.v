(** OptionsNetCDF: one written value without time dimension, whole trees,
    histories. *)
From Coq Require Import List Arith ZArith Reals String Bool Lia.
From Verif Require Import NcModel NcSpec NcProofs NcProofs2 NcProofs3.
Import ListNotations.
Local Open Scope nat_scope.
Open Scope string_scope.

Lemma find_or_create_plain : forall p n x ty sp f l f' r,
  Inv f l -> NcTypeVisitor x = Some ty ->
  fixed_dims (f_dims f) sp (shape x) ->
  find_or_create (p, n) ty sp false f = (f', r) ->
  match r with
  | None => f' = f
  | Some vdims => f_dims f' = f_dims f /\ others (p, n) f f' /\ recs (p, n) l = [] /\
      (get (p, n) (f_vars f) = None \/ f' = f) /\
      exists v, get (p, n) (f_vars f') = Some v /\ vdims = v_dims v /\
        get_att "time_dimension" (v_atts v) = None /\
        fixed_dims (f_dims f') (v_dims v) (shape x) /\ v_type v = ty /\
        Forall (type_shape ty (shape x)) (plns (p, n) l)
  end.
Proof.
  intros p n x ty sp f l f' r (I1 & I3 & I2) Ty F E.
  unfold find_or_create in E. specialize (I2 (p, n)). cbn [fst] in I2. revert E I2.
  destruct (get (p, n) (f_vars f)) as [v|] eqn:Gv.
  - destruct (nctype_eqb (v_type v) ty) eqn:Et; cbn [negb]; [|intros [= <- <-] _; reflexivity].
    match goal with |- context [Nat.eqb ?a ?b] => destruct (Nat.eqb a b) eqn:El end; cbn [negb]; [|intros E _; injection E as <- <-; reflexivity].
    destruct (dims_compatible f (v_dims v) sp) eqn:Ec; cbn [negb]; [|intros [= <- <-] _; reflexivity].
    intros [= <- <-] I2. apply nctype_eqb_eq in Et. apply Nat.eqb_eq in El.
    destruct (compatible_sizes _ _ _ Ec El) as [cs cu].
    cbn [var_inv] in I2. destruct I2 as [[T [hr hp]]|[T [hr hp]]].
    + exfalso. destruct (tv_dims _ _ _ _ T) as (tid & sp' & sh & d0 & e1 & _ & G0 & u0 & _ ).
      rewrite e1 in cu, El. destruct sp as [|k0 r0]; [discriminate El|]. cbn [map] in cu. injection cu as cu _.
      inversion F as [|? ? ? ? (_ & d1 & G1 & _ & u1) _]; subst. unfold dim_of in cu. rewrite G0, G1 in cu. congruence.
    + split; [reflexivity|]. split; [apply others_refl|]. split; [exact hr|]. split; [right; reflexivity|].
      exists v. split; [exact Gv|]. split; [reflexivity|]. split; [apply T|].
      destruct (pv_dims _ _ _ T) as (sh & F' & A).
      rewrite (fixed_sizes _ _ _ F'), (fixed_sizes _ _ _ F) in cs. rewrite cs in *. rewrite <- Et.
      split; [exact F'|]. split; [reflexivity|exact A].
  - intros E I2. cbn [var_inv] in I2. destruct I2 as [hr hp]. unfold bind, addVar in E. cbn [fst snd] in E.
    revert E. destruct (in_dec (list_eq_dec string_dec) (n :: p) (f_groups f)) as [i|i]; [intros [= <- <-]; reflexivity|]. intros E.
    cbv [ret] in E. injection E as <- <-.
    split; [reflexivity|]. split.
    { split; [reflexivity|]. intros k' hk. cbn [f_vars set_vars]. rewrite !get_put_other by exact hk. reflexivity. }
    split; [exact hr|]. split; [left; reflexivity|]. eexists. split; [apply get_put_same|]. split; [reflexivity|].
    split; [reflexivity|]. split; [exact F|]. split; [reflexivity|]. rewrite hp. constructor.
Qed.

Lemma put_value_plain : forall k x f v, val_ok x -> supported x = true ->
  get k (f_vars f) = Some v -> fixed_dims (f_dims f) (v_dims v) (shape x) ->
  exists f' v', put_value k (v_dims v) false x f = (f', Some tt) /\ f_dims f' = f_dims f /\
    others k f f' /\ get k (f_vars f') = Some v' /\ v_type v' = v_type v /\ v_dims v' = v_dims v /\
    v_atts v' = v_atts v /\
    (forall idx, in_shape idx (shape x) -> v_cells v' idx = Some (element x idx)).
Proof.
  intros k x f v V Sx G F. unfold put_value, nc_put. rewrite G, (fixed_sizes _ _ _ F), (fixed_fits _ _ _ F).
  rewrite (fixed_grow _ _ _ F). eexists. eexists. split; [reflexivity|]. split; [reflexivity|]. split.
  { split; [reflexivity|]. intros k' hk. cbn [f_vars set_vars]. apply get_put_other, hk. }
  split; [apply get_put_same|]. cbn [v_type v_dims v_atts v_cells].
  split; [reflexivity|]. split; [reflexivity|]. split; [reflexivity|].
  intros idx B. unfold put_slab. rewrite (zeros_eq _ _ _ F).
  rewrite (proj2 (in_box_zeros _ _) B). rewrite sub_idx_zeros by (apply in_shape_length, B).
  rewrite put_data_element by assumption. reflexivity.
Qed.

Lemma plain_step : forall p n x a t ty sp f l f' r,
  let e := mk p n x a t in
  Inv f l -> entry_ok e -> NcTypeVisitor x = Some ty ->
  lookup_att "time_dimension" a = None ->
  fixed_dims (f_dims f) sp (shape x) ->
  (do vdims <- find_or_create (p, n) ty sp false;
   do _ <- put_value (p, n) vdims false x;
   put_atts (p, n) a) f = (f', r) ->
  (r <> None -> Inv f' (l ++ [e]) /\ f_groups f' = f_groups f) /\ (r = None -> f' = f).
Proof.
  intros p n x a t ty sp f l f' r e I (V & ND & NA & NT) Ty La F E.
  cbn [e mk e_val e_atts e_time] in V, ND, NA, NT.
  unfold bind at 1 in E. destruct (find_or_create (p, n) ty sp false f) as [f1 r1] eqn:E1.
  pose proof (find_or_create_plain p n x ty sp f l f1 r1 I Ty F E1) as H1.
  destruct r1 as [vdims|]; [|injection E as <- <-; split; [congruence|intros _; exact H1]].
  destruct H1 as (D1 & O1 & R0 & FR & v & G1 & -> & AT & F' & Tt & A0).
  destruct I as (I1 & I3 & I2).
  pose proof (supported_type _ _ Ty) as Sx.
  destruct (put_value_plain (p, n) x f1 v V Sx G1 F') as (f2 & v2 & E2 & D2 & O2 & G2 & Ty2 & Dv2 & At2 & C2).
  unfold bind in E. rewrite E2 in E.
  destruct (put_atts_spec (p, n) a f2 v2 G2) as (f3 & v3 & E3 & D3 & Gr3 & G3 & O3 & (Ty3 & Dv3 & C3) & A3 & B3).
  rewrite E3 in E. injection E as <- <-. split; [|discriminate]. intros _.
  set (k := (p, n)) in *.
  assert (DD : f_dims f3 = f_dims f) by congruence.
  assert (Oth : forall k', k' <> k -> get k' (f_vars f3) = get k' (f_vars f)).
  { intros k' hk. rewrite O3 by exact hk. rewrite (proj2 O2) by exact hk. apply (proj2 O1), hk. }
  assert (isr : forall k', is_record k' e = false).
  { intros k'. unfold is_record. rewrite (time_attr_mk p n x a t : time_attr e = _), La. apply andb_false_r. }
  assert (isp : forall k', is_plain k' e = if key_dec k k' then true else false).
  { intros k'. unfold is_plain. rewrite (time_attr_mk p n x a t : time_attr e = _), La.
    cbn [e mk e_key e_val e_time]. rewrite Sx. fold k. rewrite !andb_true_r. reflexivity. }
  split; [|rewrite Gr3, (proj1 O2), (proj1 O1); reflexivity].
  split; [|split].
  - rewrite DD. exact I1.
  - intros k0 d0 G0 u0. rewrite DD in G0. destruct (I3 k0 d0 G0 u0) as [Z|(k' & v' & r' & g1 & g2 & g3)]; [left; exact Z|].
    right. exists k', v', r'. split; [|split; assumption].
    destruct (key_dec k' k) as [e1|e1]; [|rewrite Oth by exact e1; exact g1].
    subst k'. exfalso. destruct FR as [FR|FR]; [rewrite FR in g1; discriminate g1|].
    subst f1. rewrite G1 in g1. injection g1 as <-. rewrite g2 in F'.
    inversion F' as [|? ? ? ? (hx & d1 & G0' & _ & u1) _]; subst. rewrite G0 in G0'. injection G0' as <-. congruence.
  - intros k'. destruct (key_dec k' k) as [e0|e0].
    + subst k'. rewrite G3. cbn [var_inv]. right.
      assert (P1 : plns k (l ++ [e]) = (plns k l ++ [e])%list).
      { rewrite plns_app. f_equal. unfold plns. cbn [filter]. rewrite isp. destruct (key_dec k k); [reflexivity|congruence]. }
      assert (R1 : recs k (l ++ [e]) = []).
      { rewrite recs_app, R0. unfold recs. cbn [filter]. rewrite isr. reflexivity. }
      split; [|split; [exact R1|rewrite P1; intros Z; apply app_eq_nil in Z; destruct Z; discriminate]].
      rewrite P1. constructor.
      * exists (shape x). rewrite DD, Dv3, Dv2. split; [rewrite <- D1; exact F'|].
        apply Forall_app. rewrite Ty3, Ty2, Tt. split; [exact A0|]. repeat constructor. exact Ty.
      * rewrite A3; [rewrite At2; exact AT|].
        intros hin. revert La. clear -hin. induction a as [|[m b] a IH]; [destruct hin|].
        cbn [lookup_att]. destruct (string_dec "time_dimension" m) as [e|e]; [discriminate|].
        destruct hin as [hin|hin]; [cbn [fst] in hin; congruence|]. apply IH, hin.
      * intros e1 es' Es. apply app_inj_tail in Es. destruct Es as [_ <-]. cbn [e mk e_atts].
        exact (B3 ND).
      * intros es' e1 Es idx B. apply app_inj_tail in Es. destruct Es as [_ <-]. cbn [e mk e_val] in *.
        rewrite C3. apply C2, B.
    + rewrite Oth by exact e0. apply var_inv_silent.
      * apply isr.
      * rewrite isp. destruct (key_dec k k'); [congruence|reflexivity].
      * rewrite DD. apply I2.
Qed.

Lemma xyz_not_in : forall t, ~ In t ["x"; "y"; "z"] -> xyz t = false.
Proof.
  intros t H. unfold xyz. destruct (string_dec t "x") as [e|e]; [exfalso; apply H; cbn; auto|].
  destruct (string_dec t "y") as [e'|e']; [exfalso; apply H; cbn; auto|].
  destruct (string_dec t "z") as [e''|e'']; [exfalso; apply H; cbn; auto 6|]. reflexivity.
Qed.

(** One value. *)
Lemma write_value_step : forall p n x a t f l f' r,
  let e := mk p n x a t in
  Inv f l -> entry_ok e -> write_value p n x a t f = (f', r) ->
  (r <> None -> Inv f' (l ++ [e])) /\ (r = None -> Inv f' l) /\ f_groups f' = f_groups f.
Proof.
  intros p n x a t f l f' r e I OK E. unfold write_value in E.
  pose proof OK as (V & ND & NA & NT). cbn [e mk e_val e_atts e_time] in V, ND, NA, NT.
  apply xyz_not_in in NT.
  destruct (NcTypeVisitor x) as [ty|] eqn:Ty.
  2:{ cbv [ret] in E. injection E as <- <-. split; [|split; [discriminate|reflexivity]]. intros _.
      apply Inv_silent; [|exact I]. intros k. unfold is_record, is_plain. cbn [e mk e_val].
      destruct x; try discriminate Ty. cbn [supported]. rewrite !andb_false_r. split; reflexivity. }
  unfold bind at 1 in E. destruct (NcDimVisitor p x f) as [f1 r1] eqn:E1.
  destruct (NcDimVisitor_spec _ _ _ _ _ E1 V (proj1 I)) as [S1 K1].
  pose proof (Inv_dimstep _ _ _ S1 I) as I1.
  destruct r1 as [sp|]; [|injection E as <- <-; split; [congruence|split; [intros _; exact I1|apply S1]]].
  specialize (K1 sp eq_refl).
  unfold bind at 1 in E. destruct (time_dim_of p a t f1) as [f2 r2] eqn:E2.
  destruct (time_dim_of_spec _ _ _ _ _ _ E2 NT (proj1 I1)) as [S2 K2].
  pose proof (Inv_dimstep _ _ _ S2 I1) as I2.
  assert (Gr : f_groups f2 = f_groups f) by (rewrite (proj1 (proj2 S2)); apply S1).
  destruct r2 as [[[td|]|]|].
  - destruct K2 as (La & hs & Gt & K).
    destruct (timed_step p n x a t ty td sp f2 l f' r I2 OK Ty La) as [h1 h2]; try assumption.
    + eapply fixed_dims_ext; [apply S2|exact K1].
    + split; [|split].
      * intros h. apply h1, h.
      * intros h. rewrite (h2 h). exact I2.
      * destruct r; [rewrite (proj2 (h1 ltac:(discriminate))); exact Gr|rewrite (h2 eq_refl); exact Gr].
  - destruct (plain_step p n x a t ty sp f2 l f' r I2 OK Ty K2) as [h1 h2]; try assumption.
    + eapply fixed_dims_ext; [apply S2|exact K1].
    + split; [|split].
      * intros h. apply h1, h.
      * intros h. rewrite (h2 h). exact I2.
      * destruct r; [rewrite (proj2 (h1 ltac:(discriminate))); exact Gr|rewrite (h2 eq_refl); exact Gr].
  - cbv [ret] in E. injection E as <- <-. destruct K2 as (s & La & ns).
    split; [|split; [discriminate|exact Gr]]. intros _. apply Inv_silent; [|exact I2].
    intros k. unfold is_record, is_plain. rewrite (time_attr_mk p n x a t : time_attr e = _), La.
    cbn [e mk e_time]. rewrite (proj2 (String.eqb_neq s t) ns). rewrite !andb_false_r. split; reflexivity.
  - injection E as <- <-. split; [congruence|]. split; [intros _; exact I2|exact Gr].
Qed.

(* ------------------------------------------------------------------ *)
(** Whole trees *)

Section OptInd.
Variable P : opt -> Prop.
Hypothesis Hv : forall v a, P (OVal v a).
Hypothesis Hs : forall c, Forall (fun nc => P (snd nc)) c -> P (OSec c).
Fixpoint opt_ind' (o : opt) : P o :=
  match o with
  | OVal v a => Hv v a
  | OSec c => Hs c ((fix go (l : list (string * opt)) : Forall (fun nc => P (snd nc)) l :=
                      match l with
                      | [] => Forall_nil _
                      | nc :: r => Forall_cons _ (opt_ind' (snd nc)) (go r)
                      end) c)
  end.
End OptInd.

Lemma open_group_spec : forall p n f f' r, open_group p n f = (f', r) ->
  f_dims f' = f_dims f /\ f_vars f' = f_vars f.
Proof.
  intros p n f f' r. unfold open_group.
  destruct (in_dec _ _ _); [intros [= <- <-]; auto|].
  destruct (get _ _); intros [= <- <-]; auto.
Qed.

Lemma Inv_same : forall f f' l, f_dims f' = f_dims f -> f_vars f' = f_vars f -> Inv f l -> Inv f' l.
Proof. intros f f' l h1 h2 (I1 & I3 & I2). split; [|split]; unfold reached in *; rewrite ?h1, ?h2; assumption. Qed.

Definition child_entries (p : path) (t : string) (nc : string * opt) : list entry :=
  match snd nc with
  | OVal v a => [mk p (fst nc) v a t]
  | OSec _ => entries (snd nc) (fst nc :: p) t
  end.

Lemma entries_sec : forall c p t, entries (OSec c) p t = flat_map (child_entries p t) c.
Proof. reflexivity. Qed.

Fixpoint write_children (c : list (string * opt)) (p : path) (t : string) : M unit :=
  match c with
  | [] => ret tt
  | nc :: r =>
      do _ <- match snd nc with
              | OVal v a => write_value p (fst nc) v a t
              | OSec _ => do _ <- open_group p (fst nc); writeGroup (snd nc) (fst nc :: p) t
              end;
      write_children r p t
  end.

Lemma writeGroup_sec : forall c p t, writeGroup (OSec c) p t = write_children c p t.
Proof.
  intros c p t. cbn [writeGroup]. induction c as [|[n o] c IH]; [reflexivity|].
  cbn [write_children fst snd]. rewrite IH. reflexivity.
Qed.

Definition wg_ok (m : M unit) (es : list entry) : Prop := forall f l f' r,
  Inv f l -> Forall entry_ok es -> m f = (f', r) ->
  exists d rest, es = (d ++ rest)%list /\ Inv f' (l ++ d) /\ (r <> None -> rest = []).

Lemma wg_bind : forall m1 m2 e1 e2, wg_ok m1 e1 -> wg_ok m2 e2 -> wg_ok (do _ <- m1; m2) (e1 ++ e2).
Proof.
  intros m1 m2 e1 e2 H1 H2 f l f' r I OK E. unfold bind in E. destruct (m1 f) as [f1 r1] eqn:E1.
  apply Forall_app in OK. destruct OK as [OK1 OK2].
  destruct (H1 f l f1 r1 I OK1 E1) as (d & rest & -> & I1 & R1). destruct r1 as [u|].
  - rewrite (R1 ltac:(discriminate)) in *. rewrite app_nil_r in *.
    destruct (H2 f1 _ f' r I1 OK2 E) as (d2 & rest2 & -> & I2 & R2).
    exists (d ++ d2)%list, rest2. rewrite !app_assoc in *. auto.
  - injection E as <- <-. exists d, (rest ++ e2)%list. rewrite app_assoc. split; [reflexivity|]. split; [exact I1|congruence].
Qed.

Lemma writeGroup_ok : forall o p t, wg_ok (writeGroup o p t) (entries o p t).
Proof.
  intros o. induction o as [v a|c IH] using opt_ind'; intros p t.
  - intros f l f' r I _ E. cbn [writeGroup] in E. cbv [ret] in E. injection E as <- <-.
    exists [], []. rewrite !app_nil_r. split; [reflexivity|]. split; [exact I|reflexivity].
  - rewrite writeGroup_sec, entries_sec. induction IH as [|[n o] c Ho _ IHc].
    + intros f l f' r I _ E. cbn [write_children] in E. cbv [ret] in E. injection E as <- <-.
      exists [], []. rewrite !app_nil_r. split; [reflexivity|]. split; [exact I|reflexivity].
    + cbn [write_children flat_map fst snd]. apply wg_bind; [|exact IHc].
      unfold child_entries. cbn [fst snd] in *. destruct o as [v a|c'].
      * intros f l f' r I OK E. inversion OK; subst.
        destruct (write_value_step p n v a t f l f' r I H1 E) as (h1 & h2 & _). destruct r as [u|].
        -- exists [mk p n v a t], []. split; [reflexivity|]. split; [apply h1; discriminate|reflexivity].
        -- exists [], [mk p n v a t]. rewrite app_nil_r. split; [reflexivity|]. split; [apply h2; reflexivity|congruence].
      * intros f l f' r I OK E. unfold bind in E. destruct (open_group p n f) as [f1 r1] eqn:E1.
        destruct (open_group_spec _ _ _ _ _ E1) as [g1 g2].
        pose proof (Inv_same _ _ _ g1 g2 I) as I1. destruct r1 as [u|].
        -- eapply Ho; eassumption.
        -- injection E as <- <-. exists [], (entries (OSec c') (n :: p) t). rewrite app_nil_r.
           split; [reflexivity|]. split; [exact I1|congruence].
Qed.

(* ------------------------------------------------------------------ *)
(** Histories *)

Lemma run_ok : forall l w w' bs acc dn, run w l = (w', bs) -> Forall op_ok l ->
  Forall2 done_by acc dn ->
  match w_disk w with
  | Some f => Inv f (List.concat dn)
  | None => acc = [] /\ w_open w = false
  end ->
  exists dn', Forall2 done_by (log_from (w_mode w) (w_open w) acc l bs) dn' /\
    match w_disk w' with
    | Some f => Inv f (List.concat dn')
    | None => log_from (w_mode w) (w_open w) acc l bs = []
    end.
Proof.
  induction l as [|x l IH]; intros w w' bs acc dn E OK D I.
  - cbn [run] in E. injection E as <- <-. cbn [log_from]. exists dn. split; [exact D|].
    destruct (w_disk w); [exact I|apply I].
  - cbn [run] in E. destruct (step w x) as [w1 b] eqn:E1. destruct (run w1 l) as [w2 bs2] eqn:E2.
    injection E as <- <-. inversion OK as [|? ? OK1 OK2]; subst. destruct x as [m|o t].
    + cbn [step] in E1. injection E1 as <- <-. cbn [log_from].
      apply (IH _ _ _ acc dn E2 OK2 D). cbn [w_disk w_open]. destruct (w_disk w); [exact I|tauto].
    + cbn [step] in E1.
      set (f0 := if w_open w then match w_disk w with Some f => f | None => empty_file end
                 else match w_mode w, w_disk w with append, Some f => f | append, None => empty_file | replace, _ => empty_file end) in E1.
      destruct (writeGroup o [] t f0) as [f1 r] eqn:Ew. injection E1 as <- <-. cbn [log_from].
      set (acc0 := match w_open w, w_mode w with false, replace => [] | _, _ => acc end).
      set (dn0 := match w_open w, w_mode w with false, replace => [] | _, _ => dn end).
      assert (D0 : Forall2 done_by acc0 dn0).
      { unfold acc0, dn0. destruct (w_open w), (w_mode w); try exact D; constructor. }
      assert (I0 : Inv f0 (List.concat dn0)).
      { unfold f0, dn0. destruct (w_disk w) as [f|]; destruct (w_open w), (w_mode w); try exact I; try apply Inv_empty;
          destruct I as [-> I]; try discriminate I; inversion D; subst; apply Inv_empty. }
      destruct (writeGroup_ok o [] t f0 _ f1 r I0 OK1 Ew) as (d & rest & Es & I1 & R).
      apply (IH _ _ _ (acc0 ++ [(o, t, match r with Some _ => true | None => false end)])%list (dn0 ++ [d])%list E2 OK2).
      * apply Forall2_app; [exact D0|]. repeat constructor. exists rest. split; [exact Es|].
        destruct r; [intros _; apply R; discriminate|discriminate].
      * cbn [w_disk]. rewrite concat_app. cbn [List.concat]. rewrite app_nil_r. exact I1.
Qed.
