(** OptionsNetCDF: one written value keeps the invariant. *)
From Coq Require Import List Arith ZArith Reals String Bool Lia.
From Verif Require Import NcModel NcSpec NcProofs NcProofs2.
Import ListNotations.
Local Open Scope nat_scope.
Open Scope string_scope.

Definition mk (p : path) (n : string) (x : val) (a : list (string * att)) (t : string) : entry :=
  {| e_key := (p, n); e_val := x; e_atts := a; e_time := t |}.

Lemma time_attr_mk : forall p n x a t, time_attr (mk p n x a t) = lookup_att "time_dimension" a.
Proof. intros. unfold time_attr. cbn [mk e_atts]. rewrite lookup_att_spec. reflexivity. Qed.

Lemma supported_type : forall x ty, NcTypeVisitor x = Some ty -> supported x = true.
Proof. intros []; cbn; congruence. Qed.

Lemma nctype_eqb_eq : forall a b, nctype_eqb a b = true -> a = b.
Proof. intros [] []; cbn; congruence. Qed.

(** Everything but variable [k] stays. *)
Definition others (k : key) (f f' : ncfile) : Prop :=
  f_groups f' = f_groups f /\ forall k', k' <> k -> get k' (f_vars f') = get k' (f_vars f).

Lemma others_refl : forall k f, others k f f.
Proof. split; reflexivity. Qed.
Lemma others_trans : forall k a b c, others k a b -> others k b c -> others k a c.
Proof. intros k a b c [h1 h2] [g1 g2]. split; [congruence|]. intros k' hk. rewrite g2, h2; auto. Qed.

(** A new timed variable. *)
Lemma fresh_timed : forall ds p t ty tid sp sh d v,
  xyz (snd tid) = false -> get tid ds = Some d -> d_unlim d = true ->
  (exists d', get_dim ds p (snd tid) = Some (tid, d')) ->
  fixed_dims ds sp sh ->
  v = {| v_type := ty; v_dims := tid :: sp;
         v_atts := put_att current_time_index_name (NInt 0) []; v_cells := t |} ->
  (forall i, t i = None) ->
  timed_var ds p v [].
Proof.
  intros ds p t ty tid sp sh d v hx G u K F -> N. constructor.
  - exists tid, sp, sh, d. cbn [v_dims List.length]. repeat split; auto; [lia|intros; discriminate].
  - cbn. reflexivity.
  - intros e es' H. destruct es'; discriminate H.
  - intros i idx. cbn [v_cells]. split; [|intros _; apply N]. intros x H. destruct i; discriminate H.
Qed.

Lemma fixed_length : forall ds sp sh, fixed_dims ds sp sh -> List.length sp = List.length sh.
Proof. intros ds sp sh. induction 1; cbn [List.length]; congruence. Qed.

(** find_or_create for a value with a time dimension. *)
Lemma find_or_create_timed : forall p n x a t ty td sp f l f' r,
  let e := mk p n x a t in
  Inv f l -> NcTypeVisitor x = Some ty ->
  fixed_dims (f_dims f) sp (shape x) ->
  xyz t = false -> snd td = t ->
  (exists d, get td (f_dims f) = Some d /\ d_unlim d = true) ->
  (exists d', get_dim (f_dims f) p t = Some (td, d')) ->
  find_or_create (p, n) ty (td :: sp) true f = (f', r) ->
  match r with
  | None => f' = f
  | Some vdims => f_dims f' = f_dims f /\ others (p, n) f f' /\ plns (p, n) l = [] /\
      (get (p, n) (f_vars f) = None \/ f' = f) /\
      exists v, get (p, n) (f_vars f') = Some v /\ vdims = v_dims v /\
        timed_var (f_dims f') p v (recs (p, n) l) /\ (recs (p, n) l = [] -> v_dims v = td :: sp) /\
        exists tid sp' , v_dims v = tid :: sp' /\ fixed_dims (f_dims f') sp' (shape x) /\ v_type v = ty
  end.
Proof.
  intros p n x a t ty td sp f l f' r e (I1 & I3 & I2) Ty F hx hs (d & G & u) K E.
  unfold find_or_create in E. specialize (I2 (p, n)). cbn [fst] in I2. revert E I2.
  destruct (get (p, n) (f_vars f)) as [v|] eqn:Gv.
  - destruct (nctype_eqb (v_type v) ty) eqn:Et; cbn [negb]; [|intros [= <- <-] _; reflexivity].
    match goal with |- context [Nat.eqb ?a ?b] => destruct (Nat.eqb a b) eqn:El end; cbn [negb]; [|intros E _; injection E as <- <-; reflexivity].
    destruct (dims_compatible f (v_dims v) (td :: sp)) eqn:Ec; cbn [negb]; [|intros [= <- <-] _; reflexivity].
    intros [= <- <-] I2. apply nctype_eqb_eq in Et. apply Nat.eqb_eq in El.
    destruct (compatible_sizes _ _ _ Ec El) as [cs cu].
    assert (dtd : dim_of f td = d) by (unfold dim_of; rewrite G; reflexivity).
    cbn [var_inv] in I2. destruct I2 as [[T [hr hp]]|[T [hr hp]]].
    + split; [reflexivity|]. split; [apply others_refl|]. split; [exact hp|]. split; [right; reflexivity|].
      exists v. split; [exact Gv|]. split; [reflexivity|]. split; [exact T|]. split; [congruence|].
      destruct (tv_dims _ _ _ _ T) as (tid & sp' & sh & d0 & e1 & _ & _ & _ & _ & _ & _ & F' & _).
      exists tid, sp'. split; [exact e1|]. split; [|exact Et].
      rewrite e1 in cs. cbn [map] in cs. injection cs as _ cs.
      rewrite (fixed_sizes _ _ _ F'), (fixed_sizes _ _ _ F) in cs. rewrite <- cs. exact F'.
    + exfalso. destruct (pv_dims _ _ _ T) as (sh & F' & _).
      destruct (v_dims v) as [|k0 r0]; [discriminate El|]. cbn [map] in cu. injection cu as cu _.
      inversion F' as [|? ? ? ? (_ & d1 & G1 & _ & u1) _]; subst. unfold dim_of in cu at 1. rewrite G1 in cu. congruence.
  - intros E I2. cbn [var_inv] in I2. destruct I2 as [hr hp]. unfold bind, addVar in E. cbn [fst snd] in E.
    revert E. destruct (in_dec (list_eq_dec string_dec) (n :: p) (f_groups f)) as [i|i]; [intros [= <- <-]; reflexivity|]. intros E.
    unfold nc_put_att in E. cbn [f_vars set_vars] in E. rewrite get_put_same in E. cbv [ret] in E.
    cbn [v_type v_dims v_atts v_cells] in E. injection E as <- <-.
    split; [reflexivity|]. split.
    { split; [reflexivity|]. intros k' hk. cbn [f_vars set_vars]. rewrite !get_put_other by exact hk. reflexivity. }
    split; [exact hp|]. split; [left; reflexivity|]. eexists. split; [apply get_put_same|]. split; [reflexivity|]. split; [|split].
    + rewrite hr. eapply (fresh_timed _ p (fun _ => None) ty td sp (shape x) d); try assumption; try reflexivity.
      * rewrite hs. exact hx.
      * rewrite hs. exact K.
    + reflexivity.
    + exists td, sp. repeat split. exact F.
Qed.

Lemma nth_error_snoc : forall {A} (l : list A) x i,
  nth_error (l ++ [x]) i = if Nat.eqb i (List.length l) then Some x else nth_error l i.
Proof.
  intros A l x i. destruct (Nat.eqb i (List.length l)) eqn:E.
  - apply Nat.eqb_eq in E. subst. rewrite nth_error_app2 by lia. rewrite Nat.sub_diag. reflexivity.
  - apply Nat.eqb_neq in E. destruct (Nat.lt_ge_cases i (List.length l)) as [h|h].
    + apply nth_error_app1. exact h.
    + rewrite nth_error_app2 by lia. destruct (i - List.length l) as [|m] eqn:Em; [lia|].
      cbn [nth_error]. rewrite (proj2 (nth_error_None l i)) by lia. destruct m; reflexivity.
Qed.

(** The record is put in its place. *)
Lemma put_value_timed : forall k x f v tid sp d i,
  val_ok x -> supported x = true ->
  get k (f_vars f) = Some v -> v_dims v = tid :: sp -> fixed_dims (f_dims f) sp (shape x) ->
  get tid (f_dims f) = Some d -> d_unlim d = true -> xyz (snd tid) = false ->
  getCurrentTimeIndex v = Some i ->
  exists f' v', put_value k (v_dims v) true x f = (f', Some tt) /\
    f_dims f' = put tid {| d_unlim := true; d_size := Nat.max (d_size d) (i + 1) |} (f_dims f) /\
    others k f f' /\ get k (f_vars f') = Some v' /\ v_type v' = v_type v /\ v_dims v' = v_dims v /\
    getCurrentTimeIndex v' = Some (i + 1) /\
    (forall j idx, v_cells v' (j :: idx) =
       if Nat.eqb j i then (if in_box (map (fun _ => 0) sp) (shape x) idx
                            then Some (record_element x idx) else v_cells v (j :: idx))
       else v_cells v (j :: idx)).
Proof.
  intros k x f v tid sp d i V Sx G Dv F Gt u hx Ix. unfold put_value. rewrite G, Ix, Dv. cbn [map].
  rewrite (fixed_sizes _ _ _ F).
  assert (Ec : (if is_field x then (1 :: shape x)%list else (1 :: map (fun _ : nat => 1) (map (fun _ : key => 0) sp))%list) = (1 :: shape x)%list).
  { destruct (is_field x) eqn:Ef; [reflexivity|]. apply not_field_shape in Ef. rewrite Ef in *.
    inversion F; subst. reflexivity. }
  rewrite Ec. unfold bind, nc_put. rewrite G, Dv.
  assert (Hf : fits f (tid :: sp) (i :: map (fun _ : key => 0) sp) (1 :: shape x) = true).
  { cbn [fits]. unfold dim_of at 1. rewrite Gt, u. cbn [orb andb]. apply fixed_fits, F. }
  rewrite Hf. rewrite (grow_time _ _ _ _ _ _ F hx Gt u). unfold nc_put_att.
  cbn [f_vars set_vars]. rewrite get_put_same. cbn [v_type v_dims v_atts v_cells].
  eexists. eexists. split; [reflexivity|]. split; [reflexivity|]. split.
  { split; [reflexivity|]. intros k' hk. cbn [f_vars set_vars]. rewrite !get_put_other by exact hk. reflexivity. }
  split; [apply get_put_same|]. cbn [v_type v_dims v_atts v_cells].
  split; [reflexivity|]. split; [reflexivity|]. split.
  - unfold getCurrentTimeIndex. cbn [v_atts]. rewrite get_put_att.
    destruct (string_dec current_time_index_name current_time_index_name) as [_|c]; [|congruence].
    destruct (Z.of_nat i + 1 <? 0)%Z eqn:Z; [apply Z.ltb_lt in Z; lia|]. f_equal. lia.
  - intros j idx. unfold put_slab. cbn [in_box].
    destruct (Nat.eqb j i) eqn:Ej.
    + apply Nat.eqb_eq in Ej. subst j. rewrite Nat.leb_refl. replace (Nat.ltb i (i + 1)) with true by (symmetry; apply Nat.ltb_lt; lia).
      cbn [andb]. 
      assert (Lb : map (fun _ : key => 0) sp = map (fun _ : nat => 0) (shape x)).
      { pose proof (fixed_length _ _ _ F) as L. revert L. generalize (shape x). clear. intros l. revert l.
        induction sp as [|a sp IH]; intros [|b l]; cbn; intros; try discriminate; [reflexivity|]. f_equal. apply IH. congruence. }
      rewrite Lb. destruct (in_box (map (fun _ => 0) (shape x)) (shape x) idx) eqn:B; [|reflexivity].
      apply in_box_zeros in B. f_equal. cbn [sub_idx ravel]. rewrite Nat.sub_diag. cbn [Nat.mul Nat.add].
      rewrite sub_idx_zeros by (apply in_shape_length, B).
      apply put_record_element; assumption.
    + apply Nat.eqb_neq in Ej. destruct (Nat.leb i j && Nat.ltb j (i + 1))%bool eqn:B; [|reflexivity].
      apply andb_true_iff in B. rewrite Nat.leb_le, Nat.ltb_lt in B. lia.
Qed.

Lemma zeros_eq : forall ds sp sh, fixed_dims ds sp sh ->
  map (fun _ : key => 0) sp = map (fun _ : nat => 0) sh.
Proof. intros ds sp sh. induction 1; cbn [map]; [reflexivity|congruence]. Qed.

(** One value with a time dimension. *)
Lemma timed_step : forall p n x a t ty td sp f l f' r,
  let e := mk p n x a t in
  Inv f l -> entry_ok e -> NcTypeVisitor x = Some ty ->
  lookup_att "time_dimension" a = Some (AStr t) ->
  fixed_dims (f_dims f) sp (shape x) ->
  xyz t = false -> snd td = t ->
  (exists d, get td (f_dims f) = Some d /\ d_unlim d = true) ->
  (exists d', get_dim (f_dims f) p t = Some (td, d')) ->
  (do vdims <- find_or_create (p, n) ty (td :: sp) true;
   do _ <- put_value (p, n) vdims true x;
   put_atts (p, n) a) f = (f', r) ->
  (r <> None -> Inv f' (l ++ [e]) /\ f_groups f' = f_groups f) /\ (r = None -> f' = f).
Proof.
  intros p n x a t ty td sp f l f' r e I (V & ND & NA & NT) Ty La F hx hs Gt K E.
  cbn [e mk e_val e_atts e_time] in V, ND, NA, NT.
  unfold bind at 1 in E. destruct (find_or_create (p, n) ty (td :: sp) true f) as [f1 r1] eqn:E1.
  pose proof (find_or_create_timed p n x a t ty td sp f l f1 r1 I Ty F hx hs Gt K E1) as H1.
  destruct r1 as [vdims|]; [|injection E as <- <-; split; [congruence|intros _; exact H1]].
  destruct H1 as (D1 & O1 & P0 & FR & v & G1 & -> & T & Tfresh & tid & sp' & Dv & F' & Tt).
  destruct I as (I1 & I3 & I2).
  destruct (tv_dims _ _ _ _ T) as (tid0 & sp0 & sh0 & d & Dv0 & hx0 & Gd & u & le & Kd & hd & F0 & A0).
  rewrite Dv in Dv0. injection Dv0 as <- <-.
  pose proof (supported_type _ _ Ty) as Sx.
  destruct (put_value_timed (p, n) x f1 v tid sp' d _ V Sx G1 Dv F' Gd u hx0 (tv_index _ _ _ _ T))
    as (f2 & v2 & E2 & D2 & O2 & G2 & Ty2 & Dv2 & Ix2 & C2).
  unfold bind in E. rewrite E2 in E.
  destruct (put_atts_spec (p, n) a f2 v2 G2) as (f3 & v3 & E3 & D3 & Gr3 & G3 & O3 & (Ty3 & Dv3 & C3) & A3 & B3).
  rewrite E3 in E. injection E as <- <-. split; [|discriminate]. intros _.
  set (k := (p, n)) in *. set (i := List.length (recs k l)) in *.
  assert (X : ext (f_dims f1) (f_dims f3)) by (rewrite D3, D2; apply ext_grow_time; assumption).
  assert (KP : keeps (f_dims f1) (f_dims f3)) by (rewrite D3, D2; eapply keeps_put_old; eassumption).
  assert (Oth : forall k', k' <> k -> get k' (f_vars f3) = get k' (f_vars f)).
  { intros k' hk. rewrite O3 by exact hk. rewrite (proj2 O2) by exact hk. apply (proj2 O1), hk. }
  assert (isr : forall k', is_record k' e = if key_dec k k' then true else false).
  { intros k'. unfold is_record. rewrite (time_attr_mk p n x a t : time_attr e = _), La.
    cbn [e mk e_key e_val e_time]. rewrite Sx, String.eqb_refl. fold k. rewrite !andb_true_r. reflexivity. }
  assert (isp : forall k', is_plain k' e = false).
  { intros k'. unfold is_plain. rewrite (time_attr_mk p n x a t : time_attr e = _), La. apply andb_false_r. }
  assert (IX3 : getCurrentTimeIndex v3 = Some (i + 1)).
  { unfold getCurrentTimeIndex in *. rewrite A3; [exact Ix2|exact NA]. }
  split; [|rewrite Gr3, (proj1 O2), (proj1 O1); reflexivity].
  split; [|split].
  - rewrite D3, D2. apply dims_ok_grow; [rewrite D1; exact I1|exact Gd|exact u].
  - intros k0 d0 G0 u0. rewrite D3, D2, get_put in G0.
    assert (OLD : forall dd, get k0 (f_dims f) = Some dd -> d_unlim dd = true -> 
      d_size dd = 0 \/ exists k' v' r, get k' (f_vars f) = Some v' /\ v_dims v' = k0 :: r /\ getCurrentTimeIndex v' = Some (d_size dd)).
    { intros dd. apply I3. }
    destruct (key_dec k0 tid) as [e0|e0].
    + subst k0. injection G0 as <-. cbn [d_size].
      destruct (Nat.le_gt_cases (d_size d) (i + 1)) as [h|h].
      * right. exists k, v3, sp'. split; [exact G3|]. split; [rewrite Dv3, Dv2; exact Dv|]. rewrite IX3. f_equal. lia.
      * rewrite Nat.max_l by lia. destruct (OLD d) as [Z|(k' & v' & r' & g1 & g2 & g3)].
        { rewrite <- D1. exact Gd. } { exact u. } { left. exact Z. }
        right. exists k', v', r'. split; [|split; assumption].
        destruct (key_dec k' k) as [e1|e1]; [|rewrite Oth by exact e1; exact g1].
        subst k'. exfalso. 
        destruct FR as [FR|FR]; [rewrite FR in g1; discriminate g1|].
        subst f1. fold k in G1. rewrite G1 in g1. injection g1 as <-. rewrite (tv_index _ _ _ _ T) in g3.
        injection g3 as g3. fold i in g3. lia.
    + destruct (OLD d0) as [Z|(k' & v' & r' & g1 & g2 & g3)].
      { rewrite <- D1. exact G0. } { exact u0. } { left. exact Z. }
      right. exists k', v', r'. split; [|split; assumption].
      destruct (key_dec k' k) as [e1|e1]; [|rewrite Oth by exact e1; exact g1].
      subst k'. exfalso. destruct FR as [FR|FR]; [rewrite FR in g1; discriminate g1|].
      subst f1. fold k in G1. rewrite G1 in g1. injection g1 as <-. rewrite Dv in g2. injection g2 as g2 _. congruence.
  - intros k'. destruct (key_dec k' k) as [e0|e0].
    + subst k'. rewrite G3. cbn [var_inv]. left.
      assert (R1 : recs k (l ++ [e]) = (recs k l ++ [e])%list).
      { rewrite recs_app. f_equal. unfold recs. cbn [filter]. rewrite isr. destruct (key_dec k k); [reflexivity|congruence]. }
      assert (P1 : plns k (l ++ [e]) = []).
      { rewrite plns_app, P0. unfold plns. cbn [filter]. rewrite isp. reflexivity. }
      split; [|split; [rewrite R1; intros Z; apply app_eq_nil in Z; destruct Z; discriminate|exact P1]].
      rewrite R1. constructor.
      * destruct (X _ _ Gd) as (d3 & Gd3 & u3 & _).
        exists tid, sp', (shape x), d3.
        split; [rewrite Dv3, Dv2; exact Dv|]. split; [exact hx0|]. split; [exact Gd3|]. split; [congruence|].
        split. { rewrite app_length. cbn [List.length]. fold i. rewrite D3, D2, get_put in Gd3.
                 destruct (key_dec tid tid); [|congruence]. injection Gd3 as <-. cbn [d_size]. lia. }
        split. { destruct Kd as [d' Kd]. eapply KP; eassumption. }
        split. { intros e1 es' Es. destruct (recs k l) as [|e2 es2] eqn:Er.
                 - cbn [app] in Es. injection Es as <- <-. cbn [e mk e_time].
                   specialize (Tfresh eq_refl). rewrite Tfresh in Dv. injection Dv as <- _. exact hs.
                 - cbn [app] in Es. injection Es as <- _. eapply hd. reflexivity. }
        split; [eapply fixed_dims_ext; eassumption|].
        apply Forall_app. split.
        -- rewrite Ty3, Ty2. assert (Sh : sh0 = shape x).
           { rewrite <- (fixed_sizes _ _ _ F0). apply fixed_sizes. exact F'. }
           rewrite <- Sh. exact A0.
        -- repeat constructor. cbn [e mk e_val]. rewrite Ty3, Ty2, Tt. exact Ty.
      * rewrite IX3. rewrite app_length. reflexivity.
      * intros e1 es' Es. apply app_inj_tail in Es. destruct Es as [_ <-]. cbn [e mk e_atts].
        exact (B3 ND).
      * intros j idx. rewrite C3, C2, map_app. cbn [map e mk e_val]. rewrite nth_error_snoc, map_length. fold i.
        destruct (Nat.eqb j i) eqn:Ej.
        -- split; [|discriminate]. intros x0 [= <-] B. rewrite (zeros_eq _ _ _ F').
           apply in_box_zeros in B. rewrite B. reflexivity.
        -- apply (tv_cells _ _ _ _ T).
    + rewrite Oth by exact e0. apply var_inv_silent.
      * rewrite isr. destruct (key_dec k k'); [congruence|reflexivity].
      * apply isp.
      * apply (var_inv_ext (f_dims f)); [rewrite <- D1; exact X|rewrite <- D1; exact KP|apply I2].
Qed.
