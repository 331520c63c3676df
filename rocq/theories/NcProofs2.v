(** OptionsNetCDF: the invariant of a file and one written value. *)
From Coq Require Import List Arith ZArith Reals String Bool Lia.
From Verif Require Import NcModel NcSpec NcProofs.
Import ListNotations.
Local Open Scope nat_scope.
Open Scope string_scope.

(* ------------------------------------------------------------------ *)
(** Boxes and elements *)

Lemma in_box_zeros : forall sh idx,
  in_box (map (fun _ => 0) sh) sh idx = true <-> in_shape idx sh.
Proof.
  unfold in_shape. induction sh as [|n sh IH]; intros [|i idx]; cbn [map in_box].
  - split; [constructor|reflexivity].
  - split; [discriminate|intros H; inversion H].
  - split; [discriminate|intros H; inversion H].
  - rewrite andb_true_iff, IH. rewrite andb_true_iff, Nat.leb_le, Nat.ltb_lt. split.
    + intros [[_ h] H]. constructor; [lia|exact H].
    + intros H. inversion H; subst. split; [split; lia|assumption].
Qed.

Lemma sub_idx_zeros : forall {A} (sh : list A) idx, List.length idx = List.length sh ->
  sub_idx idx (map (fun _ => 0) sh) = idx.
Proof.
  induction sh as [|n sh IH]; intros [|i idx]; cbn [map sub_idx List.length]; intros H; try discriminate; [reflexivity|].
  rewrite IH by congruence. f_equal. lia.
Qed.

Lemma in_shape_length : forall idx sh, in_shape idx sh -> List.length idx = List.length sh.
Proof. intros idx sh. induction 1; cbn [List.length]; congruence. Qed.

Lemma in_shape_dec : forall idx sh, {in_shape idx sh} + {~ in_shape idx sh}.
Proof.
  intros. destruct (in_box (map (fun _ => 0) sh) sh idx) eqn:E.
  - left. apply in_box_zeros, E.
  - right. intros H. apply in_box_zeros in H. congruence.
Qed.

Lemma in2 : forall idx a b, in_shape idx [a; b] -> exists i j, idx = [i; j] /\ i < a /\ j < b.
Proof.
  intros idx a b H. inversion H as [|i ? l1 ? h1 H1]; subst. inversion H1 as [|j ? l2 ? h2 H2]; subst.
  inversion H2; subst. eauto.
Qed.
Lemma in3 : forall idx a b c, in_shape idx [a; b; c] ->
  exists i j k, idx = [i; j; k] /\ i < a /\ j < b /\ k < c.
Proof.
  intros idx a b c H. inversion H as [|i ? l1 ? h1 H1]; subst.
  destruct (in2 _ _ _ H1) as (j & k & -> & hj & hk). exists i, j, k. auto.
Qed.

Lemma nth_map_CReal : forall d n, n < List.length d -> nth n (map CReal d) CJunk = CReal (nth n d 0%R).
Proof.
  intros d n H. rewrite (nth_indep _ CJunk (CReal 0%R)) by (rewrite map_length; exact H). apply map_nth.
Qed.

Lemma idx2_bound : forall i j nx ny, i < nx -> j < ny -> i * ny + j < nx * ny.
Proof. intros. nia. Qed.

Lemma put_data_element : forall v idx, val_ok v -> supported v = true -> in_shape idx (shape v) ->
  nth (ravel (shape v) idx) (put_data v) CJunk = element v idx.
Proof.
  intros [b|z|r|s|nx ny d|nx ny nz d|nx nz d|] idx V S H; cbn [shape put_data] in *; try discriminate S;
    try (inversion H; subst; reflexivity).
  - destruct V as (_ & _ & V). destruct (in2 _ _ _ H) as (i & j & -> & hi & hj).
    cbn [ravel prod element]. replace (i * (ny * 1) + (j * 1 + 0)) with (i * ny + j) by lia.
    apply nth_map_CReal. rewrite V. apply idx2_bound; assumption.
  - destruct V as (_ & _ & _ & V). destruct (in3 _ _ _ _ H) as (i & j & k & -> & hi & hj & hk).
    cbn [ravel prod element].
    replace (i * (ny * (nz * 1)) + (j * (nz * 1) + (k * 1 + 0))) with ((i * ny + j) * nz + k)
      by (rewrite !Nat.mul_1_r, Nat.mul_add_distr_r, Nat.mul_assoc; lia).
    apply nth_map_CReal. rewrite V. apply idx2_bound; [apply idx2_bound|]; assumption.
  - destruct V as (_ & _ & V). destruct (in2 _ _ _ H) as (i & j & -> & hi & hj).
    cbn [ravel prod element]. replace (i * (nz * 1) + (j * 1 + 0)) with (i * nz + j) by lia.
    apply nth_map_CReal. rewrite V. apply idx2_bound; assumption.
Qed.

Lemma put_record_element : forall v idx, val_ok v -> supported v = true -> in_shape idx (shape v) ->
  nth (ravel (shape v) idx) (put_record_data v) CJunk = record_element v idx.
Proof.
  intros v idx V S H. destruct v; try (apply put_data_element; assumption).
  inversion H; subst. reflexivity.
Qed.

(** Only fields have a shape. *)
Lemma not_field_shape : forall v, is_field v = false -> shape v = [].
Proof. intros []; cbn; congruence. Qed.

(* ------------------------------------------------------------------ *)
(** Attributes *)

Lemma lookup_att_spec : forall n l,
  lookup_att n l = match find (fun na => String.eqb (fst na) n) l with Some (_, a) => Some a | None => None end.
Proof.
  induction l as [|[m a] l IH]; [reflexivity|]. cbn [lookup_att find fst].
  destruct (string_dec n m) as [e|e].
  - subst. rewrite String.eqb_refl. reflexivity.
  - destruct (String.eqb m n) eqn:E; [apply String.eqb_eq in E; congruence|exact IH].
Qed.

(** Changing a variable in place. *)
Definition same_but_atts (v v' : ncvar) : Prop :=
  v_type v' = v_type v /\ v_dims v' = v_dims v /\ (forall i, v_cells v' i = v_cells v i).

Lemma put_atts_spec : forall k l f v, get k (f_vars f) = Some v ->
  exists f' v', put_atts k l f = (f', Some tt) /\ f_dims f' = f_dims f /\ f_groups f' = f_groups f /\
    get k (f_vars f') = Some v' /\ (forall k', k' <> k -> get k' (f_vars f') = get k' (f_vars f)) /\
    same_but_atts v v' /\
    (forall n, ~ In n (map fst l) -> get_att n (v_atts v') = get_att n (v_atts v)) /\
    (NoDup (map fst l) -> forall n a, lookup_att n l = Some a -> get_att n (v_atts v') = Some (NcPutAttVisitor a)).
Proof.
  intros k l. induction l as [|[n a] l IH]; intros f v G.
  - exists f, v. cbn [put_atts ret]. repeat split; auto. cbn [lookup_att]. discriminate.
  - cbn [put_atts]. unfold bind, nc_put_att. rewrite G.
    set (v1 := {| v_type := v_type v; v_dims := v_dims v;
                  v_atts := put_att n (NcPutAttVisitor a) (v_atts v); v_cells := v_cells v |}).
    set (f1 := set_vars f (put k v1 (f_vars f))).
    assert (G1 : get k (f_vars f1) = Some v1) by apply get_put_same.
    destruct (IH f1 v1 G1) as (f' & v' & E & hd & hg & G' & O & (t & d & c) & A & B).
    exists f', v'. split; [exact E|]. split; [exact hd|]. split; [exact hg|]. split; [exact G'|].
    split; [intros k' hk; rewrite O by exact hk; cbn [f1 f_vars set_vars]; apply get_put_other; exact hk|].
    split; [repeat split; assumption|].
    split.
    + intros m hm. cbn [map fst In] in hm. rewrite A by tauto. cbn [v1 v_atts]. rewrite get_put_att.
      destruct (string_dec m n) as [e|e]; [subst; tauto|reflexivity].
    + cbn [map fst]. intros ND m b. inversion ND as [|? ? NI ND']; subst. cbn [lookup_att].
      destruct (string_dec m n) as [e|e].
      * subst m. intros [= <-]. rewrite A by exact NI. cbn [v1 v_atts]. rewrite get_put_att.
        destruct (string_dec n n); congruence.
      * intros L. apply B; assumption.
Qed.

(* ------------------------------------------------------------------ *)
(** The invariant *)

Definition type_shape (ty : nctype) (sh : list nat) (e : entry) : Prop :=
  shape (e_val e) = sh /\ NcTypeVisitor (e_val e) = Some ty.

(** A variable with a time dimension in group [p], after the entries [es]. *)
Record timed_var (ds : list (key * ncdim)) (p : path) (v : ncvar) (es : list entry) : Prop := {
  tv_dims : exists tid sp sh d, v_dims v = tid :: sp /\ xyz (snd tid) = false /\
    get tid ds = Some d /\ d_unlim d = true /\ List.length es <= d_size d /\
    (exists d', get_dim ds p (snd tid) = Some (tid, d')) /\
    (forall e es', es = e :: es' -> snd tid = e_time e) /\
    fixed_dims ds sp sh /\ Forall (type_shape (v_type v) sh) es;
  tv_index : getCurrentTimeIndex v = Some (List.length es);
  tv_att : forall e es', es = (es' ++ [e])%list -> forall n a, lookup_att n (e_atts e) = Some a ->
    get_att n (v_atts v) = Some (NcPutAttVisitor a);
  tv_cells : forall i idx,
    (forall x, nth_error (map e_val es) i = Some x -> in_shape idx (shape x) ->
       v_cells v (i :: idx) = Some (record_element x idx)) /\
    (nth_error (map e_val es) i = None -> v_cells v (i :: idx) = None) }.

Record plain_var (ds : list (key * ncdim)) (v : ncvar) (es : list entry) : Prop := {
  pv_dims : exists sh, fixed_dims ds (v_dims v) sh /\ Forall (type_shape (v_type v) sh) es;
  pv_att : get_att "time_dimension" (v_atts v) = None;
  pv_atts : forall e es', es = (es' ++ [e])%list -> forall n a, lookup_att n (e_atts e) = Some a ->
    get_att n (v_atts v) = Some (NcPutAttVisitor a);
  pv_cells : forall es' e, es = (es' ++ [e])%list -> forall idx, in_shape idx (shape (e_val e)) ->
    v_cells v idx = Some (element (e_val e) idx) }.

Definition recs (k : key) (l : list entry) := filter (is_record k) l.
Definition plns (k : key) (l : list entry) := filter (is_plain k) l.

Definition var_inv (ds : list (key * ncdim)) (k : key) (o : option ncvar) (l : list entry) : Prop :=
  match o with
  | None => recs k l = [] /\ plns k l = []
  | Some v => (timed_var ds (fst k) v (recs k l) /\ recs k l <> [] /\ plns k l = []) \/
              (plain_var ds v (plns k l) /\ recs k l = [] /\ plns k l <> [])
  end.

(** The size of an unlimited dimension is reached by some variable. *)
Definition reached (f : ncfile) : Prop := forall k d, get k (f_dims f) = Some d ->
  d_unlim d = true -> d_size d = 0 \/
  exists k' v' r, get k' (f_vars f) = Some v' /\ v_dims v' = k :: r /\
                getCurrentTimeIndex v' = Some (d_size d).

Definition Inv (f : ncfile) (l : list entry) : Prop :=
  dims_ok (f_dims f) /\ reached f /\
  forall k, var_inv (f_dims f) k (get k (f_vars f)) l.

Lemma timed_var_ext : forall ds ds' p v vs, ext ds ds' -> keeps ds ds' -> timed_var ds p v vs -> timed_var ds' p v vs.
Proof.
  intros ds ds' p v vs X K [(tid & sp & sh & d & e & hx & G & u & le & (d1 & G1) & hd & F & A) i a c]. constructor; try assumption.
  destruct (X _ _ G) as (d' & G' & u' & s' & _). exists tid, sp, sh, d'.
  split; [exact e|]. split; [exact hx|]. split; [exact G'|]. split; [congruence|]. split; [lia|].
  split; [eapply K; eassumption|]. split; [exact hd|]. split; [|exact A].
  eapply fixed_dims_ext; eassumption.
Qed.
Lemma plain_var_ext : forall ds ds' v vs, ext ds ds' -> plain_var ds v vs -> plain_var ds' v vs.
Proof.
  intros ds ds' v vs X [(sh & F & A) c]. constructor; try assumption.
  exists sh. split; [eapply fixed_dims_ext; eassumption|exact A].
Qed.

Lemma var_inv_ext : forall ds ds' k o l, ext ds ds' -> keeps ds ds' -> var_inv ds k o l -> var_inv ds' k o l.
Proof.
  intros ds ds' k [v|] l X K H; [|exact H].
  destruct H as [[T H]|[T H]]; [left|right]; split; auto.
  - eapply timed_var_ext; eassumption.
  - eapply plain_var_ext; eassumption.
Qed.

Lemma Inv_dimstep : forall f f' l, dimstep f f' -> Inv f l -> Inv f' l.
Proof.
  intros f f' l (hv & hg & X & D & K & N) (I1 & I3 & I2). split; [apply D, I1|]. split.
  - intros k d G u. rewrite hv.
    assert (hx : xyz (snd k) = false).
    { specialize (D I1). destruct k as [p n]. specialize (D _ _ _ G). cbn [snd]. destruct (xyz n); [destruct D; congruence|reflexivity]. }
    destruct (N k d hx G) as [G'|Z]; [exact (I3 k d G' u)|left; exact Z].
  - intros k. rewrite hv. eapply var_inv_ext; [exact X|exact K|apply I2].
Qed.

Lemma Inv_empty : Inv empty_file [].
Proof.
  split; [intros p n d H; discriminate H|]. split; [intros k d H; discriminate H|].
  intros k. cbn. split; reflexivity.
Qed.

Lemma Inv_holds : forall f l, Inv f l -> holds f l.
Proof.
  intros f l (_ & _ & I) k. specialize (I k). unfold var_inv in I.
  change (records k l) with (map e_val (recs k l)). change (plains k l) with (map e_val (plns k l)).
  destruct (get k (f_vars f)) as [v|] eqn:G.
  - destruct I as [[T [hr hp]]|[T [hr hp]]].
    + split; [intros E; apply map_eq_nil in E; congruence|]. split.
      * intros _. exists v. split; [reflexivity|]. apply T.
      * intros l' x E. rewrite hp in E. destruct l'; discriminate E.
    + split; [intros _ E; apply map_eq_nil in E; congruence|]. rewrite hr. split; [cbn [map]; congruence|].
      intros l' x E. exists v. split; [reflexivity|].
      destruct (exists_last hp) as (es' & e & E'). rewrite E', map_app in E. cbn [map] in E.
      apply app_inj_tail in E. destruct E as [_ <-]. exact (pv_cells _ _ _ T es' e E').
  - destruct I as [hr hp]. rewrite hr, hp. cbn [map]. split; [auto|]. split; [congruence|].
    intros l' x E. destruct l'; discriminate E.
Qed.

(** Entries that add nothing to a key. *)
Lemma recs_app : forall k l m, recs k (l ++ m) = (recs k l ++ recs k m)%list.
Proof. intros. apply filter_app. Qed.
Lemma plns_app : forall k l m, plns k (l ++ m) = (plns k l ++ plns k m)%list.
Proof. intros. apply filter_app. Qed.

Lemma var_inv_silent : forall ds k o l e, is_record k e = false -> is_plain k e = false ->
  var_inv ds k o l -> var_inv ds k o (l ++ [e]).
Proof.
  intros ds k o l e h1 h2 H. unfold var_inv. rewrite recs_app, plns_app.
  assert (E1 : recs k [e] = []) by (unfold recs; cbn [filter]; rewrite h1; reflexivity).
  assert (E2 : plns k [e] = []) by (unfold plns; cbn [filter]; rewrite h2; reflexivity).
  rewrite E1, E2, !app_nil_r. exact H.
Qed.

Lemma Inv_silent : forall f l e, (forall k, is_record k e = false /\ is_plain k e = false) ->
  Inv f l -> Inv f (l ++ [e]).
Proof.
  intros f l e S (I1 & I3 & I2). split; [exact I1|]. split; [exact I3|]. intros k.
  apply var_inv_silent; [apply S|apply S|apply I2].
Qed.

(* ------------------------------------------------------------------ *)
(** Sizes of dimensions *)

Lemma fixed_sizes : forall f sp sh, fixed_dims (f_dims f) sp sh ->
  map (fun d => d_size (dim_of f d)) sp = sh.
Proof.
  intros f sp sh. induction 1 as [|k s sp sh (_ & d & G & hs & _) _ IH]; [reflexivity|].
  cbn [map]. unfold dim_of at 1. rewrite G, hs, IH. reflexivity.
Qed.

Lemma fixed_fits : forall f sp sh, fixed_dims (f_dims f) sp sh ->
  fits f sp (map (fun _ => 0) sp) sh = true.
Proof.
  intros f sp sh. induction 1 as [|k s sp sh (_ & d & G & hs & _) _ IH]; [reflexivity|].
  cbn [map fits]. unfold dim_of at 1 2. rewrite G, hs, IH. rewrite andb_true_r.
  apply orb_true_iff. right. apply Nat.leb_le. lia.
Qed.

Lemma fixed_grow : forall sp sh ds, fixed_dims ds sp sh ->
  forall st, grow ds sp st sh = ds.
Proof.
  induction sp as [|k sp IH]; intros sh ds F st.
  - destruct st; reflexivity.
  - inversion F as [|? s ? sh' (_ & d & G & hs & u) F']; subst. destruct st as [|s0 st]; [reflexivity|].
    cbn [grow]. rewrite G, u. apply IH, F'.
Qed.

(** The compatible dimensions of an existing variable have the same sizes. *)
Lemma compatible_sizes : forall f a b, dims_compatible f a b = true -> List.length a = List.length b ->
  map (fun d => d_size (dim_of f d)) a = map (fun d => d_size (dim_of f d)) b /\
  map (fun d => d_unlim (dim_of f d)) a = map (fun d => d_unlim (dim_of f d)) b.
Proof.
  induction a as [|x a IH]; intros [|y b] H L; try discriminate L; [split; reflexivity|].
  cbn [dims_compatible] in H. apply andb_true_iff in H. destruct H as [H1 H2].
  destruct (IH b H2) as [h1 h2]; [cbn in L; congruence|]. cbn [map]. rewrite h1, h2.
  destruct (key_dec x y) as [e|e] in H1; [subst; split; reflexivity|].
  apply andb_true_iff in H1. destruct H1 as [u s]. apply eqb_prop in u. apply Nat.eqb_eq in s.
  rewrite u, s. split; reflexivity.
Qed.

Lemma grow_time : forall ds tid sp sh d i, fixed_dims ds sp sh -> xyz (snd tid) = false ->
  get tid ds = Some d -> d_unlim d = true ->
  grow ds (tid :: sp) (i :: map (fun _ => 0) sp) (1 :: sh) =
  put tid {| d_unlim := true; d_size := Nat.max (d_size d) (i + 1) |} ds.
Proof.
  intros ds tid sp sh d i F hx G u. cbn [grow]. rewrite G, u. apply fixed_grow.
  eapply fixed_dims_ext; [|exact F]. intros k d0 G0. rewrite get_put. destruct (key_dec k tid) as [e|e].
  - subst k. eexists. split; [reflexivity|]. cbn [d_unlim d_size]. rewrite G in G0. injection G0 as <-.
    repeat split; [congruence|lia|congruence].
  - exists d0. repeat split; auto.
Qed.

Lemma ext_grow_time : forall ds tid d i, get tid ds = Some d -> d_unlim d = true ->
  ext ds (put tid {| d_unlim := true; d_size := Nat.max (d_size d) (i + 1) |} ds).
Proof.
  intros ds tid d i G u k d0 G0. rewrite get_put. destruct (key_dec k tid) as [e|e].
  - subst k. eexists. split; [reflexivity|]. cbn [d_unlim d_size]. rewrite G in G0. injection G0 as <-.
    repeat split; [congruence|lia|congruence].
  - exists d0. repeat split; auto.
Qed.

Lemma dims_ok_grow : forall ds tid d i, dims_ok ds -> get tid ds = Some d -> d_unlim d = true ->
  dims_ok (put tid {| d_unlim := true; d_size := Nat.max (d_size d) (i + 1) |} ds).
Proof.
  intros ds tid d i D G u p n d0. rewrite get_put. destruct (key_dec (p, n) tid) as [e|e].
  - subst tid. intros [= <-]. cbn [d_unlim d_size]. specialize (D _ _ _ G).
    destruct (xyz n); [destruct D; congruence|reflexivity].
  - apply D.
Qed.
