(** OptionsNetCDF: groups of variables; reading back. *)
From Coq Require Import List Arith ZArith Reals String Bool Lia.
From Verif Require Import NcModel NcSpec NcProofs NcProofs2 NcProofs3 NcProofs4 NcProofs5 NcProofs6.
Import ListNotations.
Local Open Scope nat_scope.
Open Scope string_scope.

(* ------------------------------------------------------------------ *)
(** Every variable is in a group of the file *)

Definition at_home (f : ncfile) (p : path) : Prop := p = [] \/ In p (f_groups f).
Definition gok (f : ncfile) : Prop := forall k v, In (k, v) (f_vars f) -> at_home f (fst k).
Definition gs (p : path) {A} (m : M A) : Prop := forall f, gok f -> at_home f p ->
  gok (fst (m f)) /\ incl (f_groups f) (f_groups (fst (m f))).

Lemma at_home_incl : forall f f' p, at_home f p -> incl (f_groups f) (f_groups f') -> at_home f' p.
Proof. intros f f' p [H|H] I; [left; exact H|right; apply I, H]. Qed.

Lemma gs_bind : forall p A B (m : M A) (k : A -> M B), gs p m -> (forall a, gs p (k a)) -> gs p (bind m k).
Proof.
  intros p A B m k Hm Hk f G H. unfold bind. destruct (Hm f G H) as [G1 I1].
  destruct (m f) as [f1 [a|]]; cbn [fst] in *; [|split; assumption].
  destruct (Hk a f1 G1 (at_home_incl _ _ _ H I1)) as [G2 I2]. split; [exact G2|]. eapply incl_tran; eassumption.
Qed.
Lemma gs_same : forall p A (m : M A), (forall f, f_vars (fst (m f)) = f_vars f /\ f_groups (fst (m f)) = f_groups f) -> gs p m.
Proof.
  intros p A m H f G _. destruct (H f) as [h1 h2]. rewrite h2. split; [|apply incl_refl].
  intros k v. rewrite h1. intros Hin. eapply at_home_incl; [eapply G, Hin|]. rewrite h2. apply incl_refl.
Qed.
Lemma gs_ret : forall p A (a : A), gs p (ret a).
Proof. intros. apply gs_same. split; reflexivity. Qed.
Lemma gs_throw : forall p A, gs p (@throw A).
Proof. intros. apply gs_same. split; reflexivity. Qed.

Lemma in_put : forall {A} k (a : A) l k' a', In (k', a') (put k a l) -> k' = k \/ In (k', a') l.
Proof.
  intros A k a l. induction l as [|[k0 b] l IH]; intros k' a' H; cbn [put] in H.
  - destruct H as [H|[]]. left. congruence.
  - revert H. destruct (key_dec k k0) as [e|e]; intros [H|H].
    + left. congruence.
    + right. right. exact H.
    + right. left. exact H.
    + destruct (IH _ _ H) as [h|h]; [left; exact h|right; right; exact h].
Qed.

Lemma gs_set : forall p n A (m : M A),
  (forall f, f_groups (fst (m f)) = f_groups f /\
     forall k v, In (k, v) (f_vars (fst (m f))) -> k = (p, n) \/ In (k, v) (f_vars f)) -> gs p m.
Proof.
  intros p n A m H f G Hp. destruct (H f) as [h1 h2]. rewrite h1. split; [|apply incl_refl].
  intros k v Hin. apply (at_home_incl f); [|rewrite h1; apply incl_refl].
  destruct (h2 k v Hin) as [->|Hin']; [exact Hp|eapply G, Hin'].
Qed.

Lemma gs_att : forall p n m a, gs p (nc_put_att (p, n) m a).
Proof.
  intros p n m a. apply (gs_set p n). intros f. unfold nc_put_att. destruct (get _ _); cbn [fst f_groups f_vars set_vars];
    (split; [reflexivity|]); intros k v H; [apply in_put in H; exact H|right; exact H].
Qed.
Lemma gs_put : forall p n s c d, gs p (nc_put (p, n) s c d).
Proof.
  intros p n s c d. apply (gs_set p n). intros f. unfold nc_put. destruct (get _ _) as [v|]; [destruct (fits _ _ _ _)|];
    cbn [fst f_groups f_vars set_vars set_dims]; (split; [reflexivity|]); intros k w H;
    [apply in_put in H; exact H|right; exact H|right; exact H].
Qed.
Lemma gs_addVar : forall p n t d, gs p (addVar (p, n) t d).
Proof.
  intros p n t d. apply (gs_set p n). intros f. unfold addVar. destruct (in_dec _ _ _);
    cbn [fst f_groups f_vars set_vars]; (split; [reflexivity|]); intros k w H; [right; exact H|apply in_put in H; exact H].
Qed.
Lemma gs_foc : forall p n t d b, gs p (find_or_create (p, n) t d b).
Proof.
  intros p n t d b f G H. unfold find_or_create. destruct (get _ _) as [v|].
  - destruct (negb _); [split; [exact G|apply incl_refl]|]. destruct (negb _); [split; [exact G|apply incl_refl]|].
    destruct (negb _); split; try exact G; apply incl_refl.
  - revert f G H. apply gs_bind; [apply gs_addVar|intros _]. apply gs_bind; [|intros _; apply gs_ret].
    destruct b; [apply gs_att|apply gs_ret].
Qed.
Lemma gs_put_value : forall p n d b v, gs p (put_value (p, n) d b v).
Proof.
  intros p n d b v f G H. unfold put_value. destruct b; [|apply gs_put; assumption].
  destruct (get _ _) as [w|]; [|split; [exact G|apply incl_refl]].
  destruct (getCurrentTimeIndex w); [|split; [exact G|apply incl_refl]].
  apply (gs_bind p _ _ _ _ (gs_put p n _ _ _) (fun _ => gs_att p n _ _)); assumption.
Qed.
Lemma gs_atts : forall p n l, gs p (put_atts (p, n) l).
Proof.
  intros p n l. induction l as [|[m a] l IH]; cbn [put_atts]; [apply gs_ret|].
  apply gs_bind; [apply gs_att|intros _; exact IH].
Qed.
Lemma gs_need : forall q p n s, gs q (needDimension p n s).
Proof.
  intros q p n s. unfold needDimension. apply gs_bind; [|intros [k|]; [apply gs_ret|apply gs_throw]].
  apply gs_same. intros f. unfold findDimension. destruct (get_dim _ _ _) as [[k d]|]; [|split; reflexivity].
  destruct (Nat.eqb _ _); [split; reflexivity|]. destruct (get _ _); split; reflexivity.
Qed.
Lemma gs_dims : forall q p v, gs q (NcDimVisitor p v).
Proof.
  intros q p v. destruct v; cbn [NcDimVisitor]; try apply gs_ret;
    repeat (apply gs_bind; [apply gs_need|intros ?]); apply gs_ret.
Qed.
Lemma gs_time : forall q p a t, gs q (time_dim_of p a t).
Proof.
  intros q p a t. unfold time_dim_of. destruct (lookup_att _ _) as [[| | |s]|]; try apply gs_throw; [|apply gs_ret].
  destruct (string_dec s t); [|apply gs_ret]. apply gs_same. intros f. destruct (get_dim _ _ _) as [[k d]|]; split; reflexivity.
Qed.
Lemma gs_write_value : forall p n v a t, gs p (write_value p n v a t).
Proof.
  intros. unfold write_value. destruct (NcTypeVisitor v); [|apply gs_ret].
  apply gs_bind; [apply gs_dims|]. intros sp. apply gs_bind; [apply gs_time|]. intros [td|]; [|apply gs_ret].
  apply gs_bind; [apply gs_foc|]. intros vd. apply gs_bind; [apply gs_put_value|]. intros _. apply gs_atts.
Qed.
Lemma gs_writeGroup : forall o p t, gs p (writeGroup o p t).
Proof.
  intros o. induction o as [v a|c IH] using opt_ind'; intros p t; [apply gs_ret|].
  rewrite writeGroup_sec. induction IH as [|[n o] c Ho _ IHc]; cbn [write_children]; [apply gs_ret|].
  apply gs_bind; [|intros _; exact IHc]. cbn [fst snd] in *. destruct o as [v a|c']; [apply gs_write_value|].
  intros f G H. unfold bind, open_group. destruct (in_dec _ _ _) as [i|i].
  - apply (Ho (n :: p) t f G). right. exact i.
  - destruct (get (p, n) (f_vars f)); [split; [exact G|apply incl_refl]|].
    set (f1 := set_groups f (f_groups f ++ [n :: p])).
    assert (I1 : incl (f_groups f) (f_groups f1)) by (intros x hx; apply in_or_app; left; exact hx).
    assert (G1 : gok f1) by (intros k v Hin; eapply at_home_incl; [eapply G, Hin|exact I1]).
    destruct (Ho (n :: p) t f1 G1) as [G2 I2].
    { right. apply in_or_app. right. left. reflexivity. }
    split; [exact G2|]. eapply incl_tran; eassumption.
Qed.
Lemma run_gok : forall l w w' bs, run w l = (w', bs) ->
  match w_disk w with Some f => gok f | None => True end ->
  match w_disk w' with Some f => gok f | None => True end.
Proof.
  induction l as [|x l IH]; intros w w' bs E H; cbn [run] in E.
  - injection E as <- <-. exact H.
  - destruct (step w x) as [w1 b] eqn:E1. destruct (run w1 l) as [w2 bs2] eqn:E2. injection E as <- <-.
    apply (IH _ _ _ E2). destruct x as [m|o t]; cbn [step] in E1.
    + injection E1 as <- <-. exact H.
    + match type of E1 with context [writeGroup o [] t ?g] => set (f0 := g) in E1 end.
      assert (N0 : gok f0).
      { unfold f0. destruct (w_disk w), (w_open w), (w_mode w); try exact H; intros k v []. }
      pose proof (gs_writeGroup o [] t f0 N0 (or_introl eq_refl)) as [N1 _]. destruct (writeGroup o [] t f0) as [f1 r].
      injection E1 as <- <-. exact N1.
Qed.

(* ------------------------------------------------------------------ *)
(** Lagging variables *)

Lemma silent_records : forall same f l time p n1 n2 n3, (forall x, same x x = true) ->
  Inv f l -> nodup f -> gok f ->
  (forall k e, In e (recs k l) -> e_time e = time k) ->
  verifyTimesteps same f = Some [] ->
  recs (p, n1) l <> [] -> recs (p, n2) l <> [] -> recs (p, n3) l <> [] ->
  time (p, n1) = time (p, n2) -> time (p, n3) = time (p, n2) ->
  String.ltb n1 n2 = true ->
  List.length (recs (p, n3) l) <= List.length (recs (p, n2) l).
Proof.
  intros same f l time p n1 n2 n3 R I N G T V H1 H2 H3 t12 t32 L.
  destruct (inv_timed f l (p, n1) I H1) as (v1 & g1 & T1). destruct (inv_timed f l (p, n2) I H2) as (v2 & g2 & T2).
  destruct (inv_timed f l (p, n3) I H3) as (v3 & g3 & T3).
  destruct (timed_dim f l _ v1 _ I g1 T1 H1 (T (p, n1))) as (tid1 & sp1 & d1 & _ & K1 & _ & _ & _ & A1).
  destruct (timed_dim f l _ v2 _ I g2 T2 H2 (T (p, n2))) as (tid2 & sp2 & d2 & _ & K2 & _ & _ & _ & A2).
  destruct (timed_dim f l _ v3 _ I g3 T3 H3 (T (p, n3))) as (tid3 & sp3 & d3 & _ & K3 & _ & _ & le3 & A3).
  cbn [fst] in *. rewrite t12 in A1, K1. rewrite t32 in K3.
  assert (d3 = d2) by congruence. subst d3.
  assert (Hp : In p ([] :: f_groups f)).
  { destruct (G _ _ (get_in _ _ _ g2)) as [h|h]; cbn [fst] in h; [left; symmetry; exact h|right; exact h]. }
  pose proof (silent_pair same f p n1 n2 v1 v2 _ tid2 d2 R V Hp (get_in _ _ _ g1) (get_in _ _ _ g2) A1 A2 K2 L) as S.
  rewrite (tv_index _ _ _ _ T2) in S. injection S as S. lia.
Qed.

(* ------------------------------------------------------------------ *)
(** Reading *)

Lemma map_add_seq : forall q a b, map (fun j => a + j) (seq b q) = seq (a + b) q.
Proof.
  induction q as [|q IH]; intros a b; cbn [seq map]; [reflexivity|]. f_equal.
  rewrite IH. f_equal. lia.
Qed.

Lemma seq_blocks : forall m n s, flat_map (fun i => map (fun j => i * m + j) (seq 0 m)) (seq s n) = seq (s * m) (n * m).
Proof.
  intros m. induction n as [|n IH]; intros s; [reflexivity|]. cbn [seq flat_map]. rewrite IH.
  replace (Datatypes.S n * m) with (m + n * m) by lia. rewrite seq_app. f_equal.
  - rewrite map_add_seq. f_equal. lia.
  - f_equal. lia.
Qed.

Lemma ravel_all : forall sh, map (ravel sh) (all_idx sh) = seq 0 (prod sh).
Proof.
  induction sh as [|n sh IH]; [reflexivity|]. cbn [all_idx prod].
  rewrite <- (seq_blocks (prod sh) n 0) at 1.
  rewrite (flat_map_concat_map), concat_map, map_map, <- flat_map_concat_map.
  apply flat_map_ext. intros i. rewrite map_map. rewrite <- IH, map_map.
  apply map_ext. intros j. reflexivity.
Qed.

Lemma all_idx_in : forall sh idx, In idx (all_idx sh) -> in_shape idx sh.
Proof.
  induction sh as [|n sh IH]; intros idx H; cbn [all_idx] in H.
  - destruct H as [<-|[]]. constructor.
  - apply in_flat_map in H. destruct H as (i & Hi & H). apply in_map_iff in H. destruct H as (j & <- & Hj).
    apply in_seq in Hi. constructor; [lia|]. apply IH, Hj.
Qed.

Lemma nth_seq_id : forall (d : list cell) n, List.length d = n -> map (fun i => nth i d CJunk) (seq 0 n) = d.
Proof.
  intros d n <-. induction d as [|c d IH]; [reflexivity|]. cbn [List.length seq map nth]. f_equal.
  rewrite <- seq_shift, map_map. exact IH.
Qed.

Lemma put_data_length : forall x, val_ok x -> supported x = true -> List.length (put_data x) = prod (shape x).
Proof.
  intros [b|z|r|s|nx ny d|nx ny nz d|nx nz d|] V Sx; cbn [put_data shape prod val_ok] in *; try discriminate Sx; try reflexivity;
    rewrite map_length; [destruct V as (_ & _ & V)|destruct V as (_ & _ & _ & V)|destruct V as (_ & _ & V)]; rewrite V.
  - lia.
  - rewrite Nat.mul_1_r, Nat.mul_assoc. reflexivity.
  - lia.
Qed.

Lemma elements_all : forall x, val_ok x -> supported x = true ->
  map (element x) (all_idx (shape x)) = put_data x.
Proof.
  intros x V Sx. transitivity (map (fun idx => nth (ravel (shape x) idx) (put_data x) CJunk) (all_idx (shape x))).
  - apply map_ext_in. intros idx H. symmetry. apply put_data_element; [exact V|exact Sx|apply all_idx_in, H].
  - rewrite <- (map_map (ravel (shape x)) (fun i => nth i (put_data x) CJunk)), ravel_all.
    apply nth_seq_id. apply put_data_length; assumption.
Qed.

Lemma read_plain : forall f l k, Inv f l -> forall l' e, plns k l = (l' ++ [e])%list -> val_ok (e_val e) ->
  exists v, get k (f_vars f) = Some v /\ NcTypeVisitor (e_val e) = Some (v_type v) /\
    map (fun d => d_size (dim_of f d)) (v_dims v) = shape (e_val e) /\
    read_cells v (shape (e_val e)) = map Some (put_data (e_val e)) /\
    (forall n a, lookup_att n (e_atts e) = Some a -> get_att n (v_atts v) = Some (NcPutAttVisitor a)).
Proof.
  intros f l k (_ & _ & I) l' e E V. specialize (I k). unfold var_inv in I. destruct (get k (f_vars f)) as [v|].
  - destruct I as [[_ [_ Z]]|[T _]]; [rewrite Z in E; destruct l'; discriminate E|].
    exists v. split; [reflexivity|]. destruct (pv_dims _ _ _ T) as (sh & F & A). rewrite E in A.
    apply Forall_app in A. destruct A as [_ A]. inversion A as [|? ? [h1 h2] _]; subst.
    split; [exact h2|]. split; [apply fixed_sizes, F|]. split.
    + unfold read_cells. rewrite <- (elements_all _ V (supported_type _ _ h2)), map_map. apply map_ext_in.
      intros idx Hi. apply (pv_cells _ _ _ T l' e E). apply all_idx_in, Hi.
    + exact (pv_atts _ _ _ T e l' E).
  - destruct I as [_ Z]. rewrite Z in E. destruct l'; discriminate E.
Qed.

Lemma flat_seq : forall A B (es : list A) (g : nat -> list B) (h : A -> list B),
  (forall i e, nth_error es i = Some e -> g i = h e) ->
  flat_map g (seq 0 (List.length es)) = flat_map h es.
Proof.
  intros A B es g h. induction es as [|e es IH] using rev_ind; intros W; [reflexivity|].
  rewrite app_length, seq_app, !flat_map_app. cbn [List.length seq flat_map Nat.add]. rewrite !app_nil_r. f_equal.
  - apply IH. intros i e0 E. apply W. rewrite nth_error_app1; [exact E|]. apply nth_error_Some. congruence.
  - apply W. rewrite nth_error_app2 by lia. rewrite Nat.sub_diag. reflexivity.
Qed.

Lemma flat_none : forall B (g : nat -> list (option B)) k m b, (forall i, b <= i -> g i = repeat None k) ->
  flat_map g (seq b m) = repeat None (m * k).
Proof.
  intros B g k. induction m as [|m IH]; intros b W; [reflexivity|].
  cbn [seq flat_map]. rewrite W by lia. rewrite IH by (intros i hi; apply W; lia).
  cbn [Nat.mul]. rewrite repeat_app. reflexivity.
Qed.

(** Records, as a list. *)
Lemma read_timed : forall f l k, Inv f l -> recs k l <> [] -> Forall (fun e => val_ok (e_val e)) (recs k l) ->
  exists v n sh, get k (f_vars f) = Some v /\
    map (fun d => d_size (dim_of f d)) (v_dims v) = (n :: sh)%list /\ List.length (recs k l) <= n /\
    Forall (type_shape (v_type v) sh) (recs k l) /\
    (Forall (fun e => stored_type (e_val e) = TDouble) (recs k l) ->
     read_cells v (n :: sh) =
     (flat_map (fun e => map Some (put_data (e_val e))) (recs k l) ++
      repeat None ((n - List.length (recs k l)) * prod sh))%list) /\
    (forall l' e, recs k l = (l' ++ [e])%list -> forall m a, lookup_att m (e_atts e) = Some a ->
       get_att m (v_atts v) = Some (NcPutAttVisitor a)).
Proof.
  intros f l k I H V. destruct (inv_timed f l k I H) as (v & G & T).
  destruct (tv_dims _ _ _ _ T) as (tid & sp & sh & d & Dv & hx & Gd & u & le & _ & _ & F & A).
  exists v, (d_size d), sh. split; [exact G|]. split.
  { rewrite Dv. cbn [map]. rewrite (fixed_sizes _ _ _ F). unfold dim_of. rewrite Gd. reflexivity. }
  split; [exact le|]. split; [exact A|]. split; [|intros l' e E; exact (tv_att _ _ _ _ T e l' E)].
  intros D. unfold read_cells. cbn [all_idx]. pose proof (tv_cells _ _ _ _ T) as C.
  set (es := recs k l) in *. clearbody es. 
  replace (d_size d) with (List.length es + (d_size d - List.length es)) at 1 by lia.
  generalize (d_size d - List.length es). intros m. clear -C A V D.
  rewrite seq_app, flat_map_app, map_app. f_equal.
  - rewrite flat_map_concat_map, concat_map, map_map, <- flat_map_concat_map. cbn [Nat.add].
    assert (W : forall i e, nth_error es i = Some e ->
      map (v_cells v) (map (cons i) (all_idx sh)) = map Some (put_data (e_val e))).
    { intros i e E. pose proof (nth_error_In _ _ E) as Hin. rewrite Forall_forall in A, V, D.
      destruct (A e Hin) as [h1 h2]. pose proof (supported_type _ _ h2) as Sx.
      rewrite <- (elements_all _ (V e Hin) Sx), !map_map. rewrite h1. apply map_ext_in. intros idx Hi.
      rewrite (proj1 (C i idx) (e_val e)).
      - f_equal. specialize (D e Hin). destruct (e_val e); try reflexivity; discriminate D.
      - rewrite nth_error_map, E. reflexivity.
      - rewrite h1. apply all_idx_in, Hi. }
    apply (flat_seq _ _ es (fun i => map (v_cells v) (map (cons i) (all_idx sh))) (fun e => map Some (put_data (e_val e)))). exact W.
  - rewrite flat_map_concat_map, concat_map, map_map, <- flat_map_concat_map.
    assert (W : forall i, List.length es <= i -> map (v_cells v) (map (cons i) (all_idx sh)) = repeat None (prod sh)).
    { intros i Hi. rewrite map_map. transitivity (map (fun _ : list nat => @None cell) (all_idx sh)).
      - apply map_ext. intros idx. apply (C i idx). rewrite nth_error_map, (proj2 (nth_error_None es i) Hi). reflexivity.
      - assert (Ln : List.length (all_idx sh) = prod sh).
        { rewrite <- (map_length (ravel sh)), ravel_all, seq_length. reflexivity. }
        rewrite <- Ln. clear. induction (all_idx sh) as [|x q IH]; cbn [map List.length repeat]; [reflexivity|congruence]. }
    cbn [Nat.add]. apply (flat_none _ (fun i => map (v_cells v) (map (cons i) (all_idx sh)))). exact W.
Qed.

Lemma read_atts_lookup : forall n l a fn, get_att n l = Some a ->
  lookup_att n (read_atts l ++ [("source", AStr fn)]) =
  Some (match a with NInt z => AInt z | NReal x => AReal x | NStr s => AStr s end).
Proof.
  intros n l a fn. induction l as [|[m b] l IH]; cbn [get_att]; [discriminate|].
  cbn [read_atts app lookup_att]. destruct (string_dec n m); [intros [= ->]; reflexivity|exact IH].
Qed.
