(** OptionsNetCDF::verifyTimesteps. *)
From Coq Require Import List Arith ZArith Reals String Bool Lia Permutation Sorted Ascii.
From Verif Require Import NcModel NcSpec NcProofs NcProofs2 NcProofs3 NcProofs4 NcProofs5.
Import ListNotations.
Local Open Scope nat_scope.
Open Scope string_scope.

(* ------------------------------------------------------------------ *)
(** Variables are listed once *)

Definition nodup (f : ncfile) : Prop := NoDup (map fst (f_vars f)).
Definition keepnd {A} (m : M A) : Prop := forall f, nodup f -> nodup (fst (m f)).

Lemma put_keys : forall {A} k (a : A) l, NoDup (map fst l) -> NoDup (map fst (put k a l)).
Proof.
  intros A k a l. induction l as [|[k' b] l IH]; intros H; cbn [put].
  - repeat constructor. intros [].
  - cbn [map fst] in H. inversion H as [|? ? h1 h2]; subst. destruct (key_dec k k') as [e|e]; cbn [map fst].
    + subst. exact H.
    + constructor; [|apply IH, h2]. intros Hin. apply h1. clear -Hin e. induction l as [|[k2 c] l IH]; cbn [put map fst In] in *.
      * destruct Hin as [Hin|[]]. congruence.
      * destruct (key_dec k k2) as [e2|e2]; cbn [map fst In] in Hin.
        -- destruct Hin as [Hin|Hin]; [congruence|right; exact Hin].
        -- destruct Hin as [Hin|Hin]; [left; exact Hin|right; apply IH, Hin].
Qed.

Lemma kn_bind : forall A B (m : M A) (k : A -> M B), keepnd m -> (forall a, keepnd (k a)) -> keepnd (bind m k).
Proof.
  intros A B m k Hm Hk f N. unfold bind. specialize (Hm f N). destruct (m f) as [f1 [a|]]; cbn [fst] in *; [apply Hk, Hm|exact Hm].
Qed.
Lemma kn_ret : forall A (a : A), keepnd (ret a).
Proof. intros A a f N. exact N. Qed.
Lemma kn_throw : forall A, keepnd (@throw A).
Proof. intros A f N. exact N. Qed.
Lemma kn_addDim : forall p n s, keepnd (addDim p n s).
Proof. intros p n s f N. exact N. Qed.
Lemma kn_findDimension : forall p n s, keepnd (findDimension p n s).
Proof.
  intros p n s f N. unfold findDimension. destruct (get_dim _ _ _) as [[k d]|].
  - destruct (Nat.eqb _ _); [exact N|]. destruct (get _ _); exact N.
  - exact N.
Qed.
Lemma kn_need : forall p n s, keepnd (needDimension p n s).
Proof.
  intros. apply kn_bind; [apply kn_findDimension|]. intros [k|]; [apply kn_ret|apply kn_throw].
Qed.
Lemma kn_dims : forall p v, keepnd (NcDimVisitor p v).
Proof.
  intros p v. destruct v; cbn [NcDimVisitor]; try apply kn_ret;
    repeat (apply kn_bind; [apply kn_need|intros ?]); apply kn_ret.
Qed.
Lemma kn_time : forall p a t, keepnd (time_dim_of p a t).
Proof.
  intros p a t. unfold time_dim_of. destruct (lookup_att _ _) as [[| | |s]|]; try apply kn_throw; [|apply kn_ret].
  destruct (string_dec s t); [|apply kn_ret]. intros f N. destruct (get_dim _ _ _) as [[k d]|]; exact N.
Qed.
Lemma kn_addVar : forall k t d, keepnd (addVar k t d).
Proof.
  intros k t d f N. unfold addVar. destruct (in_dec _ _ _); [exact N|]. apply put_keys, N.
Qed.
Lemma kn_put_att : forall k n a, keepnd (nc_put_att k n a).
Proof. intros k n a f N. unfold nc_put_att. destruct (get _ _); [|exact N]. apply put_keys, N. Qed.
Lemma kn_put : forall k s c d, keepnd (nc_put k s c d).
Proof.
  intros k s c d f N. unfold nc_put. destruct (get _ _) as [v|]; [|exact N]. destruct (fits _ _ _ _); [|exact N].
  apply put_keys, N.
Qed.
Lemma kn_put_atts : forall k l, keepnd (put_atts k l).
Proof.
  intros k l. induction l as [|[n a] l IH]; cbn [put_atts]; [apply kn_ret|].
  apply kn_bind; [apply kn_put_att|intros _; exact IH].
Qed.
Lemma kn_foc : forall k t d b, keepnd (find_or_create k t d b).
Proof.
  intros k t d b f N. unfold find_or_create. destruct (get _ _) as [v|].
  - destruct (negb _); [exact N|]. destruct (negb _); [exact N|]. destruct (negb _); exact N.
  - revert f N. apply kn_bind; [apply kn_addVar|]. intros _. apply kn_bind; [|intros _; apply kn_ret].
    destruct b; [apply kn_put_att|apply kn_ret].
Qed.
Lemma kn_put_value : forall k d b v, keepnd (put_value k d b v).
Proof.
  intros k d b v f N. unfold put_value. destruct b; [|apply kn_put, N].
  destruct (get _ _) as [w|]; [|exact N]. destruct (getCurrentTimeIndex w); [|exact N].
  revert f N. intros f N. apply kn_bind; [apply kn_put|intros _; apply kn_put_att|exact N].
Qed.
Lemma kn_write_value : forall p n v a t, keepnd (write_value p n v a t).
Proof.
  intros. unfold write_value. destruct (NcTypeVisitor v); [|apply kn_ret].
  apply kn_bind; [apply kn_dims|]. intros sp. apply kn_bind; [apply kn_time|]. intros [td|]; [|apply kn_ret].
  apply kn_bind; [apply kn_foc|]. intros vd. apply kn_bind; [apply kn_put_value|]. intros _. apply kn_put_atts.
Qed.
Lemma kn_group : forall p n, keepnd (open_group p n).
Proof.
  intros p n f N. unfold open_group. destruct (in_dec _ _ _); [exact N|]. destruct (get _ _); exact N.
Qed.
Lemma kn_writeGroup : forall o p t, keepnd (writeGroup o p t).
Proof.
  intros o. induction o as [v a|c IH] using opt_ind'; intros p t; [apply kn_ret|].
  rewrite writeGroup_sec. induction IH as [|[n o] c Ho _ IHc]; cbn [write_children]; [apply kn_ret|].
  apply kn_bind; [|intros _; exact IHc]. cbn [fst snd] in *. destruct o; [apply kn_write_value|].
  apply kn_bind; [apply kn_group|intros _; apply Ho].
Qed.
Lemma run_nodup : forall l w w' bs, run w l = (w', bs) ->
  match w_disk w with Some f => nodup f | None => True end ->
  match w_disk w' with Some f => nodup f | None => True end.
Proof.
  induction l as [|x l IH]; intros w w' bs E H; cbn [run] in E.
  - injection E as <- <-. exact H.
  - destruct (step w x) as [w1 b] eqn:E1. destruct (run w1 l) as [w2 bs2] eqn:E2. injection E as <- <-.
    apply (IH _ _ _ E2). destruct x as [m|o t]; cbn [step] in E1.
    + injection E1 as <- <-. exact H.
    + match type of E1 with context [writeGroup o [] t ?g] => set (f0 := g) in E1 end.
      assert (N0 : nodup f0).
      { unfold f0. destruct (w_disk w), (w_open w), (w_mode w); try exact H; constructor. }
      pose proof (kn_writeGroup o [] t f0 N0) as N1. destruct (writeGroup o [] t f0) as [f1 r].
      injection E1 as <- <-. exact N1.
Qed.

Lemma in_get : forall {A} k (a : A) l, NoDup (map fst l) -> In (k, a) l -> get k l = Some a.
Proof.
  intros A k a l. induction l as [|[k' b] l IH]; intros N H; [destruct H|]. cbn [map fst] in N.
  inversion N as [|? ? h1 h2]; subst. cbn [get]. destruct H as [H|H].
  - injection H as <- <-. destruct (key_dec k' k'); congruence.
  - destruct (key_dec k k') as [e|e]; [|apply IH; assumption]. subst. exfalso. apply h1.
    apply in_map_iff. exists (k', a). auto.
Qed.
Lemma get_in : forall {A} k (a : A) l, get k l = Some a -> In (k, a) l.
Proof.
  intros A k a l. induction l as [|[k' b] l IH]; cbn [get]; [discriminate|].
  destruct (key_dec k k') as [e|e]; [intros [= <-]; subst; left; reflexivity|]. intros H. right. apply IH, H.
Qed.

(* ------------------------------------------------------------------ *)
(** Order of names *)

Lemma leb_cons : forall a s b t, String.leb (String a s) (String b t) =
  match Ascii.compare a b with Lt => true | Eq => String.leb s t | Gt => false end.
Proof. intros. unfold String.leb. cbn [String.compare]. destruct (Ascii.compare a b); reflexivity. Qed.

Lemma leb_trans : forall a b c, String.leb a b = true -> String.leb b c = true -> String.leb a c = true.
Proof.
  induction a as [|x a IH]; intros [|y b] [|z c] H1 H2; try reflexivity; try discriminate.
  rewrite leb_cons in *. unfold Ascii.compare in *.
  destruct (N.compare_spec (N_of_ascii x) (N_of_ascii y)) as [e1|e1|e1] in H1;
    destruct (N.compare_spec (N_of_ascii y) (N_of_ascii z)) as [e2|e2|e2] in H2; try discriminate.
  - rewrite e1, e2, N.compare_refl. eapply IH; eassumption.
  - rewrite (proj2 (N.compare_lt_iff _ _)) by lia. reflexivity.
  - rewrite (proj2 (N.compare_lt_iff _ _)) by lia. reflexivity.
  - rewrite (proj2 (N.compare_lt_iff _ _)) by lia. reflexivity.
Qed.
Lemma leb_total : forall a b, String.leb a b = true \/ String.leb b a = true.
Proof. apply String.leb_total. Qed.

Lemma insert_perm : forall {A} (x : string * A) l, Permutation (insert_name x l) (x :: l).
Proof.
  induction l as [|y l IH]; cbn [insert_name]; [reflexivity|].
  destruct (String.leb (fst x) (fst y)); [reflexivity|]. rewrite IH. apply perm_swap.
Qed.
Lemma sort_perm : forall {A} (l : list (string * A)), Permutation (sort_names l) l.
Proof. induction l as [|x l IH]; cbn [sort_names]; [reflexivity|]. rewrite insert_perm, IH. reflexivity. Qed.

Definition name_le {A} (x y : string * A) : Prop := String.leb (fst x) (fst y) = true.

Lemma insert_sorted : forall {A} (x : string * A) l, StronglySorted name_le l -> StronglySorted name_le (insert_name x l).
Proof.
  intros A x l H. induction H as [|y l H IH F]; cbn [insert_name].
  - repeat constructor.
  - destruct (String.leb (fst x) (fst y)) eqn:E.
    + constructor; [constructor; assumption|]. constructor; [exact E|].
      eapply Forall_impl; [|exact F]. intros z Hz. eapply leb_trans; [exact E|exact Hz].
    + constructor; [exact IH|]. apply (Permutation_Forall (Permutation_sym (insert_perm x l))).
      constructor; [|exact F]. destruct (leb_total (fst x) (fst y)) as [h|h]; [congruence|exact h].
Qed.
Lemma sort_sorted : forall {A} (l : list (string * A)), StronglySorted name_le (sort_names l).
Proof. induction l; cbn [sort_names]; [constructor|apply insert_sorted; assumption]. Qed.

Lemma getVars_in : forall f p n v, In (n, v) (getVars f p) <-> In ((p, n), v) (f_vars f).
Proof.
  intros f p n v. unfold getVars. split.
  - intros H. apply (Permutation_in _ (sort_perm _)) in H. apply in_map_iff in H.
    destruct H as ([[q m] w] & E & H). cbn [fst snd] in E. injection E as <- <-.
    apply filter_In in H. cbn [fst] in H. destruct H as [H E]. destruct (list_eq_dec string_dec q p); [subst; exact H|discriminate].
  - intros H. apply (Permutation_in _ (Permutation_sym (sort_perm _))). apply in_map_iff.
    exists ((p, n), v). split; [reflexivity|]. apply filter_In. split; [exact H|]. cbn [fst].
    destruct (list_eq_dec string_dec p p); congruence.
Qed.

(* ------------------------------------------------------------------ *)
(** The check *)

Definition good_var (f : ncfile) (p : path) (v : ncvar) : Prop :=
  get_att "time_dimension" (v_atts v) = None \/
  exists s k d, get_att "time_dimension" (v_atts v) = Some (NStr s) /\
    get_dim (f_dims f) p s = Some (k, d) /\ getCurrentTimeIndex v = Some (d_size d).

Lemma verify_vars_good : forall same f p l seen, (forall n v, In (n, v) l -> good_var f p v) ->
  verify_vars same f p l seen = Some [].
Proof.
  intros same f p l. induction l as [|[n v] l IH]; intros seen H; [reflexivity|]. cbn [verify_vars].
  assert (H' : forall n0 v0, In (n0, v0) l -> good_var f p v0) by (intros n0 v0 h; apply (H n0), or_intror, h).
  destruct (H n v (or_introl eq_refl)) as [E|(s & k & d & E & G & Ix)]; rewrite E; [apply IH, H'|].
  rewrite G. destruct (existsb (same k) seen); [|apply IH, H'].
  rewrite Ix, (IH _ H'), Nat.eqb_refl. reflexivity.
Qed.

Lemma verify_good : forall same f, (forall p n v, In ((p, n), v) (f_vars f) -> good_var f p v) ->
  verifyTimesteps same f = Some [].
Proof.
  intros same f H. unfold verifyTimesteps. generalize ([] :: f_groups f).
  intros l. induction l as [|p l IH]; [reflexivity|]. cbn [verify_groups]. rewrite IH.
  rewrite verify_vars_good; [reflexivity|]. intros n v Hin. apply getVars_in in Hin. exact (H _ _ _ Hin).
Qed.

(** What silence says. *)
Lemma verify_vars_seen : forall same f p s k d, (forall x, same x x = true) ->
  get_dim (f_dims f) p s = Some (k, d) ->
  forall l seen, verify_vars same f p l seen = Some [] -> In k seen ->
  forall n v, In (n, v) l -> get_att "time_dimension" (v_atts v) = Some (NStr s) ->
  getCurrentTimeIndex v = Some (d_size d).
Proof.
  intros same f p s k d R G. induction l as [|[m w] l IH]; intros seen H Hs n v Hin A; [destruct Hin|].
  cbn [verify_vars] in H. destruct Hin as [Hin|Hin].
  - injection Hin as -> ->. rewrite A, G in H.
    assert (E : existsb (same k) seen = true) by (apply existsb_exists; exists k; auto).
    rewrite E in H. destruct (getCurrentTimeIndex v) as [c|]; [|discriminate].
    destruct (verify_vars same f p l seen) as [e|]; [|discriminate].
    destruct (Nat.eqb c (d_size d)) eqn:Ec; [apply Nat.eqb_eq in Ec; congruence|discriminate].
  - destruct (get_att "time_dimension" (v_atts w)) as [[| |s']|]; try discriminate H.
    + destruct (get_dim (f_dims f) p s') as [[k' d']|]; [|discriminate H].
      destruct (existsb (same k') seen).
      * destruct (getCurrentTimeIndex w) as [c|]; [|discriminate].
        destruct (verify_vars same f p l seen) as [e|] eqn:Ev; [|discriminate].
        destruct (Nat.eqb c (d_size d')); [injection H as ->|discriminate]. exact (IH seen Ev Hs n v Hin A).
      * exact (IH (k' :: seen) H (or_intror Hs) n v Hin A).
    + exact (IH seen H Hs n v Hin A).
Qed.

Lemma verify_vars_two : forall same f p s k d, (forall x, same x x = true) ->
  get_dim (f_dims f) p s = Some (k, d) ->
  forall l1 l2 n1 v1 n2 v2 seen, verify_vars same f p (l1 ++ (n1, v1) :: l2) seen = Some [] ->
  get_att "time_dimension" (v_atts v1) = Some (NStr s) ->
  In (n2, v2) l2 -> get_att "time_dimension" (v_atts v2) = Some (NStr s) ->
  getCurrentTimeIndex v2 = Some (d_size d).
Proof.
  intros same f p s k d R G. induction l1 as [|[m w] l1 IH]; intros l2 n1 v1 n2 v2 seen H A1 Hin A2; cbn [app] in H; cbn [verify_vars] in H.
  - rewrite A1, G in H. destruct (existsb (same k) seen) eqn:Ex.
    + destruct (getCurrentTimeIndex v1); [|discriminate]. destruct (verify_vars same f p l2 seen) as [e|] eqn:Ev; [|discriminate].
      destruct (Nat.eqb n (d_size d)); [injection H as ->|discriminate].
      (* a later variable with the same dimension meets the same [seen] *)
      clear A1. revert Ev Hin A2 Ex. revert seen. induction l2 as [|[m w] l2 IH]; intros seen Ev Hin A2 Ex; [destruct Hin|].
      cbn [verify_vars] in Ev. destruct Hin as [Hin|Hin].
      * injection Hin as -> ->. rewrite A2, G, Ex in Ev. destruct (getCurrentTimeIndex v2) as [c|]; [|discriminate].
        destruct (verify_vars same f p l2 seen) as [e|]; [|discriminate].
        destruct (Nat.eqb c (d_size d)) eqn:Ec; [apply Nat.eqb_eq in Ec; congruence|discriminate].
      * destruct (get_att "time_dimension" (v_atts w)) as [[| |s']|]; try discriminate Ev.
        -- destruct (get_dim (f_dims f) p s') as [[k' d']|]; [|discriminate Ev].
           destruct (existsb (same k') seen).
           ++ destruct (getCurrentTimeIndex w) as [c|]; [|discriminate].
              destruct (verify_vars same f p l2 seen) as [e|] eqn:Ev'; [|discriminate].
              destruct (Nat.eqb c (d_size d')); [injection Ev as ->|discriminate]. exact (IH seen Ev' Hin A2 Ex).
           ++ apply (IH (k' :: seen) Ev Hin A2). cbn [existsb]. rewrite Ex. apply orb_true_r.
        -- exact (IH seen Ev Hin A2 Ex).
    + exact (verify_vars_seen same f p s k d R G l2 (k :: seen) H (or_introl eq_refl) n2 v2 Hin A2).
  - destruct (get_att "time_dimension" (v_atts w)) as [[| |s']|]; try discriminate H.
    + destruct (get_dim (f_dims f) p s') as [[k' d']|]; [|discriminate H].
      destruct (existsb (same k') seen).
      * destruct (getCurrentTimeIndex w) as [c|]; [|discriminate].
        destruct (verify_vars same f p (l1 ++ (n1, v1) :: l2) seen) as [e|] eqn:Ev; [|discriminate].
        destruct (Nat.eqb c (d_size d')); [injection H as ->|discriminate]. exact (IH l2 n1 v1 n2 v2 seen Ev A1 Hin A2).
      * exact (IH l2 n1 v1 n2 v2 (k' :: seen) H A1 Hin A2).
    + exact (IH l2 n1 v1 n2 v2 seen H A1 Hin A2).
Qed.

Lemma verify_in_group : forall same f p, verifyTimesteps same f = Some [] -> In p ([] :: f_groups f) ->
  verify_vars same f p (getVars f p) [] = Some [].
Proof.
  intros same f p. unfold verifyTimesteps. generalize ([] :: f_groups f). intros l. induction l as [|q l IH]; intros H Hin; [destruct Hin|].
  cbn [verify_groups] in H. destruct (verify_vars same f q (getVars f q) []) as [a|] eqn:Ea; [|discriminate].
  destruct (verify_groups same f l) as [b|] eqn:Eb; [|discriminate]. injection H as H. apply app_eq_nil in H. destruct H as [-> ->].
  destruct Hin as [<-|Hin]; [exact Ea|]. apply IH; [reflexivity|exact Hin].
Qed.

Lemma silent_pair : forall same f p n1 n2 v1 v2 s k d, (forall x, same x x = true) ->
  verifyTimesteps same f = Some [] -> In p ([] :: f_groups f) ->
  In ((p, n1), v1) (f_vars f) -> In ((p, n2), v2) (f_vars f) ->
  get_att "time_dimension" (v_atts v1) = Some (NStr s) ->
  get_att "time_dimension" (v_atts v2) = Some (NStr s) ->
  get_dim (f_dims f) p s = Some (k, d) -> String.ltb n1 n2 = true ->
  getCurrentTimeIndex v2 = Some (d_size d).
Proof.
  intros same f p n1 n2 v1 v2 s k d R H Hp I1 I2 A1 A2 G L.
  pose proof (verify_in_group _ _ _ H Hp) as V. apply getVars_in in I1. apply getVars_in in I2.
  assert (S : StronglySorted name_le (getVars f p)) by (unfold getVars; apply sort_sorted).
  destruct (in_split _ _ I1) as (l1 & l2 & E). rewrite E in *.
  apply in_app_or in I2. destruct I2 as [I2|[I2|I2]].
  - exfalso. clear -S I2 L. induction l1 as [|y l1 IH]; [destruct I2|]. cbn [app] in S. apply StronglySorted_inv in S. destruct S as [S1 F].
    destruct I2 as [->|I2]; [|exact (IH I2 S1)]. rewrite Forall_forall in F.
    specialize (F (n1, v1) (in_elt _ _ _)). unfold name_le in F. cbn [fst] in F.
    unfold String.ltb, String.leb in *. rewrite String.compare_antisym in F. destruct (String.compare n1 n2); discriminate.
  - exfalso. injection I2 as -> _. clear -L. unfold String.ltb in L.
    pose proof (String.compare_antisym n2 n2) as C. destruct (String.compare n2 n2); discriminate.
  - exact (verify_vars_two same f p s k d R G l1 l2 n1 v1 n2 v2 [] V A1 I2 A2).
Qed.

(* ------------------------------------------------------------------ *)
(** On files made by writes *)

Lemma inv_timed : forall f l k, Inv f l -> recs k l <> [] ->
  exists v, get k (f_vars f) = Some v /\ timed_var (f_dims f) (fst k) v (recs k l).
Proof.
  intros f l k (_ & _ & I) H. specialize (I k). unfold var_inv in I. destruct (get k (f_vars f)) as [v|].
  - exists v. split; [reflexivity|]. destruct I as [[T _]|[_ [E _]]]; [exact T|congruence].
  - destruct I. congruence.
Qed.

(** The dimension of a timed variable whose entries all have the same time. *)
Lemma timed_dim : forall f l k v s, Inv f l -> get k (f_vars f) = Some v ->
  timed_var (f_dims f) (fst k) v (recs k l) -> recs k l <> [] ->
  (forall e, In e (recs k l) -> e_time e = s) ->
  exists tid sp d, v_dims v = tid :: sp /\ get_dim (f_dims f) (fst k) s = Some (tid, d) /\
    get tid (f_dims f) = Some d /\ d_unlim d = true /\ List.length (recs k l) <= d_size d /\
    get_att "time_dimension" (v_atts v) = Some (NStr s).
Proof.
  intros f l k v s I G T N H.
  destruct (tv_dims _ _ _ _ T) as (tid & sp & sh & d & Dv & hx & Gd & u & le & (d1 & Kd) & hd & _).
  destruct (recs k l) as [|e es] eqn:E; [congruence|].
  pose proof (hd e es eq_refl) as h. rewrite (H e (or_introl eq_refl)) in h. rewrite h in Kd.
  pose proof (get_dim_spec _ _ _ _ _ Kd) as [_ Gd1]. rewrite Gd in Gd1. injection Gd1 as <-.
  exists tid, sp, d. repeat split; try assumption.
  destruct (exists_last N) as (es' & e' & E').
  assert (He' : In e' (recs k l)) by (rewrite E, E'; apply in_or_app; right; left; reflexivity).
  pose proof (in_recs _ _ _ He') as [_ Hr]. destruct (is_record_facts _ _ Hr) as (_ & _ & Ta).
  unfold time_attr in Ta.
  assert (L : lookup_att "time_dimension" (e_atts e') = Some (AStr (e_time e'))) by (rewrite lookup_att_spec; exact Ta).
  rewrite (tv_att _ _ _ _ T e' es' E' _ _ L). cbn [NcPutAttVisitor]. rewrite (H e'); [reflexivity|].
  rewrite E' . apply in_or_app. right. left. reflexivity.
Qed.

Lemma inv_verify : forall same f l time, Inv f l -> nodup f ->
  (forall k e, In e (recs k l) -> e_time e = time k) ->
  (forall k k', recs k l <> [] -> recs k' l <> [] -> time k = time k' ->
     List.length (recs k l) = List.length (recs k' l)) ->
  verifyTimesteps same f = Some [].
Proof.
  intros same f l time I N T C. apply verify_good. intros p n v Hin. pose proof (in_get _ _ _ N Hin) as G.
  pose proof (proj2 (proj2 I) (p, n)) as V. unfold var_inv in V. rewrite G in V.
  destruct V as [[Tv [hr hp]]|[Tv _]]; [|left; apply Tv].
  destruct (timed_dim f l (p, n) v (time (p, n)) I G Tv hr (T (p, n))) as (tid & sp & d & Dv & Kd & Gd & u & le & A).
  right. exists (time (p, n)), tid, d. split; [exact A|]. split; [exact Kd|].
  rewrite (tv_index _ _ _ _ Tv). f_equal.
  destruct (proj1 (proj2 I) tid d Gd u) as [Z|(k' & v' & r' & g1 & g2 & g3)].
  - destruct (recs (p, n) l); [congruence|]. cbn [List.length] in le. lia.
  - pose proof (proj2 (proj2 I) k') as V'. unfold var_inv in V'. rewrite g1 in V'.
    destruct V' as [[Tv' [hr' hp']]|[Tv' _]].
    + destruct (timed_dim f l k' v' (time k') I g1 Tv' hr' (T k')) as (tid' & sp' & d' & Dv' & Kd' & _).
      rewrite g2 in Dv'. injection Dv' as <- _.
      rewrite (tv_index _ _ _ _ Tv') in g3. injection g3 as g3. rewrite <- g3.
      apply C; try assumption. pose proof (proj1 (get_dim_spec _ _ _ _ _ Kd)). pose proof (proj1 (get_dim_spec _ _ _ _ _ Kd')). congruence.
    + exfalso. destruct (pv_dims _ _ _ Tv') as (sh & F & _). rewrite g2 in F. inversion F as [|? ? ? ? (_ & d1 & G1 & _ & u1) _]; subst.
      rewrite Gd in G1. injection G1 as <-. congruence.
Qed.

Lemma entries_time : forall o p t e, In e (entries o p t) -> e_time e = t.
Proof.
  intros o. induction o as [v a|c IH] using opt_ind'; intros p t e H; [destruct H|].
  rewrite entries_sec in H. apply in_flat_map in H. destruct H as ([n o] & Hc & H).
  rewrite Forall_forall in IH. specialize (IH _ Hc). cbn [snd] in IH. unfold child_entries in H. cbn [fst snd] in *.
  destruct o as [v a|c']; [destruct H as [<-|[]]; reflexivity|]. eapply IH, H.
Qed.

Definition tree_entries (w : opt * string) : list entry := entries (fst w) [] (snd w).

Lemma recs_one : forall k l, NoDup (map e_key l) -> (exists e, In e l /\ is_record k e = true) ->
  List.length (recs k l) = 1.
Proof.
  intros k l N (e & Hin & Hr). destruct (in_split _ _ Hin) as (l1 & l2 & ->).
  unfold recs. rewrite filter_app. cbn [filter]. rewrite Hr.
  rewrite map_app in N. cbn [map] in N.
  pose proof (NoDup_remove_2 _ _ _ N) as NI.
  assert (Z : forall m, (forall x, In x m -> In (e_key x) (map e_key l1 ++ map e_key l2)) -> filter (is_record k) m = []).
  { induction m as [|x m IHm]; intros Hm; [reflexivity|]. cbn [filter]. destruct (is_record k x) eqn:Ex.
    - exfalso. apply NI. destruct (is_record_facts _ _ Ex) as [kx _]. destruct (is_record_facts _ _ Hr) as [ke _].
      rewrite ke, <- kx. apply Hm. left. reflexivity.
    - apply IHm. intros y hy. apply Hm. right. exact hy. }
  rewrite (Z l1), (Z l2); [reflexivity| |]; intros x hx; apply in_or_app; [right|left]; apply in_map, hx.
Qed.

Lemma count_writes : forall ws time, complete ws ->
  (forall k e, In e (recs k (flat_map tree_entries ws)) -> e_time e = time k) ->
  forall k, recs k (flat_map tree_entries ws) <> [] ->
  List.length (recs k (flat_map tree_entries ws)) =
  List.length (filter (fun w => String.eqb (snd w) (time k)) ws).
Proof.
  intros ws time [ND C] T k H.
  assert (W : forall w, In w ws ->
    List.length (recs k (tree_entries w)) = if String.eqb (snd w) (time k) then 1 else 0).
  { intros [o t] Hin. cbn [snd]. destruct (String.eqb t (time k)) eqn:E.
    - apply String.eqb_eq in E. apply recs_one; [apply (ND o t Hin)|].
      destruct (recs k (flat_map tree_entries ws)) as [|e0 r] eqn:Er; [congruence|].
      assert (He : In e0 (recs k (flat_map tree_entries ws))) by (rewrite Er; left; reflexivity).
      pose proof (T k e0 ltac:(rewrite Er; left; reflexivity)) as Te.
      apply in_recs in He. destruct He as [He Hr].
      apply in_flat_map in He. destruct He as ([o' t'] & Hw & He). unfold tree_entries in He. cbn [fst snd] in He.
      pose proof (entries_time _ _ _ _ He) as Et. assert (tt' : t' = t) by congruence. rewrite tt' in Hw, He.
      apply (C o' o t k Hw Hin). exists e0. auto.
    - destruct (recs k (tree_entries (o, t))) as [|e0 r] eqn:Er; [reflexivity|]. exfalso.
      assert (He : In e0 (recs k (tree_entries (o, t)))) by (rewrite Er; left; reflexivity).
      apply in_recs in He. destruct He as [He Hr].
      assert (In e0 (recs k (flat_map tree_entries ws))).
      { apply filter_In. split; [|exact Hr]. apply in_flat_map. exists (o, t). auto. }
      pose proof (T k e0 H0) as Te. unfold tree_entries in He. cbn [fst snd] in He.
      pose proof (entries_time _ _ _ _ He) as Et. apply String.eqb_neq in E. congruence. }
  clear H T C ND. induction ws as [|w ws IH]; [reflexivity|]. cbn [flat_map filter]. rewrite recs_app, app_length.
  rewrite (W w (or_introl eq_refl)), IH by (intros w' h; apply W; right; exact h).
  destruct (String.eqb (snd w) (time k)); reflexivity.
Qed.
