(** OptionsNetCDF: lookup lemmas, extension of the dimensions, what
    findDimension and addDim do. *)
From Coq Require Import List Arith ZArith Reals String Bool Lia.
From Verif Require Import NcModel NcSpec.
Import ListNotations.
Local Open Scope nat_scope.
Open Scope string_scope.

Section Assoc.
Context {A : Type}.
Lemma get_put_same : forall k (a : A) l, get k (put k a l) = Some a.
Proof.
  induction l as [|[k' b] l IH]; cbn [put get].
  - destruct (key_dec k k); congruence.
  - destruct (key_dec k k') as [e|e]; cbn [get].
    + destruct (key_dec k k); congruence.
    + destruct (key_dec k k'); [congruence|exact IH].
Qed.
Lemma get_put_other : forall k k' (a : A) l, k <> k' -> get k (put k' a l) = get k l.
Proof.
  induction l as [|[k0 b] l IH]; intros H; cbn [put get].
  - destruct (key_dec k k'); congruence.
  - destruct (key_dec k' k0) as [e|e]; cbn [get].
    + destruct (key_dec k k'); [congruence|]. destruct (key_dec k k0); [congruence|reflexivity].
    + destruct (key_dec k k0); [reflexivity|apply IH; exact H].
Qed.
Lemma get_put : forall k k' (a : A) l,
  get k (put k' a l) = if key_dec k k' then Some a else get k l.
Proof.
  intros. destruct (key_dec k k') as [e|e]; [subst; apply get_put_same|apply get_put_other; exact e].
Qed.
End Assoc.

Lemma get_put_att : forall n m a l,
  get_att n (put_att m a l) = if string_dec n m then Some a else get_att n l.
Proof.
  induction l as [|[k b] l IH]; cbn [put_att get_att].
  - destruct (string_dec n m); reflexivity.
  - destruct (string_dec m k) as [e|e]; cbn [get_att].
    + subst. destruct (string_dec n k); reflexivity.
    + rewrite IH. destruct (string_dec n k), (string_dec n m); congruence.
Qed.

(** Dimensions only appear and grow. *)
Definition ext (ds ds' : list (key * ncdim)) : Prop := forall k d, get k ds = Some d ->
  exists d', get k ds' = Some d' /\ d_unlim d' = d_unlim d /\ d_size d <= d_size d' /\
             (d_unlim d = false -> d_size d' = d_size d).

Lemma ext_refl : forall ds, ext ds ds.
Proof. intros ds k d H. exists d. repeat split; auto. Qed.
Lemma ext_trans : forall a b c, ext a b -> ext b c -> ext a c.
Proof.
  intros a b c H H' k d G. destruct (H _ _ G) as (d1 & G1 & u1 & s1 & e1).
  destruct (H' _ _ G1) as (d2 & G2 & u2 & s2 & e2). exists d2.
  repeat split; [exact G2|congruence|lia|]. intros U. rewrite e2, e1; congruence.
Qed.
Lemma ext_put_new : forall ds k d, get k ds = None -> ext ds (put k d ds).
Proof.
  intros ds k d H k' d' G. exists d'. rewrite get_put. destruct (key_dec k' k); [congruence|].
  repeat split; auto.
Qed.

Definition xyz (n : string) : bool :=
  (if string_dec n "x" then true else false) || (if string_dec n "y" then true else false)
  || (if string_dec n "z" then true else false).

(** Spatial dimensions are fixed, all others are unlimited. *)
Definition dims_ok (ds : list (key * ncdim)) : Prop := forall p n d, get (p, n) ds = Some d ->
  if xyz n then d_unlim d = false /\ 0 < d_size d else d_unlim d = true.

Lemma get_dim_eq : forall ds p n, get_dim ds p n =
  match get (p, n) ds with
  | Some d => Some ((p, n), d)
  | None => match p with [] => None | _ :: q => get_dim ds q n end
  end.
Proof. intros ds [|a q] n; reflexivity. Qed.

Lemma get_dim_spec : forall ds p n k d, get_dim ds p n = Some (k, d) ->
  snd k = n /\ get k ds = Some d.
Proof.
  induction p as [|a q IH]; intros n k d; rewrite get_dim_eq;
    match goal with |- context [get ?a ?b] => destruct (get a b) as [d0|] eqn:E end; intros H.
  - injection H as <- <-. split; [reflexivity|exact E].
  - discriminate H.
  - injection H as <- <-. split; [reflexivity|exact E].
  - apply IH, H.
Qed.
Lemma get_dim_none : forall ds p n, get_dim ds p n = None -> get (p, n) ds = None.
Proof.
  intros ds p n. rewrite get_dim_eq. destruct (get (p, n) ds); [discriminate|reflexivity].
Qed.

(** Names that are no spatial dimension keep their meaning. *)
Definition keeps (ds ds' : list (key * ncdim)) : Prop := forall p n k d, xyz n = false ->
  get_dim ds p n = Some (k, d) -> exists d', get_dim ds' p n = Some (k, d').

Lemma keeps_refl : forall ds, keeps ds ds.
Proof. intros ds p n k d _ H. exists d. exact H. Qed.
Lemma keeps_trans : forall a b c, keeps a b -> keeps b c -> keeps a c.
Proof. intros a b c H H' p n k d hx G. destruct (H _ _ _ _ hx G) as [d' G']. eapply H'; eassumption. Qed.

Ltac kd := match goal with |- context [key_dec ?a ?b] => destruct (key_dec a b) as [e|e] end.
Ltac kg ds := match goal with |- context [get ?a ds] => destruct (get a ds) end.

Lemma keeps_put_new : forall ds q m x, get (q, m) ds = None ->
  (xyz m = true \/ get_dim ds q m = None) -> keeps ds (put (q, m) x ds).
Proof.
  intros ds q m x N C p n k d hx. induction p as [|a p IH]; rewrite (get_dim_eq ds), (get_dim_eq (put _ _ _)), get_put; kd.
  - injection e as <- <-. intros G. exfalso. destruct C as [C|C]; [congruence|].
    rewrite get_dim_eq in C. rewrite N in C. rewrite N in G. discriminate G.
  - kg ds; intros G; [|discriminate G]. injection G as <- <-. eexists. reflexivity.
  - injection e as <- <-. intros G. exfalso. destruct C as [C|C]; [congruence|].
    rewrite get_dim_eq in C. rewrite N in C, G. cbv beta iota in C, G.
    rewrite C in G. discriminate G.
  - kg ds; intros G; [injection G as <- <-; eexists; reflexivity|].
    apply IH, G.
Qed.

Lemma keeps_put_old : forall ds k0 x x0, get k0 ds = Some x0 -> keeps ds (put k0 x ds).
Proof.
  intros ds k0 x x0 N p n k d hx. induction p as [|a p IH]; rewrite (get_dim_eq ds), (get_dim_eq (put _ _ _)), get_put; kd.
  - subst k0. rewrite N. intros G. injection G as <- <-. eexists. reflexivity.
  - intros G. exists d. exact G.
  - subst k0. rewrite N. intros G. injection G as <- <-. eexists. reflexivity.
  - kg ds; [intros G; injection G as <- <-; eexists; reflexivity|exact IH].
Qed.

(** What steps that only touch the dimensions do. *)
Definition dimstep (f f' : ncfile) : Prop :=
  f_vars f' = f_vars f /\ f_groups f' = f_groups f /\ ext (f_dims f) (f_dims f') /\
  (dims_ok (f_dims f) -> dims_ok (f_dims f')) /\ keeps (f_dims f) (f_dims f') /\
  (forall k d, xyz (snd k) = false -> get k (f_dims f') = Some d ->
     get k (f_dims f) = Some d \/ d_size d = 0).

Lemma dimstep_refl : forall f, dimstep f f.
Proof. intros f. repeat split; auto using ext_refl, keeps_refl. Qed.
Lemma dimstep_trans : forall a b c, dimstep a b -> dimstep b c -> dimstep a c.
Proof.
  intros a b c (h1 & h2 & h3 & h4 & h5 & h6) (g1 & g2 & g3 & g4 & g5 & g6). split; [|split; [|split; [|split; [|split]]]].
  - congruence.
  - congruence.
  - eapply ext_trans; eassumption.
  - auto.
  - eapply keeps_trans; eassumption.
  - intros k d hx G. destruct (g6 k d hx G) as [G'|G']; [apply h6; assumption|right; exact G'].
Qed.

Lemma dims_ok_put : forall ds p n s, dims_ok ds ->
  (if xyz n then 0 < s else s = 0) ->
  dims_ok (put (p, n) {| d_unlim := Nat.eqb s 0; d_size := s |} ds).
Proof.
  intros ds p n s H hs p' n' d. rewrite get_put.
  destruct (key_dec (p', n') (p, n)) as [e|e].
  - injection e as -> ->. intros [= <-]. cbn [d_unlim d_size].
    destruct (xyz n).
    + split; [|exact hs]. apply Nat.eqb_neq. lia.
    + subst s. reflexivity.
  - apply H.
Qed.

Lemma addDim_spec : forall p n s f f' r, addDim p n s f = (f', r) ->
  get (p, n) (f_dims f) = None -> (if xyz n then 0 < s else s = 0) ->
  (xyz n = true \/ get_dim (f_dims f) p n = None) ->
  dimstep f f' /\ r = Some (p, n) /\
  get (p, n) (f_dims f') = Some {| d_unlim := Nat.eqb s 0; d_size := s |}.
Proof.
  intros p n s f f' r. unfold addDim. intros [= <- <-] G hs C. cbn [f_dims set_dims].
  split; [|split; [reflexivity|apply get_put_same]].
  split; [reflexivity|]. split; [reflexivity|]. cbn [f_dims set_dims]. split.
  - apply ext_put_new, G.
  - split; [intros H; apply dims_ok_put; assumption|]. split; [apply keeps_put_new; assumption|].
    intros k d hx. rewrite get_put. destruct (key_dec k (p, n)) as [e|e]; [|auto].
    subst k. cbn [snd] in hx. rewrite hx in hs. intros [= <-]. right. exact hs.
Qed.

Lemma needDimension_spec : forall p n s f f' r, needDimension p n s f = (f', r) ->
  xyz n = true -> 0 < s ->
  dimstep f f' /\
  (forall k, r = Some k -> snd k = n /\ exists d, get k (f_dims f') = Some d /\ d_size d = s).
Proof.
  intros p n s f f' r E hx hs. unfold needDimension, bind, findDimension in E.
  destruct (get_dim (f_dims f) p n) as [[k d]|] eqn:G.
  - apply get_dim_spec in G. destruct G as [Gn G].
    destruct (Nat.eqb (d_size d) s) eqn:Es.
    + apply Nat.eqb_eq in Es. cbv [ret] in E. injection E as <- <-.
      split; [apply dimstep_refl|]. intros k' [= <-]. split; [exact Gn|]. exists d. auto.
    + destruct (get (p, n) (f_dims f)) eqn:Gc.
      * cbv [throw] in E. injection E as <- <-. split; [apply dimstep_refl|discriminate].
      * unfold bind in E. destruct (addDim p n s f) as [f1 r1] eqn:Ea.
        apply addDim_spec in Ea; [|exact Gc|rewrite hx; exact hs|left; exact hx].
        destruct Ea as (D & -> & G1). cbv [ret] in E. injection E as <- <-.
        split; [exact D|]. intros k' [= <-]. split; [reflexivity|]. eexists. split; [exact G1|reflexivity].
  - apply get_dim_none in G. unfold bind in E. destruct (addDim p n s f) as [f1 r1] eqn:Ea.
    apply addDim_spec in Ea; [|exact G|rewrite hx; exact hs|left; exact hx].
    destruct Ea as (D & -> & G1). cbv [ret] in E. injection E as <- <-.
    split; [exact D|]. intros k' [= <-]. split; [reflexivity|]. eexists. split; [exact G1|reflexivity].
Qed.

(** Fixed spatial dimensions that exist, with their sizes. *)
Definition fixed_dims (ds : list (key * ncdim)) (sp : list key) (sh : list nat) : Prop :=
  Forall2 (fun k s => xyz (snd k) = true /\ exists d, get k ds = Some d /\ d_size d = s /\ d_unlim d = false) sp sh.

Lemma fixed_dims_ext : forall ds ds' sp sh, ext ds ds' -> fixed_dims ds sp sh -> fixed_dims ds' sp sh.
Proof.
  intros ds ds' sp sh H. unfold fixed_dims. induction 1 as [|k s sp sh (hx & d & G & hs & hu) _ IH]; constructor; [|exact IH].
  split; [exact hx|]. destruct (H _ _ G) as (d' & G' & u & _ & e). exists d'. repeat split; [exact G'|rewrite e; auto|congruence].
Qed.

Lemma xyz_fixed : forall ds k d, dims_ok ds -> xyz (snd k) = true -> get k ds = Some d -> d_unlim d = false.
Proof. intros ds [p n] d H hx G. specialize (H p n d G). cbn [snd] in hx. rewrite hx in H. tauto. Qed.

Lemma fixed1 : forall ds k d s, dims_ok ds -> xyz (snd k) = true -> get k ds = Some d ->
  d_size d = s -> fixed_dims ds [k] [s].
Proof.
  intros ds k d s D hx G hs. constructor; [|constructor]. split; [exact hx|]. exists d.
  split; [exact G|]. split; [exact hs|]. eapply xyz_fixed; eassumption.
Qed.

Lemma NcDimVisitor_spec : forall p v f f' r, NcDimVisitor p v f = (f', r) -> val_ok v ->
  dims_ok (f_dims f) ->
  dimstep f f' /\ (forall sp, r = Some sp -> fixed_dims (f_dims f') sp (shape v)).
Proof.
  intros p v f f' r E V D.
  destruct v as [b|z|x|s|nx ny d|nx ny nz d|nx nz d|]; cbn [NcDimVisitor shape] in *;
    try (cbv [ret] in E; injection E as <- <-; split; [apply dimstep_refl|intros sp [= <-]; constructor]).
  - cbn [val_ok] in V. destruct V as (v1 & v2 & _). unfold bind in E.
    destruct (needDimension p "x" nx f) as [f1 r1] eqn:E1.
    destruct (needDimension_spec _ _ _ _ _ _ E1 eq_refl v1) as [S1 K1].
    destruct r1 as [k1|]; [|injection E as <- <-; split; [exact S1|discriminate]].
    destruct (needDimension p "y" ny f1) as [f2 r2] eqn:E2.
    destruct (needDimension_spec _ _ _ _ _ _ E2 eq_refl v2) as [S2 K2].
    destruct r2 as [k2|]; [|injection E as <- <-; split; [eapply dimstep_trans; eassumption|discriminate]].
    cbv [ret] in E. injection E as <- <-.
    assert (S12 := dimstep_trans _ _ _ S1 S2). split; [exact S12|]. intros sp [= <-].
    assert (D1 : dims_ok (f_dims f1)) by (apply S1; exact D).
    assert (D2 : dims_ok (f_dims f2)) by (apply S2; exact D1).
    destruct (K1 _ eq_refl) as (n1 & d1 & G1 & s1). destruct (K2 _ eq_refl) as (n2 & d2 & G2 & s2).
    assert (x1 : xyz (snd k1) = true) by (rewrite n1; reflexivity).
    assert (x2 : xyz (snd k2) = true) by (rewrite n2; reflexivity).
    apply fixed_dims_ext with (f_dims f2); [apply ext_refl|].
    constructor.
    + assert (F : fixed_dims (f_dims f1) [k1] [nx]).
      { apply (fixed1 _ _ d1); assumption. }
      apply (fixed_dims_ext _ (f_dims f2)) in F; [|apply S2]. inversion F. assumption.
    + apply (fixed1 _ _ d2); assumption.
  - cbn [val_ok] in V. destruct V as (v1 & v2 & v3 & _). unfold bind in E.
    destruct (needDimension p "x" nx f) as [f1 r1] eqn:E1.
    destruct (needDimension_spec _ _ _ _ _ _ E1 eq_refl v1) as [S1 K1].
    destruct r1 as [k1|]; [|injection E as <- <-; split; [exact S1|discriminate]].
    destruct (needDimension p "y" ny f1) as [f2 r2] eqn:E2.
    destruct (needDimension_spec _ _ _ _ _ _ E2 eq_refl v2) as [S2 K2].
    destruct r2 as [k2|]; [|injection E as <- <-; split; [eapply dimstep_trans; eassumption|discriminate]].
    destruct (needDimension p "z" nz f2) as [f3 r3] eqn:E3.
    destruct (needDimension_spec _ _ _ _ _ _ E3 eq_refl v3) as [S3 K3].
    assert (S12 := dimstep_trans _ _ _ S1 S2).
    assert (S13 := dimstep_trans _ _ _ S12 S3).
    destruct r3 as [k3|]; [|injection E as <- <-; split; [exact S13|discriminate]].
    cbv [ret] in E. injection E as <- <-.
    split; [exact S13|]. intros sp [= <-].
    assert (D1 : dims_ok (f_dims f1)) by (apply S1; exact D).
    assert (D2 : dims_ok (f_dims f2)) by (apply S2; exact D1).
    assert (D3 : dims_ok (f_dims f3)) by (apply S3; exact D2).
    destruct (K1 _ eq_refl) as (n1 & d1 & G1 & s1). destruct (K2 _ eq_refl) as (n2 & d2 & G2 & s2).
    destruct (K3 _ eq_refl) as (n3 & d3 & G3 & s3).
    assert (x1 : xyz (snd k1) = true) by (rewrite n1; reflexivity).
    assert (x2 : xyz (snd k2) = true) by (rewrite n2; reflexivity).
    assert (x3 : xyz (snd k3) = true) by (rewrite n3; reflexivity).
    constructor; [|constructor].
    + assert (F : fixed_dims (f_dims f1) [k1] [nx]).
      { apply (fixed1 _ _ d1); assumption. }
      apply (fixed_dims_ext _ (f_dims f3)) in F; [|eapply ext_trans; [apply S2|apply S3]]. inversion F. assumption.
    + assert (F : fixed_dims (f_dims f2) [k2] [ny]).
      { apply (fixed1 _ _ d2); assumption. }
      apply (fixed_dims_ext _ (f_dims f3)) in F; [|apply S3]. inversion F. assumption.
    + apply (fixed1 _ _ d3); assumption.
  - cbn [val_ok] in V. destruct V as (v1 & v2 & _). unfold bind in E.
    destruct (needDimension p "x" nx f) as [f1 r1] eqn:E1.
    destruct (needDimension_spec _ _ _ _ _ _ E1 eq_refl v1) as [S1 K1].
    destruct r1 as [k1|]; [|injection E as <- <-; split; [exact S1|discriminate]].
    destruct (needDimension p "z" nz f1) as [f2 r2] eqn:E2.
    destruct (needDimension_spec _ _ _ _ _ _ E2 eq_refl v2) as [S2 K2].
    destruct r2 as [k2|]; [|injection E as <- <-; split; [eapply dimstep_trans; eassumption|discriminate]].
    cbv [ret] in E. injection E as <- <-.
    assert (S12 := dimstep_trans _ _ _ S1 S2). split; [exact S12|]. intros sp [= <-].
    assert (D1 : dims_ok (f_dims f1)) by (apply S1; exact D).
    assert (D2 : dims_ok (f_dims f2)) by (apply S2; exact D1).
    destruct (K1 _ eq_refl) as (n1 & d1 & G1 & s1). destruct (K2 _ eq_refl) as (n2 & d2 & G2 & s2).
    assert (x1 : xyz (snd k1) = true) by (rewrite n1; reflexivity).
    assert (x2 : xyz (snd k2) = true) by (rewrite n2; reflexivity).
    constructor.
    + assert (F : fixed_dims (f_dims f1) [k1] [nx]).
      { apply (fixed1 _ _ d1); assumption. }
      apply (fixed_dims_ext _ (f_dims f2)) in F; [|apply S2]. inversion F. assumption.
    + apply (fixed1 _ _ d2); assumption.
Qed.

(** The time dimension. *)
Lemma time_dim_of_spec : forall p a t f f' r, time_dim_of p a t f = (f', r) ->
  xyz t = false -> dims_ok (f_dims f) ->
  dimstep f f' /\
  match r with
  | None => True
  | Some None => exists s, lookup_att "time_dimension" a = Some (AStr s) /\ s <> t
  | Some (Some None) => lookup_att "time_dimension" a = None
  | Some (Some (Some k)) => lookup_att "time_dimension" a = Some (AStr t) /\
      snd k = t /\ (exists d, get k (f_dims f') = Some d /\ d_unlim d = true) /\
      exists d', get_dim (f_dims f') p t = Some (k, d')
  end.
Proof.
  intros p a t f f' r E hx D. unfold time_dim_of in E. revert E.
  destruct (lookup_att "time_dimension" a) as [[b|z|x|s]|] eqn:L; intros E;
    try (cbv [throw ret] in E; injection E as <- <-; split; [apply dimstep_refl|]; (exact I || reflexivity)).
  revert E. destruct (string_dec s t) as [e|e]; intros E.
  - subst s. destruct (get_dim (f_dims f) p t) as [[k d]|] eqn:G.
    + injection E as <- <-. split; [apply dimstep_refl|]. pose proof G as G0.
      apply get_dim_spec in G. destruct G as [Gn G]. repeat split; [exact Gn| |exists d; exact G0].
      exists d. split; [exact G|]. destruct k as [q n]. cbn [snd] in Gn. subst n.
      specialize (D _ _ _ G). rewrite hx in D. exact D.
    + pose proof (get_dim_none _ _ _ G) as G0. unfold bind in E.
      destruct (addDim p t 0 f) as [f1 r1] eqn:Ea.
      apply addDim_spec in Ea; [|exact G0|rewrite hx; reflexivity|right; exact G].
      destruct Ea as (S & -> & G1). cbv [ret] in E. injection E as <- <-. split; [exact S|].
      repeat split.
      * eexists. split; [exact G1|reflexivity].
      * rewrite get_dim_eq, G1. eexists. reflexivity.
  - cbv [ret] in E. injection E as <- <-. split; [apply dimstep_refl|]. exists s. auto.
Qed.
