From Coq Require Import Ascii String List Arith Bool Lia FinFun.
From Verif Require Import Base StringsModel StringsSpec OptionsModel OptionsSpec OptionsProofs.
Import ListNotations.

Lemma NoDup_app_iff' {A} (l m : list A) : NoDup l -> NoDup m -> (forall x, In x l -> In x m -> False) -> NoDup (l ++ m).
Proof.
  intros H1 H2 H3. induction H1 as [|x l N1 N2 IH]; [exact H2|]. cbn. constructor.
  - rewrite in_app_iff. intros [X|X]; [contradiction|]. eapply H3; [now left|eassumption].
  - apply IH. intros y Y1 Y2. eapply H3; [right; eassumption|eassumption].
Qed.

Section WithV.
Context {V : Type} (veqb : V -> V -> bool) (veqb_ok : forall a b, veqb a b = true <-> a = b).
Notation opt := (opt V). Notation info := (info V).

(** In a well-formed tree a value is reachable. *)
Lemma value_reachable p : forall o : opt, wf o -> i_sect (info_at p o) = false -> reachable_path p o.
Proof.
  induction p as [|n p IH]; intros o W H; [intros q (r & R1 & R2); destruct q; [cbn in R2; congruence|discriminate]|].
  rewrite info_at_cons in H. destruct (find_child n (kids o)) as [c|] eqn:E; [|discriminate].
  rewrite reachable_cons, E. split.
  - destruct (i_sect (inf o)) eqn:ES; [reflexivity|]. destruct (wf_value o W ES) as (K & _). rewrite K in E. discriminate.
  - apply IH; [|assumption]. eapply wf_child; eassumption.
Qed.
Lemma value_no_children p (o : opt) : wf o -> i_sect (info_at p o) = false -> ~ has_children p o.
Proof.
  intros W H (c & C1 & C2). unfold info_at in H. rewrite C1 in H. apply C2. apply (wf_value c); [|assumption]. eapply wf_node_at; eassumption.
Qed.
Lemma value_complete p (o : opt) : wf o -> i_sect (info_at p o) = false -> (exists v, i_val (info_at p o) = Some v) /\ exists s, i_src (info_at p o) = Some s.
Proof.
  intros W H. unfold info_at in *. destruct (node_at p o) as [c|] eqn:E; [|discriminate].
  apply (wf_value c); [|assumption]. eapply wf_node_at; eassumption.
Qed.
Lemma below_nothing p n s (o : opt) : ~ has_children p o -> info_at (p ++ n :: s) o = info0.
Proof.
  intros H. unfold info_at. rewrite node_at_app. destruct (node_at p o) as [c|] eqn:E; [|reflexivity].
  cbn [node_at]. destruct (kids c) as [|x l] eqn:K; [reflexivity|]. exfalso. apply H. exists c. split; [assumption|congruence].
Qed.

Section Ops.
Variables (p : path) (o : opt).
Hypotheses (GP : good_path p) (NP : p <> []) (W : wf o).

Lemma assign_spec v s o' r : index (path_name p) (assign veqb v s) o = (o', r) ->
  (r = Ok tt /\ reachable_path p o /\ ~ has_children p o /\ ~ conflict v s (info_at p o) /\ info_at p o' = written v s (info_at p o) /\
     (forall q, q <> p -> info_at q o' = info_at q o)) \/
  (r = Throw /\ (~ reachable_path p o \/ has_children p o \/ conflict v s (info_at p o)) /\ forall q, info_at q o' = info_at q o).
Proof.
  intros H. apply index_local in H; [|assumption|assumption|apply kk_assign].
  destruct H as [(H1 & H2 & H3)|(HR & c & c' & I1 & I2 & I3 & I4 & I5 & I6 & I7)]; [right; auto|].
  assert (Wc : wf c) by (destruct I3 as [I3|[_ (f & ->)]]; [eapply wf_node_at; eassumption|apply wf_fresh]).
  destruct (assign_node veqb veqb_ok v s c) as [(A1 & A2 & A3)|(A1 & A3)].
  - intros X. now destruct (wf_value c Wc X).
  - left. rewrite A3 in I4. injection I4 as <- <-. rewrite I1 in *. rewrite inf_set_inf in I6. repeat split; auto. intros X. now apply I2 in X.
  - right. rewrite A3 in I4. injection I4 as <- <-. rewrite I1 in *. split; [reflexivity|]. split; [destruct A1 as [A1|A1]; [right; left; now apply I2|auto]|].
    intros q. destruct (path_dec q p) as [->|]; auto.
Qed.

Lemma force_spec v s o' r : index (path_name p) (force veqb v s) o = (o', r) ->
  (r = Ok tt /\ reachable_path p o /\ ~ has_children p o /\ info_at p o' = written v s (info_at p o) /\
     (forall q, q <> p -> info_at q o' = info_at q o)) \/
  (r = Throw /\ (~ reachable_path p o \/ has_children p o) /\ forall q, info_at q o' = info_at q o).
Proof.
  intros H. apply index_local in H; [|assumption|assumption|apply kk_force].
  destruct H as [(H1 & H2 & H3)|(HR & c & c' & I1 & I2 & I3 & I4 & I5 & I6 & I7)]; [right; auto|].
  assert (Wc : wf c) by (destruct I3 as [I3|[_ (f & ->)]]; [eapply wf_node_at; eassumption|apply wf_fresh]).
  unfold force in I4.
  destruct (assign_node veqb veqb_ok v s (with_sect true c)) as [(A1 & A2 & A3)|(A1 & A3)].
  - unfold with_sect. rewrite inf_set_inf. discriminate.
  - left. rewrite A3 in I4. injection I4 as <- <-. unfold with_sect in *. rewrite ?inf_set_inf, ?kids_set_inf in *. rewrite I1 in *.
    repeat split; auto. intros X. now apply I2 in X.
  - right. rewrite A3 in I4. injection I4 as <- <-. unfold with_sect in *. rewrite ?inf_set_inf, ?kids_set_inf in *.
    assert (K : kids c <> []) by (destruct A1 as [A1|(X & _)]; [assumption|discriminate]).
    split; [reflexivity|]. split; [right; now apply I2|].
    intros q. destruct (path_dec q p) as [->|]; [|auto]. rewrite I6, <- I1. destruct (i_sect (inf c)) eqn:ES; [|destruct (wf_value c Wc ES); contradiction].
    destruct (inf c); cbn in *; congruence.
Qed.

Lemma repeat_spec v b s o' r : index (path_name p) (assignRepeat veqb v b s) o = (o', r) ->
  (r = Ok tt /\ reachable_path p o /\ ~ has_children p o /\
     info_at p o' = MkInfo (Some v) (Some s) (b || i_tdim (info_at p o)) (i_cond (info_at p o)) false false /\
     (forall q, q <> p -> info_at q o' = info_at q o)) \/
  (r = Throw /\ (~ reachable_path p o \/ has_children p o) /\ forall q, info_at q o' = info_at q o).
Proof.
  intros H. apply index_local in H; [|assumption|assumption|apply kk_repeat].
  destruct H as [(H1 & H2 & H3)|(HR & c & c' & I1 & I2 & I3 & I4 & I5 & I6 & I7)]; [right; auto|].
  assert (Wc : wf c) by (destruct I3 as [I3|[_ (f & ->)]]; [eapply wf_node_at; eassumption|apply wf_fresh]).
  unfold assignRepeat, force in I4.
  destruct (assign_node veqb veqb_ok v s (with_sect true c)) as [(A1 & A2 & A3)|(A1 & A3)].
  - unfold with_sect. rewrite inf_set_inf. discriminate.
  - left. rewrite A3 in I4. injection I4 as <- <-. unfold with_sect in *. rewrite ?inf_set_inf, ?kids_set_inf in *. rewrite I1 in *.
    repeat split; auto; [intros X; now apply I2 in X|]. rewrite I6. destruct b; unfold with_tdim; rewrite ?inf_set_inf; reflexivity.
  - right. rewrite A3 in I4. injection I4 as <- <-. unfold with_sect in *. rewrite ?inf_set_inf, ?kids_set_inf in *.
    assert (K : kids c <> []) by (destruct A1 as [A1|(X & _)]; [assumption|discriminate]).
    split; [reflexivity|]. split; [right; now apply I2|].
    intros q. destruct (path_dec q p) as [->|]; [|auto]. rewrite I6, <- I1. destruct (i_sect (inf c)) eqn:ES; [|destruct (wf_value c Wc ES); contradiction].
    destruct (inf c); cbn in *; congruence.
Qed.

Lemma as_node conv (c : opt) : wf c ->
  as_ conv c = (match read_as conv (inf c) with Ok _ => set_inf (mark_used (inf c)) c | _ => c end, read_as conv (inf c)).
Proof.
  intros Wc. unfold as_, read_as, entry. destruct (i_sect (inf c)) eqn:ES; [reflexivity|].
  destruct (wf_value c Wc ES) as (_ & (v & ->) & _). destruct (conv v); reflexivity.
Qed.

Lemma read_spec conv o' r : index (path_name p) (as_ conv) o = (o', r) ->
  r = read_as conv (info_at p o) /\
  info_at p o' = (match r with Ok _ => mark_used (info_at p o) | _ => info_at p o end) /\
  (forall q, q <> p -> info_at q o' = info_at q o).
Proof.
  intros H. apply index_local in H; [|assumption|assumption|apply kk_as].
  destruct H as [(H1 & H2 & H3)|(HR & c & c' & I1 & I2 & I3 & I4 & I5 & I6 & I7)].
  - assert (i_sect (info_at p o) = true) as ES.
    { destruct (i_sect (info_at p o)) eqn:E; [reflexivity|]. exfalso. apply H2. now apply value_reachable. }
    unfold read_as, entry. rewrite ES, H1. auto.
  - assert (Wc : wf c) by (destruct I3 as [I3|[_ (f & ->)]]; [eapply wf_node_at; eassumption|apply wf_fresh]).
    rewrite (as_node _ _ Wc), I1 in I4. injection I4 as <- <-. split; [reflexivity|]. split; [|assumption].
    rewrite I6. destruct (read_as _ _); rewrite ?inf_set_inf; auto.
Qed.

Lemma isSet_spec o' r : index (path_name p) (fun c => (c, isSet c)) o = (o', r) ->
  (forall q, info_at q o' = info_at q o) /\
  ((reachable_path p o /\ exists b, r = Ok b /\ (b = true <-> exists v s, entry_at p o = Some (Some v, Some s) /\ s <> DEFAULT_SOURCE)) \/
   (r = Throw /\ ~ reachable_path p o)).
Proof.
  intros H. apply index_local in H; [|assumption|assumption|intros c; reflexivity].
  destruct H as [(H1 & H2 & H3)|(HR & c & c' & I1 & I2 & I3 & I4 & I5 & I6 & I7)]; [auto|].
  injection I4 as <- <-. split; [intros q; destruct (path_dec q p) as [->|]; [congruence|auto]|].
  left. split; [assumption|]. unfold isSet, entry_at, entry. rewrite <- I1.
  assert (Wc : wf c) by (destruct I3 as [I3|[_ (f & ->)]]; [eapply wf_node_at; eassumption|apply wf_fresh]).
  destruct (i_sect (inf c)) eqn:ES.
  - exists false. split; [reflexivity|]. split; [discriminate|]. intros (v & s & X & _). discriminate.
  - destruct (wf_value c Wc ES) as (_ & (v & ->) & (s & ->)). eexists. split; [reflexivity|]. split.
    + intros X. exists v, s. split; [reflexivity|]. apply str_eqb_neq. now destruct (str_eqb s DEFAULT_SOURCE).
    + intros (v' & s' & X & Y). injection X as -> ->. apply str_eqb_neq in Y. now rewrite Y.
Qed.

Lemma withDefault_spec conv def o' r : index (path_name p) (withDefault veqb conv def) o = (o', r) ->
  (forall q, q <> p -> info_at q o' = info_at q o) /\
  match entry_at p o with
  | Some (Some v, Some s) =>
      entry_at p o' = entry_at p o /\
      match conv v with
      | None => r = Throw
      | Some x => (r = Ok x /\ (s = DEFAULT_SOURCE -> x = def) \/ r = Throw /\ s = DEFAULT_SOURCE /\ x <> def) /\ info_at p o' = mark_used (info_at p o)
      end
  | Some _ => False
  | None =>
      (r = Ok def /\ reachable_path p o /\ ~ has_children p o /\
         info_at p o' = mark_used (written def DEFAULT_SOURCE (info_at p o))) \/
      (r = Throw /\ (~ reachable_path p o \/ has_children p o) /\ info_at p o' = info_at p o)
  end.
Proof.
  intros H. apply index_local in H; [|assumption|assumption|apply kk_withDefault].
  destruct H as [(H1 & H2 & H3)|(HR & c & c' & I1 & I2 & I3 & I4 & I5 & I6 & I7)].
  - split; [auto|]. unfold entry_at, entry. destruct (i_sect (info_at p o)) eqn:E.
    + right. auto.
    + exfalso. apply H2. now apply value_reachable.
  - split; [assumption|].
    assert (Wc : wf c) by (destruct I3 as [I3|[_ (f & ->)]]; [eapply wf_node_at; eassumption|apply wf_fresh]).
    unfold withDefault in I4. unfold entry_at, entry. rewrite <- I1. destruct (i_sect (inf c)) eqn:ES.
    + destruct (assign_node veqb veqb_ok def DEFAULT_SOURCE c) as [(A1 & A2 & A3)|(A1 & A3)]; [congruence| |]; rewrite A3 in I4; injection I4 as <- <-.
      * left. split; [reflexivity|]. split; [assumption|]. split; [intros X; now apply I2 in X|].
        rewrite I6. unfold with_used. rewrite !inf_set_inf. reflexivity.
      * right. split; [reflexivity|]. split; [|assumption]. right. apply I2. destruct A1 as [A1|(X & _)]; [assumption|congruence].
    + rewrite (as_node _ _ Wc) in I4. destruct (wf_value c Wc ES) as (_ & (v & Ev) & (s & Es)). rewrite Ev, Es.
      unfold read_as, entry in I4. rewrite ES, Ev in I4. destruct (conv v) as [x|].
      * cbn [fst snd] in I4. rewrite inf_set_inf in I4. cbn [mark_used i_src] in I4. rewrite Es in I4.
        assert (EI : info_at p o' = mark_used (inf c)).
        { rewrite I6. destruct (_ && _) in I4; injection I4 as <- _; now rewrite inf_set_inf. }
        split; [rewrite EI; cbn [mark_used i_sect i_val i_src]; rewrite ES, Ev, Es; reflexivity|].
        split; [|exact EI].
        destruct (str_eqb s DEFAULT_SOURCE) eqn:ED; cbn [andb] in I4.
        -- apply str_eqb_eq in ED. destruct (veqb x def) eqn:EV; cbn [negb] in I4; injection I4 as _ <-.
           ++ apply veqb_ok in EV. left. auto.
           ++ right. repeat split; auto. intros X. apply veqb_ok in X. congruence.
        -- apply str_eqb_neq in ED. injection I4 as _ <-. left. split; [reflexivity|]. tauto.
      * injection I4 as <- <-. split; [|reflexivity]. rewrite I6, ES, Ev, Es. reflexivity.
Qed.

Lemma override_spec conv def o' r : index (path_name p) (overrideDefault veqb conv def) o = (o', r) ->
  (forall q, q <> p -> info_at q o' = info_at q o) /\
  match entry_at p o with
  | Some (Some v, _) =>
      match conv v with
      | None => r = Throw /\ info_at p o' = info_at p o
      | Some x => r = Ok x /\ info_at p o' = mark_used (info_at p o)
      end
  | Some _ => False
  | None =>
      (r = Ok def /\ reachable_path p o /\ ~ has_children p o /\ info_at p o' = written def (chars "user_default") (info_at p o)) \/
      (r = Throw /\ (~ reachable_path p o \/ has_children p o) /\ info_at p o' = info_at p o)
  end.
Proof.
  intros H. apply index_local in H; [|assumption|assumption|apply kk_override].
  destruct H as [(H1 & H2 & H3)|(HR & c & c' & I1 & I2 & I3 & I4 & I5 & I6 & I7)].
  - split; [auto|]. unfold entry_at, entry. destruct (i_sect (info_at p o)) eqn:E.
    + right. auto.
    + exfalso. apply H2. now apply value_reachable.
  - split; [assumption|].
    assert (Wc : wf c) by (destruct I3 as [I3|[_ (f & ->)]]; [eapply wf_node_at; eassumption|apply wf_fresh]).
    unfold overrideDefault in I4. unfold entry_at, entry. rewrite <- I1. destruct (i_sect (inf c)) eqn:ES.
    + destruct (assign_node veqb veqb_ok def (chars "user_default") c) as [(A1 & A2 & A3)|(A1 & A3)]; [congruence| |]; rewrite A3 in I4; injection I4 as <- <-.
      * left. split; [reflexivity|]. split; [assumption|]. split; [intros X; now apply I2 in X|].
        rewrite I6. rewrite with_sect_false_id by (rewrite inf_set_inf; reflexivity). rewrite !inf_set_inf. reflexivity.
      * right. split; [reflexivity|]. split; [|assumption]. right. apply I2. destruct A1 as [A1|(X & _)]; [assumption|congruence].
    + rewrite (as_node _ _ Wc) in I4. destruct (wf_value c Wc ES) as (_ & (v & Ev) & (s & Es)). rewrite Ev.
      unfold read_as, entry in I4. rewrite ES, Ev in I4. destruct (conv v) as [x|]; injection I4 as <- <-.
      * rewrite inf_set_inf in I6. auto.
      * auto.
Qed.
End Ops.

Lemma wf_index {A} name (k : opt -> opt * res A) : (forall c, wf c -> wf (fst (k c))) -> forall o, wf o -> wf (fst (index name k o)).
Proof. intros HK o H. unfold index. now apply wf_op_index. Qed.

(** Read after write, for the written path and for any other. *)
Lemma read_after_assign p q v s conv (o o' : opt) : wf o -> good_path p -> p <> [] -> good_path q -> q <> [] ->
  index (path_name p) (assign veqb v s) o = (o', Ok tt) ->
  snd (index (path_name q) (as_ conv) o') =
  if path_dec q p then match conv v with Some x => Ok x | None => Throw end else snd (index (path_name q) (as_ conv) o).
Proof.
  intros W Gp Np Gq Nq H.
  assert (W' : wf o').
  { pose proof (wf_index (path_name p) (assign veqb v s) (wf_assign veqb veqb_ok v s) o W) as X. now rewrite H in X. }
  destruct (assign_spec p o Gp Np W v s o' (Ok tt) H) as [(_ & _ & _ & _ & E1 & E2)|(X & _)]; [|discriminate].
  destruct (index (path_name q) (as_ conv) o') as [o1 r1] eqn:R1. destruct (index (path_name q) (as_ conv) o) as [o2 r2] eqn:R2. cbn [snd].
  apply read_spec in R1; try assumption. apply read_spec in R2; try assumption. destruct R1 as (-> & _), R2 as (-> & _).
  destruct (path_dec q p) as [->|N]; [rewrite E1|rewrite E2 by assumption]; reflexivity.
Qed.

(** * getUnused *)
Definition excusedP (excl : list str) (i : info) : Prop := i_cond i = true \/ exists s, i_src i = Some s /\ In s excl.
Lemma excused_spec excl i : excused excl i = true <-> excusedP excl i.
Proof.
  unfold excused, excusedP. rewrite orb_true_iff. destruct (i_src i) as [s|].
  - rewrite existsb_exists. split.
    + intros [(t & T1 & T2)|H]; [apply str_eqb_eq in T2; subst; right; eauto|auto].
    + intros [H|(t & T1 & T2)]; [auto|]. injection T1 as ->. left. exists t. split; [assumption|apply str_eqb_refl].
  - split; [intros [X|X]; [discriminate|auto]|intros [X|(t & X & _)]; [auto|discriminate]].
Qed.
Definition leafb excl (i : info) : bool := negb (i_sect i) && negb (i_used i) && negb (excused excl i).
Lemma leafb_spec excl i : leafb excl i = true <-> unused_leaf excl i.
Proof.
  unfold leafb, unused_leaf. rewrite !andb_true_iff, !negb_true_iff. split.
  - intros ((H1 & H2) & H3). repeat split; auto.
    + destruct (i_cond i) eqn:E; [|reflexivity]. assert (excused excl i = true) by (apply excused_spec; now left). congruence.
    + intros s Hs Hin. assert (excused excl i = true) by (apply excused_spec; right; eauto). congruence.
  - intros (H1 & H2 & H3 & H4). repeat split; auto. destruct (excused excl i) eqn:E; [|reflexivity].
    apply excused_spec in E. destruct E as [E|(s & E1 & E2)]; [congruence|]. exfalso. eapply H4; eassumption.
Qed.
(** The child of the report made from a child. *)
Definition keep (excl : list str) (c : opt) : option opt :=
  if i_sect (inf c) then match kids (getUnused excl c) with [] => None | _ => Some (getUnused excl c) end
  else if i_used (inf c) || excused excl (inf c) then None else Some c.
Fixpoint keepall excl (l : list (str * opt)) : list (str * opt) :=
  match l with [] => [] | (n, c) :: r => match keep excl c with Some c' => (n, c') :: keepall excl r | None => keepall excl r end end.
Lemma getUnused_kids excl (o : opt) : i_sect (inf o) = true -> inf (getUnused excl o) = inf o /\ kids (getUnused excl o) = keepall excl (kids o).
Proof.
  destruct o as [i f cs]. cbn [inf kids]. intros H. cbn [getUnused]. rewrite H. cbn [negb inf kids]. split; [reflexivity|].
  induction cs as [|[n c] cs IH]; [reflexivity|]. cbn [keepall]. rewrite <- IH. unfold keep.
  destruct (i_sect (inf c)) eqn:ES; cbn [negb andb].
  - destruct (kids (getUnused excl c)); reflexivity.
  - destruct (i_used (inf c) || excused excl (inf c)); reflexivity.
Qed.
Lemma find_keepall excl n (cs : list (str * opt)) : NoDup (map fst cs) ->
  find_child n (keepall excl cs) = match find_child n cs with Some c => keep excl c | None => None end.
Proof.
  induction cs as [|[m c] cs IH]; cbn [keepall find_child map fst]; intros ND; [reflexivity|]. apply NoDup_cons_iff in ND. destruct ND as [N1 N2].
  specialize (IH N2). destruct (str_eqb n m) eqn:E.
  - apply str_eqb_eq in E. subst m. destruct (keep excl c) as [d|] eqn:K; [cbn [find_child]; now rewrite str_eqb_refl|].
    rewrite IH. apply find_None in N1. now rewrite N1.
  - destruct (keep excl c) as [d|]; [cbn [find_child]; rewrite E|]; exact IH.
Qed.
Lemma keepall_nil excl (cs : list (str * opt)) : keepall excl cs = [] <-> forall n c, In (n, c) cs -> keep excl c = None.
Proof.
  induction cs as [|[m c] cs IH]; cbn [keepall]; [split; [intros _ n c []|reflexivity]|]. destruct (keep excl c) as [d|] eqn:K.
  - split; [discriminate|]. intros H. specialize (H m c (or_introl eq_refl)). congruence.
  - rewrite IH. split; intros H n d; [intros [X|X]; [injection X as <- <-; assumption|eauto]|intros X; apply (H n); now right].
Qed.

Lemma wf_unused_exists excl : forall o : opt, wf o -> i_sect (inf o) = true ->
  (kids (getUnused excl o) <> [] <-> exists q, unused_leaf excl (info_at q o)).
Proof.
  induction o as [i f cs IH] using opt_ind'. intros W HS. destruct (getUnused_kids excl _ HS) as (_ & HK). rewrite HK. cbn [kids].
  inversion W as [i' f' cs' ND WC WV]; subst. split.
  - intros HN. assert (X : exists n c, In (n, c) cs /\ keep excl c <> None).
    { clear -HN. induction cs as [|[m c] cs IH]; cbn [keepall] in HN; [congruence|]. destruct (keep excl c) eqn:K.
      - exists m, c. split; [now left|congruence].
      - destruct (IH HN) as (n & d & H1 & H2). exists n, d. split; [now right|assumption]. }
    destruct X as (n & c & HI & HKp). pose proof (In_find _ _ _ ND HI) as HF. unfold keep in HKp.
    destruct (i_sect (inf c)) eqn:ES.
    + assert (HX : exists q, unused_leaf excl (info_at q c)).
      { apply (IH n c HI); [eauto|assumption|]. intros X. rewrite X in HKp. congruence. }
      destruct HX as (q & HX). exists (n :: q). rewrite info_at_cons. cbn [kids]. now rewrite HF.
    + exists [n]. rewrite info_at_cons. cbn [kids]. rewrite HF, info_at_nil. apply leafb_spec. unfold leafb.
      destruct (i_used (inf c)), (excused excl (inf c)); cbn in HKp; try congruence. now rewrite ES.
  - intros (q & HQ) HNil. rewrite keepall_nil in HNil. destruct q as [|n q].
    + cbn in HQ. destruct HQ as (X & _). cbn in HS. congruence.
    + rewrite info_at_cons in HQ. cbn [kids] in HQ. destruct (find_child n cs) as [c|] eqn:HF; [|destruct HQ as (X & _); discriminate].
      apply find_In in HF. specialize (HNil n c HF). unfold keep in HNil. destruct (i_sect (inf c)) eqn:ES.
      * assert (kids (getUnused excl c) <> []) by (apply (IH n c HF); eauto). destruct (kids (getUnused excl c)); congruence.
      * destruct q as [|m q].
        -- rewrite info_at_nil in HQ. apply leafb_spec in HQ. unfold leafb in HQ. rewrite ES in HQ.
           destruct (i_used (inf c)), (excused excl (inf c)); cbn in HQ, HNil; congruence.
        -- rewrite info_at_cons in HQ. destruct (wf_value c) as (K & _); eauto. rewrite K in HQ. destruct HQ as (X & _). discriminate.
Qed.

Lemma unused_info excl : forall q (o : opt), wf o -> i_sect (inf o) = true ->
  (unused_leaf excl (info_at q o) -> info_at q (getUnused excl o) = info_at q o) /\
  (~ unused_leaf excl (info_at q o) -> i_sect (info_at q (getUnused excl o)) = true).
Proof.
  induction q as [|n q IH]; intros o W HS; destruct (getUnused_kids excl _ HS) as (HI & HK).
  - rewrite !info_at_nil, HI. auto.
  - rewrite !info_at_cons, HK. rewrite find_keepall by (inversion W; assumption).
    destruct (find_child n (kids o)) as [c|] eqn:HF; [|auto].
    assert (Wc : wf c) by (eapply wf_child; eassumption).
    unfold keep. destruct (i_sect (inf c)) eqn:ES.
    + specialize (IH c Wc ES). destruct (kids (getUnused excl c)) as [|x l] eqn:K; [|exact IH].
      split; [|reflexivity]. intros HU. exfalso.
      assert (kids (getUnused excl c) <> []) by (apply wf_unused_exists; eauto). contradiction.
    + destruct (wf_value c Wc ES) as (Kc & _). destruct q as [|m q].
      * rewrite !info_at_nil. destruct (i_used (inf c) || excused excl (inf c)) eqn:EU.
        -- split; [|reflexivity]. intros HU. apply leafb_spec in HU. unfold leafb in HU. rewrite ES in HU.
           destruct (i_used (inf c)), (excused excl (inf c)); discriminate.
        -- split; [reflexivity|]. intros HU. exfalso. apply HU. apply leafb_spec. unfold leafb. rewrite ES.
           destruct (i_used (inf c)), (excused excl (inf c)); try discriminate. reflexivity.
      * assert (EX : info_at (m :: q) c = info0) by (rewrite info_at_cons, Kc; reflexivity).
        destruct (_ || _); cbn [find_child]; rewrite ?EX; auto.
Qed.

Lemma unused_no_empty_sections excl : forall q (o c : opt), wf o -> i_sect (inf o) = true -> q <> [] ->
  node_at q (getUnused excl o) = Some c -> exists s, unused_leaf excl (info_at (q ++ s) o).
Proof.
  induction q as [|n q IH]; intros o c W HS HN HQ; [congruence|]. destruct (getUnused_kids excl _ HS) as (HI & HK).
  cbn [node_at] in HQ. rewrite HK, find_keepall in HQ by (inversion W; assumption).
  destruct (find_child n (kids o)) as [d|] eqn:HF; [|discriminate]. assert (Wd : wf d) by (eapply wf_child; eassumption).
  unfold keep in HQ. destruct (i_sect (inf d)) eqn:ES.
  - destruct (kids (getUnused excl d)) as [|x l] eqn:K; [discriminate|]. destruct q as [|m q].
    + assert (HX : exists s, unused_leaf excl (info_at s d)) by (apply wf_unused_exists; auto; congruence).
      destruct HX as (s & HX). exists s. cbn [app]. rewrite info_at_cons, HF. exact HX.
    + destruct (IH d c Wd ES ltac:(discriminate) HQ) as (s & HX). exists s. cbn [app] in *. rewrite info_at_cons, HF. exact HX.
  - destruct (i_used (inf d) || excused excl (inf d)) eqn:EU; [discriminate|]. destruct (wf_value d Wd ES) as (Kd & _).
    destruct q as [|m q]; [|cbn [node_at] in HQ; rewrite Kd in HQ; discriminate].
    exists []. cbn [app]. rewrite info_at_cons, HF, info_at_nil. apply leafb_spec. unfold leafb. rewrite ES.
    destruct (i_used (inf d)), (excused excl (inf d)); try discriminate. reflexivity.
Qed.

Lemma check_unused_spec (o : opt) : wf o -> i_sect (inf o) = true ->
  (checkForUnusedOptions o = Throw <-> exists q, unused_leaf default_excl (info_at q o)) /\
  (checkForUnusedOptions o = Ok tt \/ checkForUnusedOptions o = Throw).
Proof.
  intros W HS. rewrite <- (wf_unused_exists default_excl o W HS). unfold checkForUnusedOptions.
  destruct (kids (getUnused default_excl o)); split; auto; split; congruence.
Qed.

(** * Full names and getFlattenedKeys *)
Inductive named : str -> opt -> Prop :=
| named_node : forall i f cs, (forall n c, In (n, c) cs -> (n <> [] /\ ~ In colon n) /\ named (child_full f n) c) -> named f (Node i f cs).
Lemma named_inv f i g (cs : list (str * opt)) : named f (Node i g cs) -> g = f /\ forall n c, In (n, c) cs -> (n <> [] /\ ~ In colon n) /\ named (child_full f n) c.
Proof. intros H. inversion H; subst. auto. Qed.
Lemma named_set_inf f i (o : opt) : named f o -> named f (set_inf i o).
Proof. intros H. inversion H; subst. now constructor. Qed.
Definition keeps_name {A} (k : opt -> opt * res A) : Prop := forall f c, named f c -> named f (fst (k c)).
Lemma named_on_child {A} n (k : opt -> opt * res A) f o : n <> [] -> ~ In colon n -> keeps_name k -> named f o -> named f (fst (on_child n k o)).
Proof.
  intros N1 N2 HK H. inversion H as [i f' cs HC]; subst. unfold on_child. destruct (find_child n cs) as [c|] eqn:E.
  - apply find_In in E. destruct (HC _ _ E) as [_ Hc]. pose proof (HK _ _ Hc) as X. destruct (k c) as [c' r]. cbn [fst] in *.
    constructor. intros m d Hd.
    assert (In (m, d) cs \/ (m = n /\ d = c')) as [Y|[-> ->]].
    { clear -Hd. induction cs as [|[a e] cs IH]; cbn in *; [tauto|]. destruct (str_eqb n a) eqn:EE; cbn in Hd; destruct Hd as [Hd|Hd]; auto.
      - injection Hd as <- <-. apply str_eqb_eq in EE. auto.
      - destruct (IH Hd); auto. }
    + now apply HC.
    + auto.
  - assert (Hc : named (child_full f n) (Node info0 (child_full f n) [] : opt)) by (constructor; intros m d []).
    pose proof (HK _ _ Hc) as X. destruct (k _) as [c' r]. cbn [fst] in *. constructor. intros m d Hd. apply In_insert in Hd.
    destruct Hd as [Hd|Hd]; [now apply HC|]. injection Hd as -> ->. auto.
Qed.
Lemma find_first_none_inv n : forall k, find_first (Ascii.eqb colon) n k = None -> ~ In colon n.
Proof.
  induction n as [|c n IH]; intros k H; [tauto|]. cbn [find_first] in H. destruct (Ascii.eqb colon c) eqn:E; [discriminate|].
  apply Ascii.eqb_neq in E. intros [X|X]; [congruence|]. exact (IH _ H X).
Qed.
Lemma named_op_index {A} : forall fuel name (k : opt -> opt * res A), keeps_name k -> keeps_name (op_index fuel name k).
Proof.
  induction fuel as [|fuel IH]; intros name k HK f o H; [exact H|]. cbn [op_index].
  destruct (negb _); [exact H|]. destruct name as [|a name]; [now apply HK|]. destruct (find_first _ _ _) as [pos|] eqn:E.
  - apply IH; [|assumption]. intros g c Hc. now apply IH.
  - apply named_on_child; auto; [discriminate|]. eapply find_first_none_inv; eassumption.
Qed.
Lemma kn_no_check v s : keeps_name (set_no_check (V := V) v s).
Proof. intros f c H. unfold set_no_check. destruct (kids c); [now apply named_set_inf|exact H]. Qed.
Lemma kn_assign v s : keeps_name (assign veqb v s).
Proof.
  intros f c H. unfold assign, set_checked. destruct (isSet c); try exact H.
  destruct (_ && _); [destruct (negb _); [destruct (_ || _)|]|]; try (now apply kn_no_check); exact H.
Qed.
Lemma kn_force v s : keeps_name (force veqb v s).
Proof. intros f c H. unfold force. apply kn_assign. now apply named_set_inf. Qed.
Lemma kn_repeat v b s : keeps_name (assignRepeat veqb v b s).
Proof.
  intros f c H. unfold assignRepeat. pose proof (kn_force v s f c H) as X. destruct (force veqb v s c) as [o' [u| |]]; cbn [fst] in *; auto.
  destruct b; [now apply named_set_inf|assumption].
Qed.
Lemma kn_as conv : keeps_name (as_ (V := V) conv).
Proof. intros f c H. unfold as_. destruct (i_sect _); [exact H|]. destruct (i_val _); [|exact H]. destruct (conv _); [|exact H]. now apply named_set_inf. Qed.
Lemma kn_withDefault conv d : keeps_name (withDefault veqb conv d).
Proof.
  intros f c H. unfold withDefault. destruct (i_sect _).
  - pose proof (kn_assign d DEFAULT_SOURCE f c H) as X. destruct (assign _ _ _ _) as [o' [u| |]]; cbn [fst] in *; auto. now apply named_set_inf.
  - pose proof (kn_as conv f c H) as X. destruct (as_ conv c) as [o' [x| |]]; cbn [fst] in *; auto.
    destruct (i_src _); [|exact X]. destruct (_ && _); exact X.
Qed.
Lemma kn_override conv d : keeps_name (overrideDefault veqb conv d).
Proof.
  intros f c H. unfold overrideDefault. destruct (i_sect _); [|now apply kn_as].
  pose proof (kn_assign d (chars "user_default") f c H) as X. destruct (assign _ _ _ _) as [o' [u| |]]; cbn [fst] in *; auto. now apply named_set_inf.
Qed.
Lemma kn_cond : forall (c : opt) f, named f c -> named f (set_cond c).
Proof.
  induction c as [i g cs IH] using opt_ind'. intros f H. destruct (named_inv _ _ _ _ H) as [-> HC].
  assert (E : set_cond (Node i f cs) = Node (mark_cond i) f (map (fun nc => (fst nc, set_cond (snd nc))) cs)).
  { pose proof (set_cond_kids (Node i f cs)) as X. cbn [kids] in X. destruct (set_cond (Node i f cs)) eqn:Y. cbn in Y. injection Y as <- <- <-. cbn [kids] in X. now rewrite X. }
  rewrite E. constructor. intros n c HI. apply in_map_iff in HI. destruct HI as ([m d] & X & HI). cbn in X. injection X as <- <-.
  destruct (HC _ _ HI). split; [assumption|]. eapply IH; eassumption.
Qed.
Lemma named_step op (o : opt) : named [] o -> named [] (ostep veqb op o).
Proof.
  intros H. destruct op; cbn [ostep]; unfold index; apply named_op_index; auto; try (intros f c Hc; cbn [fst]; now apply kn_cond).
  - apply kn_assign. - apply kn_force. - apply kn_repeat. - apply kn_as. - apply kn_withDefault. - apply kn_override.
Qed.
Lemma named_reachable ops : named [] (orun veqb ops (root0 (V := V))).
Proof.
  assert (G : forall o, named [] o -> named [] (orun veqb ops o)).
  { induction ops as [|op ops IH]; intros o H; [exact H|]. cbn. apply IH. now apply named_step. }
  apply G. constructor. intros n c [].
Qed.

(** The name of the node at p below a node called f. *)
Fixpoint name_from (f : str) (p : path) : str := match p with [] => f | n :: r => name_from (child_full f n) r end.
Lemma child_full_nonnil f n : n <> [] -> child_full f n <> [].
Proof. destruct f as [|a f]; cbn; [auto|discriminate]. Qed.
Lemma name_from_nonnil p : forall f, f <> [] -> good_path p -> name_from f p = match p with [] => f | _ => f ++ colon :: path_name p end.
Proof.
  induction p as [|n p IH]; intros f Hf HG; [reflexivity|]. inversion HG as [|x y [G1 G2] G3]; subst. cbn [name_from].
  rewrite IH by (auto using child_full_nonnil). destruct f as [|a f]; [congruence|]. cbn [child_full].
  destruct p as [|m p]; [reflexivity|]. rewrite <- app_assoc. reflexivity.
Qed.
Lemma name_from_root p : good_path p -> name_from [] p = path_name p.
Proof.
  destruct p as [|n p]; [reflexivity|]. intros HG. inversion HG as [|x y [G1 G2] G3]; subst. cbn [name_from child_full].
  rewrite name_from_nonnil by assumption. destruct p; reflexivity.
Qed.
Lemma named_find f (o : opt) n c : named f o -> find_child n (kids o) = Some c -> (n <> [] /\ ~ In colon n) /\ named (child_full f n) c.
Proof. intros H E. inversion H; subst. cbn [kids] in E. apply find_In in E. auto. Qed.
Lemma named_value_good p : forall f (o : opt), named f o -> i_sect (info_at p o) = false -> good_path p.
Proof.
  induction p as [|n p IH]; intros f o H HS; [constructor|]. rewrite info_at_cons in HS. destruct (find_child n (kids o)) as [c|] eqn:E; [|discriminate].
  destruct (named_find _ _ _ _ H E). constructor; [assumption|]. eapply IH; eassumption.
Qed.

Lemma getFlattenedKeys_kids i f (cs : list (str * opt)) : getFlattenedKeys (Node i f cs) =
  (if negb (i_sect i) && negb (match f with [] => true | _ => false end) then [f] else []) ++
  flat_map (fun nc => if i_sect (inf (snd nc)) then getFlattenedKeys (snd nc) else [full (snd nc)]) cs.
Proof.
  cbn [getFlattenedKeys]. f_equal. induction cs as [|[n c] cs IH]; [reflexivity|]. cbn [flat_map snd]. rewrite <- IH.
  destruct (i_sect (inf c)); cbn [negb app]; reflexivity.
Qed.
Lemma flattened_in : forall (o : opt) f, wf o -> named f o -> i_sect (inf o) = true ->
  forall k, In k (getFlattenedKeys o) <-> exists p, i_sect (info_at p o) = false /\ k = name_from f p.
Proof.
  induction o as [i g cs IH] using opt_ind'. intros f W H HS k. destruct (named_inv _ _ _ _ H) as [-> HC]. inversion W as [i' g' cs' ND WC WV]; subst.
  cbn [inf] in HS. rewrite getFlattenedKeys_kids, HS. cbn [negb andb app]. rewrite in_flat_map. split.
  - intros ([n c] & HI & HK). cbn [snd] in HK. destruct (HC _ _ HI) as [Gn Hc]. pose proof (In_find _ _ _ ND HI) as HF.
    destruct (i_sect (inf c)) eqn:ES.
    + apply (IH n c HI (child_full f n)) in HK; eauto. destruct HK as (p & P1 & P2). exists (n :: p). rewrite info_at_cons. cbn [kids]. rewrite HF. auto.
    + cbn in HK. destruct HK as [<-|[]]. exists [n]. rewrite info_at_cons. cbn [kids]. rewrite HF. split; [assumption|].
      cbn [name_from]. inversion Hc; reflexivity.
  - intros (p & P1 & ->). destruct p as [|n p]; [cbn in P1; congruence|]. rewrite info_at_cons in P1. cbn [kids] in P1.
    destruct (find_child n cs) as [c|] eqn:HF; [|discriminate]. apply find_In in HF. destruct (HC _ _ HF) as [Gn Hc].
    exists (n, c). split; [assumption|]. cbn [snd name_from]. destruct (i_sect (inf c)) eqn:ES.
    + apply (IH n c HF (child_full f n)); eauto.
    + destruct p as [|m p].
      * left. cbn [name_from]. inversion Hc; reflexivity.
      * destruct (wf_value c) as (K & _); eauto. rewrite info_at_cons, K in P1. discriminate.
Qed.

(** A path name determines the path. *)
Lemma colon_split n s n' s' : ~ In colon n -> ~ In colon n' -> n ++ colon :: s = n' ++ colon :: s' -> n = n' /\ s = s'.
Proof.
  revert n'. induction n as [|c n IH]; intros [|c' n'] H1 H2 E; cbn in *.
  - injection E as ->. auto.
  - injection E as <- _. exfalso. apply H2. now left.
  - injection E as -> _. exfalso. apply H1. now left.
  - injection E as <- E. destruct (IH n') as [-> ->]; auto.
Qed.
Lemma path_name_inj p : forall q, good_path p -> good_path q -> path_name p = path_name q -> p = q.
Proof.
  assert (E2 : forall n m r, path_name (n :: m :: r) = n ++ colon :: path_name (m :: r)) by reflexivity.
  assert (E1 : forall n, path_name [n] = n) by reflexivity.
  induction p as [|n p IH]; intros q Gp Gq E.
  - destruct q as [|m q]; [reflexivity|]. inversion Gq as [|x y [G1 G2] G3]; subst. destruct q; [rewrite E1 in E|rewrite E2 in E]; destruct m; try discriminate; congruence.
  - inversion Gp as [|x y [G1 G2] G3]; subst. destruct q as [|m q].
    { destruct p; [rewrite E1 in E|rewrite E2 in E]; destruct n; try discriminate; congruence. }
    inversion Gq as [|x y [F1 F2] F3]; subst. destruct p as [|n2 p], q as [|m2 q].
    + rewrite !E1 in E. congruence.
    + rewrite E1, E2 in E. exfalso. apply G2. rewrite E. apply in_or_app. right. now left.
    + rewrite E1, E2 in E. exfalso. apply F2. rewrite <- E. apply in_or_app. right. now left.
    + rewrite !E2 in E. apply colon_split in E; auto. destruct E as [-> E]. f_equal. now apply IH.
Qed.

(** A tagged version of the list of keys: each key with its path. *)
Lemma flattened_paths : forall (o : opt) f, wf o -> named f o -> i_sect (inf o) = true ->
  exists ps, getFlattenedKeys o = map (name_from f) ps /\ NoDup ps /\ forall p, In p ps <-> i_sect (info_at p o) = false.
Proof.
  induction o as [i g cs IH] using opt_ind'. intros f W H HS. destruct (named_inv _ _ _ _ H) as [-> HC]. inversion W as [i' g' cs' ND WC WV]; subst.
  cbn [inf] in HS. rewrite getFlattenedKeys_kids, HS. cbn [negb andb app].
  assert (G : exists ps, flat_map (fun nc : str * opt => if i_sect (inf (snd nc)) then getFlattenedKeys (snd nc) else [full (snd nc)]) cs = map (name_from f) ps /\ NoDup ps /\
            forall p, In p ps <-> exists n q c, p = n :: q /\ In (n, c) cs /\ i_sect (info_at q c) = false).
  { clear W H WV. induction cs as [|[n c] cs IHc].
    { exists []. split; [reflexivity|]. split; [apply NoDup_nil|]. intros p. split; [intros []|intros (n & q & c & _ & [] & _)]. }
    cbn [map fst] in ND. apply NoDup_cons_iff in ND. destruct ND as [N1 N2].
    destruct IHc as (ps & P1 & P2 & P3); [intros; eapply IH; [right; eassumption|eassumption|eassumption|eassumption]|intros; apply HC; now right|assumption|intros; eapply WC; right; eassumption|].
    assert (Q : exists qs, (if i_sect (inf c) then getFlattenedKeys c else [full c]) = map (name_from f) (map (cons n) qs) /\ NoDup qs /\ forall q, In q qs <-> i_sect (info_at q c) = false).
    { destruct (HC n c (or_introl eq_refl)) as [Gn Hc]. assert (Wc : wf c) by (eapply WC; now left). destruct (i_sect (inf c)) eqn:ES.
      - destruct (IH n c (or_introl eq_refl) (child_full f n) Wc Hc ES) as (qs & Q1 & Q2 & Q3). exists qs. rewrite Q1, map_map. auto.
      - exists [[]]. split; [cbn; inversion Hc; reflexivity|]. split; [constructor; [tauto|constructor]|]. intros q. destruct (wf_value c Wc ES) as (K & _).
        split; [intros [<-|[]]; assumption|]. destruct q as [|m q]; [intros _; now left|]. rewrite info_at_cons, K. discriminate. }
    destruct Q as (qs & Q1 & Q2 & Q3). exists (map (cons n) qs ++ ps). cbn [flat_map snd]. rewrite map_app, Q1, P1. split; [reflexivity|]. split.
    - apply NoDup_app_iff'.
      + apply Injective_map_NoDup; [intros a b E; congruence|assumption].
      + assumption.
      + intros p HP1 HP2. apply in_map_iff in HP1. destruct HP1 as (q & <- & HP1). apply P3 in HP2. destruct HP2 as (n' & q' & c' & E & HI & _).
        injection E as <- <-. apply N1. change n with (fst (n, c')). now apply in_map.
    - intros p. rewrite in_app_iff, P3, in_map_iff. split.
      + intros [(q & <- & HQ)|(n' & q' & c' & -> & HI & HQ)].
        * exists n, q, c. split; [reflexivity|]. split; [now left|]. now apply Q3.
        * exists n', q', c'. split; [reflexivity|]. split; [now right|assumption].
      + intros (n' & q' & c' & -> & [HI|HI] & HQ).
        * injection HI as <- <-. left. exists q'. split; [reflexivity|]. now apply Q3.
        * right. exists n', q', c'. auto. }
  destruct G as (ps & G1 & G2 & G3). exists ps. split; [exact G1|]. split; [exact G2|]. intros p. rewrite G3. destruct p as [|n p].
  - split; [intros (n & q & c & E & _); discriminate|]. intros X. cbn in X. congruence.
  - rewrite info_at_cons. cbn [kids]. split.
    + intros (n' & q & c & E & HI & HQ). injection E as <- <-. now rewrite (In_find _ _ _ ND HI).
    + destruct (find_child n cs) as [c|] eqn:HF; [|discriminate]. intros HQ. apply find_In in HF. exists n, p, c. auto.
Qed.
Lemma flattened_spec (o : opt) : wf o -> named [] o -> i_sect (inf o) = true ->
  NoDup (getFlattenedKeys o) /\ forall k, In k (getFlattenedKeys o) <-> exists p, good_path p /\ entry_at p o <> None /\ k = path_name p.
Proof.
  intros W H HS. destruct (flattened_paths o [] W H HS) as (ps & P1 & P2 & P3). rewrite P1. split.
  - assert (GP : forall p, In p ps -> good_path p) by (intros p HP; apply P3 in HP; eapply named_value_good; eassumption).
    clear -P2 GP. induction P2 as [|p ps N1 N2 IH]; [constructor|]. cbn [map]. constructor; [|apply IH; intros; apply GP; now right].
    intros X. apply in_map_iff in X. destruct X as (q & E & HQ). assert (p = q); [|congruence].
    apply path_name_inj; [apply GP; now left|apply GP; now right|]. rewrite <- !name_from_root; [congruence|apply GP; now right|apply GP; now left].
  - intros k. rewrite in_map_iff. split.
    + intros (p & <- & HP). apply P3 in HP. assert (good_path p) by (eapply named_value_good; eassumption).
      exists p. split; [assumption|]. split; [unfold entry_at, entry; rewrite HP; discriminate|]. now apply name_from_root.
    + intros (p & G & HE & ->). exists p. split; [now apply name_from_root|]. apply P3. unfold entry_at, entry in HE. destruct (i_sect (info_at p o)); [congruence|reflexivity].
Qed.
End WithV.
