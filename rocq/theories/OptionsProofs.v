From Coq Require Import Ascii String List Arith Bool Lia.
From Verif Require Import Base StringsModel StringsSpec OptionsModel OptionsSpec.
Import ListNotations.

Lemma str_eqb_eq a : forall b, str_eqb a b = true <-> a = b.
Proof.
  induction a as [|x a IH]; intros [|y b]; cbn; try (split; congruence).
  rewrite andb_true_iff, Ascii.eqb_eq, IH. split; [intros [-> ->]; reflexivity|intros E; injection E; auto].
Qed.
Lemma str_eqb_refl a : str_eqb a a = true.
Proof. now apply str_eqb_eq. Qed.
Lemma str_eqb_neq a b : str_eqb a b = false <-> a <> b.
Proof. rewrite <- str_eqb_eq. destruct (str_eqb a b); split; congruence. Qed.
Lemma str_dec (a b : str) : {a = b} + {a <> b}.
Proof. destruct (str_eqb a b) eqn:E; [left; now apply str_eqb_eq|right; now apply str_eqb_neq]. Qed.
Lemma path_dec (a b : path) : {a = b} + {a <> b}.
Proof. apply (list_eq_dec str_dec). Qed.

Section WithV.
Context {V : Type} (veqb : V -> V -> bool) (veqb_ok : forall a b, veqb a b = true <-> a = b).
Notation opt := (opt V). Notation info := (info V).

(** * Children *)
Lemma find_replace_same n c d : forall cs : list (str * opt), find_child n cs = Some d -> find_child n (replace_child n c cs) = Some c.
Proof. induction cs as [|[m e] cs IH]; cbn; [discriminate|]. destruct (str_eqb n m) eqn:E; cbn; rewrite E; auto. Qed.
Lemma find_replace_other n m c : m <> n -> forall cs : list (str * opt), find_child m (replace_child n c cs) = find_child m cs.
Proof.
  intros H. induction cs as [|[k e] cs IH]; cbn; [reflexivity|]. destruct (str_eqb n k) eqn:E; cbn; destruct (str_eqb m k) eqn:E2; auto.
  apply str_eqb_eq in E, E2. congruence.
Qed.
Lemma find_insert_same n c : forall cs : list (str * opt), find_child n cs = None -> find_child n (insert_child n c cs) = Some c.
Proof.
  induction cs as [|[m e] cs IH]; cbn; [now rewrite str_eqb_refl|]. destruct (str_eqb n m) eqn:E; [discriminate|]. intros H.
  destruct (str_ltb n m); cbn; [now rewrite str_eqb_refl|]. rewrite E. auto.
Qed.
Lemma find_insert_other n m c : m <> n -> forall cs : list (str * opt), find_child m (insert_child n c cs) = find_child m cs.
Proof.
  intros H. assert (HE : str_eqb m n = false) by now apply str_eqb_neq.
  induction cs as [|[k e] cs IH]; cbn; [now rewrite HE|]. destruct (str_ltb n k); cbn; [now rewrite HE|]. now rewrite IH.
Qed.
Lemma find_In n c (cs : list (str * opt)) : find_child n cs = Some c -> In (n, c) cs.
Proof. induction cs as [|[m e] cs IH]; cbn; [discriminate|]. destruct (str_eqb n m) eqn:E; [|auto]. apply str_eqb_eq in E. intros H; injection H; intros; subst; auto. Qed.
Lemma In_find n c (cs : list (str * opt)) : NoDup (map fst cs) -> In (n, c) cs -> find_child n cs = Some c.
Proof.
  induction cs as [|[m e] cs IH]; cbn; [tauto|]. intros ND [H|H].
  - injection H as -> ->. now rewrite str_eqb_refl.
  - apply NoDup_cons_iff in ND. destruct ND as [N1 N2]. destruct (str_eqb n m) eqn:E; [|auto].
    apply str_eqb_eq in E; subst. exfalso. apply N1. change m with (fst (m, c)). now apply in_map.
Qed.
Lemma find_None n (cs : list (str * opt)) : find_child n cs = None <-> ~ In n (map fst cs).
Proof.
  induction cs as [|[m e] cs IH]; cbn; [tauto|]. destruct (str_eqb n m) eqn:E.
  - apply str_eqb_eq in E. split; [discriminate|]. intros H. exfalso. apply H. now left.
  - apply str_eqb_neq in E. rewrite IH. split; [intros H [X|X]; congruence|tauto].
Qed.

(** * Navigation *)
Fixpoint walk {A} (p : path) (k : opt -> opt * res A) (o : opt) : opt * res A :=
  match p with
  | [] => k o
  | n :: r => if negb (i_sect (inf o)) then (o, Throw) else on_child n (walk r k) o
  end.

Lemma on_child_ext {A} n (k k' : opt -> opt * res A) o : (forall c, k c = k' c) -> on_child n k o = on_child n k' o.
Proof. intros H. unfold on_child. destruct o as [i f cs]. destruct (find_child n cs); now rewrite H. Qed.

Lemma find_first_none n : ~ In colon n -> forall k, find_first (Ascii.eqb colon) n k = None.
Proof.
  induction n as [|c n IH]; intros H k; [reflexivity|]. cbn [find_first]. destruct (Ascii.eqb colon c) eqn:E.
  - apply Ascii.eqb_eq in E. exfalso. apply H. now left.
  - apply IH. intros X; apply H; now right.
Qed.
Lemma find_first_app n s : ~ In colon n -> forall k, find_first (Ascii.eqb colon) (n ++ colon :: s) k = Some (k + List.length n).
Proof.
  induction n as [|c n IH]; intros H k; cbn [app find_first List.length].
  - rewrite Ascii.eqb_refl. f_equal. lia.
  - destruct (Ascii.eqb colon c) eqn:E; [apply Ascii.eqb_eq in E; exfalso; apply H; now left|].
    rewrite IH by (intros X; apply H; now right). f_equal. lia.
Qed.

Lemma op_index_walk {A} : forall (p : path) fuel (k : opt -> opt * res A) o, good_path p -> p <> [] ->
  List.length (path_name p) < fuel -> op_index fuel (path_name p) k o = walk p k o.
Proof.
  induction p as [|n r IH]; intros fuel k o HG HN HF; [congruence|]. inversion HG as [|x y [G1 G2] G3]; subst.
  destruct fuel as [|fuel]; [lia|]. destruct r as [|m r].
  - cbn [path_name join] in *. unfold path_name in *. cbn [join] in *. cbn [op_index walk].
    destruct (negb (i_sect (inf o))); [reflexivity|]. destruct n as [|c n]; [congruence|].
    rewrite find_first_none by assumption. reflexivity.
  - assert (EN : path_name (n :: m :: r) = n ++ colon :: path_name (m :: r)) by reflexivity.
    rewrite EN in *. clear EN. rewrite app_length in HF. cbn [List.length] in HF. cbn [op_index walk].
    destruct (negb (i_sect (inf o))) eqn:ES; [reflexivity|].
    destruct (n ++ colon :: path_name (m :: r)) as [|c0 l0] eqn:EL; [destruct n; discriminate|]. rewrite <- EL. clear c0 l0 EL.
    rewrite find_first_app by assumption. cbn [Nat.add].
    rewrite firstn_app, firstn_all, Nat.sub_diag. cbn [firstn]. rewrite app_nil_r.
    replace (skipn (List.length n + 1) (n ++ colon :: path_name (m :: r))) with (path_name (m :: r)).
    2:{ rewrite skipn_app. rewrite skipn_all2 by lia. replace (List.length n + 1 - List.length n) with 1 by lia. reflexivity. }
    destruct fuel as [|fuel]; [lia|]. cbn [op_index]. rewrite ES. destruct n as [|c n]; [congruence|].
    rewrite find_first_none by assumption. apply on_child_ext. intros d.
    change (op_index (S fuel) (path_name (m :: r)) k d = walk (m :: r) k d). apply IH; [assumption|discriminate|cbn [List.length] in HF; lia].
Qed.
Lemma index_walk {A} (p : path) (k : opt -> opt * res A) o : good_path p -> p <> [] -> index (path_name p) k o = walk p k o.
Proof. intros HG HN. unfold index. apply op_index_walk; auto. Qed.

Lemma walk_app {A} p q (k : opt -> opt * res A) : forall o, walk (p ++ q) k o = walk p (walk q k) o.
Proof.
  induction p as [|n p IH]; intros o; [reflexivity|]. cbn [app walk]. destruct (negb _); [reflexivity|]. now apply on_child_ext.
Qed.
Lemma walk_ext {A} p (k k' : opt -> opt * res A) : (forall c, k c = k' c) -> forall o, walk p k o = walk p k' o.
Proof.
  intros H. induction p as [|n p IH]; intros o; [apply H|]. cbn [walk]. destruct (negb _); [reflexivity|]. now apply on_child_ext.
Qed.
Lemma index_compound {A} p q (k : opt -> opt * res A) o : good_path p -> good_path q -> p <> [] -> q <> [] ->
  index (path_name (p ++ q)) k o = index (path_name p) (index (path_name q) k) o.
Proof.
  intros Gp Gq Np Nq. rewrite !index_walk; auto.
  - rewrite walk_app. apply walk_ext. intros c. symmetry. now apply index_walk.
  - apply Forall_app. auto.
  - destruct p; [congruence|discriminate].
Qed.

(** What an operation at the end of a walk does. *)
Lemma node_at_app p : forall q (o : opt), node_at (p ++ q) o = match node_at p o with Some c => node_at q c | None => None end.
Proof. induction p as [|n p IH]; intros q o; cbn; [reflexivity|]. destruct (find_child n (kids o)); [apply IH|reflexivity]. Qed.

Lemma info_at_cons n q (o : opt) : info_at (n :: q) o = match find_child n (kids o) with Some c => info_at q c | None => info0 end.
Proof. unfold info_at. cbn [node_at]. destruct (find_child n (kids o)); reflexivity. Qed.
Lemma info_at_nil (o : opt) : info_at [] o = inf o.
Proof. reflexivity. Qed.
Lemma info_at_fresh q f : info_at q (Node info0 f [] : opt) = info0.
Proof. destruct q; reflexivity. Qed.

Lemma reachable_cons n p (o : opt) : reachable_path (n :: p) o <->
  i_sect (inf o) = true /\ match find_child n (kids o) with Some c => reachable_path p c | None => True end.
Proof.
  unfold reachable_path. split.
  - intros H. split.
    + change (inf o) with (info_at [] o). apply H. exists (n :: p). split; [discriminate|reflexivity].
    + destruct (find_child n (kids o)) as [c|] eqn:E; [|exact I]. intros q (r & R1 & ->).
      specialize (H (n :: q) (ex_intro _ r (conj R1 eq_refl))). now rewrite info_at_cons, E in H.
  - intros [H1 H2] q (r & R1 & E). destruct q as [|m q]; [exact H1|]. cbn in E. injection E as <- ->.
    rewrite info_at_cons. destruct (find_child n (kids o)) as [c|]; [|reflexivity]. apply H2. exists r. auto.
Qed.

Lemma walk_spec {A} p (k : opt -> opt * res A) : forall o o' r, walk p k o = (o', r) ->
  (r = Throw /\ ~ reachable_path p o /\ o' = o \/
   r = Throw /\ ~ reachable_path p o /\ (forall q, info_at q o' = info_at q o)) \/
  (reachable_path p o /\ exists c c', (node_at p o = Some c \/ node_at p o = None /\ exists f, c = Node info0 f []) /\
     k c = (c', r) /\ node_at p o' = Some c' /\ (forall q, ~ (exists s, q = p ++ s) -> info_at q o' = info_at q o)).
Proof.
  induction p as [|n p IH]; intros o o' r H.
  - right. split; [intros q (s & S1 & S2); destruct q; [cbn in S2; congruence|discriminate]|].
    exists o, o'. split; [left; reflexivity|]. split; [exact H|]. split; [reflexivity|]. intros q Hq. exfalso. apply Hq. now exists q.
  - cbn [walk] in H. destruct (i_sect (inf o)) eqn:ES; cbn [negb] in H.
    2:{ injection H as <- <-. left. left. split; [reflexivity|]. split; [|reflexivity]. rewrite reachable_cons. intros [X _]. congruence. }
    unfold on_child in H. destruct o as [i f cs]. cbn [inf] in ES.
    destruct (find_child n cs) as [c|] eqn:EF.
    + destruct (walk p k c) as [c1 r1] eqn:EW. injection H as <- <-. specialize (IH _ _ _ EW).
      assert (HI : forall m q, info_at (m :: q) (Node i f (replace_child n c1 cs)) = if str_eqb m n then info_at q c1 else info_at (m :: q) (Node i f cs)).
      { intros m q. rewrite !info_at_cons. cbn [kids]. destruct (str_eqb m n) eqn:E.
        - apply str_eqb_eq in E; subst. now rewrite (find_replace_same _ _ _ _ EF).
        - apply str_eqb_neq in E. now rewrite find_replace_other. }
      destruct IH as [IH|(IR & c0 & c' & I1 & I2 & I3 & I4)].
      * left. right. assert (r1 = Throw /\ ~ reachable_path p c /\ (forall q, info_at q c1 = info_at q c)) as (X1 & X2 & X3).
        { destruct IH as [(X1 & X2 & X3)|X]; [subst c1; auto|exact X]. }
        split; [assumption|]. split; [rewrite reachable_cons; cbn [kids]; rewrite EF; tauto|].
        intros [|m q]; [reflexivity|]. rewrite HI. destruct (str_eqb m n) eqn:E; [|reflexivity]. apply str_eqb_eq in E; subst.
        rewrite X3, info_at_cons. cbn [kids]. now rewrite EF.
      * right. split; [rewrite reachable_cons; cbn [kids inf]; rewrite EF; auto|]. exists c0, c'. split; [cbn [node_at kids]; rewrite EF; exact I1|].
        split; [exact I2|]. split; [cbn [node_at kids]; now rewrite (find_replace_same _ _ _ _ EF)|].
        intros [|m q] Hq; [reflexivity|]. rewrite HI. destruct (str_eqb m n) eqn:E; [|reflexivity]. apply str_eqb_eq in E; subst.
        rewrite I4, info_at_cons by (intros (s & ->); apply Hq; exists s; reflexivity). cbn [kids]. now rewrite EF.
    + set (c := Node info0 (child_full f n) []) in *. destruct (walk p k c) as [c1 r1] eqn:EW. injection H as <- <-. specialize (IH _ _ _ EW).
      assert (HI : forall m q, info_at (m :: q) (Node i f (insert_child n c1 cs)) = if str_eqb m n then info_at q c1 else info_at (m :: q) (Node i f cs)).
      { intros m q. rewrite !info_at_cons. cbn [kids]. destruct (str_eqb m n) eqn:E.
        - apply str_eqb_eq in E; subst. now rewrite (find_insert_same _ _ _ EF).
        - apply str_eqb_neq in E. now rewrite find_insert_other. }
      destruct IH as [IH|(IR & c0 & c' & I1 & I2 & I3 & I4)].
      * exfalso. assert (~ reachable_path p c) as X by (destruct IH as [(_ & X & _)|(_ & X & _)]; exact X). apply X.
        intros q _. unfold c. rewrite info_at_fresh. reflexivity.
      * right. split; [rewrite reachable_cons; cbn [kids inf]; rewrite EF; auto|]. exists c0, c'.
        split; [right; cbn [node_at kids]; rewrite EF; split; [reflexivity|]|].
        { destruct I1 as [I1|[_ I1]]; [|exact I1]. destruct p as [|m p]; cbn in I1; [injection I1 as <-; unfold c; eauto|discriminate]. }
        split; [exact I2|]. split; [cbn [node_at kids]; now rewrite (find_insert_same _ _ _ EF)|].
        intros [|m q] Hq; [reflexivity|]. rewrite HI. destruct (str_eqb m n) eqn:E; [|reflexivity]. apply str_eqb_eq in E; subst.
        rewrite I4, info_at_cons by (intros (s & ->); apply Hq; exists s; reflexivity). cbn [kids]. rewrite EF. apply info_at_fresh.
Qed.

Definition keeps_kids {A} (k : opt -> opt * res A) : Prop := forall c, kids (fst (k c)) = kids c.

Lemma index_local {A} p (k : opt -> opt * res A) o o' r : good_path p -> p <> [] -> keeps_kids k ->
  index (path_name p) k o = (o', r) ->
  (r = Throw /\ ~ reachable_path p o /\ forall q, info_at q o' = info_at q o) \/
  (reachable_path p o /\ exists c c', inf c = info_at p o /\ (kids c <> [] <-> has_children p o) /\ (node_at p o = Some c \/ node_at p o = None /\ exists f, c = Node info0 f []) /\ k c = (c', r) /\
    node_at p o' = Some c' /\
    info_at p o' = inf c' /\ forall q, q <> p -> info_at q o' = info_at q o).
Proof.
  intros HG HN HK H. rewrite index_walk in H by assumption. apply walk_spec in H.
  destruct H as [[(H1 & H2 & ->)|H]|(HR & c & c' & I1 & I2 & I3 & I4)]; [left; auto|left; exact H|].
  right. split; [assumption|]. exists c, c'.
  assert (HC : inf c = info_at p o) by (unfold info_at; destruct I1 as [->|[-> (f & ->)]]; reflexivity).
  split; [assumption|]. split.
  { unfold has_children. destruct I1 as [I1|[I1 (f & ->)]].
    - split; [intros X; exists c; auto|]. intros (d & D1 & D2). congruence.
    - cbn [kids]. split; [congruence|]. intros (d & D1 & D2). congruence. }
  split; [exact I1|]. split; [exact I2|]. split; [exact I3|]. split; [unfold info_at; now rewrite I3|].
  intros q Hq. destruct (le_lt_dec (List.length p) (List.length q)) as [L|L].
  - destruct (path_dec (firstn (List.length p) q) p) as [E|E].
    + pose proof (firstn_skipn (List.length p) q) as S. rewrite E in S. rewrite <- S in *.
      set (s := skipn (List.length p) q) in *. clearbody s. destruct s as [|n s]; [exfalso; apply Hq; apply app_nil_r|].
      unfold info_at. rewrite !node_at_app, I3. cbn [node_at]. pose proof (HK c) as HKc. rewrite I2 in HKc. cbn [fst] in HKc. rewrite HKc.
      destruct I1 as [->|[-> (f & ->)]]; reflexivity.
    + apply I4. intros (s & ->). apply E. rewrite firstn_app, firstn_all, Nat.sub_diag. cbn [firstn]. apply app_nil_r.
  - apply I4. intros (s & ->). rewrite app_length in L. lia.
Qed.

(** * Node operations *)
Lemma kids_set_inf i (o : opt) : kids (set_inf i o) = kids o.
Proof. destruct o; reflexivity. Qed.
Lemma inf_set_inf i (o : opt) : inf (set_inf i o) = i.
Proof. destruct o; reflexivity. Qed.
Lemma kk_set_no_check v s : keeps_kids (set_no_check (V := V) v s).
Proof. intros c. unfold set_no_check. destruct (kids c) eqn:E; cbn [fst]; [now rewrite kids_set_inf|assumption]. Qed.
Lemma kk_assign v s : keeps_kids (assign veqb v s).
Proof.
  intros c. unfold assign, set_checked. destruct (isSet c); try reflexivity.
  destruct (_ && _); [destruct (negb _); [destruct (_ || _)|]|]; try apply kk_set_no_check; reflexivity.
Qed.
Lemma kk_force v s : keeps_kids (force veqb v s).
Proof. intros c. unfold force. rewrite kk_assign. unfold with_sect. apply kids_set_inf. Qed.
Lemma kk_repeat v b s : keeps_kids (assignRepeat veqb v b s).
Proof.
  intros c. unfold assignRepeat. pose proof (kk_force v s c) as H. destruct (force veqb v s c) as [o' [u| |]]; cbn [fst] in *; [|assumption|assumption].
  destruct b; [unfold with_tdim; rewrite kids_set_inf|]; assumption.
Qed.
Lemma kk_as conv : keeps_kids (as_ (V := V) conv).
Proof. intros c. unfold as_. destruct (i_sect _); [reflexivity|]. destruct (i_val _); [|reflexivity]. destruct (conv _); [|reflexivity]. cbn. apply kids_set_inf. Qed.
Lemma kk_withDefault conv d : keeps_kids (withDefault veqb conv d).
Proof.
  intros c. unfold withDefault. destruct (i_sect _).
  - pose proof (kk_assign d DEFAULT_SOURCE c) as H. destruct (assign veqb d DEFAULT_SOURCE c) as [o' [u| |]]; cbn [fst] in *; try assumption.
    unfold with_used. now rewrite kids_set_inf.
  - pose proof (kk_as conv c) as H. destruct (as_ conv c) as [o' [x| |]]; cbn [fst] in *; try assumption.
    destruct (i_src _); [|assumption]. destruct (_ && _); assumption.
Qed.
Lemma kk_override conv d : keeps_kids (overrideDefault veqb conv d).
Proof.
  intros c. unfold overrideDefault. destruct (i_sect _); [|apply kk_as].
  pose proof (kk_assign d (chars "user_default") c) as H. destruct (assign veqb d (chars "user_default") c) as [o' [u| |]]; cbn [fst] in *; try assumption.
  unfold with_sect. now rewrite kids_set_inf.
Qed.

(** Assignment at a node. *)
Lemma assign_node v s (c : opt) :
  (i_sect (inf c) = false -> (exists w, i_val (inf c) = Some w) /\ exists t, i_src (inf c) = Some t) ->
  (kids c = [] /\ ~ conflict v s (inf c) /\ assign veqb v s c = (set_inf (written v s (inf c)) c, Ok tt)) \/
  ((kids c <> [] \/ conflict v s (inf c)) /\ assign veqb v s c = (c, Throw)).
Proof.
  intros HW. unfold assign, set_checked, isSet, set_no_check.
  destruct (i_sect (inf c)) eqn:ES.
  - cbn [andb]. destruct (kids c) eqn:EK; [left|right].
    + split; [reflexivity|]. split; [intros (X & _); congruence|reflexivity].
    + split; [left; discriminate|reflexivity].
  - destruct (HW eq_refl) as [(w & Ew) (t & Et)]. rewrite Et.
    destruct (str_eqb t DEFAULT_SOURCE) eqn:ED; cbn [negb andb].
    + apply str_eqb_eq in ED. destruct (kids c) eqn:EK; [left|right].
      * split; [reflexivity|]. split; [intros (_ & _ & X & Y & _); congruence|reflexivity].
      * split; [left; discriminate|reflexivity].
    + apply str_eqb_neq in ED. destruct (i_tdim (inf c)) eqn:ET; cbn [negb].
      * destruct (kids c) eqn:EK; [left|right].
        -- split; [reflexivity|]. split; [intros (_ & X & _); congruence|]. unfold written. rewrite ET. reflexivity.
        -- split; [left; discriminate|reflexivity].
      * unfold val_is. rewrite Ew. destruct (veqb w v) eqn:EV; cbn [negb].
        -- apply veqb_ok in EV. subst w. destruct (kids c) eqn:EK; [left|right].
           ++ split; [reflexivity|]. split; [intros (_ & _ & _ & _ & X); congruence|]. unfold written. rewrite ET. reflexivity.
           ++ split; [left; discriminate|reflexivity].
        -- assert (w <> v) by (intros X; apply veqb_ok in X; congruence).
           cbn [orb]. unfold src_is. rewrite Et. destruct (str_eqb t s) eqn:EQ; cbn [negb].
           ++ right. split; [|reflexivity]. right. apply str_eqb_eq in EQ. subst t. unfold conflict. repeat split; auto. congruence.
           ++ apply str_eqb_neq in EQ. destruct (kids c) eqn:EK; [left|right].
              ** split; [reflexivity|]. split; [intros (_ & _ & X & _); congruence|]. unfold written. rewrite ET. reflexivity.
              ** split; [left; discriminate|reflexivity].
Qed.

(** * Well-formedness *)
Lemma wf_child n (c : opt) o : wf o -> find_child n (kids o) = Some c -> wf c.
Proof. intros H E. inversion H; subst. cbn [kids] in E. apply find_In in E. eauto. Qed.
Lemma wf_node_at p : forall (o c : opt), wf o -> node_at p o = Some c -> wf c.
Proof.
  induction p as [|n p IH]; intros o c H E; cbn in E; [injection E as <-; assumption|].
  destruct (find_child n (kids o)) as [d|] eqn:ED; [|discriminate]. apply (IH d); [|assumption]. eapply wf_child; eassumption.
Qed.
Lemma wf_value (o : opt) : wf o -> i_sect (inf o) = false -> kids o = [] /\ (exists v, i_val (inf o) = Some v) /\ exists s, i_src (inf o) = Some s.
Proof. intros H. inversion H; subst. exact H2. Qed.
Lemma wf_set_inf i (o : opt) : wf o -> (i_sect i = false -> kids o = [] /\ (exists v, i_val i = Some v) /\ exists s, i_src i = Some s) -> wf (set_inf i o).
Proof. intros H X. inversion H; subst. cbn [set_inf]. constructor; assumption. Qed.
Lemma wf_fresh f : wf (Node info0 f [] : opt).
Proof. constructor; [constructor|intros n c []|discriminate]. Qed.
Lemma In_replace n c (cs : list (str * opt)) m d : In (m, d) (replace_child n c cs) -> In (m, d) cs \/ d = c.
Proof.
  induction cs as [|[k e] cs IH]; cbn; [tauto|]. destruct (str_eqb n k); cbn; intros [H|H].
  - right. congruence.
  - left. now right.
  - left. now left.
  - destruct (IH H); auto.
Qed.
Lemma keys_replace n c (cs : list (str * opt)) : map fst (replace_child n c cs) = map fst cs.
Proof. induction cs as [|[k e] cs IH]; cbn; [reflexivity|]. destruct (str_eqb n k); cbn; congruence. Qed.
Lemma In_insert n c (cs : list (str * opt)) m d : In (m, d) (insert_child n c cs) <-> In (m, d) cs \/ (m, d) = (n, c).
Proof.
  induction cs as [|[k e] cs IH]; cbn; [intuition|]. destruct (str_ltb n k); cbn; [intuition|]. rewrite IH. tauto.
Qed.
Lemma NoDup_insert n c (cs : list (str * opt)) : NoDup (map fst cs) -> find_child n cs = None -> NoDup (map fst (insert_child n c cs)).
Proof.
  intros ND H. apply find_None in H. revert ND H. induction cs as [|[k e] cs IH]; cbn; intros ND H; [constructor; [tauto|constructor]|].
  destruct (str_ltb n k); cbn; [constructor; assumption|]. apply NoDup_cons_iff in ND. destruct ND as [N1 N2].
  constructor; [|apply IH; tauto]. intros X. apply in_map_iff in X. destruct X as ([m d] & X1 & X2). cbn in X1; subst.
  apply In_insert in X2. destruct X2 as [X2|X2]; [apply N1; change k with (fst (k, d)); now apply in_map|]. injection X2 as -> ->. tauto.
Qed.

Lemma wf_walk {A} p (k : opt -> opt * res A) : (forall c, wf c -> wf (fst (k c))) -> forall o, wf o -> wf (fst (walk p k o)).
Proof.
  intros HK. induction p as [|n p IH]; intros o H; cbn [walk]; [auto|]. destruct (i_sect (inf o)) eqn:ES; cbn [negb]; [|exact H].
  unfold on_child. destruct o as [i f cs]. cbn [inf] in ES. inversion H; subst.
  destruct (find_child n cs) as [c|] eqn:EF.
  - assert (HC : wf (fst (walk p k c))) by (apply IH; apply find_In in EF; eauto). destruct (walk p k c) as [c' r]. cbn [fst] in *.
    constructor; [now rewrite keys_replace| |congruence]. intros m d Hd. apply In_replace in Hd. destruct Hd as [Hd|Hd]; [eauto|now subst].
  - pose proof (IH _ (wf_fresh (child_full f n))) as HC. destruct (walk p k _) as [c' r]. cbn [fst] in *.
    constructor; [now apply NoDup_insert| |congruence]. intros m d Hd. apply In_insert in Hd. destruct Hd as [Hd|Hd]; [eauto|]. injection Hd as -> ->. assumption.
Qed.
Lemma wf_op_index {A} : forall fuel name (k : opt -> opt * res A), (forall c, wf c -> wf (fst (k c))) -> forall o, wf o -> wf (fst (op_index fuel name k o)).
Proof.
  induction fuel as [|fuel IH]; intros name k HK o H; [exact H|]. cbn [op_index].
  destruct (i_sect (inf o)) eqn:ES; cbn [negb]; [|exact H]. destruct name as [|a name]; [auto|].
  destruct (find_first _ _ _) as [pos|].
  - apply IH; [|assumption]. intros c Hc. now apply IH.
  - pose proof (wf_walk [a :: name] k HK o H) as X. cbn [walk] in X. rewrite ES in X. exact X.
Qed.

Lemma wf_assign v s (c : opt) : wf c -> wf (fst (assign veqb v s c)).
Proof.
  intros H. destruct (assign_node v s c) as [(A1 & _ & ->)|(_ & ->)].
  - intros X. destruct (wf_value c H X) as (_ & Y). exact Y.
  - cbn [fst]. apply wf_set_inf; [assumption|]. intros _. cbn. eauto.
  - exact H.
Qed.
Lemma wf_with_sect_true (c : opt) : wf c -> wf (with_sect true c).
Proof. intros H. unfold with_sect. apply wf_set_inf; [assumption|]. cbn. discriminate. Qed.
Lemma wf_force v s (c : opt) : wf c -> wf (fst (force veqb v s c)).
Proof. intros H. unfold force. apply wf_assign. now apply wf_with_sect_true. Qed.
Lemma wf_with_used b (c : opt) : wf c -> wf (with_used b c).
Proof. intros H. unfold with_used. apply wf_set_inf; [assumption|]. cbn. now apply wf_value. Qed.
Lemma wf_with_tdim b (c : opt) : wf c -> wf (with_tdim b c).
Proof. intros H. unfold with_tdim. apply wf_set_inf; [assumption|]. cbn. now apply wf_value. Qed.
Lemma wf_repeat v b s (c : opt) : wf c -> wf (fst (assignRepeat veqb v b s c)).
Proof.
  intros H. unfold assignRepeat. pose proof (wf_force v s c H) as X. destruct (force veqb v s c) as [o' [u| |]]; cbn [fst] in *; auto.
  destruct b; [now apply wf_with_tdim|assumption].
Qed.
Lemma wf_as conv (c : opt) : wf c -> wf (fst (as_ conv c)).
Proof. intros H. unfold as_. destruct (i_sect _); [exact H|]. destruct (i_val _); [|exact H]. destruct (conv _); [|exact H]. now apply wf_with_used. Qed.
Lemma wf_withDefault conv d (c : opt) : wf c -> wf (fst (withDefault veqb conv d c)).
Proof.
  intros H. unfold withDefault. destruct (i_sect _).
  - pose proof (wf_assign d DEFAULT_SOURCE c H) as X. destruct (assign _ _ _ _) as [o' [u| |]]; cbn [fst] in *; auto. now apply wf_with_used.
  - pose proof (wf_as conv c H) as X. destruct (as_ conv c) as [o' [x| |]]; cbn [fst] in *; auto.
    destruct (i_src _); [|exact X]. destruct (_ && _); exact X.
Qed.
Lemma with_sect_false_id (o : opt) : i_sect (inf o) = false -> with_sect false o = o.
Proof. destruct o as [[? ? ? ? ? s] f cs]. cbn. intros ->. reflexivity. Qed.
Lemma wf_override conv d (c : opt) : wf c -> wf (fst (overrideDefault veqb conv d c)).
Proof.
  intros H. unfold overrideDefault. destruct (i_sect _) eqn:ES; [|now apply wf_as].
  pose proof (wf_assign d (chars "user_default") c H) as X.
  destruct (assign_node d (chars "user_default") c) as [(A1 & A2 & E)|(A1 & E)]; [congruence| |]; rewrite E in *; cbn [fst] in *; [|exact X].
  rewrite with_sect_false_id; [exact X|]. rewrite inf_set_inf. reflexivity.
Qed.

(** Induction on the tree. *)
Lemma opt_ind' (P : opt -> Prop) : (forall i f cs, (forall n c, In (n, c) cs -> P c) -> P (Node i f cs)) -> forall o, P o.
Proof.
  intros H. fix IH 1. intros [i f cs]. apply H. induction cs as [|[m d] cs IHc]; intros n c HI; [destruct HI|].
  destruct HI as [HI|HI]; [injection HI as _ <-; apply IH|exact (IHc n c HI)].
Qed.

Lemma set_cond_kids (o : opt) : kids (set_cond o) = map (fun nc => (fst nc, set_cond (snd nc))) (kids o).
Proof. destruct o as [i f cs]. cbn. induction cs as [|[n c] cs IH]; cbn; congruence. Qed.
Lemma find_map_child (g : opt -> opt) n (cs : list (str * opt)) :
  find_child n (map (fun nc => (fst nc, g (snd nc))) cs) = match find_child n cs with Some c => Some (g c) | None => None end.
Proof. induction cs as [|[m c] cs IH]; cbn; [reflexivity|]. destruct (str_eqb n m); auto. Qed.
Definition mark_cond (i : info) : info := MkInfo (i_val i) (i_src i) (i_tdim i) true (i_used i) (i_sect i).
Lemma set_cond_inf (o : opt) : inf (set_cond o) = mark_cond (inf o).
Proof. destruct o; reflexivity. Qed.
Lemma set_cond_node_at p : forall o : opt, node_at p (set_cond o) = match node_at p o with Some c => Some (set_cond c) | None => None end.
Proof.
  induction p as [|n p IH]; intros o; [reflexivity|]. cbn [node_at]. rewrite set_cond_kids, find_map_child.
  destruct (find_child n (kids o)); [apply IH|reflexivity].
Qed.
Lemma wf_set_cond : forall o : opt, wf o -> wf (set_cond o).
Proof.
  induction o as [i f cs IH] using opt_ind'. intros H. inversion H; subst.
  assert (E : set_cond (Node i f cs) = Node (mark_cond i) f (map (fun nc => (fst nc, set_cond (snd nc))) cs)).
  { pose proof (set_cond_kids (Node i f cs)) as X. cbn [kids] in X. destruct (set_cond (Node i f cs)) eqn:Y. cbn in Y. injection Y as <- <- <-. cbn [kids] in X. now rewrite X. }
  rewrite E. constructor.
  - rewrite map_map. cbn [fst]. assumption.
  - intros n c HI. apply in_map_iff in HI. destruct HI as ([m d] & X & HI). cbn in X. injection X as <- <-. eauto.
  - cbn. intros X. destruct (H5 X) as (-> & Y). cbn. auto.
Qed.

Lemma wf_step op (o : opt) : wf o -> wf (ostep veqb op o).
Proof.
  intros H. destruct op; cbn [ostep]; apply wf_op_index; auto; intros c Hc.
  - now apply wf_assign. - now apply wf_force. - now apply wf_repeat. - now apply wf_as. - now apply wf_withDefault. - now apply wf_override.
  - now apply wf_set_cond.
Qed.
Lemma wf_run ops : forall o : opt, wf o -> wf (orun veqb ops o).
Proof. induction ops as [|op ops IH]; intros o H; [exact H|]. cbn. apply IH. now apply wf_step. Qed.
Lemma wf_reachable ops : wf (orun veqb ops (root0 (V := V))).
Proof. apply wf_run. apply wf_fresh. Qed.
End WithV.
