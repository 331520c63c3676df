From Coq Require Import List ZArith Lia Bool ZifyBool ZifyNat.
From Verif Require Import Base RangeModel RangeSpec.
Import ListNotations.
Open Scope Z_scope.

Lemma ints_nil a b : b < a -> ints a b = [].
Proof. intros; unfold ints. replace (Z.to_nat (b - a + 1)) with O by lia. reflexivity. Qed.
Lemma ints_cons a b : a <= b -> ints a b = a :: ints (a + 1) b.
Proof.
  intros; unfold ints. replace (Z.to_nat (b - a + 1)) with (S (Z.to_nat (b - (a+1) + 1))) by lia.
  cbn [seq map]. f_equal; [lia|]. rewrite <- seq_shift, map_map. apply map_ext; intros; lia.
Qed.
Lemma in_ints k a b : In k (ints a b) <-> a <= k <= b.
Proof.
  unfold ints. rewrite in_map_iff. split.
  - intros (n & <- & Hn). apply in_seq in Hn. lia.
  - intros. exists (Z.to_nat (k - a)). rewrite in_seq. lia.
Qed.
Lemma ints_length a b : length (ints a b) = Z.to_nat (b - a + 1).
Proof. unfold ints. now rewrite map_length, seq_length. Qed.
Lemma ints_split a b c : a <= b + 1 -> b <= c -> ints a c = ints a b ++ ints (b + 1) c.
Proof.
  intros H1 H2. remember (Z.to_nat (b - a + 1)) as n eqn:Hn. revert a Hn H1. induction n as [|n IH]; intros a Hn H1.
  - rewrite (ints_nil a b) by lia. replace (b + 1) with a by lia. reflexivity.
  - rewrite (ints_cons a c), (ints_cons a b) by lia. cbn [app]. f_equal. apply IH; lia.
Qed.

(** What the loop visits, for an arbitrary chain: a null range reached by [next] yields its [is] once. *)
Definition seen (nd : rnode) : list Z := if ie_ nd <? is_ nd then [is_ nd] else ints (is_ nd) (ie_ nd).
Definition seen_from_first (chain : list rnode) : list Z :=
  match chain with
  | [] => []
  | nd :: rest => (if ie_ nd <? is_ nd then [] else seen nd) ++ flat_map seen rest
  end.

Definition pending (s : riter) : list Z :=
  match cur s with
  | [] => []
  | nd :: rest => (if curend s <? rind s then [rind s] else ints (rind s) (curend s)) ++ flat_map seen rest
  end.

Lemma set_cur_pending c o : pending (set_cur c o) = flat_map seen c.
Proof. destruct c as [|nd c]; reflexivity. Qed.

Lemma visit_pending : forall n s, length (pending s) = n -> forall fuel, (n <= fuel)%nat -> visit fuel s = Some (pending s).
Proof.
  induction n as [|n IH]; intros s Hs fuel Hf; destruct s as [c i e]; destruct c as [|nd rest].
  1,3: destruct fuel; reflexivity.
  - exfalso. unfold pending in Hs. cbn [cur rind curend] in Hs. rewrite app_length in Hs.
    destruct (e <? i) eqn:E; [cbn in Hs; lia|]. rewrite ints_length in Hs. lia.
  - destruct fuel as [|fuel]; [lia|]. cbn [visit isDone cur].
    assert (Hp : pending (mkI (nd :: rest) i e) = i :: pending (rnext (mkI (nd :: rest) i e))).
    { unfold rnext. cbn [cur rind curend]. destruct (e <? i + 1) eqn:E1.
      - rewrite set_cur_pending. unfold pending; cbn [cur rind curend].
        destruct (e <? i) eqn:E2; [reflexivity|]. rewrite ints_cons, ints_nil by lia. reflexivity.
      - unfold pending; cbn [cur rind curend]. rewrite E1. destruct (e <? i) eqn:E2; [lia|].
        rewrite (ints_cons i e) by lia. reflexivity. }
    rewrite Hp in Hs. injection Hs as Hs. rewrite (IH _ Hs) by lia. rewrite Hp. reflexivity.
Qed.

Lemma visit_exact chain fuel : (length (seen_from_first chain) <= fuel)%nat ->
  visit fuel (rfirst chain) = Some (seen_from_first chain).
Proof.
  intros Hf.
  assert (Hp : pending (rfirst chain) = seen_from_first chain).
  { destruct chain as [|nd rest]; [reflexivity|]. unfold rfirst, seen_from_first.
    destruct (ie_ nd <? is_ nd) eqn:E; rewrite set_cur_pending; [reflexivity|]. reflexivity. }
  rewrite <- Hp. apply visit_pending with (n := length (pending (rfirst chain))); [reflexivity|].
  rewrite Hp. exact Hf.
Qed.

Lemma seen_nonnull l : Forall nonnull l -> flat_map seen l = elements l.
Proof.
  induction 1 as [|nd l H HF IH]; [reflexivity|]. unfold elements in *. cbn [flat_map]. rewrite IH. f_equal.
  unfold seen. unfold nonnull in H. destruct (ie_ nd <? is_ nd) eqn:E; [lia|reflexivity].
Qed.

Lemma visit_elements chain fuel : Forall nonnull (tl chain) -> (length (elements chain) <= fuel)%nat ->
  visit fuel (rfirst chain) = Some (elements chain).
Proof.
  intros HF Hl.
  assert (E : seen_from_first chain = elements chain).
  { destruct chain as [|nd rest]; [reflexivity|]. cbn [tl] in HF. unfold seen_from_first. rewrite (seen_nonnull rest HF).
    unfold elements; cbn [flat_map]. f_equal. unfold seen. destruct (ie_ nd <? is_ nd) eqn:E; [|reflexivity].
    rewrite ints_nil by lia. reflexivity. }
  rewrite <- E. apply visit_exact. rewrite E. exact Hl.
Qed.

Lemma visit_refuted : exists chain, visit 100 (rfirst chain) <> Some (elements chain).
Proof. exists [mkN 0 1 false; mkN 5 3 false; mkN 7 8 false]. vm_compute. discriminate. Qed.

Lemma intersects_ind_spec chain k : intersects_ind chain k = true <-> In k (elements chain).
Proof.
  unfold intersects_ind, elements. rewrite existsb_exists, in_flat_map. split.
  - intros (nd & H1 & H2). exists nd. rewrite in_ints. split; [assumption|lia].
  - intros (nd & H1 & H2). rewrite in_ints in H2. exists nd. split; [assumption|lia].
Qed.
Lemma intersects_spec chain o : Forall nonnull chain -> nonnull o ->
  (intersects chain o = true <-> exists k, In k (elements chain) /\ In k (ints (is_ o) (ie_ o))).
Proof.
  intros HF Ho. unfold intersects, elements. rewrite existsb_exists. unfold nonnull in *. rewrite Forall_forall in HF. split.
  - intros (nd & H1 & H2). unfold intersects1 in H2. specialize (HF nd H1). exists (Z.max (is_ nd) (is_ o)).
    rewrite in_flat_map, in_ints. split; [exists nd; rewrite in_ints; split; [assumption|lia]|lia].
  - intros (k & H1 & H2). apply in_flat_map in H1. destruct H1 as (nd & H1 & H3). rewrite in_ints in *.
    exists nd. split; [assumption|]. unfold intersects1. lia.
Qed.
Lemma set_last_del_elements c : elements (set_last_del c) = elements c.
Proof.
  unfold elements. induction c as [|nd c IH]; [reflexivity|]. destruct c as [|nd2 c]; [reflexivity|].
  change (set_last_del (nd :: nd2 :: c)) with (nd :: set_last_del (nd2 :: c)). cbn [flat_map] in *. now rewrite IH.
Qed.
Lemma range_plus_spec c r : elements (range_plus c r) = elements c ++ elements r.
Proof.
  unfold range_plus. unfold elements at 1. rewrite flat_map_app. fold (elements (set_last_del c)).
  rewrite set_last_del_elements. f_equal. destruct r; reflexivity.
Qed.

(** ** Subtraction of one range *)
Definition outside (r : rnode) (k : Z) : bool := negb ((is_ r <=? k) && (k <=? ie_ r)).

Lemma filter_all {A} (f : A -> bool) l : (forall x, In x l -> f x = true) -> filter f l = l.
Proof. induction l as [|a l IH]; intros H; cbn; [reflexivity|]. rewrite H by (cbn; auto). rewrite IH; auto. intros; apply H; cbn; auto. Qed.
Lemma filter_none {A} (f : A -> bool) l : (forall x, In x l -> f x = false) -> filter f l = [].
Proof. induction l as [|a l IH]; intros H; cbn; [reflexivity|]. rewrite H by (cbn; auto). apply IH; intros; apply H; cbn; auto. Qed.

Lemma filter_ints r a b : nonnull r -> filter (outside r) (ints a b) = ints a (Z.min b (is_ r - 1)) ++ ints (Z.max a (ie_ r + 1)) b.
Proof.
  unfold nonnull. intros Hr.
  destruct (Z_le_dec a b) as [Hab|Hab]; [|rewrite (ints_nil a b), (ints_nil a), (ints_nil _ b) by lia; reflexivity].
  set (m1 := Z.min b (Z.max (a - 1) (is_ r - 1))). set (m2 := Z.min b (Z.max (a-1) (ie_ r))).
  assert (a - 1 <= m1 <= m2 /\ m2 <= b) by lia.
  rewrite (ints_split a m1 b), (ints_split (m1+1) m2 b), !filter_app by lia.
  rewrite (filter_all _ (ints a m1)), (filter_none _ (ints (m1+1) m2)), (filter_all _ (ints (m2+1) b)).
  - cbn [app]. f_equal.
    + destruct (Z_le_dec a (is_ r - 1)); [f_equal; lia|]. rewrite !ints_nil by lia. reflexivity.
    + destruct (Z_le_dec (ie_ r + 1) b); [f_equal; lia|]. rewrite !ints_nil by lia. reflexivity.
  - intros x Hx. rewrite in_ints in Hx. unfold outside. lia.
  - intros x Hx. rewrite in_ints in Hx. unfold outside. lia.
  - intros x Hx. rewrite in_ints in Hx. unfold outside. lia.
Qed.

Definition covers (r nd : rnode) : bool := (is_ r <=? is_ nd) && (ie_ nd <=? ie_ r).

Lemma elements_app a b : elements (a ++ b) = elements a ++ elements b.
Proof. unfold elements. apply flat_map_app. Qed.
Lemma elements_cons a b : elements (a :: b) = ints (is_ a) (ie_ a) ++ elements b.
Proof. reflexivity. Qed.

(** After the first node the loop is in the state: [this] is a finished non-null node, all of [before] is outside r. *)
Lemma sub_loop_tail r : nonnull r -> forall fuel h b nd rest,
  nonnull h -> Forall nonnull (nd :: rest) ->
  (nd :: rest <> [] -> forall x, In x (nd :: rest) -> covers r x = false) ->
  (2 * length (nd :: rest) <= fuel)%nat ->
  exists c, sub_loop fuel [r] (mkZ (h :: b) nd rest) = Ok c /\
    elements c = elements (h :: b) ++ filter (outside r) (elements (nd :: rest)) /\
    (Forall nonnull (h :: b) -> Forall nonnull c).
Proof.
  intros Hr fuel. induction fuel as [fuel IH0] using lt_wf_ind. intros h b nd rest Hh HF Hc Hf.
  destruct fuel as [|fuel]; [cbn in Hf; lia|]. assert (IH := IH0 fuel ltac:(lia)).
  assert (Hcn : covers r nd = false) by (apply Hc; [discriminate|cbn; auto]).
  inversion HF as [|? ? Hnd HFr]; subst. unfold nonnull in *.
  cbn [sub_loop fold_left]. unfold sub_one. cbn [at_ before after].
  rewrite (elements_cons nd rest), filter_app, (filter_ints r (is_ nd) (ie_ nd)) by (unfold nonnull; lia).
  unfold covers in Hcn.
  assert (Hnext : forall nd' rest', rest' = rest -> is_ nd' <= ie_ nd' ->
     ints (is_ nd') (ie_ nd') = ints (is_ nd) (Z.min (ie_ nd) (is_ r - 1)) ++ ints (Z.max (is_ nd) (ie_ r + 1)) (ie_ nd) ->
     exists c, match (ie_ h <? is_ h), rest' with
      | true, tmp :: rest0 =>
        if del tmp && negb (match rest0 with [] => true | _ => false end) then UB
        else sub_loop fuel [r] (mkZ (h :: b) (mkN (is_ tmp) (ie_ tmp) (del nd')) rest0)
      | _, [] => Ok ((h :: b) ++ [nd'])
      | _, x :: rest0 => sub_loop fuel [r] (mkZ ((h :: b) ++ [nd']) x rest0) end = Ok c /\
     elements c = elements (h :: b) ++ (ints (is_ nd) (Z.min (ie_ nd) (is_ r - 1)) ++ ints (Z.max (is_ nd) (ie_ r + 1)) (ie_ nd))
        ++ filter (outside r) (elements rest) /\ (Forall nonnull (h :: b) -> Forall nonnull c)).
  { intros nd' rest' -> Hn' E. rewrite <- E. destruct (ie_ h <? is_ h) eqn:E1; [lia|]. destruct rest as [|x rest].
    - eexists; split; [reflexivity|]. split.
      + cbn [app]. rewrite !elements_cons, elements_app. cbn [elements flat_map filter]. rewrite !app_nil_r, app_assoc. reflexivity.
      + intros HB. apply Forall_app. split; [assumption|]. repeat constructor. exact Hn'.
    - cbn [app]. destruct (IH h (b ++ [nd']) x rest Hh HFr) as (c & C1 & C2 & C3).
      + intros _ y Hy. apply Hc; [discriminate|right; exact Hy].
      + cbn [length] in *. lia.
      + exists c. split; [exact C1|]. split.
        * rewrite C2. rewrite !elements_cons, elements_app. cbn [elements flat_map]. rewrite app_nil_r, <- !app_assoc. reflexivity.
        * intros HB. apply C3. inversion HB; subst. constructor; [assumption|]. apply Forall_app. split; [assumption|].
          repeat constructor. exact Hn'. }
  destruct (intersects1 nd r) eqn:Ei; unfold intersects1 in Ei.
  2:{ apply (Hnext nd); [reflexivity|exact Hnd|].
      assert (is_ r > ie_ nd \/ ie_ r < is_ nd) as [H|H] by lia.
      - rewrite (ints_nil (Z.max _ _)) by lia. rewrite app_nil_r. f_equal; lia.
      - rewrite (ints_nil _ (Z.min _ _)) by lia. cbn [app]. f_equal; lia. }
  destruct ((is_ r <=? is_ nd) && (ie_ nd <=? ie_ r)) eqn:E1; [lia|].
  destruct ((is_ nd <? is_ r) && (ie_ nd <=? ie_ r)) eqn:E2.
  { apply (Hnext (mkN (is_ nd) (is_ r - 1) (del nd))); cbn [is_ ie_]; [reflexivity|lia|].
    rewrite (ints_nil (Z.max _ _)) by lia. rewrite app_nil_r. f_equal; lia. }
  destruct ((is_ r <=? is_ nd) && (ie_ r <? ie_ nd)) eqn:E3.
  { apply (Hnext (mkN (ie_ r + 1) (ie_ nd) (del nd))); cbn [is_ ie_]; [reflexivity|lia|].
    rewrite (ints_nil _ (Z.min _ _)) by lia. cbn [app]. f_equal; lia. }
  (* middle: the upper piece is visited next and does not intersect r any more *)
  cbn [before after at_ this_is]. destruct (ie_ h <? is_ h) eqn:E4; [lia|].
  destruct fuel as [|fuel]; [cbn in Hf; lia|].
  set (up := mkN (ie_ r + 1) (ie_ nd) false).
  assert (Hup : sub_loop (S fuel) [r] (mkZ ((h :: b) ++ [mkN (is_ nd) (is_ r - 1) true]) up rest)
     = match rest with
       | [] => Ok (((h :: b) ++ [mkN (is_ nd) (is_ r - 1) true]) ++ [up])
       | x :: rest0 => sub_loop fuel [r] (mkZ (((h :: b) ++ [mkN (is_ nd) (is_ r - 1) true]) ++ [up]) x rest0) end).
  { cbn [sub_loop fold_left]. unfold sub_one. cbn [at_ before after].
    replace (intersects1 up r) with false by (unfold intersects1, up; cbn [is_ ie_]; lia).
    cbn [before after at_ this_is app]. rewrite E4. destruct rest; reflexivity. }
  rewrite Hup.
  assert (El : forall d1, ints (is_ nd) (Z.min (ie_ nd) (is_ r - 1)) ++ ints (Z.max (is_ nd) (ie_ r + 1)) (ie_ nd)
     = elements [mkN (is_ nd) (is_ r - 1) d1; up]).
  { intros d1. unfold up, elements. cbn [flat_map is_ ie_]. rewrite app_nil_r. f_equal; f_equal; lia. }
  rewrite (El true).
  assert (HNB : Forall nonnull (h :: b) -> Forall nonnull ((((h :: b) ++ [mkN (is_ nd) (is_ r - 1) true]) ++ [up]))).
  { intros HB. apply Forall_app; split; [apply Forall_app; split; [assumption|]|]; repeat constructor; unfold nonnull, up; cbn [is_ ie_]; lia. }
  destruct rest as [|x rest].
  - eexists; split; [reflexivity|]. split; [|exact HNB].
    cbn [filter elements flat_map]. rewrite !elements_app. cbn [elements flat_map]. rewrite !app_nil_r, <- !app_assoc. reflexivity.
  - cbn [app] in *.
    destruct (IH0 fuel ltac:(lia) h ((b ++ [mkN (is_ nd) (is_ r - 1) true]) ++ [up]) x rest Hh HFr) as (c & C1 & C2 & C3).
    + intros _ y Hy. apply Hc; [discriminate|right; exact Hy].
    + cbn [length] in *. lia.
    + exists c. split; [exact C1|]. split.
      * rewrite C2. change (h :: (b ++ [mkN (is_ nd) (is_ r - 1) true]) ++ [up]) with ((h :: (b ++ [mkN (is_ nd) (is_ r - 1) true])) ++ [up]).
        rewrite elements_app. change (h :: b ++ [mkN (is_ nd) (is_ r - 1) true]) with ((h :: b) ++ [mkN (is_ nd) (is_ r - 1) true]).
        rewrite elements_app. cbn [elements flat_map]. rewrite !app_nil_r, <- !app_assoc. reflexivity.
      * intros HB. apply C3. apply HNB. exact HB.
Qed.

Lemma sub_loop_head r : nonnull r -> forall fuel nd rest,
  nonnull nd -> covers r nd = false -> Forall nonnull rest ->
  (forall x, In x rest -> covers r x = false) ->
  (2 * length rest + 3 <= fuel)%nat ->
  exists c, sub_loop fuel [r] (mkZ [] nd rest) = Ok c /\
    elements c = filter (outside r) (elements (nd :: rest)) /\ Forall nonnull c.
Proof.
  intros Hr fuel nd rest Hnd Hcn HF Hc Hf. destruct fuel as [|fuel]; [lia|].
  unfold nonnull, covers in *.
  cbn [sub_loop fold_left]. unfold sub_one. cbn [at_ before after].
  rewrite (elements_cons nd rest), filter_app, (filter_ints r (is_ nd) (ie_ nd)) by (unfold nonnull; lia).
  assert (Hnext : forall nd' rest', is_ nd' <= ie_ nd' -> Forall nonnull rest' ->
     (forall x, In x rest' -> covers r x = false) -> (2 * length rest' <= fuel)%nat ->
     ints (is_ nd') (ie_ nd') ++ filter (outside r) (elements rest')
       = (ints (is_ nd) (Z.min (ie_ nd) (is_ r - 1)) ++ ints (Z.max (is_ nd) (ie_ r + 1)) (ie_ nd)) ++ filter (outside r) (elements rest) ->
     exists c, match (ie_ nd' <? is_ nd'), rest' with
      | true, tmp :: rest0 =>
        if del tmp && negb (match rest0 with [] => true | _ => false end) then UB
        else sub_loop fuel [r] (mkZ [] (mkN (is_ tmp) (ie_ tmp) (del nd')) rest0)
      | _, [] => Ok ([] ++ [nd'])
      | _, x :: rest0 => sub_loop fuel [r] (mkZ ([] ++ [nd']) x rest0) end = Ok c /\
     elements c = (ints (is_ nd) (Z.min (ie_ nd) (is_ r - 1)) ++ ints (Z.max (is_ nd) (ie_ r + 1)) (ie_ nd))
        ++ filter (outside r) (elements rest) /\ Forall nonnull c).
  { intros nd' rest' Hn' HF' Hc' Hf' E. rewrite <- E. destruct (ie_ nd' <? is_ nd') eqn:E1; [lia|]. destruct rest' as [|x rest'].
    - eexists; split; [reflexivity|]. split.
      + cbn [app]. rewrite elements_cons. reflexivity.
      + repeat constructor. exact Hn'.
    - cbn [app]. destruct (sub_loop_tail r Hr fuel nd' [] x rest' Hn' HF') as (c & C1 & C2 & C3); [intros _; exact Hc'|exact Hf'|].
      exists c. split; [exact C1|]. split.
      + rewrite C2. rewrite elements_cons. cbn [elements flat_map]. rewrite app_nil_r. reflexivity.
      + apply C3. repeat constructor. exact Hn'. }
  destruct (intersects1 nd r) eqn:Ei; unfold intersects1 in Ei.
  2:{ apply (Hnext nd rest); [exact Hnd|exact HF|exact Hc|lia|]. f_equal.
      assert (is_ r > ie_ nd \/ ie_ r < is_ nd) as [H|H] by lia.
      - rewrite (ints_nil (Z.max _ _)) by lia. rewrite app_nil_r. f_equal; lia.
      - rewrite (ints_nil _ (Z.min _ _)) by lia. cbn [app]. f_equal; lia. }
  destruct ((is_ r <=? is_ nd) && (ie_ nd <=? ie_ r)) eqn:E1; [lia|].
  destruct ((is_ nd <? is_ r) && (ie_ nd <=? ie_ r)) eqn:E2.
  { apply (Hnext (mkN (is_ nd) (is_ r - 1) (del nd)) rest); cbn [is_ ie_]; [lia|exact HF|exact Hc|lia|]. f_equal.
    rewrite (ints_nil (Z.max _ _)) by lia. rewrite app_nil_r. f_equal; lia. }
  destruct ((is_ r <=? is_ nd) && (ie_ r <? ie_ nd)) eqn:E3.
  { apply (Hnext (mkN (ie_ r + 1) (ie_ nd) (del nd)) rest); cbn [is_ ie_]; [lia|exact HF|exact Hc|lia|]. f_equal.
    rewrite (ints_nil _ (Z.min _ _)) by lia. cbn [app]. f_equal; lia. }
  apply (Hnext (mkN (is_ nd) (is_ r - 1) true) (mkN (ie_ r + 1) (ie_ nd) false :: rest)); cbn [is_ ie_].
  - lia.
  - constructor; [unfold nonnull; cbn [is_ ie_]; lia|exact HF].
  - intros x [<-|Hx]; [unfold covers; cbn [is_ ie_]; lia|apply Hc; exact Hx].
  - cbn [length]. lia.
  - rewrite elements_cons, filter_app. cbn [is_ ie_].
    rewrite (filter_all _ (ints (ie_ r + 1) (ie_ nd))) by (intros x Hx; rewrite in_ints in Hx; unfold outside; lia).
    rewrite <- app_assoc. f_equal; [f_equal; lia|]. f_equal. f_equal; lia.
Qed.

Lemma range_minus_one r chain fuel : nonnull r -> chain <> [] -> Forall nonnull chain ->
  (forall x, In x (tl chain) -> covers r x = false) ->
  (covers r (hd (mkN 1 0 false) chain) = true -> forall x, In x (tl chain) -> del x = false) ->
  (2 * length chain + 4 <= fuel)%nat ->
  exists c, range_minus fuel chain [r] = Ok c /\ elements c = filter (outside r) (elements chain) /\
    (Forall nonnull (tl c)).
Proof.
  intros Hr Hne HF Hc Hd Hf. destruct chain as [|nd rest]; [congruence|]. cbn [tl hd] in *. cbn [range_minus].
  inversion HF as [|? ? Hnd HFr]; subst.
  assert (Htl : forall c, Forall nonnull c -> Forall nonnull (tl c)) by (intros c H; destruct H; [constructor|assumption]).
  destruct (covers r nd) eqn:Ec.
  - specialize (Hd eq_refl). destruct fuel as [|fuel]; [lia|].
    cbn [sub_loop fold_left]. unfold sub_one. cbn [at_ before after].
    unfold covers in Ec. unfold nonnull in *.
    replace (intersects1 nd r) with true by (unfold intersects1; lia). rewrite Ec.
    unfold null_this. cbn [before after at_ this_is is_ ie_]. change (0 <? 1) with true. cbn [del].
    assert (E0 : filter (outside r) (ints (is_ nd) (ie_ nd)) = []).
    { apply filter_none. intros x Hx. rewrite in_ints in Hx. unfold outside. lia. }
    rewrite (elements_cons nd rest), filter_app, E0. cbn [app].
    destruct rest as [|tmp rest].
    + eexists; split; [reflexivity|]. split; [reflexivity|constructor].
    + assert (Hdt : del tmp = false) by (apply Hd; cbn; auto). rewrite Hdt. cbn [andb].
      inversion HFr as [|? ? Ht HFr']; subst.
      destruct (sub_loop_head r Hr fuel (mkN (is_ tmp) (ie_ tmp) (del nd)) rest) as (c & C1 & C2 & C3).
      * exact Ht.
      * apply (Hc tmp); cbn; auto.
      * exact HFr'.
      * intros x Hx. apply Hc. cbn; auto.
      * cbn [length] in Hf. lia.
      * exists c. split; [exact C1|]. split; [|apply Htl; exact C3].
        rewrite C2. reflexivity.
  - destruct (sub_loop_head r Hr fuel nd rest Hnd Ec HFr Hc) as (c & C1 & C2 & C3); [cbn [length] in Hf; lia|].
    exists c. auto.
Qed.

(** Witnesses of the defects. *)
Lemma minus_refuted_tail : exists chain r, Forall nonnull chain /\ Forall nonnull r /\
  exists c, range_minus 100 chain r = Ok c /\ elements c = [5; 6] /\
    filter (fun k => negb (intersects_ind r k)) (elements chain) = [0; 1].
Proof.
  exists [mkN 0 1 false; mkN 5 6 false], [mkN 5 6 false].
  repeat split; try (repeat constructor; unfold nonnull; cbn; lia). eexists. vm_compute. repeat split; reflexivity.
Qed.
Lemma minus_refuted_chain : exists nd r, nonnull nd /\ Forall nonnull r /\
  exists c, range_minus 100 [nd] r = Ok c /\ elements c = [4;5;6;7;8;9;10] /\
    filter (fun k => negb (intersects_ind r k)) (elements [nd]) = [0; 1].
Proof.
  exists (mkN 0 10 false), [mkN 2 3 false; mkN 4 12 false].
  repeat split; try (repeat constructor; unfold nonnull; cbn; lia). eexists. vm_compute. repeat split; reflexivity.
Qed.
Lemma minus_dangling : exists a b c, nonnull a /\ nonnull b /\ nonnull c /\
  range_minus 100 (range_plus (range_plus [a] [b]) [c]) [a] = UB.
Proof.
  exists (mkN 0 1 false), (mkN 5 6 false), (mkN 8 9 false). repeat split; unfold nonnull; cbn; lia.
Qed.
Lemma minus_null_range : exists chain r c, Forall nonnull chain /\ elements r = [] /\
  range_minus 100 chain r = Ok c /\ elements c <> elements chain.
Proof.
  exists [mkN 0 10 false], [mkN 5 3 false]. eexists. split; [repeat constructor; unfold nonnull; cbn; lia|].
  split; [reflexivity|]. split; [vm_compute; reflexivity|]. vm_compute. discriminate.
Qed.
