(** The sequence of calls of LaplaceSPT is the same on all processors: a list of visits. *)
From Coq Require Import List Arith Bool ZArith Lia.
From Verif Require Import Base SptcModel.
Import ListNotations.

(** ** The visits of a slice: 0, 1, ..., N-1, N-2, ..., 0. *)
Section V.
Variable N : nat.
Hypothesis N2 : 2 <= N.
Definition path (k : nat) : nat := if k <? N then k else 2 * N - 2 - k.
Definition last_visit : nat := 2 * N - 2.
(** What processor r does at visit k of slice s. *)
Definition acts (r : nat) (sk : nat * nat) : list act :=
  let '(s, k) := sk in
  if r =? path k then
    (if k =? 0 then [AFirst s] else AWait s :: [if r =? N - 1 then ATurn s else if k <? N then AMid s else if r =? 0 then AFstb s else AMidb s]) ++
    (if k =? last_visit then [] else [ASend s (k <? N - 1)])
  else if (r =? path (S k)) && (k <? last_visit) then [AIrecv s (negb (k <? N - 1))] else [].
Definition ctl_at (k : nat) : ctl := mkCtl (if k =? S last_visit then (-1)%Z else Z.of_nat (path k)) (if k <? N - 1 then 1%Z else (-1)%Z).
(** The abstract calls. *)
Definition vstart (s : nat) : list (nat * nat) * nat := ([(s, 0)], 1).
Definition vnext (s v : nat) : list (nat * nat) * nat * bool := if v =? S last_visit then ([], v, true) else ([(s, v)], S v, false).

Lemma start_sim r s : start_code N r s = (flat_map (acts r) (fst (vstart s)), ctl_at (snd (vstart s))).
Proof.
  cbn [vstart fst snd flat_map]. rewrite app_nil_r. unfold start_code, acts, ctl_at, path, last_visit.
  destruct (Nat.ltb_spec 0 N); [|lia]. destruct (Nat.ltb_spec 1 N); [|lia]. change (0 =? 0) with true. cbv iota.
  destruct (Nat.eqb_spec 0 (2 * N - 2)); [lia|]. destruct (Nat.ltb_spec 0 (N - 1)); [|lia]. destruct (Nat.ltb_spec 0 (2 * N - 2)); [|lia].
  f_equal.
  - destruct (r =? 0); [reflexivity|]. destruct (r =? 1); reflexivity.
  - f_equal.
    + destruct (Nat.eqb_spec 1 (S (2 * N - 2))); [lia|reflexivity].
    + destruct (Nat.eqb_spec N 2); destruct (Nat.ltb_spec 1 (N - 1)); lia.
Qed.
Lemma next_sim r s k : 1 <= k <= S last_visit ->
  next_code N r s (ctl_at k) = (let '(o, v, b) := vnext s k in (flat_map (acts r) o, ctl_at v, b)).
Proof.
  intros Hk. unfold next_code, vnext. cbn [proc dir ctl_at]. destruct (Nat.eqb_spec k (S last_visit)) as [E|E].
  - cbn [flat_map]. reflexivity.
  - destruct (Z.ltb_spec (Z.of_nat (path k)) 0); [lia|]. cbn [flat_map]. rewrite app_nil_r. unfold last_visit in *.
    assert (P : path k <= N - 1) by (unfold path; destruct (Nat.ltb_spec k N); lia).
    assert (D : ((if (k <? N - 1)%nat then 1 else -1) >? 0)%Z = (k <? N - 1)) by (destruct (k <? N - 1); reflexivity). rewrite D.
    assert (PN : (Z.of_nat (path k) + (if (k <? N - 1)%nat then 1 else -1))%Z = if k =? 2 * N - 2 then (-1)%Z else Z.of_nat (path (S k))).
    { unfold path. destruct (Nat.ltb_spec k (N - 1)); destruct (Nat.ltb_spec k N); destruct (Nat.ltb_spec (S k) N); destruct (Nat.eqb_spec k (2 * N - 2)); lia. }
    rewrite PN. f_equal. f_equal.
    + unfold acts, last_visit. destruct (Nat.eqb_spec k 0); [lia|].
      assert (Q : (Z.of_nat r =? Z.of_nat (path k))%Z = (r =? path k)) by (destruct (Nat.eqb_spec r (path k)); destruct (Z.eqb_spec (Z.of_nat r) (Z.of_nat (path k))); lia).
      rewrite Q. destruct (Nat.eqb_spec r (path k)) as [R|R].
      * cbn [app]. f_equal.
        assert (R0 : (r =? 0) = (k =? 2 * N - 2)) by (rewrite R; unfold path; destruct (Nat.ltb_spec k N); destruct (Nat.eqb_spec k (2 * N - 2)); match goal with |- (?a =? 0) = _ => destruct (Nat.eqb_spec a 0) end; lia).
        f_equal.
        { destruct (Nat.eqb_spec r (N - 1)); [reflexivity|]. assert ((k <? N - 1) = (k <? N)) as ->; [|reflexivity].
          destruct (Nat.ltb_spec k (N - 1)); destruct (Nat.ltb_spec k N); try reflexivity; [lia|]. exfalso. unfold path in R. destruct (Nat.ltb_spec k N); lia. }
        rewrite R0. destruct (k =? 2 * N - 2); reflexivity.
      * destruct (Nat.eqb_spec k (2 * N - 2)) as [K|K].
        { destruct (Z.eqb_spec (Z.of_nat r) (-1)); [lia|]. destruct (Nat.ltb_spec k (2 * N - 2)); [lia|]. rewrite andb_false_r. reflexivity. }
        destruct (Nat.ltb_spec k (2 * N - 2)); [|lia]. rewrite andb_true_r.
        assert (Q2 : (Z.of_nat r =? Z.of_nat (path (S k)))%Z = (r =? path (S k))) by (destruct (Nat.eqb_spec r (path (S k))); destruct (Z.eqb_spec (Z.of_nat r) (Z.of_nat (path (S k)))); lia).
        rewrite Q2. reflexivity.
    + unfold ctl_at, last_visit. change (S k =? S (2 * N - 2)) with (k =? 2 * N - 2). f_equal.
      destruct (Nat.eqb_spec k (2 * N - 2)).
      * destruct (Z.eqb_spec (-1) (Z.of_nat N - 1)); [lia|]. destruct (Nat.ltb_spec k (N - 1)); destruct (Nat.ltb_spec (S k) (N - 1)); lia.
      * unfold path. destruct (Nat.ltb_spec (S k) N); match goal with |- context [(?a =? ?b)%Z] => destruct (Z.eqb_spec a b) end;
        destruct (Nat.ltb_spec k (N - 1)); destruct (Nat.ltb_spec (S k) (N - 1)); lia.
Qed.

(** ** The calls, concrete and abstract. *)
Section Sim.
Variable r : nat.
Definition rel (cs : nat -> ctl) (vs : nat -> nat) (P : nat -> Prop) : Prop := forall s, P s -> cs s = ctl_at (vs s) /\ 1 <= vs s <= S last_visit.
Lemma vnext_range s v : 1 <= v <= S last_visit -> let '(_, v', _) := vnext s v in 1 <= v' <= S last_visit.
Proof. unfold vnext. destruct (Nat.eqb_spec v (S last_visit)); lia. Qed.
Lemma rel_set cs vs (P Q : nat -> Prop) s v : rel cs vs P -> 1 <= v <= S last_visit -> (forall t, Q t -> t = s \/ P t) -> rel (set_c cs s (ctl_at v)) (set_c vs s v) Q.
Proof.
  intros H Hv HQ t Ht. unfold set_c. destruct (Nat.eqb_spec t s) as [->|E]; [split; [reflexivity|exact Hv]|]. destruct (HQ t Ht); [contradiction|]. apply H. assumption.
Qed.
Lemma pass_sim m : forall s cs vs b (P : nat -> Prop), rel cs vs P -> (forall t, s <= t < s + m -> P t) ->
  let '(o, cs', b1) := pass (next_code N r) m s cs b in let '(vo, vs', b2) := pass vnext m s vs b in
  o = flat_map (acts r) vo /\ rel cs' vs' P /\ b1 = b2.
Proof.
  induction m as [|m IH]; intros s cs vs b P H HP; cbn [pass]; [repeat split; [apply H|apply H|apply H]; assumption|].
  destruct (H s) as [E Hv]; [apply HP; lia|]. rewrite E, (next_sim r s (vs s) Hv). pose proof (vnext_range s (vs s) Hv) as RG.
  destruct (vnext s (vs s)) as [[vo v'] bb].
  specialize (IH (S s) (set_c cs s (ctl_at v')) (set_c vs s v') bb P).
  destruct (pass (next_code N r) m (S s) (set_c cs s (ctl_at v')) bb) as [[o2 cs2] b1]. destruct (pass vnext m (S s) (set_c vs s v') bb) as [[vo2 vs2] b2].
  destruct IH as (-> & IH2 & ->); [apply (rel_set _ _ P); [assumption|assumption|auto]|intros; apply HP; lia|].
  rewrite flat_map_app. auto.
Qed.
Lemma starts_sim m : forall s cs vs, rel cs vs (fun t => t < s) ->
  let '(o, cs') := starts (start_code N r) (next_code N r) m s cs in let '(vo, vs') := starts vstart vnext m s vs in
  o = flat_map (acts r) vo /\ rel cs' vs' (fun t => t < s + m).
Proof.
  induction m as [|m IH]; intros s cs vs H; cbn [starts].
  - split; [reflexivity|]. intros t Ht. apply H. lia.
  - rewrite start_sim. cbn [vstart fst snd].
    assert (H1 : rel (set_c cs s (ctl_at 1)) (set_c vs s 1) (fun t => t < S s)) by (apply (rel_set _ _ _ _ _ _ H); [unfold last_visit; lia|intros; lia]).
    pose proof (pass_sim s 0 _ _ false _ H1 ltac:(cbv beta; intros; lia)) as PS.
    destruct (pass (next_code N r) s 0 (set_c cs s (ctl_at 1)) false) as [[o1 cs1] b1]. destruct (pass vnext s 0 (set_c vs s 1) false) as [[vo1 vs1] b2].
    destruct PS as (-> & H2 & _). specialize (IH (S s) cs1 vs1 H2).
    destruct (starts (start_code N r) (next_code N r) m (S s) cs1) as [o2 cs2]. destruct (starts vstart vnext m (S s) vs1) as [vo2 vs2].
    destruct IH as (-> & H3). rewrite !flat_map_app. split; [reflexivity|]. intros t Ht. apply H3. lia.
Qed.
Lemma turns_sim f : forall ns cs vs, rel cs vs (fun t => t < ns) ->
  match turns vnext f ns vs with
  | None => turns (next_code N r) f ns cs = None
  | Some (vo, vs') => exists cs', turns (next_code N r) f ns cs = Some (flat_map (acts r) vo, cs') /\ rel cs' vs' (fun t => t < ns)
  end.
Proof.
  induction f as [|f IH]; intros ns cs vs H; cbn [turns]; [reflexivity|].
  pose proof (pass_sim ns 0 _ _ false _ H ltac:(cbv beta; intros; lia)) as PS.
  destruct (pass (next_code N r) ns 0 cs false) as [[o1 cs1] b1]. destruct (pass vnext ns 0 vs false) as [[vo1 vs1] b2].
  destruct PS as (-> & H2 & ->). destruct b2; [exists cs1; split; [reflexivity|exact H2]|].
  specialize (IH ns cs1 vs1 H2). destruct (turns vnext f ns vs1) as [[vo vs2]|].
  - destruct IH as (cs2 & -> & H3). exists cs2. rewrite flat_map_app. auto.
  - rewrite IH. reflexivity.
Qed.
Lemma whiles_sim f : forall s v, 1 <= v <= S last_visit ->
  match whiles vnext f s v with
  | None => whiles (next_code N r) f s (ctl_at v) = None
  | Some (vo, v') => whiles (next_code N r) f s (ctl_at v) = Some (flat_map (acts r) vo, ctl_at v') /\ 1 <= v' <= S last_visit
  end.
Proof.
  induction f as [|f IH]; intros s v Hv; cbn [whiles]; [reflexivity|]. rewrite (next_sim r s v Hv). pose proof (vnext_range s v Hv) as RG.
  destruct (vnext s v) as [[vo v1] b]. destruct b; [auto|]. specialize (IH s v1 RG). destruct (whiles vnext f s v1) as [[vo2 v2]|].
  - destruct IH as [-> H]. rewrite flat_map_app. auto.
  - rewrite IH. reflexivity.
Qed.
Lemma finishes_sim f m : forall s cs vs, rel cs vs (fun t => s <= t < s + m) ->
  finishes (next_code N r) f m s cs = match finishes vnext f m s vs with Some vo => Some (flat_map (acts r) vo) | None => None end.
Proof.
  induction m as [|m IH]; intros s cs vs H; cbn [finishes]; [reflexivity|].
  destruct (H s) as [E Hv]; [lia|]. rewrite E. pose proof (whiles_sim f s (vs s) Hv) as W. destruct (whiles vnext f s (vs s)) as [[vo v']|].
  - destruct W as [-> RG]. rewrite (IH (S s) (set_c cs s (ctl_at v')) (set_c vs s v')).
    + destruct (finishes vnext f m (S s) (set_c vs s v')); [rewrite flat_map_app|]; reflexivity.
    + apply (rel_set _ _ _ _ _ _ H); [exact RG|]. intros; right; lia.
  - rewrite W. reflexivity.
Qed.
Lemma solve3d_sim f ns cs vs : code3d f N ns r cs = match solve3d vstart vnext f ns vs with Some vo => Some (flat_map (acts r) vo) | None => None end.
Proof.
  unfold code3d, solve3d. pose proof (starts_sim ns 0 cs vs ltac:(intros t Ht; lia)) as S1.
  destruct (starts (start_code N r) (next_code N r) ns 0 cs) as [o1 cs1]. destruct (starts vstart vnext ns 0 vs) as [vo1 vs1]. destruct S1 as [-> S2].
  pose proof (turns_sim f ns cs1 vs1 S2) as T. destruct (turns vnext f ns vs1) as [[vo2 vs2]|]; [|rewrite T; reflexivity].
  destruct T as (cs2 & -> & T2). rewrite (finishes_sim f ns 0 cs2 vs2 ltac:(intros t Ht; apply T2; lia)). destruct (finishes vnext f ns 0 vs2); [|reflexivity].
  rewrite !flat_map_app. reflexivity.
Qed.
Lemma solveperp_sim f : codeperp f N r = match solveperp vstart vnext f with Some vo => Some (flat_map (acts r) vo) | None => None end.
Proof.
  unfold codeperp, solveperp. rewrite start_sim. cbn [vstart fst snd]. pose proof (whiles_sim f 0 1 ltac:(unfold last_visit; lia)) as W.
  destruct (whiles vnext f 0 1) as [[vo v']|]; [destruct W as [-> _]; rewrite flat_map_app; reflexivity|rewrite W; reflexivity].
Qed.
End Sim.

(** ** The visits: each slice is visited in order, completely. *)
Definition of_slice (s : nat) (l : list (nat * nat)) : list nat := map snd (filter (fun sk => fst sk =? s) l).
Lemma of_slice_app s a b : of_slice s (a ++ b) = of_slice s a ++ of_slice s b.
Proof. unfold of_slice. rewrite filter_app, map_app. reflexivity. Qed.
(** [l] leads from the visit counts v to v', for the slices below ns. *)
Definition leads (ns : nat) (v v' : nat -> nat) (l : list (nat * nat)) : Prop :=
  (forall s, v s <= v' s /\ of_slice s l = seq (v s) (v' s - v s)) /\ Forall (fun sk => fst sk < ns) l.
Lemma leads_refl ns v v' : (forall s, v s = v' s) -> leads ns v v' [].
Proof. intros H. split; [|constructor]. intros s. rewrite <- H, Nat.sub_diag. split; [lia|reflexivity]. Qed.
Lemma leads_trans ns a b c l1 l2 : leads ns a b l1 -> leads ns b c l2 -> leads ns a c (l1 ++ l2).
Proof.
  intros [H1 F1] [H2 F2]. split; [|apply Forall_app; auto]. intros s. destruct (H1 s) as [A1 B1]. destruct (H2 s) as [A2 B2]. split; [lia|].
  rewrite of_slice_app, B1, B2. replace (c s - a s) with ((b s - a s) + (c s - b s)) by lia. rewrite seq_app. do 2 f_equal. lia.
Qed.
Lemma leads_one ns v s : s < ns -> leads ns v (set_c v s (S (v s))) [(s, v s)].
Proof.
  intros Hs. split; [|constructor; [exact Hs|constructor]]. intros t. unfold set_c, of_slice. cbn [filter fst]. rewrite (Nat.eqb_sym s t). destruct (Nat.eqb_spec t s) as [->|E].
  - split; [lia|]. replace (S (v s) - v s) with 1 by lia. reflexivity.
  - rewrite Nat.sub_diag. split; [lia|reflexivity].
Qed.
Lemma vnext_leads ns v s : s < ns -> let '(o, v1, _) := vnext s (v s) in leads ns v (set_c v s v1) o.
Proof.
  intros Hs. unfold vnext. destruct (Nat.eqb_spec (v s) (S last_visit)) as [E|E]; [|apply leads_one; exact Hs].
  apply leads_refl. intros t. unfold set_c. destruct (Nat.eqb_spec t s) as [->|]; [rewrite E|]; reflexivity.
Qed.
Lemma pass_leads ns m : forall s v b, s + m <= ns -> let '(o, v', _) := pass vnext m s v b in leads ns v v' o.
Proof.
  induction m as [|m IH]; intros s v b H; cbn [pass]; [apply leads_refl; reflexivity|].
  pose proof (vnext_leads ns v s ltac:(lia)) as V. destruct (vnext s (v s)) as [[o v1] b1].
  specialize (IH (S s) (set_c v s v1) b1 ltac:(lia)). destruct (pass vnext m (S s) (set_c v s v1) b1) as [[o2 v2] b2]. eapply leads_trans; eassumption.
Qed.
(** The last slice advances by one in a pass; the result tells whether it was finished. *)
Lemma pass_last m : forall s v b, let '(_, v', b') := pass vnext (S m) s v b in
  v' (s + m) = (if v (s + m) =? S last_visit then v (s + m) else S (v (s + m))) /\ b' = (v (s + m) =? S last_visit).
Proof.
  induction m as [|m IH]; intros s v b.
  - cbn [pass]. rewrite Nat.add_0_r. unfold vnext. destruct (v s =? S last_visit); unfold set_c; rewrite Nat.eqb_refl; auto.
  - change (pass vnext (S (S m)) s v b) with (let '(o, c, b0) := vnext s (v s) in let '(os, cs', b') := pass vnext (S m) (S s) (set_c v s c) b0 in (o ++ os, cs', b')).
    destruct (vnext s (v s)) as [[o c] b0]. specialize (IH (S s) (set_c v s c) b0). destruct (pass vnext (S m) (S s) (set_c v s c) b0) as [[os cs'] b'].
    replace (S s + m) with (s + S m) in IH by lia. unfold set_c in IH at 1 2 3 4. destruct (Nat.eqb_spec (s + S m) s); [lia|]. exact IH.
Qed.
Lemma pass_outside m : forall s v b t, t < s \/ s + m <= t -> let '(_, v', _) := pass vnext m s v b in v' t = v t.
Proof.
  induction m as [|m IH]; intros s v b t Ht; cbn [pass]; [reflexivity|]. destruct (vnext s (v s)) as [[o v1] b1].
  specialize (IH (S s) (set_c v s v1) b1 t ltac:(lia)). destruct (pass vnext m (S s) (set_c v s v1) b1) as [[o2 v2] b2]. rewrite IH. unfold set_c. destruct (Nat.eqb_spec t s); [lia|reflexivity].
Qed.
Lemma leads_le ns v v' l : leads ns v v' l -> forall s, v s <= v' s.
Proof. intros [H _] s. apply H. Qed.
Lemma pass_bound m : forall s v b, (forall t, v t <= S last_visit) -> let '(_, v', _) := pass vnext m s v b in forall t, v' t <= S last_visit.
Proof.
  induction m as [|m IH]; intros s v b H; cbn [pass]; [exact H|]. destruct (vnext s (v s)) as [[o v1] b1] eqn:E.
  specialize (IH (S s) (set_c v s v1) b1). destruct (pass vnext m (S s) (set_c v s v1) b1) as [[o2 v2] b2]. apply IH.
  intros t. unfold set_c. destruct (t =? s); [|apply H]. unfold vnext in E. specialize (H s). destruct (Nat.eqb_spec (v s) (S last_visit)); injection E as <- <- <-; lia.
Qed.
Lemma starts_leads ns m : forall s v, s + m <= ns -> (forall t, s <= t -> v t = 0) -> (forall t, v t <= S last_visit) ->
  let '(o, v') := starts vstart vnext m s v in leads ns v v' o /\ (forall t, s + m <= t -> v' t = 0) /\ (forall t, s <= t < s + m -> 1 <= v' t) /\ (forall t, v' t <= S last_visit).
Proof.
  induction m as [|m IH]; intros s v H Hv HB; cbn [starts].
  - split; [apply leads_refl; reflexivity|]. split; [intros; apply Hv; lia|]. split; [intros; lia|exact HB].
  - cbn [vstart]. pose proof (leads_one ns v s ltac:(lia)) as P0. rewrite (Hv s) in P0 by lia.
    pose proof (pass_leads ns s 0 (set_c v s 1) false ltac:(lia)) as P1. pose proof (fun t => pass_outside s 0 (set_c v s 1) false t) as PO.
    pose proof (pass_bound s 0 (set_c v s 1) false) as PB.
    destruct (pass vnext s 0 (set_c v s 1) false) as [[o1 v1] b1].
    specialize (IH (S s) v1 ltac:(lia)). destruct (starts vstart vnext m (S s) v1) as [o2 v2].
    destruct IH as (I1 & I2 & I3 & I4).
    + intros t Ht. rewrite PO by lia. unfold set_c. destruct (Nat.eqb_spec t s); [lia|]. apply Hv. lia.
    + apply PB. intros t. unfold set_c. destruct (t =? s); [unfold last_visit; lia|apply HB].
    + change ([(s, 0)] ++ o1 ++ o2) with (([(s, 0)] ++ o1) ++ o2). split; [|split; [|split]].
      * eapply leads_trans; [eapply leads_trans; [exact P0|exact P1]|exact I1].
      * intros t Ht. apply I2. lia.
      * intros t Ht. destruct (Nat.eq_dec t s) as [->|]; [|apply I3; lia]. specialize (PO s ltac:(lia)). unfold set_c in PO. rewrite Nat.eqb_refl in PO. pose proof (leads_le _ _ _ _ I1 s). lia.
      * exact I4.
Qed.
Lemma turns_leads ns f : forall v, 1 <= ns -> (forall t, v t <= S last_visit) -> S (S last_visit) <= f + v (ns - 1) ->
  exists o v', turns vnext f ns v = Some (o, v') /\ leads ns v v' o /\ (forall t, v' t <= S last_visit).
Proof.
  induction f as [|f IH]; intros v Hn HB Hf; [specialize (HB (ns - 1)); lia|]. cbn [turns].
  pose proof (pass_leads ns ns 0 v false ltac:(lia)) as P1. pose proof (pass_bound ns 0 v false HB) as P2.
  pose proof (pass_last (ns - 1) 0 v false) as P3. replace (S (ns - 1)) with ns in P3 by lia. cbn [Nat.add] in P3.
  destruct (pass vnext ns 0 v false) as [[o1 v1] b1]. destruct P3 as [P3 ->]. destruct (Nat.eqb_spec (v (ns - 1)) (S last_visit)) as [E|E].
  - exists o1, v1. auto.
  - destruct (IH v1 Hn P2 ltac:(lia)) as (o & v' & -> & L & B). exists (o1 ++ o), v'. split; [reflexivity|]. split; [eapply leads_trans; eassumption|exact B].
Qed.
Lemma whiles_leads ns s f : forall v, s < ns -> v s <= S last_visit -> S (S last_visit) <= f + v s ->
  exists o, whiles vnext f s (v s) = Some (o, S last_visit) /\ leads ns v (set_c v s (S last_visit)) o.
Proof.
  induction f as [|f IH]; intros v Hs HB Hf; [lia|]. cbn [whiles]. pose proof (vnext_leads ns v s Hs) as V. unfold vnext in *.
  destruct (Nat.eqb_spec (v s) (S last_visit)) as [E|E].
  - exists []. rewrite E in *. auto.
  - destruct (IH (set_c v s (S (v s))) Hs) as (o & E2 & L2).
    + unfold set_c. rewrite Nat.eqb_refl. lia.
    + unfold set_c. rewrite Nat.eqb_refl. lia.
    + unfold set_c in E2 at 1. rewrite Nat.eqb_refl in E2. rewrite E2. exists ([(s, v s)] ++ o). split; [reflexivity|].
      pose proof (leads_trans _ _ _ _ _ _ V L2) as [T1 T2]. split; [|exact T2]. intros t. specialize (T1 t). unfold set_c in *. destruct (t =? s); exact T1.
Qed.
Lemma finishes_leads ns f m : forall s v, s + m <= ns -> (forall t, 1 <= v t \/ t < s \/ s + m <= t) -> (forall t, v t <= S last_visit) -> S last_visit <= f ->
  exists o v', finishes vnext f m s v = Some o /\ leads ns v v' o /\ (forall t, s <= t < s + m -> v' t = S last_visit) /\ (forall t, t < s \/ s + m <= t -> v' t = v t).
Proof.
  induction m as [|m IH]; intros s v H H1 HB Hf; cbn [finishes].
  - exists [], v. split; [reflexivity|]. split; [apply leads_refl; reflexivity|]. split; intros; [lia|reflexivity].
  - destruct (whiles_leads ns s f v ltac:(lia) (HB s)) as (o & E & L1); [destruct (H1 s) as [|[|]]; lia|]. rewrite E.
    destruct (IH (S s) (set_c v s (S last_visit))) as (o2 & v2 & E2 & L2 & F & G).
    + lia.
    + intros t. unfold set_c. destruct (Nat.eqb_spec t s); [lia|]. destruct (H1 t) as [|[|]]; lia.
    + intros t. unfold set_c. destruct (t =? s); [lia|apply HB].
    + exact Hf.
    + rewrite E2. exists (o ++ o2), v2. split; [reflexivity|]. split; [eapply leads_trans; eassumption|]. split.
      * intros t Ht. destruct (Nat.eq_dec t s) as [->|]; [|apply F; lia]. rewrite G by lia. unfold set_c. rewrite Nat.eqb_refl. reflexivity.
      * intros t Ht. rewrite G by lia. unfold set_c. destruct (Nat.eqb_spec t s); [lia|reflexivity].
Qed.
(** All calls: a list of visits, each slice visited 0, 1, ..., 2N-2. *)
Lemma visits3d ns : 1 <= ns -> exists o, solve3d vstart vnext (2 * N) ns (fun _ => 0) = Some o /\
  Forall (fun sk => fst sk < ns) o /\ forall s, s < ns -> of_slice s o = seq 0 (S last_visit).
Proof.
  intros Hn. unfold solve3d.
  pose proof (starts_leads ns ns 0 (fun _ => 0) ltac:(lia) ltac:(reflexivity) ltac:(intros; cbv beta; lia)) as S1.
  destruct (starts vstart vnext ns 0 (fun _ => 0)) as [o1 v1]. destruct S1 as (L1 & Z1 & G1 & B1).
  destruct (turns_leads ns (2 * N) v1 Hn B1) as (o2 & v2 & -> & L2 & B2).
  { pose proof (G1 (ns - 1) ltac:(lia)). unfold last_visit. lia. }
  destruct (finishes_leads ns (2 * N) ns 0 v2 ltac:(lia)) as (o3 & v3 & -> & L3 & F3 & _).
  { intros t. destruct (Nat.lt_ge_cases t ns); [left|right; right; lia]. pose proof (leads_le _ _ _ _ L2 t). pose proof (G1 t ltac:(lia)). lia. }
  { exact B2. } { unfold last_visit. lia. }
  eexists. split; [reflexivity|]. pose proof (leads_trans _ _ _ _ _ _ L1 (leads_trans _ _ _ _ _ _ L2 L3)) as [T1 T2]. split; [exact T2|].
  intros s Hs. destruct (T1 s) as [_ E]. rewrite F3 in E by lia. rewrite Nat.sub_0_r in E. exact E.
Qed.
Lemma visitsperp : exists o, solveperp vstart vnext (2 * N) = Some o /\
  Forall (fun sk => fst sk < 1) o /\ forall s, s < 1 -> of_slice s o = seq 0 (S last_visit).
Proof.
  unfold solveperp. cbn [vstart]. destruct (whiles_leads 1 0 (2 * N) (fun _ => 1) ltac:(lia) ltac:(cbv beta; unfold last_visit; lia) ltac:(cbv beta; unfold last_visit; lia)) as (o & E & L1).
  rewrite E. eexists. split; [reflexivity|]. destruct L1 as [T1 T2]. split; [constructor; [cbn; lia|exact T2]|].
  intros s Hs. assert (s = 0) by lia. subst s. change ([(0, 0)] ++ o) with ((0, 0) :: o). unfold of_slice. cbn [filter fst Nat.eqb map snd]. fold (of_slice 0 o).
  destruct (T1 0) as [_ E0]. rewrite E0. unfold set_c. cbn [Nat.eqb]. rewrite Nat.sub_succ, Nat.sub_0_r. reflexivity.
Qed.
End V.

Definition slice_of (a : act) : nat :=
  match a with AFirst s | AMid s | ATurn s | AMidb s | AFstb s | AIrecv s _ | AWait s | ASend s _ => s end.
Definition only (s : nat) (l : list act) : list act := filter (fun a => slice_of a =? s) l.
Lemma only_same s a l : slice_of a = s -> only s (a :: l) = a :: only s l.
Proof. intros <-. unfold only. cbn [filter]. rewrite Nat.eqb_refl. reflexivity. Qed.
Lemma only_other s a l : slice_of a <> s -> only s (a :: l) = only s l.
Proof. intros H. unfold only. cbn [filter]. destruct (Nat.eqb_spec (slice_of a) s); [contradiction|reflexivity]. Qed.
