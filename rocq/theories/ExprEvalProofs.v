Require Import Reals ZArith List Ascii Bool Lia Lra FunctionalExtensionality.
Require Import Verif.Base Verif.ExprModel Verif.ExprEvalModel Verif.ExprEvalSpec.
Import ListNotations.
Local Open Scope R_scope.

(* ---------- ROUND ---------- *)
Lemma Int_part_between x n : IZR n <= x < IZR n + 1 -> Int_part x = n.
Proof.
  intros [H1 H2]. destruct (base_Int_part x) as [A B].
  assert (IZR (Int_part x) < IZR (n + 1)) by (rewrite plus_IZR; lra).
  assert (IZR n < IZR (Int_part x + 1)) by (rewrite plus_IZR; lra).
  apply lt_IZR in H. apply lt_IZR in H0. lia.
Qed.
Lemma toint_pos x n : (0 <= n)%Z -> IZR n <= x < IZR n + 1 -> toint x = n.
Proof. intros Hn H. apply IZR_le in Hn. unfold toint. destruct (Rle_dec 0 x); [|lra]. now apply Int_part_between. Qed.
Lemma toint_neg x n : (n <= 0)%Z -> IZR n - 1 < x <= IZR n -> toint x = n.
Proof.
  intros Hn H. assert (HR : IZR n <= 0) by now apply IZR_le. unfold toint. destruct (Rle_dec 0 x).
  - assert (x = 0) by lra. assert (IZR n = 0) by lra. apply eq_IZR in H1. subst. apply Int_part_between. simpl. lra.
  - rewrite (Int_part_between (- x) (- n)); [lia|]. rewrite opp_IZR. lra.
Qed.
Lemma ROUND_near x n : Rabs (x - IZR n) < / 2 -> ROUND x = n.
Proof.
  intros H. apply Rabs_def2 in H as [H1 H2]. unfold ROUND. destruct (Rlt_dec 0 x).
  - apply toint_pos; [|lra]. apply le_IZR. destruct (Z.le_gt_cases 0 n) as [C|C]; [now apply IZR_le|].
    assert (n <= -1)%Z by lia. apply IZR_le in H. lra.
  - apply toint_neg; [|lra]. destruct (Z.le_gt_cases n 0) as [C|C]; [assumption|].
    assert (1 <= n)%Z by lia. apply IZR_le in H. lra.
Qed.

(* ---------- contexts ---------- *)
Lemma same_name_spec a b : reflect (a = b) (same_name a b).
Proof. unfold same_name. destruct (list_eq_dec ascii_dec a b); now constructor. Qed.
Lemma cset_eq c n v m : cset c n v m = if same_name m n then Some v else c m.
Proof. unfold cset, same_name. now destruct (list_eq_dec ascii_dec m n). Qed.
Lemma cset_same c n v : cset c n v n = Some v.
Proof. rewrite cset_eq. now destruct (same_name_spec n n). Qed.
Lemma cset_other c n v m : m <> n -> cset c n v m = c m.
Proof. rewrite cset_eq. now destruct (same_name_spec m n). Qed.
Lemma with_cset c n v c' : with_value c n v c' -> c' = cset c n v.
Proof. intros [A B]. extensionality m. rewrite cset_eq. destruct (same_name_spec m n) as [-> |N]; auto. Qed.
Lemma cset_twice c n v w : cset (cset c n v) n w = cset c n w.
Proof. extensionality m. rewrite !cset_eq. now destruct (same_name m n). Qed.
Lemma cset_with c n v : with_value c n v (cset c n v).
Proof. split; [apply cset_same|intros; now apply cset_other]. Qed.

Definition over (defs : list (str * R)) (c : ctx) : ctx := fun m => match defined defs m with Some v => Some v | None => c m end.

Section E.
Variable power : R -> R -> R.
Variable meaning : str -> list (ctx -> res R) -> ctx -> res R.
Variable resolved : str -> ctx -> res R.
Notation gen := (generate power meaning resolved).

(* ---------- sum ---------- *)
Lemma total_shift f n : total f (S n) = f O + total (fun k => f (S k)) n.
Proof. induction n as [|n IH]; [cbn [total]; ring|]. change (total f (S (S n))) with (total f (S n) + f (S n)). rewrite IH. cbn [total]. ring. Qed.
Lemma sum_loop_ok body sym c : forall n i c0 f acc, (forall v, cset c0 sym v = cset c sym v) ->
  (forall k, (k < n)%nat -> body (cset c sym (IZR (i + Z.of_nat k))) = Ok (f k)) ->
  sum_loop body sym n i c0 acc = Ok (acc + total f n).
Proof.
  induction n as [|n IH]; intros i c0 f acc Hc Hb; [cbn [sum_loop total]; now rewrite Rplus_0_r|].
  cbn [sum_loop]. rewrite Hc. pose proof (Hb O ltac:(lia)) as H0. cbn [Z.of_nat] in H0. rewrite Z.add_0_r in H0. rewrite H0. cbn [bind].
  rewrite (IH (i + 1)%Z (cset c sym (IZR i)) (fun k => f (S k))).
  - rewrite total_shift. f_equal. ring.
  - intros v. apply cset_twice.
  - intros k Hk. rewrite <- (Hb (S k)) by lia. do 3 f_equal. lia.
Qed.
Lemma sum_loop_fail body sym c : forall n i c0 acc, (forall v, cset c0 sym v = cset c sym v) ->
  (exists k, (k < n)%nat /\ body (cset c sym (IZR (i + Z.of_nat k))) = Throw /\
     forall j, (j < k)%nat -> exists v, body (cset c sym (IZR (i + Z.of_nat j))) = Ok v) ->
  sum_loop body sym n i c0 acc = Throw.
Proof.
  induction n as [|n IH]; intros i c0 acc Hc (k & Hk & Hb & Hj); [lia|].
  cbn [sum_loop]. rewrite Hc. destruct k as [|k].
  - cbn [Z.of_nat] in Hb. rewrite Z.add_0_r in Hb. now rewrite Hb.
  - destruct (Hj O ltac:(lia)) as [v Hv]. cbn [Z.of_nat] in Hv. rewrite Z.add_0_r in Hv. rewrite Hv. cbn [bind].
    apply IH; [intros; apply cset_twice|]. exists k. split; [lia|].
    replace (i + 1 + Z.of_nat k)%Z with (i + Z.of_nat (S k))%Z by lia. split; [exact Hb|].
    intros j H. replace (i + 1 + Z.of_nat j)%Z with (i + Z.of_nat (S j))%Z by lia. apply Hj. lia.
Qed.

Lemma gen_sum sym count body c v n f : gen count c = Ok v -> Rabs (v - INR n) <= / 10000 ->
  (forall i c', (i < n)%nat -> with_value c sym (INR i) c' -> gen body c' = Ok (f i)) ->
  gen (ESum sym count body) c = Ok (total f n).
Proof.
  intros Hv Hn Hb. cbn [generate]. rewrite Hv. cbn [bind].
  rewrite (ROUND_near v (Z.of_nat n)) by (rewrite <- INR_IZR_INZ; lra). rewrite <- INR_IZR_INZ.
  destruct (Rlt_dec (/ 10000) (Rabs (v - INR n))); [lra|]. destruct (Z.ltb_spec (Z.of_nat n) 0); [lia|]. rewrite Nat2Z.id.
  rewrite (sum_loop_ok (gen body) sym c n 0 c f 0); [now rewrite Rplus_0_l|reflexivity|].
  intros k Hk. apply Hb; [exact Hk|]. cbn [Z.add]. rewrite <- INR_IZR_INZ. apply cset_with.
Qed.
Lemma gen_sum_not_count sym count body c v : gen count c = Ok v -> (forall n, / 10000 < Rabs (v - INR n)) ->
  gen (ESum sym count body) c = Throw.
Proof.
  intros Hv Hn. cbn [generate]. rewrite Hv. cbn [bind]. destruct (Rlt_dec (/ 10000) (Rabs (v - IZR (ROUND v)))); [reflexivity|].
  destruct (Z.ltb_spec (ROUND v) 0); [reflexivity|]. exfalso. apply n. specialize (Hn (Z.to_nat (ROUND v))).
  now rewrite INR_IZR_INZ, Z2Nat.id in Hn.
Qed.

(* ---------- definitions ---------- *)
Lemma over_nil c : over [] c = c. Proof. reflexivity. Qed.
Lemma over_cons n v defs c : over ((n, v) :: defs) c = over defs (cset c n v).
Proof.
  extensionality m. unfold over. cbn [defined]. destruct (defined defs m); [reflexivity|]. rewrite cset_eq. now destruct (same_name m n).
Qed.
Lemma set_vars_ok c : forall vs xs new, Forall2 (fun v x => fst x = fst v /\ gen (snd v) c = Ok (snd x)) vs xs ->
  set_vars (map (fun v => (fst v, gen (snd v))) vs) c new = Ok (over xs new).
Proof.
  induction vs as [|[n a] vs IH]; intros xs new H; inversion H as [|? [n' x] ? xs' [E1 E2] H']; subst; [reflexivity|].
  cbn [map fst snd set_vars] in *. subst n'. rewrite E2. cbn [bind]. rewrite (IH xs' _ H'). now rewrite over_cons.
Qed.
Lemma set_vars_inv c : forall vs new c', set_vars (map (fun v => (fst v, gen (snd v))) vs) c new = Ok c' ->
  exists xs, Forall2 (fun v x => fst x = fst v /\ gen (snd v) c = Ok (snd x)) vs xs /\ c' = over xs new.
Proof.
  induction vs as [|[n a] vs IH]; intros new c' H; cbn [map fst snd set_vars] in H.
  - injection H as <-. exists []. split; [constructor|reflexivity].
  - destruct (gen a c) as [x| |] eqn:E; try discriminate. cbn [bind] in H. apply IH in H as (xs & F & ->).
    exists ((n, x) :: xs). split; [constructor; [split; [reflexivity|exact E]|exact F]|]. now rewrite over_cons.
Qed.
Lemma gen_ctx vs xs body c c' : Forall2 (fun v x => fst x = fst v /\ gen (snd v) c = Ok (snd x)) vs xs ->
  (forall m, c' m = match defined xs m with Some v => Some v | None => c m end) ->
  gen (ECtx vs body) c = gen body c'.
Proof.
  intros F H. cbn [generate]. rewrite (set_vars_ok c vs xs c F). cbn [bind]. f_equal. extensionality m. symmetry. apply H.
Qed.
Lemma gen_ctx_inv vs body c r : gen (ECtx vs body) c = Ok r ->
  exists xs, Forall2 (fun v x => fst x = fst v /\ gen (snd v) c = Ok (snd x)) vs xs /\ gen body (over xs c) = Ok r.
Proof.
  cbn [generate]. intros H. destruct (set_vars _ c c) as [c'| |] eqn:E; try discriminate. apply set_vars_inv in E as (xs & F & ->).
  exists xs. split; [exact F|exact H].
Qed.

(* ---------- induction over trees ---------- *)
Lemma expr_rect' (P : expr -> Prop) :
  (forall d, P (EVal d)) -> (forall s, P (EParam s)) -> (forall op l r, P l -> P r -> P (EBin op l r)) ->
  (forall name args, Forall P args -> P (ECall name args)) -> (forall name, P (ERes name)) ->
  (forall vs b, Forall (fun v => P (snd v)) vs -> P b -> P (ECtx vs b)) ->
  (forall s c b, P c -> P b -> P (ESum s c b)) -> forall e, P e.
Proof.
  intros H1 H2 H3 H4 H5 H6 H7. fix F 1. intros [d|s|op l r|name args|name|vs b|s c b].
  - apply H1.
  - apply H2.
  - apply H3; apply F.
  - apply H4. induction args; constructor; auto.
  - apply H5.
  - apply H6; [|apply F]. induction vs; constructor; auto.
  - apply H7; apply F.
Qed.

Variables reads rreads : str -> str -> Prop.
Hypothesis HM : local_meaning reads meaning.
Hypothesis HR : local_resolved rreads resolved.

Lemma defined_in xs m : (exists v, defined xs m = Some v) <-> In m (map fst xs).
Proof.
  induction xs as [|[n x] xs IH]; cbn [defined map fst In]; [split; [intros [v E]; discriminate|contradiction]|].
  destruct (defined xs m) as [w|] eqn:E.
  - split; [intros _; right; apply IH; eauto|eauto].
  - destruct (same_name_spec m n) as [-> |N]; [split; eauto|].
    split; [intros [v X]; discriminate|]. intros [X|X]; [congruence|]. apply IH in X as [v X]. discriminate.
Qed.
Lemma fst_vals vs xs (Q : str * expr -> str * R -> Prop) : Forall2 (fun v x => fst x = fst v /\ Q v x) vs xs -> map fst xs = map fst vs.
Proof. induction 1 as [|v x vs xs [E _] F IH]; [reflexivity|]. cbn [map]. now rewrite E, IH. Qed.
Lemma fold_or {A} (f : A -> Prop) l a : In a l -> f a -> fold_right (fun a P => f a \/ P) False l.
Proof. induction l as [|b l IH]; [contradiction|]. cbn. intros [-> |H] Ha; auto. Qed.
Lemma set_vars_agree c c2 (vs ws : list (str * expr)) : forall new new2,
  Forall2 (fun v w => fst v = fst w /\ gen (snd v) c = gen (snd w) c2) vs ws ->
  match set_vars (map (fun v => (fst v, gen (snd v))) vs) c new, set_vars (map (fun v => (fst v, gen (snd v))) ws) c2 new2 with
  | Ok a, Ok b => exists xs, a = over xs new /\ b = over xs new2 /\ map fst xs = map fst vs
  | Throw, Throw => True | UB, UB => True | _, _ => False
  end.
Proof.
  intros new new2 F. revert new new2. induction F as [|[n a] [n2 b] vs ws [E1 E2] F IH]; intros new new2.
  - cbn [map set_vars]. exists []. repeat split; reflexivity.
  - cbn [map fst snd set_vars] in *. subst n2. rewrite E2. destruct (gen b c2) as [x| |]; cbn [bind]; auto.
    specialize (IH (cset new n x) (cset new2 n x)).
    destruct (set_vars _ c _) as [p| |], (set_vars _ c2 _) as [q| |]; auto. destruct IH as (xs & -> & -> & M).
    exists ((n, x) :: xs). rewrite !over_cons. repeat split; auto. cbn [map fst]. now rewrite M.
Qed.
Lemma sum_loop_agree body body2 sym sym2 : forall n i c c2 acc, 
  (forall v w, body (cset v sym w) = body (cset v sym w)) ->
  (forall k d d2, (forall m, m <> sym -> d m = c m) -> (forall m, m <> sym2 -> d2 m = c2 m) ->
     body (cset d sym (IZR k)) = body2 (cset d2 sym2 (IZR k))) ->
  sum_loop body sym n i c acc = sum_loop body2 sym2 n i c2 acc.
Proof.
  induction n as [|n IH]; intros i c c2 acc X H; [reflexivity|]. cbn [sum_loop].
  rewrite (H i c c2) by auto. destruct (body2 _) as [v| |]; cbn [bind]; auto. apply IH; auto.
  intros k d d2 Hd Hd2. apply H.
  - intros m Hm. rewrite (Hd m Hm). now apply cset_other.
  - intros m Hm. rewrite (Hd2 m Hm). now apply cset_other.
Qed.

(* the value depends only on the names used *)
Lemma gen_uses e : forall c c2, (forall m, uses reads rreads e m -> c m = c2 m) -> gen e c = gen e c2.
Proof.
  induction e as [d|s|op l r IHl IHr|name args IH|name|vs b IHv IHb|s cn b IHc IHb] using expr_rect'; intros c c2 H.
  - reflexivity.
  - cbn [generate]. unfold cget. rewrite (H s); [reflexivity|reflexivity].
  - cbn [generate uses] in *. rewrite (IHl c c2), (IHr c c2); auto.
  - cbn [generate uses] in *. apply HM; [|intros; apply H; now left]. rewrite !map_map. apply map_ext_in. intros a Ha.
    rewrite Forall_forall in IH. apply IH; auto. intros m Hm. apply H. right. now apply (fold_or (fun a => uses reads rreads a m) args a).
  - cbn [generate uses] in *. now apply HR.
  - cbn [generate uses] in *. 
    pose proof (set_vars_agree c c2 vs vs c c2) as S. 
    assert (F : Forall2 (fun v w : str * expr => fst v = fst w /\ gen (snd v) c = gen (snd w) c2) vs vs).
    { assert (Y : forall v, In v vs -> gen (snd v) c = gen (snd v) c2).
      { intros v Hv. rewrite Forall_forall in IHv. apply IHv; auto. intros m Hm. apply H. left. now apply (fold_or (fun v => uses reads rreads (snd v) m) vs v). }
      clear -Y. induction vs as [|v vs IHs]; constructor; [split; [reflexivity|apply Y; now left]|]. apply IHs. intros w Hw. apply Y. now right. }
    specialize (S F). destruct (set_vars _ c c) as [p| |], (set_vars _ c2 c2) as [q| |]; try contradiction; auto. cbn [bind].
    destruct S as (xs & -> & -> & M). apply IHb. intros m Hm. unfold over. destruct (defined xs m) eqn:E; [reflexivity|].
    apply H. right. split; [exact Hm|]. intros X. rewrite <- M in X. apply defined_in in X as [v X]. congruence.
  - cbn [generate uses] in *. rewrite (IHc c c2) by auto. destruct (gen cn c2) as [v| |]; cbn [bind]; auto. cbv zeta.
    destruct (Rlt_dec _ _); [reflexivity|]. destruct (_ <? _)%Z; [reflexivity|]. apply sum_loop_agree; [reflexivity|].
    intros k d d2 Hd Hd2. apply IHb. intros m Hm. rewrite !cset_eq. destruct (same_name_spec m s) as [-> |N]; [reflexivity|].
    rewrite Hd, Hd2 by auto. apply H. auto.
Qed.

Lemma fold_or_inv {A} (f : A -> Prop) l : fold_right (fun a P => f a \/ P) False l -> exists a, In a l /\ f a.
Proof. induction l as [|b l IH]; cbn; [tauto|]. intros [H|H]; [eauto|]. destruct (IH H) as (a & ? & ?). eauto. Qed.
Lemma fold_and {A} (f : A -> Prop) l : fold_right (fun a P => f a /\ P) True l -> forall a, In a l -> f a.
Proof. induction l as [|b l IH]; cbn; [tauto|]. intros [H1 H2] a [<- |Ha]; auto. Qed.

(* replacing a name by an expression with the same value *)
Lemma gen_replace a d v : forall e c0, gen d c0 = Ok v -> forall c,
  (forall m, uses reads rreads d m -> c m = c0 m) ->
  (forall m, binds e m -> ~ uses reads rreads d m) -> visible reads rreads a e ->
  gen (replace a d e) c = gen e (cset c a v).
Proof.
  intros e c0 Hd. 
  induction e as [x|s|op l r IHl IHr|name args IH|name|vs b IHv IHb|s cn b IHc IHb] using expr_rect'; intros c Hc Hb Hv.
  - reflexivity.
  - cbn [replace]. destruct (same_name_spec s a) as [-> |N].
    + cbn [generate]. unfold cget. rewrite cset_same. rewrite <- Hd. now apply gen_uses.
    + cbn [generate]. unfold cget. now rewrite cset_other.
  - cbn [replace generate binds visible] in *. destruct Hv. rewrite IHl, IHr; auto.
  - cbn [replace generate binds visible] in *. destruct Hv as [Hr Hv]. apply HM.
    + rewrite !map_map. apply map_ext_in. intros x Hx. rewrite Forall_forall in IH. apply IH; auto.
      * intros m Hm. apply Hb. now apply (fold_or (fun a => binds a m) args x).
      * now apply (fold_and _ args Hv).
    + intros m Hm. symmetry. apply cset_other. intros ->. contradiction.
  - cbn [replace generate visible] in *. apply HR. intros m Hm. symmetry. apply cset_other. intros ->. contradiction.
  - cbn [replace generate binds visible] in *. destruct Hv as [Hv1 Hv2].
    assert (F : Forall2 (fun v0 w : str * expr => fst v0 = fst w /\ gen (snd v0) c = gen (snd w) (cset c a v))
        (map (fun v0 => (fst v0, replace a d (snd v0))) vs) vs).
    { assert (Y : forall w, In w vs -> gen (replace a d (snd w)) c = gen (snd w) (cset c a v)).
      { intros w Hw. rewrite Forall_forall in IHv. apply IHv; auto.
        - intros m Hm. apply Hb. left. now apply (fold_or (fun v0 => binds (snd v0) m) vs w).
        - now apply (fold_and (fun v0 => visible reads rreads a (snd v0)) vs Hv1). }
      clear -Y. induction vs as [|w vs IHs]; [constructor|]. cbn [map]. constructor; [split; [reflexivity|cbn [snd]; apply Y; now left]|].
      apply IHs. intros u Hu. apply Y. now right. }
    pose proof (set_vars_agree c (cset c a v) _ vs c (cset c a v) F) as S.
    destruct (set_vars _ c c) as [p| |], (set_vars _ (cset c a v) (cset c a v)) as [q| |]; try contradiction; auto. cbn [bind].
    destruct S as (xs & -> & -> & M). rewrite map_map in M. cbn [fst] in M. change (map (fun x : str * expr => fst x) vs) with (map fst vs) in M.
    assert (O : over xs (cset c a v) = if existsb (same_name a) (map fst vs) then over xs c else cset (over xs c) a v).
    { extensionality m. unfold over. destruct (existsb (same_name a) (map fst vs)) eqn:X.
      - destruct (defined xs m) eqn:E; [reflexivity|]. apply cset_other. intros ->.
        apply existsb_exists in X as (a' & Ha & X). destruct (same_name_spec a a'); [subst a'|discriminate].
        rewrite <- M in Ha. apply defined_in in Ha as [w Ha]. congruence.
      - rewrite !cset_eq. destruct (same_name_spec m a) as [-> |N].
        + destruct (defined xs a) eqn:E; [|reflexivity]. exfalso. assert (In a (map fst xs)) as I by (apply defined_in; eauto).
          rewrite M in I. assert (existsb (same_name a) (map fst vs) = true); [|congruence].
          apply existsb_exists. exists a. split; [exact I|]. now destruct (same_name_spec a a).
        + now destruct (defined xs m). }
    rewrite O. destruct (existsb (same_name a) (map fst vs)); [reflexivity|]. apply IHb; auto.
    intros m Hm. unfold over. destruct (defined xs m) eqn:E; [|now apply Hc]. exfalso.
    assert (In m (map fst xs)) as I by (apply defined_in; eauto). rewrite M in I. apply (Hb m); auto.
  - cbn [replace generate binds visible] in *. destruct Hv as [Hv1 Hv2]. rewrite IHc by auto.
    destruct (gen cn (cset c a v)) as [x| |]; cbn [bind]; auto. cbv zeta.
    destruct (Rlt_dec _ _); [reflexivity|]. destruct (_ <? _)%Z; [reflexivity|]. apply sum_loop_agree; [reflexivity|].
    intros k e1 e2 H1 H2. destruct (same_name_spec a s) as [<- |N].
    + f_equal. extensionality m. rewrite !cset_eq. destruct (same_name_spec m a); [reflexivity|].
      rewrite H1, H2 by auto. now rewrite cset_other.
    + rewrite IHb; auto.
      * f_equal. extensionality m. rewrite !cset_eq. destruct (same_name_spec m a) as [-> |N2].
        { destruct (same_name_spec a s); [contradiction|]. rewrite H2 by auto. now rewrite cset_same. }
        destruct (same_name_spec m s); [reflexivity|]. rewrite H1, H2 by auto. now rewrite cset_other.
      * intros m Hm. rewrite cset_other; [|intros ->; apply (Hb s); auto]. rewrite H1; [now apply Hc|]. intros ->. apply (Hb s); auto.
Qed.
End E.
