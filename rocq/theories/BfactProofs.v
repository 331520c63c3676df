(** Proofs for the parsing of boundary settings. *)
From Coq Require Import Ascii String List ZArith Bool Lia.
From Verif Require Import Base StringsModel StringsSpec StringsProofs OptionsModel OptionsProofs IniSpec IniProofs BfactModel BfactSpec.
Import ListNotations.
Open Scope Z_scope.

Lemma ff_app p pre c s k : Forall (fun x => p x = false) pre -> p c = true -> find_first p (pre ++ c :: s) k = Some (k + List.length pre)%nat.
Proof.
  intros H Hc. revert k. induction H as [|x pre Hx H IH]; intros k; cbn [app find_first List.length].
  - rewrite Hc. f_equal. lia.
  - rewrite Hx, IH. f_equal. lia.
Qed.
Lemma ff_none p s k : Forall (fun x => p x = false) s -> find_first p s k = None.
Proof. intros H. revert k. induction H as [|x s Hx H IH]; intros k; cbn; [reflexivity|]. rewrite Hx. apply IH. Qed.
Lemma fl_none p s k acc : Forall (fun x => p x = false) s -> find_last p s k acc = acc.
Proof. intros H. revert k acc. induction H as [|x s Hx H IH]; intros k acc; cbn; [reflexivity|]. rewrite Hx. apply IH. Qed.
Lemma fl_app p s c post k acc : p c = true -> Forall (fun x => p x = false) post -> find_last p (s ++ c :: post) k acc = Some (k + List.length s)%nat.
Proof.
  intros Hc H. revert k acc. induction s as [|x s IH]; intros k acc; cbn [app find_last List.length].
  - rewrite Hc, fl_none by exact H. f_equal. lia.
  - rewrite IH. f_equal. lia.
Qed.
Lemma is_eq a b : is a b = true <-> a = b.
Proof. unfold is. apply Ascii.eqb_eq. Qed.
Lemma not_in_false c s : ~ In c s -> Forall (fun x => is c x = false) s.
Proof. intros H. apply Forall_forall. intros x Hx. destruct (is c x) eqn:E; [|reflexivity]. apply is_eq in E. subst. contradiction. Qed.

Lemma trim_around l s r : blank l -> blank r -> trim (l ++ s ++ r) ws_trim = trim s ws_trim.
Proof.
  intros Hl Hr. destruct (trim_spec s ws_trim) as (p & q & E & Fp & Fq & B1 & B2). set (t := trim s ws_trim) in *. apply trim_pad.
  - split; assumption.
  - rewrite E. exists (l ++ p), (q ++ r). rewrite !app_assoc. split; [reflexivity|]. split; apply Forall_app; auto.
Qed.
Lemma trim_bare s : bare ws_trim s -> trim s ws_trim = s.
Proof. intros H. apply trim_pad; [exact H|]. exists [], []. rewrite app_nil_r. auto. Qed.

(** * Nesting *)
Lemma open_eq c : opening c = existsb (Ascii.eqb c) ["("; "["; "<"]%char.
Proof. unfold opening, is. cbn [existsb]. rewrite orb_false_r, orb_assoc. reflexivity. Qed.
Lemma close_eq c : closing c = existsb (Ascii.eqb c) [")"; "]"; ">"]%char.
Proof. unfold closing, is. cbn [existsb]. rewrite orb_false_r, orb_assoc. reflexivity. Qed.
Lemma nesting_app a b d : nesting d (a ++ b) = match nesting d a with Some d' => nesting d' b | None => None end.
Proof.
  revert d. induction a as [|c a IH]; intros d; cbn [app nesting]; [reflexivity|].
  destruct (existsb _ ["("; "["; "<"]%char); [apply IH|]. destruct (existsb _ [")"; "]"; ">"]%char); [destruct (d =? 0); [reflexivity|apply IH]|].
  destruct (Ascii.eqb c "," && (d =? 0)); [reflexivity|apply IH].
Qed.
Lemma nesting_plain s d : Forall (fun c => ~ In c ["("; ")"; "["; "]"; "<"; ">"; ","]%char) s -> nesting d s = Some d.
Proof.
  induction 1 as [|c s Hc H IH]; cbn [nesting]; [reflexivity|]. cbn [In] in Hc.
  assert (N : forall x, In x ["("; ")"; "["; "]"; "<"; ">"; ","]%char -> Ascii.eqb c x = false).
  { intros x Hx. destruct (Ascii.eqb c x) eqn:E; [|reflexivity]. apply Ascii.eqb_eq in E. subst. contradiction. }
  cbn [existsb]. rewrite !N by (cbn [In]; tauto). cbn [orb andb]. exact IH.
Qed.
Lemma blank_plain b : blank b -> Forall (fun c => ~ In c ["("; ")"; "["; "]"; "<"; ">"; ","; "="]%char) b.
Proof.
  intros H. eapply Forall_impl; [|exact H]. intros c Hc. unfold ws_trim in Hc. cbn [In] in Hc. cbn [In].
  destruct Hc as [<-|[<-|[<-|[]]]]; intuition discriminate.
Qed.
Lemma sub_plain s : Forall (fun c => ~ In c ["("; ")"; "["; "]"; "<"; ">"; ","; "="]%char) s -> Forall (fun c => ~ In c ["("; ")"; "["; "]"; "<"; ">"; ","]%char) s.
Proof. intros H. eapply Forall_impl; [|exact H]. intros c Hc. cbn [In] in *. tauto. Qed.
Lemma nesting_blank b d : blank b -> nesting d b = Some d.
Proof. intros H. apply nesting_plain, sub_plain, blank_plain. exact H. Qed.
Lemma nesting_pad s t d : pad ws_trim s t -> nesting d t = nesting d s.
Proof.
  intros (l & r & -> & Hl & Hr). rewrite nesting_app, (nesting_blank l) by exact Hl. rewrite nesting_app. destruct (nesting d s); [|reflexivity]. apply nesting_blank. exact Hr.
Qed.

Lemma pieces_closed t : forall d d' cur r, nesting d t = Some d' -> pieces d cur (t ++ r) = pieces d' (rev t ++ cur) r.
Proof.
  induction t as [|c t IH]; intros d d' cur r; cbn [nesting app rev pieces].
  - intros E. injection E as <-. reflexivity.
  - rewrite <- open_eq, <- close_eq. intros E.
    assert (K : forall d0, nesting d0 t = Some d' -> pieces d0 (c :: cur) (t ++ r) = pieces d' ((rev t ++ [c]) ++ cur) r).
    { intros d0 H. rewrite (IH d0 d' (c :: cur) r H). rewrite <- app_assoc. reflexivity. }
    destruct (opening c); [apply K; exact E|]. destruct (closing c); [apply K; destruct (d =? 0); [discriminate|exact E]|]. unfold is. destruct (Ascii.eqb c "," && (d =? 0)); [discriminate|apply K; exact E].
Qed.
Lemma pieces_join texts : texts <> [] -> Forall closed texts -> pieces 0 [] (join ","%char texts) = texts.
Proof.
  intros N H. induction H as [|t texts Ht H IH]; [contradiction|]. destruct texts as [|t2 texts].
  - cbn [join]. rewrite <- (app_nil_r t) at 1. rewrite (pieces_closed t 0 0 [] [] Ht). cbn [pieces]. rewrite app_nil_r, rev_involutive. reflexivity.
  - change (join ","%char (t :: t2 :: texts)) with (t ++ ","%char :: join ","%char (t2 :: texts)).
    rewrite (pieces_closed t 0 0 [] _ Ht). cbn [pieces opening closing is Ascii.eqb Bool.eqb orb andb]. rewrite app_nil_r, rev_involutive.
    change (0 =? 0) with true. cbv iota. f_equal. apply IH. discriminate.
Qed.
Lemma nesting_up t : forall d d', nesting d t = Some d' -> 0 <= d -> 0 <= d' /\ nesting (d + 1) t = Some (d' + 1).
Proof.
  induction t as [|c t IH]; intros d d'; cbn [nesting].
  - intros E Hd. injection E as <-. auto.
  - intros E Hd. destruct (existsb _ ["("; "["; "<"]%char); [replace (d + 1 + 1) with ((d + 1) + 1) by lia; apply IH; [exact E|lia]|].
    destruct (existsb _ [")"; "]"; ">"]%char).
    + destruct (d =? 0) eqn:D; [discriminate|]. apply Z.eqb_neq in D. replace (d + 1 =? 0) with false by (symmetry; apply Z.eqb_neq; lia).
      replace (d + 1 - 1) with ((d - 1) + 1) by lia. apply IH; [exact E|lia].
    + replace (d + 1 =? 0) with false by (symmetry; apply Z.eqb_neq; lia). rewrite andb_false_r.
      destruct (Ascii.eqb c "," && (d =? 0)); [discriminate|]. apply IH; [exact E|lia].
Qed.
Lemma nesting_join texts : Forall closed texts -> nesting 1 (join ","%char texts) = Some 1.
Proof.
  assert (U : forall t, closed t -> nesting 1 t = Some 1) by (intros t H; exact (proj2 (nesting_up t 0 0 H ltac:(lia)))).
  induction 1 as [|t texts Ht H IH]; [reflexivity|]. destruct texts as [|t2 texts]; [apply U; exact Ht|].
  change (join ","%char (t :: t2 :: texts)) with (t ++ ","%char :: join ","%char (t2 :: texts)).
  rewrite nesting_app, (U t Ht). cbn [nesting existsb Ascii.eqb Bool.eqb orb andb]. exact IH.
Qed.

(** * Pieces of a trimmed text *)
Lemma pieces_cur s : forall d cur b, exists p l, pieces d cur s = p :: l /\ pieces d (cur ++ b) s = (rev b ++ p) :: l.
Proof.
  induction s as [|c s IH]; intros d cur b; cbn [pieces].
  - exists (rev cur), []. rewrite rev_app_distr. auto.
  - destruct (opening c); [apply (IH _ (c :: cur) b)|]. destruct (closing c); [apply (IH _ (c :: cur) b)|].
    destruct (is c "," && (d =? 0)); [|apply (IH _ (c :: cur) b)]. exists (rev cur), (pieces d [] s). rewrite rev_app_distr. auto.
Qed.
Lemma pieces_blank b : blank b -> forall d cur, pieces d cur b = [rev cur ++ b].
Proof.
  intros H d cur. rewrite <- (app_nil_r b) at 1. rewrite (pieces_closed b d d cur []) by (apply nesting_blank; exact H).
  cbn [pieces]. rewrite rev_app_distr, rev_involutive. reflexivity.
Qed.
Lemma pieces_post s : forall d cur b, blank b -> exists l p, pieces d cur s = l ++ [p] /\ pieces d cur (s ++ b) = l ++ [p ++ b].
Proof.
  induction s as [|c s IH]; intros d cur b Hb; cbn [app].
  - exists [], (rev cur). rewrite (pieces_blank b Hb). auto.
  - cbn [pieces]. destruct (opening c); [apply IH; exact Hb|]. destruct (closing c); [apply IH; exact Hb|].
    destruct (is c "," && (d =? 0)); [|apply IH; exact Hb]. destruct (IH d [] b Hb) as (l & p & E1 & E2). exists (rev cur :: l), p. rewrite E1, E2. auto.
Qed.
Lemma add_key k v a : ~ In "="%char k -> add_piece (k ++ "="%char :: v) a = (fst a, kw_set (trim k ws_trim) (trim v ws_trim) (snd a)).
Proof.
  intros H. unfold add_piece. rewrite (ff_app (is "=") k "="%char v 0) by (reflexivity || apply not_in_false; exact H). cbn [Nat.add].
  rewrite firstn_app, firstn_all, Nat.sub_diag, firstn_O, app_nil_r. rewrite skipn_app, skipn_all2 by lia.
  replace (List.length k + 1 - List.length k)%nat with 1%nat by lia. reflexivity.
Qed.
Lemma add_pos s a : ~ In "="%char s -> add_piece s a = (fst a ++ [trim s ws_trim], snd a).
Proof. intros H. unfold add_piece. rewrite ff_none by (apply not_in_false; exact H). reflexivity. Qed.
Lemma split_eq (s : str) : ~ In "="%char s \/ exists k v, s = k ++ "="%char :: v /\ ~ In "="%char k.
Proof.
  induction s as [|c s IH]; [left; intros []|]. destruct (ascii_dec c "=") as [->|N]; [right; exists [], s; auto|].
  destruct IH as [IH|(k & v & -> & IH)]; [left; intros [E|H]; auto|right; exists (c :: k), v; split; [reflexivity|]; intros [E|H]; auto].
Qed.
Lemma blank_noeq b : blank b -> ~ In "="%char b.
Proof. intros H K. apply blank_plain in H. rewrite Forall_forall in H. apply (H _ K). cbn [In]. tauto. Qed.
Lemma add_around l s r a : blank l -> blank r -> add_piece (l ++ s ++ r) a = add_piece s a.
Proof.
  intros Hl Hr. destruct (split_eq s) as [N|(k & v & -> & N)].
  - rewrite (add_pos s a N), add_pos, trim_around by (auto || (rewrite !in_app_iff; intros [H|[H|H]]; [exact (blank_noeq _ Hl H)|exact (N H)|exact (blank_noeq _ Hr H)])). reflexivity.
  - rewrite <- app_assoc. cbn [app]. rewrite app_assoc. rewrite (add_key (l ++ k) (v ++ r)), (add_key k v a N).
    + rewrite <- (app_nil_r (l ++ k)), <- app_assoc, trim_around by (auto; constructor). rewrite <- (app_nil_l (v ++ r)), trim_around by (auto; constructor). reflexivity.
    + rewrite in_app_iff. intros [H|H]; [exact (blank_noeq _ Hl H)|exact (N H)].
Qed.
Lemma split_args_trim J : split_args (trim J ws_trim) = split_args J.
Proof.
  destruct (trim_spec J ws_trim) as (p & q & E & Fp & Fq & _). set (s := trim J ws_trim) in *. rewrite E. unfold split_args.
  rewrite (pieces_closed p 0 0 [] (s ++ q)) by (apply nesting_blank; exact Fp). rewrite app_nil_r.
  destruct (pieces_cur (s ++ q) 0 [] (rev p)) as (h & l & E1 & E2). cbn [app] in E2. rewrite E2, rev_involutive. cbn [fold_left].
  rewrite <- (app_nil_r h), add_around by (auto; constructor).
  change (fold_left (fun a s0 => add_piece s0 a) l (add_piece h ([], []))) with (fold_left (fun a s0 => add_piece s0 a) (h :: l) ([], [])).
  rewrite <- E1. destruct (pieces_post s 0 [] q Fq) as (l' & p' & E3 & E4). rewrite E3, E4, !fold_left_app. cbn [fold_left].
  rewrite <- (app_nil_l (p' ++ q)), add_around by (auto; constructor). reflexivity.
Qed.

(** * Spelled settings *)
Lemma arg_closed a t : spells_arg a t -> closed t.
Proof.
  intros [s t0 B C N P|k v t1 t2 B1 B2 C N P1 P2]; unfold closed in *.
  - rewrite (nesting_pad _ _ _ P). exact C.
  - rewrite nesting_app in *. rewrite (nesting_pad _ _ _ P1). destruct (nesting 0 k) as [d|]; [|discriminate].
    change ("="%char :: t2) with (["="%char] ++ t2). rewrite nesting_app. cbn [nesting existsb Ascii.eqb Bool.eqb orb andb]. rewrite (nesting_pad _ _ _ P2). exact C.
Qed.
Lemma args_closed args texts : Forall2 spells_arg args texts -> Forall closed texts.
Proof. induction 1; constructor; auto. eapply arg_closed; eassumption. Qed.
Lemma word_plain n t : word n -> pad ws_trim n t -> Forall (fun c => ~ In c ["("; ")"; "["; "]"; "<"; ">"; ","; "="]%char) t.
Proof. intros (_ & _ & W) (l & r & -> & Hl & Hr). apply Forall_app. split; [apply blank_plain; exact Hl|]. apply Forall_app. split; [exact W|apply blank_plain; exact Hr]. Qed.
Lemma call_closed t texts b : Forall (fun c => ~ In c ["("; ")"; "["; "]"; "<"; ">"; ","; "="]%char) t -> Forall closed texts -> blank b ->
  closed (t ++ "("%char :: join ","%char texts ++ ")"%char :: b).
Proof.
  intros Ht HC Hb. unfold closed. rewrite nesting_app, (nesting_plain t 0 (sub_plain _ Ht)).
  change ("("%char :: join ","%char texts ++ ")"%char :: b) with (["("%char] ++ (join ","%char texts ++ ")"%char :: b)). rewrite nesting_app.
  cbn [nesting existsb Ascii.eqb Bool.eqb orb andb]. change (0 + 1) with 1. rewrite nesting_app, (nesting_join texts HC).
  cbn [nesting existsb Ascii.eqb Bool.eqb orb andb]. change (1 =? 0) with false. cbv iota. change (1 - 1) with 0. apply nesting_blank. exact Hb.
Qed.
Lemma pos_args args texts : Forall2 (fun s => spells_arg (Pos s)) args texts -> Forall2 spells_arg (map Pos args) texts.
Proof. induction 1; constructor; auto. Qed.
Lemma spells_closed s t : spells s t -> closed t.
Proof.
  induction 1 as [n t W _ _ P|n args t texts b W P N HA Hb|n inner args t ti texts b W P HI IH HA Hb].
  - unfold closed. apply nesting_plain, sub_plain. exact (word_plain _ _ W P).
  - apply call_closed; [exact (word_plain _ _ W P)|eapply args_closed; exact HA|exact Hb].
  - apply call_closed; [exact (word_plain _ _ W P)| |exact Hb]. constructor; [exact IH|]. eapply args_closed, pos_args, HA.
Qed.
Lemma join_in (c d : ascii) (l : list str) : In c (join d l) -> c = d \/ exists s, In s l /\ In c s.
Proof.
  induction l as [|s l IH]; [intros []|]. destruct l as [|s2 l].
  - intros H. right. exists s. split; [left; reflexivity|exact H].
  - change (join d (s :: s2 :: l)) with (s ++ d :: join d (s2 :: l)). rewrite in_app_iff. intros [H|[H|H]].
    + right. exists s. split; [left; reflexivity|exact H].
    + left. symmetry. exact H.
    + destruct (IH H) as [K|(x & K1 & K2)]; [left; exact K|right; exists x; split; [right; exact K1|exact K2]].
Qed.
Lemma arg_noeq a t : spells_arg a t -> (match a with Pos _ => True | Key _ _ => False end) -> ~ In "="%char t.
Proof.
  intros [s t0 B C N (l & r & -> & Hl & Hr)|k v t1 t2 B1 B2 C N P1 P2] K; [|destruct K].
  rewrite !in_app_iff. intros [H|[H|H]]; [exact (blank_noeq _ Hl H)|exact (N H)|exact (blank_noeq _ Hr H)].
Qed.
Lemma args_noeq args texts : Forall2 spells_arg args texts -> keyword args = [] -> forall s, In s texts -> ~ In "="%char s.
Proof.
  induction 1 as [|a t args texts Ha H IH]; intros K s; [intros []|]. unfold keyword in K. cbn [flat_map] in K. apply app_eq_nil in K. destruct K as [K1 K2].
  intros [<-|Hs]; [|apply IH; assumption]. apply (arg_noeq a); [exact Ha|]. destruct a; [exact I|discriminate].
Qed.
Lemma plain_noeq t : Forall (fun c => ~ In c ["("; ")"; "["; "]"; "<"; ">"; ","; "="]%char) t -> ~ In "="%char t.
Proof. intros H K. rewrite Forall_forall in H. apply (H _ K). cbn [In]. tauto. Qed.
Lemma call_noeq t texts b : ~ In "="%char t -> (forall s, In s texts -> ~ In "="%char s) -> blank b -> ~ In "="%char (t ++ "("%char :: join ","%char texts ++ ")"%char :: b).
Proof.
  intros Ht HT Hb. rewrite in_app_iff. intros [K|[K|K]]; [exact (Ht K)|discriminate|]. rewrite in_app_iff in K. destruct K as [K|[K|K]]; [|discriminate|exact (blank_noeq _ Hb K)].
  apply join_in in K. destruct K as [K|(s & K1 & K2)]; [discriminate|exact (HT s K1 K2)].
Qed.
Lemma spells_noeq s t : spells s t -> no_keywords s -> ~ In "="%char t.
Proof.
  induction 1 as [n t W _ _ P|n args t texts b W P N HA Hb|n inner args t ti texts b W P HI IH HA Hb]; intros K.
  - apply plain_noeq. exact (word_plain _ _ W P).
  - apply call_noeq; [apply plain_noeq; exact (word_plain _ _ W P)|eapply args_noeq; [exact HA|exact K]|exact Hb].
  - apply call_noeq; [apply plain_noeq; exact (word_plain _ _ W P)| |exact Hb]. intros s [<-|Hs]; [apply IH; exact K|].
    eapply args_noeq; [apply pos_args; exact HA| |exact Hs]. clear. induction args as [|a args IH]; [reflexivity|exact IH].
Qed.
Lemma call_trim n t m b : word n -> pad ws_trim n t -> blank b ->
  exists t', pad ws_trim n t' /\ trim (t ++ "("%char :: m ++ ")"%char :: b) ws_trim = t' ++ "("%char :: m ++ [")"%char].
Proof.
  intros (N & (B1 & B2) & _) (l & r & -> & Hl & Hr) Hb. exists (n ++ r). split; [exists [], r; auto|]. apply trim_pad.
  - split.
    + destruct n as [|c n]; [contradiction|]. cbn. exact B1.
    + right. exists ((n ++ r) ++ "("%char :: m), ")"%char. split; [rewrite <- !app_assoc; reflexivity|]. unfold ws_trim. cbn [In]. intuition discriminate.
  - exists l, b. split; [|auto]. rewrite <- !app_assoc. cbn [app]. rewrite <- !app_assoc. reflexivity.
Qed.
Lemma spells_trim s t : spells s t -> spells s (trim t ws_trim).
Proof.
  intros [n t0 W N1 N2 P|n args t0 texts b W P N HA Hb|n inner args t0 ti texts b W P HI HA Hb].
  - rewrite (trim_pad ws_trim n t0) by (exact P || apply W). constructor; auto. exists [], []. rewrite app_nil_r. auto.
  - destruct (call_trim n t0 (join ","%char texts) b W P Hb) as (t' & P' & ->). constructor; auto. constructor.
  - destruct (call_trim n t0 (join ","%char (ti :: texts)) b W P Hb) as (t' & P' & ->). constructor; auto. constructor.
Qed.
Lemma spells_call_paren n t m b : word n -> pad ws_trim n t -> blank b -> let name := t ++ "("%char :: m ++ ")"%char :: b in
  find_first (is "(") name 0 = Some (List.length t) /\ find_last (is ")") name 0 None = Some (List.length t + 1 + List.length m)%nat /\
  trim (firstn (List.length t) name) ws_trim = n /\ firstn (List.length t + 1 + List.length m - List.length t - 1) (skipn (List.length t + 1) name) = m.
Proof.
  intros W P Hb name. pose proof (word_plain _ _ W P) as WP.
  assert (FO : Forall (fun x => is "(" x = false) t).
  { apply not_in_false. intros K. rewrite Forall_forall in WP. apply (WP _ K). cbn [In]. tauto. }
  split; [unfold name; rewrite (ff_app (is "(") t "("%char _ 0 FO eq_refl); reflexivity|]. split.
  - unfold name. replace (t ++ "("%char :: m ++ ")"%char :: b) with ((t ++ "("%char :: m) ++ ")"%char :: b) by (rewrite <- app_assoc; reflexivity).
    rewrite fl_app; [|reflexivity|].
    + rewrite app_length. cbn [List.length]. f_equal. lia.
    + apply not_in_false. intros K. apply blank_plain in Hb. rewrite Forall_forall in Hb. apply (Hb _ K). cbn [In]. tauto.
  - split.
    + unfold name. rewrite firstn_app, Nat.sub_diag, firstn_all, firstn_O, app_nil_r. apply trim_pad; [apply W|exact P].
    + unfold name. rewrite skipn_app, skipn_all2 by lia. replace (List.length t + 1 - List.length t)%nat with 1%nat by lia. cbn [skipn app].
      replace (List.length t + 1 + List.length m - List.length t - 1)%nat with (List.length m) by lia.
      rewrite firstn_app, Nat.sub_diag, firstn_all, firstn_O, app_nil_r. reflexivity.
Qed.

Lemma fold_args args texts : Forall2 spells_arg args texts -> forall a,
  fold_left (fun a s => add_piece s a) texts a = (fst a ++ positional args, fold_left (fun l kv => kw_set (fst kv) (snd kv) l) (keyword args) (snd a)).
Proof.
  induction 1 as [|x t args texts Hx H IH]; intros a; cbn [fold_left].
  - unfold positional, keyword. cbn. rewrite app_nil_r. destruct a; reflexivity.
  - rewrite IH. destruct Hx as [s t0 B C N P|k v t1 t2 B1 B2 C N P1 P2].
    + rewrite add_pos by (eapply (arg_noeq (Pos s)); [econstructor; eassumption|exact I]). rewrite (trim_pad _ _ _ B P). cbn [fst snd]. unfold positional, keyword. cbn [flat_map app].
      rewrite <- app_assoc. reflexivity.
    + rewrite add_key.
      2:{ destruct P1 as (l & r & -> & Hl & Hr). rewrite !in_app_iff. intros [K|[K|K]]; [exact (blank_noeq _ Hl K)|exact (N K)|exact (blank_noeq _ Hr K)]. }
      rewrite (trim_pad _ _ _ B1 P1), (trim_pad _ _ _ B2 P2). reflexivity.
Qed.
Lemma kw_set_spec k v l : NoDup (map fst l) -> NoDup (map fst (kw_set k v l)) /\ forall k' v', In (k', v') (kw_set k v l) <-> (k' = k /\ v' = v) \/ (k' <> k /\ In (k', v') l).
Proof.
  induction l as [|[k0 v0] l IH]; intros N; cbn [kw_set map].
  - split; [constructor; [intros []|constructor]|]. intros k' v'. cbn [In]. split; [intros [E|[]]; injection E as <- <-; auto|intros [[-> ->]|[_ []]]; auto].
  - cbn [map fst] in N. inversion N as [|? ? N1 N2]; subst. destruct (IH N2) as [A B]. destruct (str_eqb k k0) eqn:E.
    + apply str_eqb_eq in E. subst k0. split; [exact N|]. intros k' v'. cbn [In]. split.
      * intros [K|K]; [injection K as <- <-; auto|]. right. split; [|auto]. intros ->. apply N1. apply (in_map fst) in K. exact K.
      * intros [[-> ->]|[D [K|K]]]; [auto| |auto]. injection K as <- <-. contradiction.
    + apply str_eqb_neq in E. cbn [map fst]. split.
      * constructor; [|exact A]. intros K. apply in_map_iff in K. destruct K as ([k1 v1] & E1 & K). cbn [fst] in E1. subst k1. apply B in K. destruct K as [[-> _]|[_ K]]; [apply E; reflexivity|]. apply N1. apply (in_map fst) in K. exact K.
      * intros k' v'. cbn [In]. rewrite B. split.
        -- intros [K|[K|[K1 K2]]]; [injection K as <- <-; right; split; [auto|left; reflexivity]|auto|auto].
        -- intros [K|[K1 [K|K]]]; [auto|auto|auto].
Qed.
Lemma kw_fold kvs : let l := fold_left (fun l kv => kw_set (fst kv) (snd kv) l) kvs [] in
  NoDup (map fst l) /\ forall k v, In (k, v) l <-> given k kvs (Some v).
Proof.
  cbv zeta. induction kvs as [|[k0 v0] kvs IH] using rev_ind.
  - split; [constructor|]. intros k v. cbn. split; [intros []|]. intros (l1 & l2 & E & _). destruct l1; discriminate.
  - rewrite fold_left_app. cbn [fold_left fst snd]. destruct IH as [N H]. destruct (kw_set_spec k0 v0 _ N) as [A B]. split; [exact A|].
    intros k v. rewrite B, H. cbn [given]. split.
    + intros [[-> ->]|[D (l1 & l2 & E & F)]]; [exists kvs, []; split; [reflexivity|intros v' []]|].
      exists l1, (l2 ++ [(k0, v0)]). split; [rewrite E, <- app_assoc; reflexivity|]. intros v' K. apply in_app_iff in K. destruct K as [K|[K|[]]]; [exact (F v' K)|]. injection K as <- <-. apply D. reflexivity.
    + intros (l1 & l2 & E & F). destruct l2 as [|x l2] using rev_ind.
      * apply app_inj_tail in E. destruct E as [-> E]. injection E as -> ->. auto.
      * clear IHl2. rewrite app_comm_cons, app_assoc in E. apply app_inj_tail in E. destruct E as [-> <-]. right. split.
        -- intros ->. apply (F v0). apply in_app_iff. right. left. reflexivity.
        -- exists l1, l2. split; [reflexivity|]. intros v' K. apply (F v'). apply in_app_iff. left. exact K.
Qed.
Lemma known_in s l : known s l = true <-> In (lowercase s) l.
Proof. unfold known. rewrite existsb_exists. split; [intros (x & H & E); apply str_eqb_eq in E; subst; exact H|]. intros H. exists (lowercase s). split; [exact H|apply str_eqb_refl]. Qed.

Lemma create_call F par n t texts args b fuel : word n -> pad ws_trim n t -> blank b -> texts <> [] -> Forall closed texts ->
  fold_left (fun a s => add_piece s a) texts ([], []) = args ->
  create_ (S fuel) F par (t ++ "("%char :: join ","%char texts ++ ")"%char :: b) =
   (let (arglist, keywords) := args in
    if findMod F n then
      match arglist with
      | [] => UB
      | a :: arglist' =>
          do op <- create_ fuel F par a;
          match op with
          | None => Ok None
          | Some op => if par then Ok None else Ok (Some (BMod (lowercase n) op arglist'))
          end
      end
    else if par then if findPar F n then clone_par F (lowercase n) arglist keywords else Throw
    else if findOp F n then clone_op F (lowercase n) arglist keywords else Throw).
Proof.
  intros W P Hb NE HC EA. cbn [create_]. destruct (spells_call_paren n t (join ","%char texts) b W P Hb) as (E1 & E2 & E3 & E4). cbv zeta in *.
  rewrite E1, E2, E3. replace (Nat.ltb (List.length t) (List.length t + 1 + List.length (join ","%char texts))) with true by (symmetry; apply Nat.ltb_lt; lia).
  rewrite E4, split_args_trim. unfold split_args. rewrite (pieces_join texts NE HC), EA. reflexivity.
Qed.
Lemma join_len (d : ascii) (t : str) texts : (List.length t <= List.length (join d (t :: texts)))%nat.
Proof. destruct texts; [reflexivity|]. change (join d (t :: s :: texts)) with (t ++ d :: join d (s :: texts)). rewrite app_length. lia. Qed.
Lemma trim_len t : (List.length (trim t ws_trim) <= List.length t)%nat.
Proof. destruct (trim_spec t ws_trim) as (p & q & E & _). rewrite E at 2. rewrite !app_length. lia. Qed.

Lemma understood F s : forall t fuel, spells s t -> registered F s -> no_nested_keywords s -> (List.length t < fuel)%nat ->
  exists b, create_ fuel F false t = Ok (Some b) /\ means false s b.
Proof.
  induction s as [n a|n i IH args]; intros t fuel SP RG NK HF; (destruct fuel as [|fuel]; [lia|]).
  - inversion SP as [n0 t0 W N1 N2 P|n0 args t0 texts b W P N HA Hb|]; subst; destruct RG as (R1 & R2 & R3).
    + exists (BOp false (lowercase n) [] []). split; [|constructor]. cbn [create_]. rewrite ff_none.
      2:{ apply not_in_false. intros K. pose proof (word_plain _ _ W P) as WP. rewrite Forall_forall in WP. apply (WP _ K). cbn [In]. tauto. }
      assert (ET : trim t ws_trim = n) by (apply trim_pad; [apply W|exact P]).
      assert (NN : forall w, word w -> t = w -> n = w).
      { intros w (_ & B & _) ->. rewrite <- ET. apply trim_bare. exact B. }
      assert (D1 : str_eqb t (chars "null") = false).
      { apply str_eqb_neq. intros E. apply N1, NN; [|exact E]. split; [discriminate|]. split; [split; [cbn; intuition discriminate|right; exists (chars "nul"), "l"%char; split; [reflexivity|cbn; intuition discriminate]]|].
        repeat constructor; cbn; intuition discriminate. }
      assert (D2 : str_eqb t (chars "none") = false).
      { apply str_eqb_neq. intros E. apply N2, NN; [|exact E]. split; [discriminate|]. split; [split; [cbn; intuition discriminate|right; exists (chars "non"), "e"%char; split; [reflexivity|cbn; intuition discriminate]]|].
        repeat constructor; cbn; intuition discriminate. }
      rewrite D1, D2. cbn [orb]. rewrite ET. unfold findOp. rewrite (proj2 (known_in n (opmap F)) R1). reflexivity.
    + assert (NT : texts <> []) by (intros ->; inversion HA; subst; contradiction).
      pose proof (fold_args args texts HA ([], [])) as FA. cbn [fst snd app] in FA.
      rewrite (create_call F false n t0 texts _ b fuel W P Hb NT (args_closed _ _ HA) FA).
      destruct (findMod F n) eqn:EM; [apply known_in in EM; contradiction|]. unfold findOp. rewrite (proj2 (known_in n (opmap F)) R1).
      destruct (kw_fold (keyword args)) as [K1 K2]. exists (BOp false (lowercase n) (positional args) (fold_left (fun l kv => kw_set (fst kv) (snd kv) l) (keyword args) [])).
      split; [|constructor; assumption]. cbn [keywords_of] in R3. destruct R3 as [R3|R3].
      * rewrite R3. reflexivity.
      * unfold clone_op. rewrite R3. destruct (fold_left _ (keyword args) []); reflexivity.
  - inversion SP as [| |n0 i0 args0 t0 ti texts b W P HI HA Hb]; subst. destruct RG as (R1 & R2). cbn [no_nested_keywords] in NK.
    pose proof (fold_args (map Pos args) texts (pos_args _ _ HA) ([trim ti ws_trim], [])) as FA. cbn [fst snd app] in FA.
    assert (KW : keyword (map Pos args) = []) by (clear; induction args as [|a args IH]; [reflexivity|exact IH]).
    assert (PO : positional (map Pos args) = args) by (clear; induction args as [|a args IH]; [reflexivity|unfold positional in *; cbn [map flat_map app]; f_equal; exact IH]).
    rewrite KW, PO in FA. cbn [fold_left] in FA.
    rewrite (create_call F false n t0 (ti :: texts) (trim ti ws_trim :: args, []) b fuel W P Hb).
    + unfold findMod. rewrite (proj2 (known_in n (modmap F)) R1).
      destruct (IH (trim ti ws_trim) fuel) as (op & E & M).
      * apply spells_trim. exact HI.
      * exact R2.
      * destruct i; cbn [no_nested_keywords]; [exact I|exact NK].
      * pose proof (trim_len ti). pose proof (join_len ","%char ti texts). rewrite app_length in HF. cbn [List.length] in HF. rewrite app_length in HF. lia.
      * rewrite E. cbn [bind]. exists (BMod (lowercase n) op args). split; [reflexivity|]. constructor. exact M.
    + discriminate.
    + constructor; [eapply spells_closed; exact HI|]. eapply args_closed, pos_args, HA.
    + cbn [fold_left]. rewrite add_pos by (eapply spells_noeq; eassumption). cbn [fst snd app]. exact FA.
Qed.
Lemma rejected F s : forall t fuel, spells s t -> unknown F s -> no_nested_keywords s -> (List.length t < fuel)%nat -> create_ fuel F false t = Throw.
Proof.
  assert (NK0 : forall n l, ~ In (lowercase n) l -> known n l = false).
  { intros n l H. destruct (known n l) eqn:E; [|reflexivity]. apply known_in in E. contradiction. }
  induction s as [n a|n i IH args]; intros t fuel SP RG NK HF; (destruct fuel as [|fuel]; [lia|]).
  - inversion SP as [n0 t0 W N1 N2 P|n0 args t0 texts b W P N HA Hb|]; subst; cbn [unknown] in RG.
    + cbn [create_]. rewrite ff_none.
      2:{ apply not_in_false. intros K. pose proof (word_plain _ _ W P) as WP. rewrite Forall_forall in WP. apply (WP _ K). cbn [In]. tauto. }
      assert (ET : trim t ws_trim = n) by (apply trim_pad; [apply W|exact P]).
      assert (NN : forall w, word w -> t = w -> n = w).
      { intros w (_ & B & _) ->. rewrite <- ET. apply trim_bare. exact B. }
      assert (D1 : str_eqb t (chars "null") = false).
      { apply str_eqb_neq. intros E. apply N1, NN; [|exact E]. split; [discriminate|]. split; [split; [cbn; intuition discriminate|right; exists (chars "nul"), "l"%char; split; [reflexivity|cbn; intuition discriminate]]|].
        repeat constructor; cbn; intuition discriminate. }
      assert (D2 : str_eqb t (chars "none") = false).
      { apply str_eqb_neq. intros E. apply N2, NN; [|exact E]. split; [discriminate|]. split; [split; [cbn; intuition discriminate|right; exists (chars "non"), "e"%char; split; [reflexivity|cbn; intuition discriminate]]|].
        repeat constructor; cbn; intuition discriminate. }
      rewrite D1, D2. cbn [orb]. rewrite ET. unfold findOp. rewrite (NK0 _ _ RG). reflexivity.
    + assert (NT : texts <> []) by (intros ->; inversion HA; subst; contradiction).
      pose proof (fold_args args texts HA ([], [])) as FA. cbn [fst snd app] in FA.
      rewrite (create_call F false n t0 texts _ b fuel W P Hb NT (args_closed _ _ HA) FA).
      unfold findMod, findOp. rewrite (NK0 _ _ (proj1 RG)), (NK0 _ _ (proj2 RG)). reflexivity.
  - inversion SP as [| |n0 i0 args0 t0 ti texts b W P HI HA Hb]; subst. cbn [no_nested_keywords] in NK.
    pose proof (fold_args (map Pos args) texts (pos_args _ _ HA) ([trim ti ws_trim], [])) as FA. cbn [fst snd app] in FA.
    assert (KW : keyword (map Pos args) = []) by (clear; induction args as [|a args IH]; [reflexivity|exact IH]).
    assert (PO : positional (map Pos args) = args) by (clear; induction args as [|a args IH]; [reflexivity|unfold positional in *; cbn [map flat_map app]; f_equal; exact IH]).
    rewrite KW, PO in FA. cbn [fold_left] in FA.
    rewrite (create_call F false n t0 (ti :: texts) (trim ti ws_trim :: args, []) b fuel W P Hb).
    + cbn [unknown] in RG. destruct RG as [[R1 R2]|[R1 R2]].
      * unfold findMod, findOp. rewrite (NK0 _ _ R1), (NK0 _ _ R2). reflexivity.
      * unfold findMod. rewrite (proj2 (known_in n (modmap F)) R1). rewrite (IH (trim ti ws_trim) fuel); [reflexivity| | | |].
        -- apply spells_trim. exact HI.
        -- exact R2.
        -- destruct i; cbn [no_nested_keywords]; [exact I|exact NK].
        -- pose proof (trim_len ti). pose proof (join_len ","%char ti texts). rewrite app_length in HF. cbn [List.length] in HF. rewrite app_length in HF. lia.
    + discriminate.
    + constructor; [eapply spells_closed; exact HI|]. eapply args_closed, pos_args, HA.
    + cbn [fold_left]. rewrite add_pos by (eapply spells_noeq; eassumption). cbn [fst snd app]. exact FA.
Qed.
(** Parallel regions: conditions without modifiers. *)
Lemma understood_par F n a t : spells (Cond n a) t -> In (lowercase n) (par_opmap F) -> ~ In (lowercase n) (modmap F) ->
  keywords_of (Cond n a) = [] \/ takes_kw F (lowercase n) = true ->
  exists b, create F true t = Ok (Some b) /\ means true (Cond n a) b.
Proof.
  intros SP R1 R2 R3. unfold create. inversion SP as [n0 t0 W N1 N2 P|n0 args t0 texts b W P N HA Hb|]; subst.
  - exists (BOp true (lowercase n) [] []). split; [|constructor]. cbn [create_]. rewrite ff_none.
    2:{ apply not_in_false. intros K. pose proof (word_plain _ _ W P) as WP. rewrite Forall_forall in WP. apply (WP _ K). cbn [In]. tauto. }
    assert (ET : trim t ws_trim = n) by (apply trim_pad; [apply W|exact P]).
    assert (NN : forall w, bare ws_trim w -> t = w -> n = w) by (intros w B ->; rewrite <- ET; apply trim_bare; exact B).
    assert (D1 : str_eqb t (chars "null") = false).
    { apply str_eqb_neq. intros E. apply N1, NN; [|exact E]. split; [cbn; intuition discriminate|right; exists (chars "nul"), "l"%char; split; [reflexivity|cbn; intuition discriminate]]. }
    assert (D2 : str_eqb t (chars "none") = false).
    { apply str_eqb_neq. intros E. apply N2, NN; [|exact E]. split; [cbn; intuition discriminate|right; exists (chars "non"), "e"%char; split; [reflexivity|cbn; intuition discriminate]]. }
    rewrite D1, D2. cbn [orb]. rewrite ET. unfold findPar. rewrite (proj2 (known_in n (par_opmap F)) R1). unfold clone_par. destruct (takes_kw F (lowercase n)); reflexivity.
  - assert (NT : texts <> []) by (intros ->; inversion HA; subst; contradiction).
    pose proof (fold_args args texts HA ([], [])) as FA. cbn [fst snd app] in FA.
    rewrite (create_call F true n t0 texts _ b _ W P Hb NT (args_closed _ _ HA) FA).
    destruct (findMod F n) eqn:EM; [apply known_in in EM; contradiction|]. unfold findPar. rewrite (proj2 (known_in n (par_opmap F)) R1).
    destruct (kw_fold (keyword args)) as [K1 K2]. exists (BOp true (lowercase n) (positional args) (fold_left (fun l kv => kw_set (fst kv) (snd kv) l) (keyword args) [])).
    split; [|constructor; assumption]. cbn [keywords_of] in R3. unfold clone_par. destruct R3 as [R3|R3].
    + rewrite R3. cbn [fold_left]. destruct (takes_kw F (lowercase n)); reflexivity.
    + rewrite R3. reflexivity.
Qed.

(** * Options *)
Lemma chosen_unique S var r : exists t, chosen S var r t /\ forall F, createFromOptions F S var r = create F (br_par r) t.
Proof.
  unfold createFromOptions, chosen, consulted. cbv zeta. set (all := if br_par r then bndry_ (chars "par_all") else bndry_ (chars "all")).
  destruct (S var (bndry_ (br_label r))) as [t|] eqn:E1.
  { exists t. split; [|auto]. left. exists [], var, (bndry_ (br_label r)). eexists. split; [reflexivity|]. split; [exact E1|intros ? ? []]. }
  destruct (S var (bndry_ (side (br_loc r)))) as [t|] eqn:E2.
  { exists t. split; [|auto]. left. eexists [_], _, _, _. split; [reflexivity|]. split; [exact E2|]. intros s k [K|[]]. injection K as <- <-. exact E1. }
  destruct (S var all) as [t|] eqn:E3.
  { exists t. split; [|auto]. left. eexists [_; _], _, _, _. split; [reflexivity|]. split; [exact E3|]. intros s k [K|[K|[]]]; injection K as <- <-; assumption. }
  destruct (S (chars "all") (bndry_ (br_label r))) as [t|] eqn:E4.
  { exists t. split; [|auto]. left. eexists [_; _; _], _, _, _. split; [reflexivity|]. split; [exact E4|]. intros s k [K|[K|[K|[]]]]; injection K as <- <-; assumption. }
  destruct (S (chars "all") (bndry_ (side (br_loc r)))) as [t|] eqn:E5.
  { exists t. split; [|auto]. left. eexists [_; _; _; _], _, _, _. split; [reflexivity|]. split; [exact E5|]. intros s k [K|[K|[K|[K|[]]]]]; injection K as <- <-; assumption. }
  destruct (S (chars "all") all) as [t|] eqn:E6.
  { exists t. split; [|auto]. left. eexists [_; _; _; _; _], _, _, _. split; [reflexivity|]. split; [exact E6|]. intros s k [K|[K|[K|[K|[K|[]]]]]]; injection K as <- <-; assumption. }
  exists (default_condition r). split; [|reflexivity]. right. split; [|reflexivity]. intros s k [K|[K|[K|[K|[K|[K|[]]]]]]]; injection K as <- <-; assumption.
Qed.
Lemma chosen_fun S var r t t' : chosen S var r t -> chosen S var r t' -> t = t'.
Proof.
  intros [(l1 & s & k & l2 & E & H & N)|[N ->]] [(l1' & s' & k' & l2' & E' & H' & N')|[N' ->]].
  - rewrite E in E'. clear E. revert l1' E' N'. induction l1 as [|x l1 IH]; intros l1' E' N'.
    + destruct l1' as [|y l1']; cbn [app] in E'.
      * injection E' as <- <- _. congruence.
      * injection E' as <- _. rewrite (N' s k (or_introl eq_refl)) in H. discriminate.
    + destruct l1' as [|y l1']; cbn [app] in E'.
      * injection E' as -> _. rewrite (N s' k' (or_introl eq_refl)) in H'. discriminate.
      * injection E' as <- E'. apply (IH (fun a b K => N a b (or_intror K)) l1' E' (fun a b K => N' a b (or_intror K))).
  - rewrite (N' s k) in H; [discriminate|]. rewrite E. apply in_app_iff. right. left. reflexivity.
  - rewrite (N s' k') in H'; [discriminate|]. rewrite E'. apply in_app_iff. right. left. reflexivity.
  - reflexivity.
Qed.
Lemma set_regions_spec F S var rs : forall l, set_regions F S var rs = Ok l <->
  exists ops, Forall2 (fun r o => exists t, chosen S var r t /\ create F (br_par r) t = Ok o) rs ops /\
    l = flat_map (fun ro => match snd ro with Some o => [(fst ro, o)] | None => [] end) (combine rs ops).
Proof.
  induction rs as [|r rs IH]; intros l; cbn [set_regions].
  - split; [intros E; injection E as <-; exists []; split; [constructor|reflexivity]|]. intros (ops & H & ->). inversion H; subst. reflexivity.
  - destruct (chosen_unique S var r) as (t & CT & EC). rewrite EC. split.
    + destruct (create F (br_par r) t) as [o| |] eqn:E1; cbn [bind]; try discriminate. destruct (set_regions F S var rs) as [l0| |] eqn:E2; cbn [bind]; try discriminate.
      intros E. injection E as <-. destruct (proj1 (IH l0) eq_refl) as (ops & H & ->). exists (o :: ops). split; [constructor; [exists t; auto|exact H]|].
      cbn [combine flat_map snd fst]. destruct o; reflexivity.
    + intros (ops & H & ->). inversion H as [|r0 o rs0 ops' (t' & CT' & E1) H']; subst. rewrite (chosen_fun _ _ _ _ _ CT CT'), E1. cbn [bind].
      rewrite (proj2 (IH _) (ex_intro _ ops' (conj H' eq_refl))). cbn [bind combine flat_map snd fst]. destruct o; reflexivity.
Qed.
