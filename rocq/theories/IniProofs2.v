From Coq Require Import Ascii String List Arith Bool ZArith Lia.
From Verif Require Import Base StringsModel StringsSpec StringsProofs OptionsModel OptionsSpec OptionsProofs OptionsProofs2 IniModel IniSpec IniProofs.
Import ListNotations.

(** * Headers *)
Lemma ws_no (ch : ascii) l : ~ In ch ws_trim -> Forall (fun x => In x ws_trim) l -> ~ In ch l.
Proof. intros H F X. rewrite Forall_forall in F. auto. Qed.
Lemma colon_ws : ~ In colon ws_trim.
Proof. cbn. intros [H|[H|[H|[]]]]; discriminate. Qed.

Lemma pad_self cs s : pad cs s s.
Proof. exists [], []. rewrite app_nil_r. repeat split; constructor. Qed.

Lemma hb_bare names s : header_body names s -> bare ws_trim s /\ s <> [].
Proof.
  induction 1 as [n (N1 & _ & _ & _ & N2)|n t u m r s (N1 & _ & _ & _ & N2 & _) Ht Hu HB [[I1 I2] I3]]; [auto|]. split; [|destruct n; [congruence|discriminate]].
  split.
  - destruct n; [congruence|exact N2].
  - destruct I2 as [->|(p & c & -> & Hc)]; [congruence|]. right. exists (n ++ t ++ colon :: u ++ p), c. split; [|assumption].
    rewrite <- !app_assoc. cbn [app]. rewrite <- app_assoc. reflexivity.
Qed.
Lemma hb_names names s : header_body names s -> forall s', pad ws_trim s s' -> (List.length names = 1 -> s' = s) ->
  forall fuel, List.length s' < fuel -> header_names fuel s' = names.
Proof.
  induction 1 as [n (N1 & N2 & _ & _ & N3)|n t u m r s (N1 & N2 & _ & _ & N3) Ht Hu HB IH]; intros s' HP HL fuel HF; (destruct fuel as [|fuel]; [lia|]); cbn [header_names].
  - rewrite HL by reflexivity. now rewrite find_first_none.
  - destruct HP as (l & e & -> & Hl & He).
    replace (l ++ (n ++ t ++ colon :: u ++ s) ++ e) with ((l ++ n ++ t) ++ colon :: (u ++ s ++ e)) in *
      by (rewrite <- !app_assoc; cbn [app]; rewrite <- !app_assoc; reflexivity).
    rewrite find_first_app'.
    2:{ rewrite !in_app_iff. intros [X|[X|X]]; [apply ws_no in X; auto using colon_ws|auto|apply ws_no in X; auto using colon_ws]. }
    cbn [Nat.add]. rewrite firstn_mid, skipn_mid. rewrite app_length in HF. cbn [List.length] in HF.
    rewrite (trim_pad ws_trim n); [|assumption|exists l, t; auto].
    destruct (hb_bare _ _ HB) as [HB1 _].
    rewrite (trim_pad ws_trim s); [|assumption|exists u, e; auto].
    f_equal. apply IH; [apply pad_self|reflexivity|]. rewrite !app_length in HF. lia.
Qed.
Lemma hb_nobracket names s (ch : ascii) : ch = "["%char \/ ch = "]"%char -> header_body names s -> ~ In ch s.
Proof.
  intros Hch. assert (W : ~ In ch ws_trim) by (destruct Hch as [-> | ->]; cbn; intros [H|[H|[H|[]]]]; discriminate).
  induction 1 as [n (N1 & N2 & N3 & N4 & _)|n t u m r s (N1 & N2 & N3 & N4 & _) Ht Hu HB IH].
  - destruct Hch as [-> | ->]; assumption.
  - rewrite !in_app_iff. cbn [In]. rewrite in_app_iff. intros [X|[X|[X|[X|X]]]]; [destruct Hch; subst; auto| | | |auto].
    + exact (ws_no ch t W Ht X).
    + unfold colon in X; destruct Hch as [E|E]; rewrite E in X; discriminate.
    + exact (ws_no ch u W Hu X).
Qed.
Lemma hb_good names s : header_body names s -> good_path names /\ names <> [].
Proof.
  induction 1 as [n (N1 & N2 & _)|n t u m r s (N1 & N2 & _) Ht Hu HB [I1 I2]]; (split; [|discriminate]).
  - repeat constructor; assumption.
  - constructor; [split; assumption|assumption].
Qed.
Lemma no_bracket_bare s : ~ In "["%char s -> ~ In "]"%char s -> bare ["["; "]"]%char s.
Proof.
  intros H1 H2. assert (H : forall c, In c s -> ~ In c ["["; "]"]%char) by (intros c Hc [X|[X|[]]]; subst; contradiction).
  split.
  - destruct s; [exact I|]. apply H. now left.
  - destruct s as [|c s]; [left; reflexivity|]. right. destruct (exists_last (l := c :: s)) as (p & x & E); [discriminate|].
    exists p, x. split; [assumption|]. apply H. rewrite E, in_app_iff. right. now left.
Qed.
Lemma header_trim names s : header_text names s ->
  trim ("["%char :: s ++ ["]"%char]) ["["; "]"]%char = s /\ s <> [] /\ header_names (S (List.length s)) s = names /\ good_path names /\ names <> [].
Proof.
  intros (b & HB & HP & HL). split.
  - apply trim_pad.
    + destruct HP as (l & r & -> & Hl & Hr).
      assert (W : forall ch, ch = "["%char \/ ch = "]"%char -> ~ In ch (l ++ b ++ r)).
      { intros ch Hch. assert (W : ~ In ch ws_trim) by (destruct Hch as [-> | ->]; cbn; intros [H|[H|[H|[]]]]; discriminate).
        rewrite !in_app_iff. intros [X|[X|X]]; [exact (ws_no ch l W Hl X)|exact (hb_nobracket _ _ ch Hch HB X)|exact (ws_no ch r W Hr X)]. }
      apply no_bracket_bare; apply W; auto.
    + exists ["["%char], ["]"%char]. split; [reflexivity|]. split; (constructor; [cbn; auto|constructor]).
  - split.
    + destruct HP as (l & r & -> & _). destruct (hb_bare _ _ HB) as [_ N]. intros E. apply app_eq_nil in E. destruct E as [_ E]. apply app_eq_nil in E. tauto.
    + split; [eapply hb_names; [exact HB|exact HP|exact HL|lia]|]. eapply hb_good; eassumption.
Qed.
Lemma find_last_some s (ch : ascii) : In ch s -> find_last (Ascii.eqb ch) s 0 None <> None.
Proof.
  intros H E. pose proof (find_last_spec (Ascii.eqb ch) s 0 None) as S. rewrite E in S. destruct S as [_ S]. rewrite Forall_forall in S.
  specialize (S _ H). now rewrite Ascii.eqb_refl in S.
Qed.

(** * Sections *)
Lemma index_one {A} n (k : tree -> tree * res A) o : n <> [] -> ~ In colon n -> index n k o = walk [n] k o.
Proof. intros H1 H2. apply (index_walk [n]); [repeat constructor; assumption|discriminate]. Qed.
Lemma in_section_walk {A} sec (k : tree -> tree * res A) : good_path sec -> forall o, in_section sec k o = walk sec k o.
Proof.
  induction 1 as [|n r [N1 N2] G IH]; intros o; [reflexivity|]. cbn [in_section]. rewrite index_one by assumption. cbn [walk].
  destruct (negb _); [reflexivity|]. apply on_child_ext. exact IH.
Qed.
Lemma good_app p q : good_path p -> good_path q -> good_path (p ++ q).
Proof. intros. apply Forall_app. auto. Qed.
Lemma good_one n : n <> [] -> ~ In colon n -> good_path [n].
Proof. intros. repeat constructor; assumption. Qed.
Lemma in_section_put f sec key v o : good_path sec -> key <> [] -> ~ In colon key ->
  in_section sec (index key (assign veqb v f)) o = perform1 f (Put (sec ++ [key]) v) o.
Proof.
  intros G K1 K2. cbn [perform1]. rewrite index_walk; [|apply good_app; [assumption|now apply good_one]|destruct sec; discriminate].
  rewrite in_section_walk, walk_app by assumption. apply walk_ext. intros c. now apply index_one.
Qed.
Lemma in_section_enter f sec o : good_path sec -> sec <> [] -> in_section sec (fun c => (c, Ok tt)) o = perform1 f (Enter sec) o.
Proof. intros G N. cbn [perform1]. rewrite index_walk by assumption. now apply in_section_walk. Qed.

(** * Values *)
Lemma depth_brackets s : count_brackets s = depth s.
Proof.
  induction s as [|c s IH]; [reflexivity|]. cbn [count_brackets fold_right]. change (fold_right _ 0%Z s) with (count_brackets s). rewrite IH.
  unfold depth, count, bracket. cbn [filter]. rewrite !(Ascii.eqb_sym c).
  destruct (Ascii.eqb "(" c) eqn:E1; [apply Ascii.eqb_eq in E1; subst c|].
  - cbn [Ascii.eqb Bool.eqb orb List.length]. lia.
  - destruct (Ascii.eqb "[" c) eqn:E2; [apply Ascii.eqb_eq in E2; subst c|].
    + cbn [Ascii.eqb Bool.eqb orb List.length]. lia.
    + destruct (Ascii.eqb ")" c) eqn:E3; [apply Ascii.eqb_eq in E3; subst c|].
      * cbn [Ascii.eqb Bool.eqb orb List.length]. lia.
      * destruct (Ascii.eqb "]" c) eqn:E4; cbn [orb List.length]; lia.
Qed.
Lemma depth_app s t : depth (s ++ t) = (depth s + depth t)%Z.
Proof. unfold depth, count. rewrite !filter_app, !app_length. lia. Qed.
Lemma continue_ok v more w : continued v more w -> forall ls, continue_value (depth v) v (more ++ ls) = Ok (w, ls).
Proof.
  induction 1 as [v Hd|v b l ls w Hd HL HC IH]; intros rest.
  - cbn [app]. assert (E : (0 <? depth v)%Z = false) by (apply Z.ltb_ge; lia). destruct rest; cbn [continue_value]; now rewrite E.
  - cbn [app continue_value]. assert (E : (0 <? depth v)%Z = true) by (apply Z.ltb_lt; lia). rewrite E.
    rewrite (lay_next _ _ HL), depth_brackets, <- depth_app. apply IH.
Qed.
Lemma depth_true : (depth (chars "TRUE") <= 0)%Z.
Proof. vm_compute. discriminate. Qed.
Lemma parse_flag k : ~ In eqc k -> parse k = Ok (k, chars "TRUE").
Proof. intros H. unfold parse. now rewrite find_first_none'. Qed.
Lemma parse_pair k k' v v' : good_key k -> pad quote_ws k k' -> bare quote_ws v -> pad quote_ws v v' -> parse (k' ++ eqc :: v') = Ok (k, v).
Proof.
  intros (K1 & K2 & K3 & K4) HP HV HPv. unfold parse. rewrite find_first_app'.
  - cbn [Nat.add]. rewrite firstn_mid, skipn_mid. rewrite (trim_pad _ _ _ K4 HP), (trim_pad _ _ _ HV HPv).
    destruct k; [congruence|]. now rewrite find_first_none.
  - destruct HP as (l & r & -> & Hl & Hr). rewrite !in_app_iff.
    assert (W : ~ In eqc quote_ws) by (cbn; intros [H|[H|[H|[H|[H|[]]]]]]; discriminate).
    rewrite Forall_forall in Hl, Hr. intros [X|[X|X]]; auto.
Qed.

(** * Files *)
Lemma read_perform_rest f d ls : writes d ls -> forall rest fuel sec o, List.length (ls ++ rest) < fuel -> good_path sec ->
  exists fuel' sec', List.length rest < fuel' /\ good_path sec' /\
  read_lines fuel f sec (ls ++ rest) o = match perform f (meaning sec d) o with (o', Ok _) => read_lines fuel' f sec' rest o' | x => x end.
Proof.
  induction 1 as [|d l ls HL HW IH|d l ls names s HH HL HW IH|d l ls k K1 K2 K3 K4 HL HW IH|d l ls k k' v1 v1' more v HK HP HV HPv HH HL HC HW IH];
    intros rest fuel sec o HF HG; [exists fuel, sec; cbn [app meaning perform]; auto| | | |]; (destruct fuel as [|fuel]; [cbn [List.length app] in HF; lia|]); cbn [read_lines app].
  - rewrite (lay_next _ _ HL). apply IH; [cbn [List.length app] in HF; lia|assumption].
  - rewrite (lay_next _ _ HL). change (Ascii.eqb "[" "[") with true. cbv iota.
    destruct (find_last (Ascii.eqb "]") ("["%char :: s ++ ["]"%char]) 0 None) eqn:EF.
    2:{ exfalso. apply (find_last_some ("["%char :: s ++ ["]"%char]) "]"%char); [|assumption]. right. rewrite in_app_iff. right. now left. }
    destruct (header_trim _ _ HH) as (T1 & T2 & T3 & T4 & T5). rewrite T1. destruct s as [|c s]; [congruence|]. rewrite T3.
    rewrite (in_section_enter f) by assumption. cbn [meaning perform]. destruct (perform1 f (Enter names) o) as [o' [u| |]].
    + apply IH; [cbn [List.length app] in HF; lia|assumption].
    + exists (S (List.length rest)), []. repeat split; [lia|constructor].
    + exists (S (List.length rest)), []. repeat split; [lia|constructor].
  - rewrite (lay_next _ _ HL). destruct k as [|c k]; [congruence|]. cbn [hd] in K4. apply Ascii.eqb_neq in K4. rewrite K4.
    rewrite parse_flag by assumption. rewrite depth_brackets.
    pose proof (continue_ok (chars "TRUE") [] (chars "TRUE") (co_done _ depth_true) (ls ++ rest)) as EC. cbn [app] in EC. rewrite EC.
    rewrite in_section_put by (assumption || discriminate). cbn [meaning perform].
    destruct (perform1 f _ o) as [o' [u| |]].
    + apply IH; [cbn [List.length app] in HF; lia|assumption].
    + exists (S (List.length rest)), []. repeat split; [lia|constructor].
    + exists (S (List.length rest)), []. repeat split; [lia|constructor].
  - rewrite (lay_next _ _ HL). destruct (k' ++ eqc :: v1') as [|c b] eqn:EB; [destruct k'; discriminate|].
    assert (EC : Ascii.eqb c "[" = false).
    { apply Ascii.eqb_neq. intros ->. destruct k'; cbn in EB; [injection EB as EB _; discriminate|]. injection EB as -> _. now apply HH. }
    rewrite EC, <- EB. rewrite (parse_pair k k' v1 v1') by assumption. rewrite depth_brackets, <- app_assoc, (continue_ok _ _ _ HC).
    destruct HK as (K1 & _ & K3 & _). rewrite in_section_put by assumption. cbn [meaning perform].
    destruct (perform1 f _ o) as [o' [u| |]].
    + apply IH; [|assumption]. cbn [List.length app] in HF. rewrite !app_length in *. lia.
    + exists (S (List.length rest)), []. repeat split; [lia|constructor].
    + exists (S (List.length rest)), []. repeat split; [lia|constructor].
Qed.
Lemma read_perform f d ls : writes d ls -> forall fuel sec o, List.length ls < fuel -> good_path sec ->
  read_lines fuel f sec ls o = perform f (meaning sec d) o.
Proof.
  intros HW fuel sec o HF HG. destruct (read_perform_rest f d ls HW [] fuel sec o) as (fuel' & sec' & F & _ & E); [rewrite app_nil_r; assumption|assumption|].
  rewrite app_nil_r in E. rewrite E. destruct (perform f (meaning sec d) o) as [o' [[]| |]]; try reflexivity. destruct fuel'; [lia|reflexivity].
Qed.
Lemma lines_of_line l ls : one_line l -> lines_of (l ++ newline :: ls) = l :: lines_of ls.
Proof.
  unfold one_line. induction l as [|c l IH]; intros H; cbn [app lines_of].
  - now rewrite Ascii.eqb_refl.
  - assert (E : Ascii.eqb c newline = false) by (apply Ascii.eqb_neq; intros ->; apply H; now left). rewrite E, IH; [reflexivity|]. intros X. apply H. now right.
Qed.
Lemma lines_of_last l : one_line l -> lines_of l = [l].
Proof.
  unfold one_line. induction l as [|c l IH]; intros H; cbn [lines_of]; [reflexivity|].
  assert (E : Ascii.eqb c newline = false) by (apply Ascii.eqb_neq; intros ->; apply H; now left). rewrite E, IH; [reflexivity|]. intros X. apply H. now right.
Qed.
Lemma lines_of_text ls : ls <> [] -> Forall one_line ls -> lines_of (text_of ls) = ls.
Proof.
  intros N F. induction F as [|l ls Hl F IH]; [congruence|]. destruct ls as [|m ls]; [now apply lines_of_last|].
  change (text_of (l :: m :: ls)) with (l ++ newline :: text_of (m :: ls)). rewrite lines_of_line by assumption. rewrite IH by discriminate. reflexivity.
Qed.
Lemma text_lines t : text_of (lines_of t) = t /\ Forall one_line (lines_of t) /\ lines_of t <> [].
Proof.
  induction t as [|c t (I1 & I2 & I3)]; cbn [lines_of].
  - repeat split; [|discriminate]. repeat constructor. intros [].
  - destruct (Ascii.eqb c newline) eqn:E.
    + apply Ascii.eqb_eq in E. subst c. split; [|split; [|discriminate]].
      * destruct (lines_of t) as [|l ls] eqn:EL; [congruence|]. change (text_of ([] :: l :: ls)) with (newline :: text_of (l :: ls)). now rewrite I1.
      * constructor; [intros []|assumption].
    + apply Ascii.eqb_neq in E. destruct (lines_of t) as [|l ls]; [congruence|]. split; [|split; [|discriminate]].
      * rewrite <- I1. destruct ls; reflexivity.
      * inversion I2; subst. constructor; [|assumption]. intros [X|X]; [congruence|contradiction].
Qed.
Lemma read_doc f d ls o : writes d ls -> ls <> [] -> Forall one_line ls -> read f (text_of ls) o = perform f (meaning [] d) o.
Proof. intros HW N F. unfold read. rewrite lines_of_text by assumption. apply read_perform; [assumption|lia|constructor]. Qed.

(** * Malformed lines *)
Lemma unclosed_throws v ls : unclosed v ls -> continue_value (depth v) v ls = Throw.
Proof.
  induction 1 as [v Hd|v b l ls Hd HL HU IH]; cbn [continue_value]; assert (E : (0 <? depth v)%Z = true) by (apply Z.ltb_lt; lia); rewrite E; [reflexivity|].
  rewrite (lay_next _ _ HL), depth_brackets, <- depth_app. exact IH.
Qed.
Lemma trim_in cs s c : In c s -> ~ In c cs -> In c (trim s cs).
Proof.
  intros H N. destruct (trim_spec s cs) as (p & q & E & Fp & Fq & _). rewrite E in H. rewrite !in_app_iff in H. rewrite Forall_forall in Fp, Fq.
  destruct H as [H|[H|H]]; [|assumption|]; exfalso; auto.
Qed.
Lemma trim_all cs s : Forall (fun c => In c cs) s -> trim s cs = [].
Proof. intros H. apply trim_pad; [split; [exact I|now left]|]. exists s, []. rewrite app_nil_r. auto. Qed.
Lemma malformed_throws f ls : malformed ls -> forall fuel sec o, List.length ls < fuel -> snd (read_lines fuel f sec ls o) = Throw.
Proof.
  intros H fuel sec o HF. destruct fuel as [|fuel]; [lia|].
  destruct H as [s l ls HL HN|s l ls HL HA|k' v l ls HL HK|k' v l ls HL HE HH HC|k k' v v' l ls HK HP HV HPv HH HL HU]; cbn [read_lines]; rewrite (lay_next _ _ HL).
  - change (Ascii.eqb "[" "[") with true. cbv iota. destruct (find_last (Ascii.eqb "]") ("["%char :: s) 0 None) eqn:EF; [|reflexivity].
    exfalso. pose proof (find_last_spec (Ascii.eqb "]") ("["%char :: s) 0 None) as S. rewrite EF in S. destruct S as [(p & c & q & E & _ & Ec & _)|[E _]]; [|discriminate].
    apply Ascii.eqb_eq in Ec. subst c. destruct p as [|x p]; [discriminate|]. injection E as _ ->. apply HN. rewrite in_app_iff. right. now left.
  - change (Ascii.eqb "[" "[") with true. cbv iota.
    destruct (find_last (Ascii.eqb "]") ("["%char :: s ++ ["]"%char]) 0 None) eqn:EF; [|reflexivity].
    rewrite trim_all; [reflexivity|]. constructor; [now left|]. apply Forall_app. split; [|constructor; [right; now left|constructor]].
    eapply Forall_impl; [|exact HA]. intros c [-> | ->]; cbn; auto.
  - assert (N : ~ In eqc k'). { intros X. rewrite Forall_forall in HK. specialize (HK _ X). cbn in HK. destruct HK as [H|[H|[H|[H|[H|[]]]]]]; discriminate. }
    destruct (k' ++ eqc :: v) as [|c b] eqn:EB; [destruct k'; discriminate|].
    assert (EC : Ascii.eqb c "[" = false).
    { apply Ascii.eqb_neq. intros ->. destruct k' as [|x k']; cbn in EB; [injection EB as EB _; discriminate|]. injection EB as -> _. inversion HK as [|? ? X _]; subst.
      cbn in X. destruct X as [H|[H|[H|[H|[H|[]]]]]]; discriminate. }
    rewrite EC, <- EB. unfold parse. rewrite find_first_app' by assumption. cbn [Nat.add]. rewrite firstn_mid, (trim_all _ _ HK). reflexivity.
  - destruct (k' ++ eqc :: v) as [|c b] eqn:EB; [destruct k'; discriminate|].
    assert (EC : Ascii.eqb c "[" = false).
    { apply Ascii.eqb_neq. intros ->. destruct k' as [|x k']; cbn in EB; [injection EB as EB _; discriminate|]. injection EB as -> _. now apply HH. }
    rewrite EC, <- EB. unfold parse. rewrite find_first_app' by assumption. cbn [Nat.add]. rewrite firstn_mid.
    assert (X : In colon (trim k' quote_ws)). { apply trim_in; [assumption|]. cbn. intros [H|[H|[H|[H|[H|[]]]]]]; discriminate. }
    destruct (trim k' quote_ws) as [|x t] eqn:ET; [destruct X|].
    destruct (find_first (Ascii.eqb colon) (x :: t) 0) eqn:EF; [reflexivity|]. exfalso. revert X. eapply find_first_none_inv. exact EF.
  - destruct (k' ++ eqc :: v') as [|c b] eqn:EB; [destruct k'; discriminate|].
    assert (EC : Ascii.eqb c "[" = false).
    { apply Ascii.eqb_neq. intros ->. destruct k' as [|x k']; cbn in EB; [injection EB as EB _; discriminate|]. injection EB as -> _. now apply HH. }
    rewrite EC, <- EB. rewrite (parse_pair k k' v v') by assumption. rewrite depth_brackets, (unclosed_throws _ _ HU). reflexivity.
Qed.
Lemma read_malformed f d ls bad o : writes d ls -> malformed bad -> Forall one_line (ls ++ bad) ->
  snd (perform f (meaning [] d) o) <> UB -> snd (read f (text_of (ls ++ bad)) o) = Throw.
Proof.
  intros HW HB F NU. unfold read. rewrite lines_of_text; [|destruct HB, ls; discriminate|assumption].
  destruct (read_perform_rest f d ls HW bad (S (List.length (ls ++ bad))) [] o) as (fu & sec & F1 & _ & ->); [lia|constructor|].
  destruct (perform f (meaning [] d) o) as [o' [[]| |]]; cbn [snd] in *; [|reflexivity|congruence]. now apply malformed_throws.
Qed.
