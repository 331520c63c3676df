(** Proofs about the command line. *)
From Coq Require Import Ascii String List Arith Bool ZArith Lia.
From Verif Require Import Base StringsModel StringsSpec OptionsModel OptionsSpec OptionsProofs IniModel IniSpec CmdlineModel CmdlineSpec.
Import ListNotations.

Ltac notsw H := let E := fresh in match goal with |- context [str_eqb ?a ?b] => destruct (str_eqb a b) eqn:E; [apply str_eqb_eq in E; exfalso; apply H; rewrite E; cbn; tauto|clear E] end.

Definition slots (w : word) : list str := match w with Louder _ | Quieter _ | Color _ => [[]] | _ => handed_on w end.
Definition result_of (ws : list word) (st : cla) : cla :=
  mkCla (verbosity st + count louder ws - count quieter ws) (color_output st || existsb colored ws)
    (last_given dir_of (data_dir st) ws) (last_given input_of (opt_file st) ws) (last_given settings_of (set_file st) ws) (last_given log_of (log_file st) ws)
    (cargv st ++ flat_map slots ws).
Lemma count_cons p w ws : count p (w :: ws) = ((if p w then 1 else 0) + count p ws)%Z.
Proof. unfold count. cbn [filter]. destruct (p w); cbn [List.length]; lia. Qed.
Lemma scan_words ws : Forall proper ws -> forall f st, List.length (flat_map written_as ws) < f -> scan f (flat_map written_as ws) st = Args (result_of ws st).
Proof.
  induction 1 as [|w ws Hw _ IH]; intros f st Hf.
  - destruct f; [lia|]. cbn [flat_map scan]. unfold result_of. cbn [flat_map last_given existsb]. rewrite app_nil_r, orb_false_r. unfold count. cbn. destruct st; f_equal; f_equal; cbn; lia.
  - destruct f as [|f]; [cbn in Hf; lia|]. cbn [flat_map] in *. rewrite app_length in Hf.
    assert (E : scan (S f) (written_as w ++ flat_map written_as ws) st = scan f (flat_map written_as ws) (mkCla (verbosity st + (if louder w then 1 else 0) - (if quieter w then 1 else 0)) (color_output st || colored w)
        (match dir_of w with Some v => v | None => data_dir st end) (match input_of w with Some v => v | None => opt_file st end)
        (match settings_of w with Some v => v | None => set_file st end) (match log_of w with Some v => v | None => log_file st end) (cargv st ++ slots w))).
    { destruct w as [v|v|v|[] v|[]|[]|[]|a]; cbn [written_as app louder quieter colored dir_of input_of settings_of log_of slots handed_on]; rewrite ?orb_false_r, ?orb_true_r, ?Z.add_0_r, ?Z.sub_0_r; try reflexivity.
      cbn [scan]. cbn [proper] in Hw. repeat notsw Hw. cbn [orb]. unfold push. reflexivity. }
    rewrite E, IH by (assert (1 <= List.length (written_as w)) by (destruct w; cbn; lia); lia). unfold result_of. cbn [verbosity color_output data_dir opt_file set_file log_file cargv].
    rewrite !count_cons. cbn [last_given existsb flat_map]. rewrite <- !app_assoc, orb_assoc. f_equal. f_equal. lia.
Qed.
Lemma scan_missing ws sw : Forall proper ws -> In sw with_value -> forall f st, scan f (flat_map written_as ws ++ [sw]) st = Bad.
Proof.
  intros HP HS. induction HP as [|w ws Hw _ IH]; intros f st.
  - destruct f; [reflexivity|]. cbn [flat_map app]. unfold with_value in HS. cbn [map In] in HS. destruct HS as [<-|[<-|[<-|[<-|[<-|[]]]]]]; reflexivity.
  - destruct f as [|f]; [reflexivity|]. cbn [flat_map]. rewrite <- app_assoc. destruct w as [v|v|v|[] v|[]|[]|[]|a]; cbn [written_as app]; try (apply IH).
    cbn [scan]. cbn [proper] in Hw. repeat notsw Hw. cbn [orb]. apply IH.
Qed.
(** Every list of arguments is a list of words, or such a list and a switch without its value. *)
Lemma words_exist : forall n args, List.length args <= n -> exists ws, Forall proper ws /\ (args = flat_map written_as ws \/ exists sw, In sw with_value /\ args = flat_map written_as ws ++ [sw]).
Proof.
  induction n as [|n IH]; intros args Hn.
  { destruct args; [|cbn in Hn; lia]. exists []. split; [constructor|left; reflexivity]. }
  destruct args as [|a args]; [exists []; split; [constructor|left; reflexivity]|].
  assert (WV : forall (mk : str -> word), (forall v, written_as (mk v) = [a; v]) -> (forall v, proper (mk v)) -> In a with_value ->
    exists ws, Forall proper ws /\ (a :: args = flat_map written_as ws \/ exists sw, In sw with_value /\ a :: args = flat_map written_as ws ++ [sw])).
  { intros mk M1 M2 Ha. destruct args as [|v args]; [exists []; split; [constructor|right; exists a; split; [exact Ha|reflexivity]]|].
    destruct (IH args ltac:(cbn in Hn; lia)) as (ws & P & E). exists (mk v :: ws). split; [constructor; auto|]. cbn [flat_map]. rewrite M1.
    destruct E as [->|(sw & S & ->)]; [left; reflexivity|right; exists sw; split; [exact S|reflexivity]]. }
  assert (WN : forall w, written_as w = [a] -> proper w -> exists ws, Forall proper ws /\ (a :: args = flat_map written_as ws \/ exists sw, In sw with_value /\ a :: args = flat_map written_as ws ++ [sw])).
  { intros w M1 M2. destruct (IH args ltac:(cbn in Hn; lia)) as (ws & P & E). exists (w :: ws). split; [constructor; auto|]. cbn [flat_map]. rewrite M1.
    destruct E as [->|(sw & S & ->)]; [left; reflexivity|right; exists sw; split; [exact S|reflexivity]]. }
  destruct (in_dec (list_eq_dec ascii_dec) a switches) as [H|H]; [|apply (WN (Other a)); [reflexivity|exact H]].
  unfold switches in H. cbn [map In] in H. destruct H as [<-|[<-|[<-|[<-|[<-|[<-|[<-|[<-|[<-|[<-|[<-|[]]]]]]]]]]]].
  - apply (WV Dir); [reflexivity|intros; exact I|cbn; tauto].
  - apply (WV Input); [reflexivity|intros; exact I|cbn; tauto].
  - apply (WV Settings); [reflexivity|intros; exact I|cbn; tauto].
  - apply (WV (Log false)); [reflexivity|intros; exact I|cbn; tauto].
  - apply (WV (Log true)); [reflexivity|intros; exact I|cbn; tauto].
  - apply (WN (Louder false)); [reflexivity|exact I].
  - apply (WN (Louder true)); [reflexivity|exact I].
  - apply (WN (Quieter false)); [reflexivity|exact I].
  - apply (WN (Quieter true)); [reflexivity|exact I].
  - apply (WN (Color false)); [reflexivity|exact I].
  - apply (WN (Color true)); [reflexivity|exact I].
Qed.
(** The help words. *)
Lemma factory_none arg b : ~ In arg help_words -> ~ In arg help_on -> factory_help factories arg b = None.
Proof.
  intros H1 H2. unfold factories. cbn [map fst snd factory_help].
  repeat (match goal with |- context [str_eqb ?x ?y] => destruct (str_eqb x y) eqn:E; [apply str_eqb_eq in E; exfalso; (apply H1; rewrite E; cbn; tauto) || (apply H2; rewrite E; cbn; tauto)|clear E] end). reflexivity.
Qed.
Lemma early_none args : (forall a, In a args -> ~ In a help_words /\ ~ In a help_on) -> early args = None.
Proof.
  induction args as [|a args IH]; intros H; [reflexivity|]. destruct (H a ltac:(left; reflexivity)) as [H1 H2]. cbn [early].
  repeat notsw H1. cbn [orb]. rewrite factory_none by assumption. apply IH. intros b Hb. apply H. right. exact Hb.
Qed.
Lemma early_word a rest : In a help_words -> early (a :: rest) = Some Exits.
Proof. intros H. unfold help_words in H. cbn [map In] in H. repeat (destruct H as [<-|H]; [destruct rest; reflexivity|]). destruct H. Qed.
Lemma early_on a rest : In a help_on -> early (a :: rest) = Some (match rest with [] => Bad | _ => Exits end).
Proof. intros H. unfold help_on in H. cbn [map In] in H. repeat (destruct H as [<-|H]; [destruct rest; reflexivity|]). destruct H. Qed.
Lemma early_skip before a rest : (forall b, In b before -> ~ In b help_words /\ ~ In b help_on) -> early (before ++ a :: rest) = early (a :: rest).
Proof.
  induction before as [|b before IH]; intros H; [reflexivity|]. destruct (H b ltac:(left; reflexivity)) as [H1 H2]. cbn [app]. transitivity (early (before ++ a :: rest)).
  { cbn [early]. repeat notsw H1. cbn [orb]. rewrite factory_none by assumption. reflexivity. }
  apply IH. intros c Hc. apply H. right. exact Hc.
Qed.
Lemma erase_slots ws : erase (flat_map slots ws) = filter nonempty (flat_map handed_on ws).
Proof. change (filter nonempty (flat_map slots ws) = filter nonempty (flat_map handed_on ws)). induction ws as [|w ws IH]; [reflexivity|]. cbn [flat_map]. rewrite !filter_app, IH. destruct w; reflexivity. Qed.

(** ** Settings. *)
Lemma commands_app a1 l1 : commands a1 l1 -> forall a2 l2, commands a2 l2 -> commands (a1 ++ a2) (l1 ++ l2).
Proof. induction 1; intros a2 l2 HH; cbn [app]; [exact HH| | | | | |]; constructor; auto. Qed.
Lemma cmd_name_nonempty p n : cmd_name p -> dashed (path_name p) n -> n <> [].
Proof.
  intros (NE & F & HD) [->| ->]; [|discriminate]. destruct p as [|x p]; [contradiction|]. inversion F as [|? ? (N1 & _) _]. destruct p; cbn; [exact N1|]. destruct x; [contradiction|discriminate].
Qed.
Lemma filter_cons_ne (s : str) l : s <> [] -> filter nonempty (s :: l) = s :: filter nonempty l.
Proof. intros H. destruct s; [contradiction|reflexivity]. Qed.
Lemma commands_erase acts args : commands acts args -> commands acts (filter nonempty args).
Proof.
  induction 1 as [|acts args H IH|p n acts args HN HD H IH|p n v acts args HN HD HV H IH|p n v acts args HN HD HV H IH|p n v acts args HN HD HV H IH|p n v acts args HN HD HV H IH].
  - constructor.
  - exact IH.
  - rewrite filter_cons_ne by (eapply cmd_name_nonempty; eassumption). constructor; assumption.
  - rewrite filter_cons_ne by (destruct n; discriminate). constructor; assumption.
  - rewrite filter_cons_ne by (destruct n; discriminate). rewrite filter_cons_ne by apply HV. constructor; assumption.
  - rewrite filter_cons_ne by (eapply cmd_name_nonempty; eassumption). rewrite filter_cons_ne by discriminate. constructor; assumption.
  - rewrite filter_cons_ne by (eapply cmd_name_nonempty; eassumption). rewrite filter_cons_ne by discriminate. rewrite filter_cons_ne by apply HV. constructor; assumption.
Qed.
Lemma handed_others args : flat_map handed_on (map Other args) = args.
Proof. induction args as [|a args IH]; [reflexivity|]. cbn [map flat_map handed_on app]. rewrite IH. reflexivity. Qed.
Lemma simple_name n : n <> [] -> ~ In colon n -> ~ In eqc n -> bare ws_trim n -> hd zero n <> dash -> cmd_name [n].
Proof. intros. split; [discriminate|]. split; [constructor; [tauto|constructor]|]. exact H3. Qed.
Lemma ends_by (cs s : str) : (match rev s with [] => True | c :: _ => ~ In c cs end) -> ends_outside cs s.
Proof.
  intros H. destruct (rev s) as [|c t] eqn:E.
  - left. rewrite <- (rev_involutive s), E. reflexivity.
  - right. exists (rev t), c. split; [|exact H]. rewrite <- (rev_involutive s), E. reflexivity.
Qed.
Lemma names_good : cmd_name [chars "datadir"] /\ cmd_name [chars "optionfile"] /\ cmd_name [chars "settingsfile"] /\ cmd_name [chars "logfile"].
Proof.
  repeat apply conj; try (apply simple_name; [discriminate|cbn; intuition discriminate|cbn; intuition discriminate|split; [cbn; intuition discriminate|apply ends_by; cbn; intuition discriminate]|discriminate]).
Qed.
Definition no_help (args : list str) : Prop := forall a, In a args -> ~ In a help_words /\ ~ In a help_on.
Lemma segments_words ss : Forall good_segment ss -> Forall proper (flat_map segment_words ss).
Proof.
  induction 1 as [|s ss Hs _ IH]; [constructor|]. cbn [flat_map]. apply Forall_app. split; [|exact IH]. destruct s as [w|acts args]; cbn [segment_words].
  - constructor; [|constructor]. destruct w; cbn; auto.
  - destruct Hs as [_ H]. rewrite Forall_forall in *. intros w Hw. apply in_map_iff in Hw. destruct Hw as (a & <- & Ha). cbn. apply H. exact Ha.
Qed.
Lemma segments_commands ss : Forall good_segment ss -> commands (flat_map makes ss) (filter nonempty (flat_map handed_on (flat_map segment_words ss))).
Proof.
  destruct names_good as (N1 & N2 & N3 & N4).
  induction 1 as [|s ss Hs _ IH]; [constructor|]. cbn [flat_map]. rewrite flat_map_app, filter_app. apply commands_app; [|exact IH].
  destruct s as [w|acts args]; cbn [segment_words makes].
  - cbn [flat_map]. rewrite app_nil_r. destruct w as [v|v|v|b v|b|b|b|a]; cbn [handed_on good_segment] in *; try (constructor; fail); try contradiction; try (rewrite filter_cons_ne by discriminate; rewrite filter_cons_ne by apply Hs; cbn [filter]).
    + apply (cm_after [chars "datadir"] (chars "datadir")); [exact N1|left; reflexivity|exact Hs|constructor].
    + apply (cm_after [chars "optionfile"] (chars "optionfile")); [exact N2|left; reflexivity|exact Hs|constructor].
    + apply (cm_after [chars "settingsfile"] (chars "settingsfile")); [exact N3|left; reflexivity|exact Hs|constructor].
    + apply (cm_after [chars "logfile"] (chars "logfile")); [exact N4|left; reflexivity|exact Hs|constructor].
  - rewrite handed_others. apply commands_erase. apply Hs.
Qed.
Lemma parse_words prog ws : prog <> [] -> Forall proper ws -> no_help (flat_map written_as ws) ->
  parseCommandLineArgs (prog :: flat_map written_as ws) =
    let r := result_of ws (mkCla 4 false (chars "data") (chars "BOUT.inp") (chars "BOUT.settings") (chars "BOUT.log") [prog]) in
    if str_eqb (set_file r) (opt_file r) then Bad
    else Args (mkCla (verbosity r) (color_output r) (data_dir r) (opt_file r) (set_file r) (log_file r) (prog :: filter nonempty (flat_map handed_on ws))).
Proof.
  intros HP HW HH. unfold parseCommandLineArgs. cbn [tl firstn]. rewrite early_none by exact HH. rewrite scan_words by (try exact HW; cbn [List.length]; lia).
  cbv zeta. destruct (str_eqb _ _); [reflexivity|]. f_equal. f_equal. unfold result_of. cbn [cargv]. rewrite <- erase_slots. destruct prog; [contradiction|]. reflexivity.
Qed.
