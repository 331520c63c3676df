(** C84: the command line. *)
From Coq Require Import Ascii String List Arith Bool ZArith Lia.
From Verif Require Import Base StringsModel StringsSpec OptionsModel OptionsSpec OptionsProofs IniModel IniSpec IniProps CmdlineModel CmdlineSpec CmdlineProofs.
Import ListNotations.

(** Arguments without help words: every switch is understood, in any order and number, the last value counts; the other
    arguments and the values of switches go on to the options. The same file for input and output is refused. *)
Theorem C84_understood : forall prog ws, prog <> [] -> Forall proper ws ->
  (forall a, In a (flat_map written_as ws) -> ~ In a help_words /\ ~ In a help_on) ->
  parseCommandLineArgs (prog :: flat_map written_as ws) =
    let input := last_given input_of (chars "BOUT.inp") ws in
    let settings := last_given settings_of (chars "BOUT.settings") ws in
    if list_eq_dec ascii_dec settings input then Bad
    else Args (mkCla (4 + count louder ws - count quieter ws) (existsb colored ws) (last_given dir_of (chars "data") ws) input settings
                (last_given log_of (chars "BOUT.log") ws) (prog :: filter nonempty (flat_map handed_on ws))).
Proof.
  intros prog ws HP HW HH. rewrite parse_words by assumption. unfold result_of. cbv zeta. cbn [verbosity color_output data_dir opt_file set_file log_file orb].
  destruct (list_eq_dec ascii_dec _ _) as [E|E]; [rewrite E, str_eqb_refl; reflexivity|]. apply str_eqb_neq in E. rewrite E. reflexivity.
Qed.
(** Every list of arguments without help words is of this form, or ends with a switch whose value is missing, and that is refused. *)
Theorem C84_all_arguments : forall prog args, prog <> [] -> (forall a, In a args -> ~ In a help_words /\ ~ In a help_on) ->
  exists ws, Forall proper ws /\
    (args = flat_map written_as ws \/ exists sw, In sw with_value /\ args = flat_map written_as ws ++ [sw] /\ parseCommandLineArgs (prog :: args) = Bad).
Proof.
  intros prog args HP HH. destruct (words_exist _ args (le_n _)) as (ws & W & [E|(sw & S & E)]); exists ws; split; try exact W; [left; exact E|right].
  exists sw. split; [exact S|]. split; [exact E|]. unfold parseCommandLineArgs. cbn [tl]. rewrite early_none by exact HH. rewrite E, scan_missing by assumption. reflexivity.
Qed.
(** A help word anywhere ends the program, whatever stands before or after it (even as the value of a switch); a help word about
    a type needs an argument. *)
Theorem C84_help : forall prog before a rest, (forall b, In b before -> ~ In b help_words /\ ~ In b help_on) ->
  (In a help_words -> parseCommandLineArgs (prog :: before ++ a :: rest) = Exits) /\
  (In a help_on -> parseCommandLineArgs (prog :: before ++ a :: rest) = match rest with [] => Bad | _ => Exits end).
Proof.
  intros prog before a rest HB. unfold parseCommandLineArgs. cbn [tl]. rewrite early_skip by exact HB. split; intros H; [rewrite early_word by exact H; reflexivity|].
  rewrite early_on by exact H. destruct rest; reflexivity.
Qed.
(** The settings made by a command line: those of its switches and of its other arguments, in order. *)
Theorem C84_settings : forall prog ss a o, prog <> [] -> Forall good_segment ss -> parseCommandLineArgs (prog :: typed ss) = Args a ->
  (forall x, In x (typed ss) -> ~ In x help_words /\ ~ In x help_on) ->
  parseCommandLine (cargv a) o = perform (chars "Command line") (flat_map makes ss) o.
Proof.
  intros prog ss a o HP HG E HH. unfold typed in *. rewrite C84_understood in E by (try assumption; apply segments_words; exact HG). cbv zeta in E.
  destruct (list_eq_dec ascii_dec _ _); [discriminate E|]. injection E as <-. cbn [cargv]. apply C16_commandline_performs. apply segments_commands. exact HG.
Qed.

(** Where the files are. If the directory, input and settings file are chosen with switches only, then the directory of the
    log and of the input file is that of the settings file and of the rest of the output, and the input file is not overwritten. *)
Lemma text_entry o name d : text_or o name d = match entry_at [name] o with
  | Some (Some (VS s), _) => s | Some (Some (VB true), _) => chars "true" | Some (Some (VB false), _) => chars "false" | _ => d end.
Proof.
  unfold text_or, entry_at, info_at, node_at, entry. destruct (find_child name (kids o)) as [c|]; [|reflexivity]. destruct (i_sect (inf c)); [reflexivity|].
  destruct (i_val (inf c)) as [[|[]]|]; reflexivity.
Qed.
Definition switch_names : list path := [[chars "datadir"]; [chars "settingsfile"]; [chars "optionfile"]].
Definition by_switch_only (s : segment) : Prop := match s with Sets acts _ => forall p w, In p switch_names -> ~ In (Put p w) acts | _ => True end.
Lemma given_app sel d a b : last_given sel d (a ++ b) = last_given sel (last_given sel d a) b.
Proof. revert d. induction a as [|w a IH]; intros d; [reflexivity|]. cbn [app last_given]. apply IH. Qed.
Lemma given_others sel d args : (forall a, sel (Other a) = None) -> last_given sel d (map Other args) = d.
Proof. intros H. induction args as [|a args IH]; [reflexivity|]. cbn [map last_given]. rewrite H. exact IH. Qed.
Lemma put_extend key v acts more : (forall w, ~ In (Put [key] w) more) -> last_put [key] v acts -> last_put [key] v (more ++ acts).
Proof. intros H (b & a & -> & L). exists (more ++ b), a. split; [rewrite app_assoc; reflexivity|exact L]. Qed.
Lemma last_puts (sel : word -> option str) (key : str) ss : (forall a, sel (Other a) = None) -> Forall good_segment ss ->
  (forall w, match sel w with Some v => makes (Switch w) = [Put [key] (VS v)] | None => forall x, ~ In (Put [key] x) (makes (Switch w)) end) ->
  Forall (fun s => match s with Sets acts _ => forall w, ~ In (Put [key] w) acts | _ => True end) ss -> forall d,
  (never_put [key] (flat_map makes ss) /\ last_given sel d (flat_map segment_words ss) = d) \/
  last_put [key] (VS (last_given sel d (flat_map segment_words ss))) (flat_map makes ss).
Proof.
  intros HO HG HS HN. induction HG as [|s ss Hs HG IH]; intros d; [left; split; [intros w []|reflexivity]|]. inversion HN as [|? ? HN1 HN2]; subst. specialize (IH HN2).
  cbn [flat_map]. rewrite given_app.
  assert (Q : (forall x, ~ In (Put [key] x) (makes s)) -> last_given sel d (segment_words s) = d ->
    never_put [key] (makes s ++ flat_map makes ss) /\ last_given sel (last_given sel d (segment_words s)) (flat_map segment_words ss) = d \/
    last_put [key] (VS (last_given sel (last_given sel d (segment_words s)) (flat_map segment_words ss))) (makes s ++ flat_map makes ss)).
  { intros N1 ->. destruct (IH d) as [[N2 E]|L]; [left; split; [|exact E]|right; apply put_extend; assumption].
    intros w Hw. apply in_app_or in Hw. destruct Hw as [Hw|Hw]; [exact (N1 w Hw)|exact (N2 w Hw)]. }
  destruct s as [w|acts args]; [|apply Q; [exact HN1|apply given_others; exact HO]].
  cbn [segment_words last_given] in *. specialize (HS w). destruct (sel w) as [v|]; [|apply Q; [exact HS|reflexivity]].
  right. rewrite HS. destruct (IH v) as [[N2 ->]|(b & a & E & L)].
  - exists [], (flat_map makes ss). split; [reflexivity|exact N2].
  - exists (Put [key] (VS v) :: b), a. rewrite E. split; [reflexivity|exact L].
Qed.
Theorem C84_files_agree : forall inp prog ss root o' fs, prog <> [] -> Forall good_segment ss -> wf root ->
  (forall x, In x (typed ss) -> ~ In x help_words /\ ~ In x help_on) ->
  Forall by_switch_only ss ->
  BoutInitialise inp (prog :: typed ss) root = Ok (o', fs) ->
  (forall o1, read (read_dir fs ++ chars "/" ++ read_file fs) (inp (read_dir fs) (read_file fs)) root = (o1, Ok tt) ->
     forall p, In p switch_names -> entry_at p o1 = None) ->
  read_dir fs = last_given dir_of (chars "data") (flat_map segment_words ss) /\ read_file fs = last_given input_of (chars "BOUT.inp") (flat_map segment_words ss) /\
  written_dir fs = read_dir fs /\ log_dir fs = read_dir fs /\ written_file fs <> read_file fs.
Proof.
  intros inp prog ss root o' fs HP HG HW HH HB E HF. unfold BoutInitialise in E. pose proof (fun o a => C84_settings prog ss a o HP HG) as CS. unfold typed in *.
  rewrite C84_understood in * by (try assumption; apply segments_words; exact HG). cbv zeta in *.
  destruct (list_eq_dec ascii_dec _ _) as [|NE]; [discriminate E|]. cbn [data_dir opt_file set_file cargv] in E.
  destruct (read _ _ _) as [o1 [[]| |]] eqn:ER; try discriminate E.
  specialize (CS o1 _ eq_refl HH). cbn [cargv] in CS. pose proof CS as CS1.
  destruct (parseCommandLine _ o1) as [o2 [[]| |]] eqn:EP; try discriminate E. injection E as <- <-. cbn [read_dir read_file log_dir written_dir written_file] in *.
  pose proof (HF o1 ER) as N1. match type of ER with read ?f ?t _ = _ => pose proof (proj1 (C16_any_text f t root HW)) as W1; rewrite ER in W1; cbn [fst] in W1 end.
  assert (EV := C16_commandline_values prog (flat_map makes ss) (filter nonempty (flat_map handed_on (flat_map segment_words ss))) o1 o2 W1 (segments_commands ss HG) EP). destruct EV as (_ & V1 & V2).
  assert (D : text_or o2 (chars "datadir") (chars "data") = last_given dir_of (chars "data") (flat_map segment_words ss)).
  { rewrite text_entry. destruct (last_puts dir_of (chars "datadir") ss) with (d := chars "data") as [[A B]|A]; try assumption.
    - reflexivity.
    - intros w. destruct w; cbn; try reflexivity; intros x A; intuition discriminate.
    - eapply Forall_impl; [|exact HB]. intros s Hs. destruct s; [exact I|]. intros w. apply Hs. cbn. tauto.
    - rewrite V2 by exact A. rewrite (N1 [chars "datadir"]) by (cbn; tauto). symmetry. exact B.
    - rewrite (V1 _ _ A). reflexivity. }
  assert (S : text_or o2 (chars "settingsfile") (last_given settings_of (chars "BOUT.settings") (flat_map segment_words ss)) = last_given settings_of (chars "BOUT.settings") (flat_map segment_words ss)).
  { rewrite text_entry. destruct (last_puts settings_of (chars "settingsfile") ss) with (d := chars "BOUT.settings") as [[A B]|A]; try assumption.
    - reflexivity.
    - intros w. destruct w; cbn; try reflexivity; intros x A; intuition discriminate.
    - eapply Forall_impl; [|exact HB]. intros s Hs. destruct s; [exact I|]. intros w. apply Hs. cbn. tauto.
    - rewrite V2 by exact A. rewrite (N1 [chars "settingsfile"]) by (cbn; tauto). reflexivity.
    - rewrite (V1 _ _ A). reflexivity. }
  split; [reflexivity|]. split; [reflexivity|]. split; [exact D|]. split; [reflexivity|]. intros X. apply NE. etransitivity; [symmetry; exact S|exact X].
Qed.

(** ** What is not so. *)
Definition no_file (_ _ : str) : str := [].
(** The long form of a switch is not the same as the switch: datadir=run makes the program read its input from data. *)
Theorem C84_long_form_refuted : exists args o' fs, args = [chars "prog"; chars "datadir=run"] /\ BoutInitialise no_file args root0 = Ok (o', fs) /\
  written_dir fs = chars "run" /\ read_dir fs = chars "data" /\ log_dir fs = chars "data".
Proof. eexists. eexists. eexists. split; [reflexivity|]. split; [vm_compute; reflexivity|]. repeat split; reflexivity. Qed.
(** The check that the settings do not overwrite the input file is not made for the long form: here they do. *)
Theorem C84_overwrites_input_refuted : exists args o' fs, args = [chars "prog"; chars "settingsfile=BOUT.inp"] /\ BoutInitialise no_file args root0 = Ok (o', fs) /\
  written_dir fs = read_dir fs /\ written_file fs = read_file fs.
Proof. eexists. eexists. eexists. split; [reflexivity|]. split; [vm_compute; reflexivity|]. split; reflexivity. Qed.
(** An empty value of a switch is lost, and the switch takes the next argument in the options. *)
Theorem C84_empty_value_refuted : exists args o' fs, args = map chars ["prog"; "-d"; ""; "restart"]%string /\ BoutInitialise no_file args root0 = Ok (o', fs) /\
  read_dir fs = [] /\ written_dir fs = chars "restart" /\ entry_at [chars "restart"] o' = None.
Proof. eexists. eexists. eexists. split; [reflexivity|]. split; [vm_compute; reflexivity|]. repeat split; reflexivity. Qed.
(** A switch that the help text lists does not exist: it sets an option. *)
Theorem C84_documented_switch_refuted : exists o' fs, BoutInitialise no_file (map chars ["prog"; "--list-laplacexz"]%string) root0 = Ok (o', fs) /\
  entry_at [chars "-list-laplacexz"] o' = Some (Some (VB true), Some (chars "Command line")).
Proof. eexists. eexists. split; [vm_compute; reflexivity|]. reflexivity. Qed.

(** A case that meets the hypotheses. *)
Definition ex_segments : list segment :=
  [Switch (Dir (chars "run")); Switch (Louder true); Sets [Put [chars "restart"] (VB true); Put [chars "nout"] (VS (chars "5"))] (map chars ["restart"; "nout=5"]%string);
   Switch (Input (chars "in")); Switch (Log false (chars "l"))].
Example C84_case : Forall good_segment ex_segments /\ Forall by_switch_only ex_segments /\ (forall x, In x (typed ex_segments) -> ~ In x help_words /\ ~ In x help_on) /\
  exists o' fs, BoutInitialise no_file (chars "prog" :: typed ex_segments) root0 = Ok (o', fs) /\ fs = mkFiles (chars "run") (chars "in") (chars "run") (chars "run") (chars "BOUT.settings").
Proof.
  assert (V : forall v, In v (map chars ["run"; "in"; "l"; "5"]%string) -> cmd_value v).
  { intros v Hv. cbn [map In] in Hv. destruct Hv as [<-|[<-|[<-|[<-|[]]]]]; (split; [discriminate|]; split; [cbn; intuition discriminate|]; split; [cbn; intuition discriminate|apply ends_by; cbn; intuition discriminate]). }
  assert (N : forall v, In v (map chars ["restart"; "nout"]%string) -> cmd_name [v]).
  { intros v Hv. cbn [map In] in Hv. destruct Hv as [<-|[<-|[]]]; (apply simple_name; [discriminate|cbn; intuition discriminate|cbn; intuition discriminate|split; [cbn; intuition discriminate|apply ends_by; cbn; intuition discriminate]|discriminate]). }
  split; [|split; [|split]].
  - unfold ex_segments. repeat apply Forall_cons; [| | | | |apply Forall_nil]; cbn [good_segment]; try (apply V; cbn; tauto); try exact I. split.
    + cbn [map]. apply (cm_flag [chars "restart"] (chars "restart")); [apply N; cbn; tauto|left; reflexivity|].
      apply (cm_joined [chars "nout"] (chars "nout") (chars "5")); [apply N; cbn; tauto|left; reflexivity|apply V; cbn; tauto|constructor].
    + repeat constructor; cbn; intuition discriminate.
  - unfold ex_segments. repeat (constructor; [cbn [by_switch_only]; try exact I|]); [|constructor]. intros p w Hp Hw. cbn [In] in Hw. destruct Hw as [Hw|[Hw|[]]]; injection Hw as <- _; cbn in Hp; intuition discriminate.
  - intros x Hx. cbn in Hx. repeat (destruct Hx as [<-|Hx]; [split; cbn; intuition discriminate|]). destruct Hx.
  - eexists. eexists. split; [vm_compute; reflexivity|reflexivity].
Qed.

Print Assumptions C84_understood.
Print Assumptions C84_all_arguments.
Print Assumptions C84_help.
Print Assumptions C84_settings.
Print Assumptions C84_files_agree.
Print Assumptions C84_long_form_refuted.
Print Assumptions C84_overwrites_input_refuted.
Print Assumptions C84_empty_value_refuted.
Print Assumptions C84_documented_switch_refuted.
