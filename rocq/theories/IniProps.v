(** C16: input files and command lines reach the Options tree as written. *)
From Coq Require Import Ascii String List Arith Bool ZArith Lia.
From Verif Require Import Base StringsModel StringsSpec OptionsModel OptionsSpec OptionsProofs OptionsProofs2 IniModel IniSpec IniProofs IniProofs2 IniProofs3 IniProofs4.
Import ListNotations.

(** Reading any way of writing a document performs the settings of the document in order, each in its section. *)
Theorem C16_file_performs_document : forall filename d ls o, writes d ls -> ls <> [] -> Forall one_line ls ->
  read filename (text_of ls) o = perform filename (meaning [] d) o.
Proof. exact read_doc. Qed.
Print Assumptions C16_file_performs_document.

(** After a successful read every path set in the document has the last value given to it, with the file as its source, and
    all other paths are as before. *)
Theorem C16_file_values : forall filename d ls o o', wf o -> writes d ls -> ls <> [] -> Forall one_line ls ->
  read filename (text_of ls) o = (o', Ok tt) ->
  wf o' /\
  (forall p v, last_put p v (meaning [] d) -> entry_at p o' = Some (Some v, Some filename)) /\
  (forall p, never_put p (meaning [] d) -> entry_at p o' = entry_at p o).
Proof.
  intros f d ls o o' W HW N F H. rewrite (read_doc f d ls o HW N F) in H.
  destruct (perform_state f _ (writes_good d ls HW [] (Forall_nil _)) o o' _ W H) as (W' & _ & X). destruct (X eq_refl) as (I1 & I2 & _).
  split; [assumption|]. split; [assumption|]. intros p L. unfold entry_at. now rewrite I2.
Qed.
Print Assumptions C16_file_values.

(** The read succeeds exactly when the settings do not contradict each other or the tree; otherwise it throws. *)
Theorem C16_file_accepted : forall filename d ls o, filename <> DEFAULT_SOURCE -> plain_tree filename o -> writes d ls -> ls <> [] -> Forall one_line ls ->
  (snd (read filename (text_of ls) o) = Ok tt <-> consistent (meaning [] d) /\ Forall (fits o) (meaning [] d)).
Proof.
  intros f d ls o ND PT HW N F. rewrite (read_doc f d ls o HW N F). apply perform_success; [assumption|assumption|]. exact (writes_good d ls HW [] (Forall_nil _)).
Qed.
Print Assumptions C16_file_accepted.

(** A document followed by a line that cannot be read, whatever comes after it, is rejected. *)
Theorem C16_malformed_rejected : forall filename d ls bad o, wf o -> writes d ls -> malformed bad -> Forall one_line (ls ++ bad) ->
  snd (read filename (text_of (ls ++ bad)) o) = Throw.
Proof.
  intros f d ls bad o W HW HB F. apply (read_malformed f d ls bad o HW HB F).
  destruct (perform f (meaning [] d) o) as [o' r] eqn:E. now destruct (perform_state f _ (writes_good d ls HW [] (Forall_nil _)) o o' r W E) as (_ & X & _).
Qed.
Print Assumptions C16_malformed_rejected.

(** Whatever the text is: the reader ends normally or by an exception, the tree stays well-formed, every entry is as before
    or comes from this file, and no stored text contains a comment character. *)
Theorem C16_any_text : forall filename text o, wf o ->
  wf (fst (read filename text o)) /\ (snd (read filename text o) = Ok tt \/ snd (read filename text o) = Throw) /\
  only_clean_from filename o (fst (read filename text o)).
Proof.
  intros f t o W. unfold read. destruct (read_calm f (S (List.length (lines_of t))) [] (lines_of t) (Nat.lt_succ_diag_r _) o W) as [X Y].
  split; [assumption|]. split; [|apply read_tidy]. destruct (snd _) as [[]| |]; auto. congruence.
Qed.
Print Assumptions C16_any_text.

(** The command line performs its settings in order, with the source Command line, however the '=' is spaced. *)
Theorem C16_commandline_performs : forall prog acts args o, commands acts args ->
  parseCommandLine (prog :: args) o = perform (chars "Command line") acts o.
Proof. intros prog acts args o H. unfold parseCommandLine. cbn [tl]. apply commands_perform; [assumption|lia]. Qed.
Print Assumptions C16_commandline_performs.

Theorem C16_commandline_values : forall prog acts args o o', wf o -> commands acts args -> parseCommandLine (prog :: args) o = (o', Ok tt) ->
  wf o' /\
  (forall p v, last_put p v acts -> entry_at p o' = Some (Some v, Some (chars "Command line"))) /\
  (forall p, never_put p acts -> entry_at p o' = entry_at p o).
Proof.
  intros prog acts args o o' W HC H. rewrite (C16_commandline_performs prog acts args o HC) in H.
  destruct (perform_state _ _ (commands_good _ _ HC) o o' _ W H) as (W' & _ & X). destruct (X eq_refl) as (I1 & I2 & _).
  split; [assumption|]. split; [assumption|]. intros p L. unfold entry_at. now rewrite I2.
Qed.
Print Assumptions C16_commandline_values.

(** A file followed by the command line: the command line wins where it says something, the file elsewhere; and a command line
    with values only for paths which the file sets, and consistent in itself, is never rejected. *)
Theorem C16_commandline_overrides : forall filename prog d ls acts args o1 o2,
  filename <> DEFAULT_SOURCE -> filename <> chars "Command line" ->
  writes d ls -> ls <> [] -> Forall one_line ls -> commands acts args ->
  read filename (text_of ls) root0 = (o1, Ok tt) -> parseCommandLine (prog :: args) o1 = (o2, Ok tt) ->
  forall p, (forall v, last_put p v acts -> entry_at p o2 = Some (Some v, Some (chars "Command line"))) /\
            (never_put p acts -> forall v, last_put p v (meaning [] d) -> entry_at p o2 = Some (Some v, Some filename)) /\
            (never_put p acts -> never_put p (meaning [] d) -> entry_at p o2 = None).
Proof.
  intros f prog d ls acts args o1 o2 ND NC HW N F HC H1 H2 p.
  assert (W0 : wf (root0 : tree)) by apply wf_fresh.
  destruct (C16_file_values f d ls _ o1 W0 HW N F H1) as (W1 & A1 & A2). destruct (C16_commandline_values prog acts args o1 o2 W1 HC H2) as (W2 & B1 & B2).
  split; [apply B1|]. split; intros L; [intros v M; now rewrite (B2 p L), (A1 p v M)|]. intros M. rewrite (B2 p L), (A2 p M). destruct p; reflexivity.
Qed.
Print Assumptions C16_commandline_overrides.
Theorem C16_override_accepted : forall filename prog d ls acts args o1,
  filename <> DEFAULT_SOURCE -> filename <> chars "Command line" ->
  writes d ls -> ls <> [] -> Forall one_line ls -> commands acts args -> read filename (text_of ls) root0 = (o1, Ok tt) ->
  consistent acts -> (forall p v, In (Put p v) acts -> exists w, In (Put p w) (meaning [] d)) ->
  snd (parseCommandLine (prog :: args) o1) = Ok tt.
Proof.
  intros f prog d ls acts args o1 ND NC HW N F HC H1 CA HS. rewrite (C16_commandline_performs prog acts args o1 HC).
  assert (W0 : wf (root0 : tree)) by apply wf_fresh.
  rewrite (read_doc f d ls _ HW N F) in H1. pose proof (writes_good d ls HW [] (Forall_nil _)) as G.
  destruct (perform_state f _ G _ o1 _ W0 H1) as (W1 & _ & X). destruct (X eq_refl) as (I1 & I2 & I3 & I4).
  assert (E0 : forall q, info_at q (root0 : tree) = info0) by (intros q; destruct q; reflexivity).
  apply perform_success; [discriminate| |eapply commands_good; eassumption|].
  - split; [assumption|]. split.
    + intros p v. destruct (put_cases p (meaning [] d)) as [L|(w & L)].
      * unfold entry_at. rewrite I2, E0 by assumption. discriminate.
      * rewrite (I1 p w L). congruence.
    + intros p. rewrite I4, E0. reflexivity.
  - split; [assumption|]. apply Forall_forall. intros a Ha.
    assert (EA : exists p v, a = Put p v) by (clear - HC Ha; induction HC; first [destruct Ha as [<-|Ha]; [eauto|auto]|destruct Ha; fail|auto]).
    destruct EA as (p & v & ->). destruct (HS p v Ha) as (w & Hw).
    assert (SV : i_sect (info_at p o1) = false).
    { destruct (i_sect (info_at p o1)) eqn:E; [|reflexivity]. apply (sect_after f _ _ o1 G W0 H1) in E. destruct E as [_ E]. exfalso. exact (E w Hw). }
    split; cbn [place]; [now apply value_reachable|now apply value_no_children].
Qed.
Print Assumptions C16_override_accepted.

(** Any argument vector: normal end or an exception. *)
Theorem C16_any_arguments : forall argv o, wf o ->
  wf (fst (parseCommandLine argv o)) /\ (snd (parseCommandLine argv o) = Ok tt \/ snd (parseCommandLine argv o) = Throw).
Proof.
  intros argv o W. unfold parseCommandLine. destruct (args_calm (S (List.length (tl argv))) (tl argv) (Nat.lt_succ_diag_r _) o W) as [X Y].
  split; [assumption|]. destruct (snd _) as [[]| |]; auto. congruence.
Qed.
Print Assumptions C16_any_arguments.

(** ** What is not so *)
(** White space does reach the name of a section that is alone in its header, and so does text after the bracket. *)
Theorem C16_blanks_in_header_refuted :
  let o := fst (read (chars "f") (text_of [chars "[ a ]"; chars "k = 1"]) root0) in
  entry_at [chars "a"; chars "k"] o = None /\ entry_at [chars " a "; chars "k"] o = Some (Some (VS (chars "1")), Some (chars "f")).
Proof. vm_compute. split; reflexivity. Qed.
Print Assumptions C16_blanks_in_header_refuted.
Theorem C16_text_after_bracket_refuted :
  let o := fst (read (chars "f") (text_of [chars "[a] junk"; chars "k = 1"]) root0) in
  entry_at [chars "a"; chars "k"] o = None /\ entry_at [chars "a] junk"; chars "k"] o = Some (Some (VS (chars "1")), Some (chars "f")).
Proof. vm_compute. split; reflexivity. Qed.
Print Assumptions C16_text_after_bracket_refuted.
(** On the command line a blank before ':' becomes part of the name of the section. *)
Theorem C16_blank_before_colon_refuted :
  let o := fst (parseCommandLine [chars "prog"; chars "a :b=1"] root0) in
  entry_at [chars "a"; chars "b"] o = None /\ entry_at [chars "a "; chars "b"] o = Some (Some (VS (chars "1")), Some (chars "Command line")).
Proof. vm_compute. split; reflexivity. Qed.
Print Assumptions C16_blank_before_colon_refuted.

(** ** A document and a command line that meet the hypotheses *)
Definition ex_lines : list str :=
  [chars "# settings"; chars "nout = 10   ; steps"; chars ""; chars "[mesh : ddx]"; chars "  first = ""C2"" "; chars "expr = (1 +  # open";
   chars "   2)"; chars "flag"].
Definition ex_doc : list item :=
  [Setting (chars "nout") (chars "10"); Header [chars "mesh"; chars "ddx"]; Setting (chars "first") (chars "C2");
   Setting (chars "expr") (chars "(1 +2)"); Setting (chars "flag") (chars "TRUE")].
Ltac notin := cbn; intuition discriminate.
Ltac allws := repeat (constructor; [cbn; tauto|]); constructor.
Ltac ends p c := right; exists (chars p), c; split; [reflexivity|notin].
Ltac laid l b r c := exists (chars l), (chars r), (chars c); split; [reflexivity|]; split; [allws|]; split; [allws|].
Example C16_case_writes : writes ex_doc ex_lines /\ ex_lines <> [] /\ Forall one_line ex_lines.
Proof.
  split; [|split; [discriminate|repeat (constructor; [unfold one_line; notin|]); constructor]].
  apply wr_blank. { laid ""%string ""%string ""%string "# settings"%string. split; [right; eexists _, _; split; [reflexivity|cbn; tauto]|]. split; [constructor|]. split; [exact I|now left]. }
  apply (wr_pair _ _ _ (chars "nout") (chars "nout ") (chars "10") (chars " 10") [] (chars "10")).
  - unfold good_key. split; [discriminate|]. split; [notin|]. split; [notin|]. split; [notin|ends "nou"%string "t"%char].
  - exists [], (chars " "). split; [reflexivity|]. split; allws.
  - split; [notin|ends "1"%string "0"%char].
  - exists (chars " "), []. split; [reflexivity|]. split; allws.
  - discriminate.
  - laid ""%string ""%string "   "%string "; steps"%string. split; [right; eexists _, _; split; [reflexivity|cbn; tauto]|]. split; [repeat (constructor; [notin|]); constructor|].
    split; [notin|ends "nout = 1"%string "0"%char].
  - constructor. vm_compute. discriminate.
  - apply wr_blank. { laid ""%string ""%string ""%string ""%string. split; [now left|]. split; [constructor|]. split; [exact I|now left]. }
    apply (wr_header _ _ _ _ (chars "mesh : ddx")).
    + exists (chars "mesh : ddx"). split; [|split; [apply pad_self|discriminate]].
      apply (hb_more (chars "mesh") (chars " ") (chars " ") (chars "ddx") [] (chars "ddx")); [|allws|allws|apply hb_one].
      * split; [discriminate|]. split; [notin|]. split; [notin|]. split; [notin|]. split; [notin|ends "mes"%string "h"%char].
      * split; [discriminate|]. split; [notin|]. split; [notin|]. split; [notin|]. split; [notin|ends "dd"%string "x"%char].
    + laid ""%string ""%string ""%string ""%string. split; [now left|]. split; [repeat (constructor; [notin|]); constructor|]. split; [notin|ends "[mesh : ddx"%string "]"%char].
    + apply (wr_pair _ _ _ (chars "first") (chars "first ") (chars "C2") (chars " ""C2""") [] (chars "C2")).
      * unfold good_key. split; [discriminate|]. split; [notin|]. split; [notin|]. split; [notin|ends "firs"%string "t"%char].
      * exists [], (chars " "). split; [reflexivity|]. split; allws.
      * split; [notin|ends "C"%string "2"%char].
      * exists (chars " """), (chars """"). split; [reflexivity|]. split; allws.
      * discriminate.
      * laid "  "%string ""%string " "%string ""%string. split; [now left|]. split; [repeat (constructor; [notin|]); constructor|]. split; [notin|ends "first = ""C2"%string """"%char].
      * constructor. vm_compute. discriminate.
      * apply (wr_pair _ _ _ (chars "expr") (chars "expr ") (chars "(1 +") (chars " (1 +") [chars "   2)"] (chars "(1 +2)")).
        -- unfold good_key. split; [discriminate|]. split; [notin|]. split; [notin|]. split; [notin|ends "exp"%string "r"%char].
        -- exists [], (chars " "). split; [reflexivity|]. split; allws.
        -- split; [notin|ends "(1 "%string "+"%char].
        -- exists (chars " "), []. split; [reflexivity|]. split; allws.
        -- discriminate.
        -- laid ""%string ""%string "  "%string "# open"%string. split; [right; eexists _, _; split; [reflexivity|cbn; tauto]|]. split; [repeat (constructor; [notin|]); constructor|].
           split; [notin|ends "expr = (1 "%string "+"%char].
        -- apply (co_more _ (chars "2)")); [vm_compute; reflexivity| |constructor; vm_compute; discriminate].
           laid "   "%string ""%string ""%string ""%string. split; [now left|]. split; [repeat (constructor; [notin|]); constructor|]. split; [notin|ends "2"%string ")"%char].
        -- apply (wr_flag _ _ _ (chars "flag")); [discriminate|notin|notin|discriminate| |constructor].
           laid ""%string ""%string ""%string ""%string. split; [now left|]. split; [repeat (constructor; [notin|]); constructor|]. split; [notin|ends "fla"%string "g"%char].
Qed.
Example C16_case_read : forall s, s = chars "BOUT.inp" ->
  let o := fst (read s (text_of ex_lines) root0) in
  snd (read s (text_of ex_lines) root0) = Ok tt /\ entry_at [chars "nout"] o = Some (Some (VS (chars "10")), Some s) /\
  entry_at [chars "mesh"; chars "ddx"; chars "first"] o = Some (Some (VS (chars "C2")), Some s) /\
  entry_at [chars "mesh"; chars "ddx"; chars "expr"] o = Some (Some (VS (chars "(1 +2)")), Some s).
Proof. intros s ->. vm_compute. repeat split. Qed.
Example C16_case_commands : commands [Put [chars "nout"] (VS (chars "20")); Put [chars "mesh"; chars "ddx"; chars "first"] (VS (chars "C4")); Put [chars "restart"] (VB true)]
    [chars "-nout"; chars "="; chars "20"; chars ""; chars "mesh:ddx:first=C4"; chars "restart"].
Proof.
  assert (V : forall p c, ~ In c ws_trim -> ~ In c p -> True) by auto. clear V.
  apply (cm_around [chars "nout"] (chars "-nout") (chars "20")).
  - split; [discriminate|]. split; [|discriminate]. constructor; [|constructor]. split; [discriminate|]. split; [notin|]. split; [notin|]. split; [notin|ends "nou"%string "t"%char].
  - right. reflexivity.
  - split; [discriminate|]. split; [notin|]. split; [notin|ends "2"%string "0"%char].
  - apply cm_empty. apply (cm_joined [chars "mesh"; chars "ddx"; chars "first"] (chars "mesh:ddx:first") (chars "C4")).
    + split; [discriminate|]. split; [|discriminate]. constructor; [|constructor; [|constructor; [|constructor]]]; (split; [discriminate|]; split; [notin|]; split; [notin|]; split; [notin|]).
      * ends "mes"%string "h"%char.
      * ends "dd"%string "x"%char.
      * ends "firs"%string "t"%char.
    + left. reflexivity.
    + split; [discriminate|]. split; [notin|]. split; [notin|ends "C"%string "4"%char].
    + apply (cm_flag [chars "restart"] (chars "restart")); [|left; reflexivity|constructor].
      split; [discriminate|]. split; [|discriminate]. constructor; [|constructor]. split; [discriminate|]. split; [notin|]. split; [notin|]. split; [notin|ends "restar"%string "t"%char].
Qed.
Example C16_case_malformed : malformed [chars "a:b = 1"] /\ malformed [chars "k = (1"; chars "+ 2"].
Proof.
  split.
  - apply (ma_colon (chars "a:b ") (chars " 1")); [|notin|discriminate|cbn; tauto].
    laid ""%string ""%string ""%string ""%string. split; [now left|]. split; [repeat (constructor; [notin|]); constructor|]. split; [notin|ends "a:b = "%string "1"%char].
  - apply (ma_unclosed (chars "k") (chars "k ") (chars "(1") (chars " (1")).
    + unfold good_key. split; [discriminate|]. split; [notin|]. split; [notin|]. split; [notin|]. ends ""%string "k"%char.
    + exists [], (chars " "). split; [reflexivity|]. split; allws.
    + split; [notin|ends "("%string "1"%char].
    + exists (chars " "), []. split; [reflexivity|]. split; allws.
    + discriminate.
    + laid ""%string ""%string ""%string ""%string. split; [now left|]. split; [repeat (constructor; [notin|]); constructor|]. split; [notin|ends "k = ("%string "1"%char].
    + apply (un_more _ (chars "+ 2")); [vm_compute; reflexivity| |apply un_end; vm_compute; reflexivity].
      laid ""%string ""%string ""%string ""%string. split; [now left|]. split; [repeat (constructor; [notin|]); constructor|]. split; [notin|ends "+ "%string "2"%char].
Qed.
