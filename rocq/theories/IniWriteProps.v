(** C64: settings written to a file are the settings read back from it. C65: conversions of option values. *)
From Coq Require Import Reals ZArith Ascii String List Arith Bool Lia Lra.
From Verif Require Import Base StringsModel StringsSpec OptionsModel OptionsSpec OptionsProofs IniModel IniSpec IniProofs4 IniWriteModel IniWriteSpec IniWriteProofs IniWriteProofs2 IniWriteProofs3.
From Verif Require Import ExprModel ExprSpec ExprEvalModel ExprEvalProofs OptConvModel OptConvProofs.
Import ListNotations.
Notation str := StringsModel.str.
Notation chars := StringsModel.chars.

(** Writing a tree (of any kind of values) succeeds; reading the file into an empty tree succeeds, and every path has as its
    value the text of the value which it had, or no value if it had none; whatever is documented, used, or unused. *)
Theorem C64_written_reads_back : forall V (tostr : V -> str) attr filename (o : opt V),
  filename <> DEFAULT_SOURCE -> wf o -> IniWriteSpec.named o -> savable tostr attr o ->
  exists text o', write tostr attr o = Ok text /\ read filename text root0 = (o', Ok tt) /\ wf o' /\
    forall p, entry_at p o' = match text_at tostr p o with Some t => Some (Some (VS t), Some filename) | None => None end.
Proof. intros V tostr attr f o. apply round_trip. Qed.
Print Assumptions C64_written_reads_back.

(** The first two conditions hold for every tree that a program can have. *)
Theorem C64_reached_trees : forall o, reached o -> wf o /\ IniWriteSpec.named o.
Proof.
  intros o H. assert (X : wf o /\ nm [] o).
  { induction H as [|op o H [A B]|f t o H [A B]|argv o H [A B]].
    - split; [apply wf_fresh|apply nm_fresh].
    - split; [apply wf_step; [intros a b; apply IniProofs3.veqb_ok|assumption]|now apply nm_step].
    - split; [|now apply nm_read]. unfold read. apply (read_calm f (S (List.length (lines_of t))) [] (lines_of t) (Nat.lt_succ_diag_r _) o A).
    - split; [|now apply nm_args]. unfold parseCommandLine. apply (args_calm (S (List.length (tl argv))) (tl argv) (Nat.lt_succ_diag_r _) o A). }
  split; [apply X|now apply nm_named].
Qed.
Print Assumptions C64_reached_trees.

(** So what a program reads from the new tree is what it would have read from the old one: strings, flags and integers,
    whether they were stored as such or as text. [rtext] is any way of writing real numbers. *)
Theorem C64_values_survive : forall rtext L power meaning resolved attr filename (o : opt oval) text o' p v s,
  wf_lang L -> (forall nm, resolves L nm <> UB) -> prec L "-"%char <> None ->
  filename <> DEFAULT_SOURCE -> wf o -> IniWriteSpec.named o -> savable (oval_text rtext) attr o ->
  write (oval_text rtext) attr o = Ok text -> read filename text root0 = (o', Ok tt) -> entry_at p o = Some (Some v, s) ->
  exists w, entry_at p o' = Some (Some w, Some filename) /\
    as_string rtext (of_value w) = as_string rtext v /\
    (forall b, as_bool v = Ok b -> as_bool (of_value w) = Ok b) /\
    (forall n, (int_min <= n <= int_max)%Z -> (v = OI n \/ exists t, v = OS t) -> as_int L power meaning resolved v = Ok n ->
       as_int L power meaning resolved (of_value w) = Ok n) /\
    (forall r, (forall x, v <> OR x) -> as_real L power meaning resolved v = Ok r -> as_real L power meaning resolved (of_value w) = Ok r).
Proof.
  intros rtext L power meaning resolved attr f o text o' p v s WF RS MI ND W N SV EW ER EV.
  destruct (round_trip (oval_text rtext) attr f o ND W N SV) as (t2 & o2 & E1 & E2 & W2 & E3). rewrite EW in E1. injection E1 as <-. rewrite ER in E2. injection E2 as <-.
  assert (M : exists q, prec L "-"%char = Some q) by (destruct (prec L "-"%char); [eauto|congruence]).
  exists (VS (oval_text rtext v)). split; [rewrite (E3 p); unfold text_at; now rewrite EV|]. cbn [of_value]. split; [reflexivity|]. split; [|split].
  - intros b H. destruct v as [c| | |t]; cbn [oval_text]; try discriminate; [|exact H]. injection H as ->. apply as_bool_text.
  - intros n R [->|(t & ->)] H; cbn [oval_text]; [|exact H]. now apply int_text_int.
  - intros r NR H. destruct v as [c|n|x|t]; cbn [oval_text]; [discriminate| |now destruct (NR x)|exact H].
    cbn [as_real] in H. injection H as <-. now apply parse_int_text.
Qed.
Print Assumptions C64_values_survive.

(** What cannot be written: each of these one-option trees is read back with another value, or with another option besides.
    The text of a value with a comment character is cut there; a quote at the end is lost; a line break in the
    documentation of an option creates a new option, one in a value cuts it. *)
Definition one (n v : str) : tree := fst (index n (assign veqb (VS v) (chars "test")) root0).
Definition value_text (v : value) : str := oval_text (fun _ => []) (of_value v).
Definition reread (attr : str -> option str * option str) (o : tree) : tree * res unit :=
  match write value_text attr o with Ok text => read (chars "file") text root0 | _ => (o, UB) end.
Definition no_attr (n : str) : option str * option str := (None, None).
Theorem C64_unsavable_refuted :
  entry_at [chars "a"] (fst (reread no_attr (one (chars "a") (chars "x;y")))) = Some (Some (VS (chars "x")), Some (chars "file")) /\
  entry_at [chars "a"] (fst (reread no_attr (one (chars "a") (chars "say 'no'" ++ [""""%char])))) = Some (Some (VS (chars "say 'no'")), Some (chars "file")) /\
  snd (reread no_attr (one (chars "a") (chars "f(x"))) = Throw /\
  (let o := fst (reread (fun _ => (None, Some (chars "first line" ++ newline :: chars "b = 2"))) (one (chars "a") (chars "1"))) in
   entry_at [chars "a"] o = Some (Some (VS (chars "1")), Some (chars "file")) /\
   entry_at [chars "b"] o = Some (Some (VS (chars "2, source: test")), Some (chars "file"))).
Proof. repeat split; vm_compute; reflexivity. Qed.
Print Assumptions C64_unsavable_refuted.

(** A tree with a nested section, a flag, an empty text, documentation and a conditionally used value. *)
Lemma oval_dec (a b : oval) : {a = b} + {a <> b}.
Proof. decide equality; try apply Bool.bool_dec; try apply Z.eq_dec; try apply Req_EM_T. apply list_eq_dec, ascii_dec. Defined.
Definition oval_eqb (a b : oval) : bool := if oval_dec a b then true else false.
Lemma oval_eqb_ok a b : oval_eqb a b = true <-> a = b.
Proof. unfold oval_eqb. destruct (oval_dec a b); split; congruence. Qed.
Definition case_tree : opt oval :=
  orun oval_eqb
    [OAssign (chars "nout") (OI (-12)) (chars "BOUT.inp"); OAssign (chars "mesh:ddx:first") (OS (chars "C2")) (chars "BOUT.inp");
     OAssign (chars "mesh:file") (OS []) (chars "default"); OAssign (chars "restart") (OB true) (chars "Command line"); OCond (chars "restart")] root0.
Definition case_attr (n : str) : option str * option str := (Some (chars "int"), Some (chars "number of outputs; all of them")).
Definition case_text : str := match write (oval_text (fun _ => [])) case_attr case_tree with Ok t => t | _ => [] end.
Definition bad_chars : str := comment_chars ++ [newline; """"%char; " "%char; "009"%char; "013"%char; "["; "]"; "("; ")"; "="; ":"]%char.
Definition fine (s : str) : bool := forallb (fun c => negb (inset c bad_chars)) s.
Lemma fine_out s : fine s = true -> forall c, In c bad_chars -> ~ In c s.
Proof.
  intros H c I J. unfold fine in H. rewrite forallb_forall in H. specialize (H c J). apply negb_true_iff in H.
  assert (X : inset c bad_chars = true); [|congruence]. unfold inset. apply existsb_exists. exists c. split; [assumption|]. apply Ascii.eqb_refl.
Qed.
Lemma fine_bare s cs : fine s = true -> incl cs bad_chars -> bare cs s.
Proof.
  intros H I. split.
  - destruct s as [|c s]; [exact Logic.I|]. intros J. apply (fine_out _ H c (I c J)). now left.
  - destruct s as [|c s] using rev_ind; [now left|right]. exists s, c. split; [reflexivity|]. intros J. apply (fine_out _ H c (I c J)). apply in_or_app. right. now left.
Qed.
Lemma fine_text s : fine s = true -> plain_text s.
Proof.
  intros H. split; [|split; [|split]].
  - apply Forall_forall. intros c J K. refine (fine_out _ H c _ J). apply in_or_app. now left.
  - apply (fine_out _ H). cbn. tauto.
  - apply fine_bare; [assumption|]. intros c J. cbn in J |- *. tauto.
  - assert (D : forall s, fine s = true -> depth s = 0%Z); [|now rewrite (D s H)]. clear. intros s H.
    assert (X : forall ch, In ch bad_chars -> count (Ascii.eqb ch) s = 0%Z).
    { intros ch J. unfold count. replace (filter (Ascii.eqb ch) s) with (@nil ascii); [reflexivity|]. pose proof (fine_out _ H ch J) as F. clear H. symmetry.
      induction s as [|c s IH]; [reflexivity|]. cbn [filter]. destruct (Ascii.eqb_spec ch c) as [->|E]; [exfalso; apply F; now left|]. apply IH. intros K. apply F. now right. }
    unfold depth. rewrite !X by (cbn; tauto). reflexivity.
Qed.
Lemma fine_key s : s <> [] -> fine s = true -> plain_key s.
Proof.
  intros N H. split; [|split; [|split]].
  - split; [assumption|]. split; [apply (fine_out _ H); cbn; tauto|]. split; [apply (fine_out _ H); cbn; tauto|]. apply fine_bare; [assumption|]. intros c J. cbn in J |- *. tauto.
  - destruct s as [|c s]; [congruence|]. cbn [hd]. intros ->. apply (fine_out _ H "["%char); [cbn; tauto|now left].
  - apply fine_text in H. apply H.
  - apply (fine_out _ H). cbn. tauto.
Qed.
Lemma fine_section s : s <> [] -> fine s = true -> plain_section s.
Proof.
  intros N H. split; [|split].
  - split; [assumption|]. repeat (split; [apply (fine_out _ H); cbn; tauto|]). apply fine_bare; [assumption|]. intros c J. cbn in J |- *. tauto.
  - apply fine_text in H. apply H.
  - apply (fine_out _ H). cbn. tauto.
Qed.
Lemma fine_line s : fine s = true -> one_line s.
Proof. intros H. apply (fine_out _ H). cbn. tauto. Qed.

(** Checking a concrete tree, child by child. *)
Fixpoint check (o : opt oval) : bool :=
  match o with
  | Node i f cs =>
      (fix go (l : list (str * opt oval)) : bool :=
         match l with
         | [] => true
         | (n, c) :: r =>
             fine n && negb (match n with [] => true | _ => false end) && check c && go r &&
             (i_sect (inf c) ||
              (match i_val (inf c) with Some v => fine (oval_text (fun _ => []) v) | None => true end &&
               match i_src (inf c) with Some t => forallb (fun x => negb (Ascii.eqb newline x)) t | None => true end))
         end) cs
  end.
Lemma no_newline t : forallb (fun x => negb (Ascii.eqb newline x)) t = true -> one_line t.
Proof. intros H I. rewrite forallb_forall in H. specialize (H _ I). now rewrite Ascii.eqb_refl in H. Qed.
Lemma check_savable attr : (forall n, match attr n with (a, b) => (forall t, a = Some t -> one_line t) /\ (forall t, b = Some t -> one_line t) end) ->
  forall o p, check o = true -> savable_at (oval_text (fun _ => [])) attr p o.
Proof.
  intros HA. induction o as [i f cs IH] using opt_ind'. intros p H. cbn [check] in H.
  assert (X : forall n c, In (n, c) cs -> fine n = true /\ n <> [] /\ check c = true /\
     (i_sect (inf c) || (match i_val (inf c) with Some v => fine (oval_text (fun _ => []) v) | None => true end &&
               match i_src (inf c) with Some t => forallb (fun x => negb (Ascii.eqb newline x)) t | None => true end)) = true).
  { clear IH. induction cs as [|[m d] r IHr]; intros n c I; [destruct I|]. rewrite !andb_true_iff in H. destruct H as [[[[H1 H2] H3] H4] H5].
    destruct I as [I|I]; [|now apply IHr]. injection I as -> ->. split; [assumption|]. split; [now destruct n|]. split; assumption. }
  intros q n c E. destruct q as [|m q].
  - cbn [app node_at kids] in E. destruct (find_child n cs) as [d|] eqn:F; [|discriminate]. injection E as ->. destruct (X n c (find_In n c cs F)) as (A & B & _ & D).
    split; [intros _; now apply fine_section|]. intros S. rewrite S in D. cbn [orb] in D. apply andb_true_iff in D. destruct D as [D1 D2].
    split; [now apply fine_key|]. split; [intros v V; rewrite V in D1; now apply fine_text|]. split; [intros t T; rewrite T in D2; now apply no_newline|].
    specialize (HA (path_name (p ++ [] ++ [n]))). destruct (attr (path_name (p ++ [] ++ [n]))). exact HA.
  - cbn [app node_at kids] in E. destruct (find_child m cs) as [d|] eqn:F; [|discriminate]. pose proof (find_In m d cs F) as J. destruct (X m d J) as (_ & _ & C & _).
    pose proof (IH m d J (p ++ [m]) C q n c E) as Y. rewrite <- app_assoc in Y. exact Y.
Qed.
Example C64_case :
  wf case_tree /\ IniWriteSpec.named case_tree /\ savable (oval_text (fun _ => [])) case_attr case_tree /\
  i_used (info_at [chars "nout"] case_tree) = false /\
  exists text, write (oval_text (fun _ => [])) case_attr case_tree = Ok text /\ (150 < List.length text)%nat /\
    entry_at [chars "mesh"; chars "ddx"; chars "first"] (fst (read (chars "BOUT.settings") text root0)) = Some (Some (VS (chars "C2")), Some (chars "BOUT.settings")) /\
    entry_at [chars "nout"] (fst (read (chars "BOUT.settings") text root0)) = Some (Some (VS (chars "-12")), Some (chars "BOUT.settings")).
Proof.
  split; [apply wf_run; [exact oval_eqb_ok|apply wf_fresh]|]. split; [apply nm_named, nm_run, nm_fresh|]. split; [split; [reflexivity|]|].
  - assert (SA : savable_at (oval_text (fun _ => [])) case_attr [] case_tree); [|exact SA]. apply (check_savable case_attr); [|vm_compute; reflexivity]. intros n. unfold case_attr. split; intros t [= <-]; apply no_newline; vm_compute; reflexivity.
  - split; [reflexivity|]. eexists. split; [reflexivity|]. split; [|split; vm_compute; reflexivity]. vm_compute. lia.
Qed.

(** ** C65 *)
(** Reading as an int: the integer within 1/1000 of the number that the option, or the expression in it, stands for; anything else in the range
    of int is refused, and a flag is refused. *)
Theorem C65_integers : forall L power meaning resolved v r n,
  as_real L power meaning resolved v = Ok r -> (forall m, v = OI m -> (int_min <= m <= int_max)%Z) ->
  (as_int L power meaning resolved v = Ok n <-> (Rabs (r - IZR n) <= / 1000)%R /\ (int_min <= n <= int_max)%Z).
Proof. intros L power meaning resolved v r n. apply as_int_ok. Qed.
Print Assumptions C65_integers.
Theorem C65_not_integers : forall L power meaning resolved v r,
  as_real L power meaning resolved v = Ok r -> (forall m, v <> OI m) -> (IZR int_min - / 2 < r < IZR int_max + / 2)%R ->
  (as_int L power meaning resolved v = Throw <-> forall n, (/ 1000 < Rabs (r - IZR n))%R).
Proof. intros L power meaning resolved v r. apply as_int_throw. Qed.
Print Assumptions C65_not_integers.
(** A real number beyond the range of int is not refused: its conversion is undefined. *)
Theorem C65_overflow_refuted : forall L power meaning resolved, as_int L power meaning resolved (OR (IZR (2 ^ 31))) = UB.
Proof.
  intros. unfold as_int. cbn [bind]. unfold round_int. rewrite (ROUND_near (IZR (2 ^ 31)) (2 ^ 31)); [reflexivity|].
  rewrite Rminus_diag_eq, Rabs_R0 by reflexivity. lra.
Qed.
Print Assumptions C65_overflow_refuted.
(** An expression is as good as its value, and the text of an integer as the integer. *)
Theorem C65_expressions : forall L power meaning resolved ts e s r, wf_lang L -> (forall nm, resolves L nm <> UB) ->
  spelled L TEnd ts s -> D L 0 e ts -> generate power meaning resolved e ctx0 = Ok r ->
  as_real L power meaning resolved (OS s) = Ok r /\ as_int L power meaning resolved (OS s) = as_int L power meaning resolved (OR r).
Proof.
  intros L power meaning resolved ts e s r WF RS HS HD HG. assert (X : as_real L power meaning resolved (OS s) = Ok r).
  { cbn [as_real]. unfold parseExpression. rewrite (ExprProps.C17_parse L ts s e WF RS HS HD _ (le_n _)). exact HG. }
  split; [assumption|]. cbn [as_real] in X. unfold as_int. now rewrite X.
Qed.
Print Assumptions C65_expressions.
Theorem C65_integer_text : forall L power meaning resolved n, wf_lang L -> (forall nm, resolves L nm <> UB) -> prec L "-"%char <> None ->
  as_real L power meaning resolved (OS (int_text n)) = Ok (IZR n) /\
  ((int_min <= n <= int_max)%Z -> as_int L power meaning resolved (OS (int_text n)) = Ok n).
Proof.
  intros L power meaning resolved n WF RS MI. assert (M : exists q, prec L "-"%char = Some q) by (destruct (prec L "-"%char); [eauto|congruence]).
  split; [now apply parse_int_text|]. intros H. now apply int_text_int.
Qed.
Print Assumptions C65_integer_text.
(** Flags: exactly these words, in any case; a flag is never a number and a number never a flag. *)
Definition yes_words : list str := map chars ["y"; "yes"; "t"; "true"; "1"]%string.
Definition no_words : list str := map chars ["n"; "no"; "f"; "false"; "0"]%string.
Theorem C65_flags : forall L power meaning resolved,
  (forall s, (as_bool (OS s) = Ok true <-> In (lowercase s) yes_words) /\ (as_bool (OS s) = Ok false <-> In (lowercase s) no_words) /\
             (as_bool (OS s) = Throw <-> ~ In (lowercase s) yes_words /\ ~ In (lowercase s) no_words)) /\
  (forall n, as_bool (OI n) = Throw) /\ (forall r, as_bool (OR r) = Throw) /\
  (forall b, as_bool (OB b) = Ok b /\ as_int L power meaning resolved (OB b) = Throw /\ as_real L power meaning resolved (OB b) = Throw).
Proof.
  intros L power meaning resolved. split; [|repeat split]. intros s. cbn [as_bool]. generalize (lowercase s) as t. clear s. intros t.
  assert (Y : (str_eqb t (chars "y") || str_eqb t (chars "yes") || str_eqb t (chars "t") || str_eqb t (chars "true") || str_eqb t (chars "1")) = true <-> In t yes_words).
  { rewrite !orb_true_iff, !str_eqb_eq. unfold yes_words. cbn [map In]. intuition. }
  assert (N : (str_eqb t (chars "n") || str_eqb t (chars "no") || str_eqb t (chars "f") || str_eqb t (chars "false") || str_eqb t (chars "0")) = true <-> In t no_words).
  { rewrite !orb_true_iff, !str_eqb_eq. unfold no_words. cbn [map In]. intuition. }
  assert (DJ : In t yes_words -> In t no_words -> False).
  { unfold yes_words, no_words. cbn [map In]. intros A B. repeat (destruct A as [<-|A]; [repeat (destruct B as [B|B]; [discriminate|]); exact B|]). exact A. }
  destruct (str_eqb t (chars "y") || str_eqb t (chars "yes") || str_eqb t (chars "t") || str_eqb t (chars "true") || str_eqb t (chars "1")).
  - pose proof (proj1 Y eq_refl) as E1. split; [tauto|]. split; [split; [discriminate|intros B; now destruct (DJ E1 B)]|]. split; [discriminate|tauto].
  - assert (NY : ~ In t yes_words) by (rewrite <- Y; congruence).
    destruct (str_eqb t (chars "n") || str_eqb t (chars "no") || str_eqb t (chars "f") || str_eqb t (chars "false") || str_eqb t (chars "0")).
    + pose proof (proj1 N eq_refl) as E2. split; [split; [discriminate|tauto]|]. split; [tauto|]. split; [discriminate|tauto].
    + assert (NN : ~ In t no_words) by (rewrite <- N; congruence). split; [split; [discriminate|tauto]|]. split; [split; [discriminate|tauto]|tauto].
Qed.
Print Assumptions C65_flags.
(** Flags and integers survive being written as text. *)
Theorem C65_text : forall rtext L power meaning resolved, wf_lang L -> (forall nm, resolves L nm <> UB) -> prec L "-"%char <> None ->
  (forall b, as_bool (OS (oval_text rtext (OB b))) = Ok b) /\
  (forall n, (int_min <= n <= int_max)%Z -> as_int L power meaning resolved (OS (oval_text rtext (OI n))) = Ok n).
Proof.
  intros rtext L power meaning resolved WF RS MI. split; [apply as_bool_text|]. intros n H. now apply C65_integer_text.
Qed.
Print Assumptions C65_text.
Example C65_case : forall g r power meaning resolved, (forall nm, r nm <> UB) ->
  as_int (std_lang g r) power meaning resolved (OS (chars "-12")) = Ok (-12)%Z /\ as_bool (OS (chars "Yes")) = Ok true /\ as_bool (OS (chars "maybe")) = Throw.
Proof.
  intros g r power meaning resolved RS. split; [|split; reflexivity]. change (chars "-12") with (int_text (-12)).
  apply C65_integer_text; [apply ExprProofs5.std_wf|exact RS|discriminate|]. unfold int_min, int_max. lia.
Qed.
