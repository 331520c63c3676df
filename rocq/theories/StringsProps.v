(** Properties C11 and C12: string helpers. *)
From Coq Require Import Ascii String List Arith Bool Lia.
From Verif Require Import Base StringsModel StringsSpec StringsProofs.
Import ListNotations.

(** C11. For all strings and any initial contents of the work matrix, editDistance is the least number of edits
    (keep / substitute / delete / insert / swap adjacent). *)
Theorem C11_edit_distance_is_least : forall (d0 : mat) (s t : str), least_edits s t (editDistance d0 s t).
Proof. exact (fun d0 s t => editDistance_least s t d0). Qed.
Theorem C11_edit_distance_facts : forall d0 d1 (s t : str),
  (editDistance d0 s t = 0 <-> s = t) /\
  editDistance d0 s t = editDistance d1 t s /\
  editDistance d0 s t <= Nat.max (List.length s) (List.length t).
Proof. exact editDistance_facts. Qed.
Example C11_case : editDistance (fun _ _ => 77) (chars "mesh_fiel") (chars "emsh:field") = 3.
Proof. reflexivity. Qed.

(** C12. Trimming. *)
Theorem C12_trim_left : forall s cs, exists pre,
  s = pre ++ trimLeft s cs /\ Forall (fun c => In c cs) pre /\ begins_outside cs (trimLeft s cs).
Proof. exact trimLeft_spec. Qed.
Theorem C12_trim_right : forall s cs, exists post,
  s = trimRight s cs ++ post /\ Forall (fun c => In c cs) post /\ ends_outside cs (trimRight s cs).
Proof. exact trimRight_spec. Qed.
Theorem C12_trim : forall s cs, exists pre post,
  s = pre ++ trim s cs ++ post /\ Forall (fun c => In c cs) pre /\ Forall (fun c => In c cs) post /\
  begins_outside cs (trim s cs) /\ ends_outside cs (trim s cs).
Proof. exact trim_spec. Qed.
Theorem C12_trim_comments : forall s cs, exists rest,
  s = trimComments s cs ++ rest /\ Forall (fun c => ~ In c cs) (trimComments s cs) /\
  match rest with [] => True | c :: _ => In c cs end.
Proof. exact trimComments_spec. Qed.
(** Splitting: no piece contains the delimiter; joined again the pieces give the string, less one trailing delimiter. *)
Theorem C12_strsplit : forall s d,
  Forall (fun p => ~ In d p) (strsplit s d) /\
  ((exists p, s = p ++ [d]) -> s = join d (strsplit s d) ++ [d]) /\
  (~ (exists p, s = p ++ [d]) -> s = join d (strsplit s d)).
Proof. exact strsplit_spec. Qed.
(** lowercase is character by character; a capital letter becomes the small letter at the same place of the alphabet and
    every other character is kept. *)
Theorem C12_lowercase_letters : forall s,
  List.length (lowercase s) = List.length s /\
  forall k c, nth_error s k = Some c ->
    (forall i, nth_error capitals i = Some c -> nth_error (lowercase s) k = nth_error smalls i) /\
    (~ In c capitals -> nth_error (lowercase s) k = Some c).
Proof. exact lowercase_letters. Qed.
Theorem C12_lowercase_idempotent : forall s, lowercase (lowercase s) = lowercase s.
Proof. exact lowercase_idem. Qed.
(** lowercasequote: text with no quotes in it is lowered when outside quotes and copied when between a pair of quotes. *)
Theorem C12_lowercasequote_outside : forall p s, ~ In "'"%char p /\ ~ In """"%char p ->
  lowercasequote (p ++ s) = lowercase p ++ lowercasequote s.
Proof. exact lowercasequote_plain. Qed.
Theorem C12_lowercasequote_inside : forall k p s, k = "'"%char \/ k = """"%char -> ~ In "'"%char p /\ ~ In """"%char p ->
  lowercasequote (k :: p ++ k :: s) = k :: p ++ k :: lowercasequote s.
Proof. exact lowercasequote_quoted. Qed.
(** The two kinds of quote are toggled independently: an apostrophe inside a double-quoted text is taken as an opening
    quote, so unquoted text after it is not lowered. *)
Theorem C12_apostrophe_in_quotes_refuted :
  exists s, lowercasequote (chars """it's""" ++ s) <> chars """it's""" ++ lowercasequote s.
Proof. exists (chars "ABC"). discriminate. Qed.

Example C12_case_trim : trim (chars "  a b 	") ws_trim = chars "a b".
Proof. reflexivity. Qed.
Example C12_case_comments : trimComments (chars "key = 3 # note ; x") comment_chars = chars "key = 3 ".
Proof. reflexivity. Qed.
Example C12_case_split : strsplit (chars "a::b:") ":" = [chars "a"; []; chars "b"].
Proof. reflexivity. Qed.
Example C12_case_lower : lowercasequote (chars "Ab 'Cd' Ef") = chars "ab 'Cd' ef".
Proof. reflexivity. Qed.

Print Assumptions C11_edit_distance_is_least.
Print Assumptions C11_edit_distance_facts.
Print Assumptions C12_trim.
Print Assumptions C12_strsplit.
Print Assumptions C12_lowercasequote_inside.
Print Assumptions C12_lowercase_letters.
