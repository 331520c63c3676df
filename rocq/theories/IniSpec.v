(** Specification of input files and command lines: documents, the ways in which they may be written down, and what they mean. *)
From Coq Require Import Ascii String List Arith Bool ZArith.
From Verif Require Import Base StringsModel StringsSpec OptionsModel OptionsSpec IniModel.
Import ListNotations.

(** ** Meaning: an ordered list of actions on the tree *)
Inductive item := Header (names : path) | Setting (key value : str).
(** Mentioning the section at a path, or setting the value at a path. *)
Inductive action := Enter (p : path) | Put (p : path) (v : value).
Definition place (a : action) : path := match a with Enter p => p | Put p _ => p end.
(** A key belongs to the section of the most recent header. *)
Fixpoint meaning (sec : path) (d : list item) : list action :=
  match d with
  | [] => []
  | Header names :: d => Enter names :: meaning names d
  | Setting key v :: d => Put (sec ++ [key]) (VS v) :: meaning sec d
  end.

(** [v] is the last value that the actions put at [p]. *)
Definition last_put (p : path) (v : value) (acts : list action) : Prop :=
  exists before after, acts = before ++ Put p v :: after /\ forall w, ~ In (Put p w) after.
Definition never_put (p : path) (acts : list action) : Prop := forall w, ~ In (Put p w) acts.
(** Two actions contradict each other when they give different values to a path, or when one of them gives a value to a path
    which the other one uses as a section. *)
Definition compatible (a b : action) : Prop :=
  match a with
  | Enter _ => True
  | Put p v => ~ proper_prefix p (place b) /\ forall w, b = Put p w -> w = v
  end.
Definition consistent (acts : list action) : Prop := forall a b, In a acts -> In b acts -> compatible a b.
(** An action that fits an existing tree: no value is used as a section, no section with children gets a value. *)
Definition fits (o : tree) (a : action) : Prop :=
  reachable_path (place a) o /\ match a with Put p _ => ~ has_children p o | Enter _ => True end.
(** A tree without entries of a given source, and without time-dependent entries. *)
Definition plain_tree (source : str) (o : tree) : Prop :=
  wf o /\ (forall p v, entry_at p o <> Some (v, Some source)) /\ (forall p, i_tdim (info_at p o) = false).

(** ** Writing a file *)
(** blanks, [body], blanks and a comment; the body has no comment characters and no blanks at its ends *)
Definition lay (body line : str) : Prop :=
  exists l r c, line = l ++ body ++ r ++ c /\ Forall (fun x => In x ws_trim) l /\ Forall (fun x => In x ws_trim) r /\
    (c = [] \/ exists x c', c = x :: c' /\ In x comment_chars) /\
    Forall (fun x => ~ In x comment_chars) body /\ begins_outside ws_trim body /\ ends_outside ws_trim body.
Definition bare (cs s : str) : Prop := begins_outside cs s /\ ends_outside cs s.
(** [pad cs s t]: t is s with characters of cs around it *)
Definition pad (cs s t : str) : Prop := exists l r, t = l ++ s ++ r /\ Forall (fun x => In x cs) l /\ Forall (fun x => In x cs) r.

Definition good_name (n : str) : Prop := n <> [] /\ ~ In colon n /\ ~ In "["%char n /\ ~ In "]"%char n /\ bare ws_trim n.
(** The inside of a header: the names separated by ':'; round each ':' there may be blanks. *)
Inductive header_body : path -> str -> Prop :=
| hb_one : forall n, good_name n -> header_body [n] n
| hb_more : forall n t u m r s, good_name n -> Forall (fun x => In x ws_trim) t -> Forall (fun x => In x ws_trim) u -> header_body (m :: r) s ->
    header_body (n :: m :: r) (n ++ t ++ colon :: u ++ s).
(** Next to the brackets there may be blanks, except when there is only one name. *)
Definition header_text (names : path) (s : str) : Prop :=
  exists b, header_body names b /\ pad ws_trim b s /\ (List.length names = 1 -> s = b).
Definition good_key (k : str) : Prop := k <> [] /\ ~ In eqc k /\ ~ In colon k /\ bare quote_ws k.

(** Opening minus closing brackets, round or square. *)
Definition count (p : ascii -> bool) (s : str) : Z := Z.of_nat (List.length (filter p s)).
Definition depth (s : str) : Z :=
  (count (Ascii.eqb "(") s + count (Ascii.eqb "[") s - count (Ascii.eqb ")") s - count (Ascii.eqb "]") s)%Z.
(** A value continues on further lines as long as there are more opening than closing brackets. *)
Inductive continued : str -> list str -> str -> Prop :=
| co_done : forall v, (depth v <= 0)%Z -> continued v [] v
| co_more : forall v b l ls w, (0 < depth v)%Z -> lay b l -> continued (v ++ b) ls w -> continued v (l :: ls) w.

(** The ways to write a document as a list of lines. *)
Inductive writes : list item -> list str -> Prop :=
| wr_end : writes [] []
| wr_blank : forall d l ls, lay [] l -> writes d ls -> writes d (l :: ls)
| wr_header : forall d l ls names s, header_text names s -> lay ("["%char :: s ++ ["]"%char]) l -> writes d ls -> writes (Header names :: d) (l :: ls)
| wr_flag : forall d l ls k, k <> [] -> ~ In eqc k -> ~ In colon k -> hd zero k <> "["%char -> lay k l -> writes d ls ->
    writes (Setting k (chars "TRUE") :: d) (l :: ls)
| wr_pair : forall d l ls k k' v1 v1' more v, good_key k -> pad quote_ws k k' -> bare quote_ws v1 -> pad quote_ws v1 v1' ->
    hd zero k' <> "["%char -> lay (k' ++ eqc :: v1') l -> continued v1 more v -> writes d ls ->
    writes (Setting k v :: d) (l :: more ++ ls).
(** The text of lines. *)
Definition text_of (ls : list str) : str := join newline ls.
Definition one_line (l : str) : Prop := ~ In newline l.

(** ** Writing a command line *)
Definition cmd_name (p : path) : Prop := p <> [] /\ Forall (fun n => n <> [] /\ ~ In colon n /\ ~ In eqc n /\ bare ws_trim n) p /\ hd zero (path_name p) <> dash.
Definition cmd_value (v : str) : Prop := v <> [] /\ ~ In eqc v /\ bare ws_trim v.
Definition dashed (s t : str) : Prop := t = s \/ t = dash :: s.
Inductive commands : list action -> list str -> Prop :=
| cm_end : commands [] []
| cm_empty : forall acts args, commands acts args -> commands acts ([] :: args)
| cm_flag : forall p n acts args, cmd_name p -> dashed (path_name p) n -> commands acts args -> commands (Put p (VB true) :: acts) (n :: args)
| cm_joined : forall p n v acts args, cmd_name p -> dashed (path_name p) n -> cmd_value v -> commands acts args ->
    commands (Put p (VS v) :: acts) ((n ++ eqc :: v) :: args)
| cm_after : forall p n v acts args, cmd_name p -> dashed (path_name p) n -> cmd_value v -> commands acts args ->
    commands (Put p (VS v) :: acts) ((n ++ [eqc]) :: v :: args)
| cm_before : forall p n v acts args, cmd_name p -> dashed (path_name p) n -> cmd_value v -> commands acts args ->
    commands (Put p (VS v) :: acts) (n :: (eqc :: v) :: args)
| cm_around : forall p n v acts args, cmd_name p -> dashed (path_name p) n -> cmd_value v -> commands acts args ->
    commands (Put p (VS v) :: acts) (n :: [eqc] :: v :: args).

(** ** Performing actions on a tree, on behalf of a source; the first failure ends it *)
Definition perform1 (s : str) (a : action) (o : tree) : tree * res unit :=
  match a with
  | Enter p => index (path_name p) (fun c => (c, Ok tt)) o
  | Put p v => index (path_name p) (assign veqb v s) o
  end.
Fixpoint perform (s : str) (acts : list action) (o : tree) : tree * res unit :=
  match acts with
  | [] => (o, Ok tt)
  | a :: r => match perform1 s a o with (o', Ok _) => perform s r o' | x => x end
  end.

(** ** Lines that cannot be read *)
Inductive unclosed : str -> list str -> Prop :=
| un_end : forall v, (0 < depth v)%Z -> unclosed v []
| un_more : forall v b l ls, (0 < depth v)%Z -> lay b l -> unclosed (v ++ b) ls -> unclosed v (l :: ls).
Inductive malformed : list str -> Prop :=
| ma_no_bracket : forall s l ls, lay ("["%char :: s) l -> ~ In "]"%char s -> malformed (l :: ls)
| ma_no_name : forall s l ls, lay ("["%char :: s ++ ["]"%char]) l -> Forall (fun c => c = "["%char \/ c = "]"%char) s -> malformed (l :: ls)
| ma_empty_key : forall k' v l ls, lay (k' ++ eqc :: v) l -> Forall (fun c => In c quote_ws) k' -> malformed (l :: ls)
| ma_colon : forall k' v l ls, lay (k' ++ eqc :: v) l -> ~ In eqc k' -> hd zero k' <> "["%char -> In colon k' -> malformed (l :: ls)
| ma_unclosed : forall k k' v v' l ls, good_key k -> pad quote_ws k k' -> bare quote_ws v -> pad quote_ws v v' ->
    hd zero k' <> "["%char -> lay (k' ++ eqc :: v') l -> unclosed v ls -> malformed (l :: ls).

(** Entries of a tree are those of another one, or come from this source with a text without comment characters. *)
Definition only_clean_from (s : str) (o o' : tree) : Prop :=
  forall p, entry_at p o' = entry_at p o \/ exists v, entry_at p o' = Some (Some (VS v), Some s) /\ Forall (fun c => ~ In c comment_chars) v.
