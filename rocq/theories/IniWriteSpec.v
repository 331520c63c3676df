(** Specification of writing settings to a file and reading them back: what a tree says, and which trees can be written. *)
From Coq Require Import Ascii String List Arith Bool ZArith.
From Verif Require Import Base StringsModel StringsSpec OptionsModel OptionsSpec IniModel IniSpec.
Import ListNotations.

(** Text that survives being written after an equals sign: no comment characters, no line breaks, no blanks or quotes at its
    ends, and no bracket left open. *)
Definition plain_text (s : str) : Prop :=
  Forall (fun x => ~ In x comment_chars) s /\ ~ In newline s /\ bare quote_ws s /\ (depth s <= 0)%Z.
(** Names of options and of sections that survive being written. *)
Definition plain_key (k : str) : Prop :=
  good_key k /\ hd zero k <> "["%char /\ Forall (fun x => ~ In x comment_chars) k /\ ~ In newline k.
Definition plain_section (n : str) : Prop := good_name n /\ Forall (fun x => ~ In x comment_chars) n /\ ~ In newline n.

Section WithV.
Context {V : Type}.
(** Every option knows its path: Options::str() is the names on the path, joined by ':'. *)
Definition named (o : opt V) : Prop := forall p c, node_at p o = Some c -> full c = path_name p.
(** A tree that can be written. [tostr] is the text of a value; type and documentation are given by [attr]. *)
Definition savable (tostr : V -> str) (attr : str -> option str * option str) (o : opt V) : Prop :=
  i_sect (inf o) = true /\
  (forall p n c, node_at (p ++ [n]) o = Some c ->
     (i_sect (inf c) = true -> plain_section n) /\
     (i_sect (inf c) = false -> plain_key n /\ (forall v, i_val (inf c) = Some v -> plain_text (tostr v)) /\
        (forall s, i_src (inf c) = Some s -> one_line s) /\
        (forall t, fst (attr (path_name (p ++ [n]))) = Some t -> one_line t) /\
        (forall t, snd (attr (path_name (p ++ [n]))) = Some t -> one_line t))).
(** The text at a path, if there is a value there. *)
Definition text_at (tostr : V -> str) (p : path) (o : opt V) : option str :=
  match entry_at p o with Some (Some v, _) => Some (tostr v) | _ => None end.
End WithV.

(** The option trees a program can have: starting from the empty root, by calls on options, by reading files and command lines. *)
Inductive reached : tree -> Prop :=
| re_root : reached root0
| re_call : forall op o, reached o -> reached (ostep veqb op o)
| re_file : forall filename text o, reached o -> reached (fst (read filename text o))
| re_args : forall argv o, reached o -> reached (fst (parseCommandLine argv o)).
