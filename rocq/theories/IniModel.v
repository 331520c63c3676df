(** Model of the readers of options: src/sys/options/options_ini.cxx (OptionINI::read, getNextLine, parse) and
    src/sys/optionsreader.cxx (OptionsReader::parseCommandLine), on the Options tree of OptionsModel.

    Simplifications: the file is given by its text (opening and stream errors are not modelled); the texts of error messages
    are not modelled; an [Options*] to a section is the list of names by which it was reached, and using it goes down these
    names again, which leads to the same object, since a section with a child never stops being one. *)
From Coq Require Import Ascii String List Arith Bool ZArith.
From Verif Require Import Base StringsModel OptionsModel.
Import ListNotations.

(** The stored variant: strings from files and command line, [bool] for command line flags. *)
Inductive value := VS (s : str) | VB (b : bool).
Definition veqb (a b : value) : bool :=
  match a, b with VS s, VS t => str_eqb s t | VB b, VB c => Bool.eqb b c | _, _ => false end.
Definition tree := opt value.

Definition newline : ascii := "010"%char.
Definition eqc : ascii := "="%char.
Definition dash : ascii := "-"%char.

(** std::getline, repeated until the end of the file: the pieces between newlines; [eof] is set when there are none left. *)
Fixpoint lines_of (text : str) : list str :=
  match text with
  | [] => [[]]
  | c :: r => if Ascii.eqb c newline then [] :: lines_of r
              else match lines_of r with l :: ls => (c :: l) :: ls | [] => [[c]] end
  end.

(** options_ini.cxx:176-183 getNextLine, after std::getline *)
Definition getNextLine (line : str) : str := trim (trimComments line comment_chars) ws_trim.

(** options_ini.cxx:185-208 parse *)
Definition quote_ws : str := [" "; "009"; "013"; "010"; """"]%char.      (* blank, tab, return, newline and the double quote *)
Definition parse (buffer : str) : res (str * str) :=
  match find_first (Ascii.eqb eqc) buffer 0 with
  | None => Ok (buffer, chars "TRUE")
  | Some startpos =>
      let key := trim (firstn startpos buffer) quote_ws in
      let value := trim (skipn (startpos + 1) buffer) quote_ws in
      match key with
      | [] => Throw
      | _ => match find_first (Ascii.eqb colon) key 0 with Some _ => Throw | None => Ok (key, value) end
      end
  end.

(** options_ini.cxx:111-122 count_brackets *)
Definition bracket (ch : ascii) : Z :=
  (if Ascii.eqb ch "(" || Ascii.eqb ch "[" then 1 else 0) - (if Ascii.eqb ch ")" || Ascii.eqb ch "]" then 1 else 0).
Definition count_brackets (s : str) : Z := fold_right (fun ch n => bracket ch + n)%Z 0%Z s.

(** options_ini.cxx:129-140: read further lines while brackets are open; returns the value and the remaining lines *)
Fixpoint continue_value (count : Z) (value : str) (lines : list str) : res (str * list str) :=
  if (0 <? count)%Z then
    match lines with
    | [] => Throw
    | l :: rest => let newline := getNextLine l in continue_value (count + count_brackets newline) (value ++ newline) rest
    end
  else Ok (value, lines).

(** Options::getSection (options.hxx:692) and Options::set (options.hxx:648-656) on the section reached by [sec] *)
Fixpoint in_section {A} (sec : list str) (k : tree -> tree * res A) : tree -> tree * res A :=
  match sec with [] => k | n :: r => index n (in_section r k) end.

(** options_ini.cxx:93-100: the names in a section header, [fuel] > length *)
Fixpoint header_names (fuel : nat) (buffer : str) : list str :=
  match fuel with
  | O => []
  | S fuel =>
      match find_first (Ascii.eqb colon) buffer 0 with
      | Some scorepos => trim (firstn scorepos buffer) ws_trim :: header_names fuel (trim (skipn (scorepos + 1) buffer) ws_trim)
      | None => [buffer]
      end
  end.

(** options_ini.cxx:65-146 read: [fuel] > number of lines. [sec] is the current section. *)
Fixpoint read_lines (fuel : nat) (filename : str) (sec : list str) (lines : list str) (o : tree) : tree * res unit :=
  match fuel with
  | O => (o, UB)
  | S fuel =>
    match lines with
    | [] => (o, Ok tt)
    | l :: rest =>
      let buffer := getNextLine l in
      match buffer with
      | [] => read_lines fuel filename sec rest o
      | c :: _ =>
        if Ascii.eqb c "[" then
          match find_last (Ascii.eqb "]") buffer 0 None with
          | None => (o, Throw)
          | Some _ =>
            let buffer := trim buffer ["["; "]"]%char in
            match buffer with
            | [] => (o, Throw)
            | _ =>
              let sec := header_names (S (List.length buffer)) buffer in
              match in_section sec (fun c => (c, Ok tt)) o with
              | (o', Ok _) => read_lines fuel filename sec rest o'
              | (o', r) => (o', r)
              end
            end
          end
        else
          match parse buffer with
          | Ok (key, value) =>
            match continue_value (count_brackets value) value rest with
            | Ok (value, rest) =>
              match in_section sec (index key (assign veqb (VS value) filename)) o with
              | (o', Ok _) => read_lines fuel filename sec rest o'
              | (o', r) => (o', r)
              end
            | Throw => (o, Throw)
            | UB => (o, UB)
            end
          | Throw => (o, Throw)
          | UB => (o, UB)
          end
      end
    end
  end.
Definition read (filename text : str) (o : tree) : tree * res unit :=
  let lines := lines_of text in read_lines (S (List.length lines)) filename [] lines o.

(** ** optionsreader.cxx *)
Definition CMD : str := chars "Command line".

(** lines 85-106: the argument joined with its neighbours when there are spaces around the '='; the rest of the arguments *)
Definition join_args (buffer : str) (rest : list str) : str * list str :=
  match rest with
  | [] => (buffer, rest)
  | b :: rest1 =>
      if Ascii.eqb (List.last buffer zero) eqc then (buffer ++ b, rest1)
      else if Ascii.eqb (hd zero b) eqc then
        match tl b, rest1 with
        | [], d :: rest2 => ((buffer ++ b) ++ d, rest2)
        | _, _ => (buffer ++ b, rest1)
        end
      else (buffer, rest)
  end.
(** lines 127-133: sections in the key, [fuel] > length; the names of the sections and the remaining key *)
Fixpoint key_sections (fuel : nat) (key : str) : list str * str :=
  match fuel with
  | O => ([], key)
  | S fuel =>
      match find_first (Ascii.eqb colon) key 0 with
      | Some scorepos =>
          let (secs, k) := key_sections fuel (trim (skipn (scorepos + 1) key) ws_trim) in (firstn scorepos key :: secs, k)
      | None => ([], key)
      end
  end.
(** lines 56-143, from [args] on; every argument starts again at the root (line 67, whatever object was passed); [fuel] >
    number of arguments *)
Fixpoint parse_args (fuel : nat) (args : list str) (o : tree) : tree * res unit :=
  match fuel with
  | O => (o, UB)
  | S fuel =>
    match args with
    | [] => (o, Ok tt)
    | [] :: rest => parse_args fuel rest o
    | (c :: t) :: rest =>
      let buffer := if Ascii.eqb c dash then t else c :: t in
      match buffer with
      | [] => (o, Throw)
      | _ =>
        let (buffer, rest) := join_args buffer rest in
        match find_first (Ascii.eqb eqc) buffer 0 with
        | None =>
            match index buffer (assign veqb (VB true) CMD) o with
            | (o', Ok _) => parse_args fuel rest o'
            | (o', r) => (o', r)
            end
        | Some startpos =>
            match find_last (Ascii.eqb eqc) buffer 0 None with
            | None => (o, UB)
            | Some endpos =>
              if negb (startpos =? endpos) then (o, Throw)
              else
                let key := trim (firstn startpos buffer) ws_trim in
                let value := trim (skipn (startpos + 1) buffer) ws_trim in
                let (secs, key) := key_sections (S (List.length key)) key in
                match in_section secs (fun c => (c, Ok tt)) o with
                | (o1, Ok _) =>
                    match key, value with
                    | [], _ | _, [] => (o1, Throw)
                    | _, _ =>
                        match in_section secs (index key (assign veqb (VS value) CMD)) o1 with
                        | (o', Ok _) => parse_args fuel rest o'
                        | (o', r) => (o', r)
                        end
                    end
                | (o', r) => (o', r)
                end
            end
        end
      end
    end
  end.
(** lines 56-64: argv[0] is the program *)
Definition parseCommandLine (argv : list str) (o : tree) : tree * res unit := parse_args (S (List.length (tl argv))) (tl argv) o.
