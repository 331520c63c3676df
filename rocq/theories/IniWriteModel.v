(** Model of writing an Options tree as a settings file: src/sys/options.cxx (OptionsFormatterBase::parse, ::format) and
    src/sys/options/options_ini.cxx (OptionINI::write).

    The stored values are a parameter V with their texts [tostr] (variantToString, variant.hxx:145-157: the text itself for a
    string, true or false for a bool, the text produced by operator<< for numbers and fields). The attributes type and doc are
    not in the tree of OptionsModel: [attr] gives them for the full name of an option.
    Simplification: opening, writing and closing the file are not modelled, the result is the text that is written. *)
From Coq Require Import Ascii String List Arith Bool.
From Verif Require Import Base StringsModel OptionsModel IniModel.
Import ListNotations.

(** options.hxx:945-962: the flags of a formatter *)
Record flags := MkFlags { f_doc : bool; f_inline : bool; f_key : bool; f_source : bool; f_unused : bool }.
Definition no_flags := MkFlags false false false false false.
(** options.cxx:915-949 parse, on the text between the colon and the closing brace; the same text is used for sub-sections *)
Fixpoint parse_format (s : str) (f : flags) : res flags :=
  match s with
  | [] => Ok f
  | c :: r =>
      if Ascii.eqb c "d" then parse_format r (MkFlags true (f_inline f) (f_key f) (f_source f) (f_unused f))
      else if Ascii.eqb c "i" then parse_format r (MkFlags (f_doc f) true (f_key f) (f_source f) (f_unused f))
      else if Ascii.eqb c "k" then parse_format r (MkFlags (f_doc f) (f_inline f) true (f_source f) (f_unused f))
      else if Ascii.eqb c "s" then parse_format r (MkFlags (f_doc f) (f_inline f) (f_key f) true (f_unused f))
      else if Ascii.eqb c "u" then parse_format r (MkFlags (f_doc f) (f_inline f) (f_key f) (f_source f) true)
      else Throw
  end.

(** options.hxx:704-712 name *)
Definition name_of (full_name : str) : str :=
  match find_last (Ascii.eqb colon) full_name 0 None with Some pos => skipn (pos + 1) full_name | None => full_name end.

Section WithV.
Context {V : Type} (tostr : V -> str) (attr : str -> option str * option str).

(** fmt::join(comments, ", ") *)
Fixpoint fmt_join (l : list str) : str :=
  match l with [] => [] | [x] => x | x :: r => x ++ chars ", " ++ fmt_join r end.

(** options.cxx:977-1008: the comments of a value *)
Definition comments (fl : flags) (i : info V) (full_name : str) : list str :=
  (if f_unused fl && negb (i_used i)
   then [if i_cond i then chars "unused value (marked conditionally used)" else chars "unused value (NOT marked conditionally used)"]
   else []) ++
  (if f_doc fl
   then (match fst (attr full_name) with Some t => [chars "type: " ++ t] | None => [] end) ++
        (match snd (attr full_name) with Some t => [chars "doc: " ++ t] | None => [] end)
   else []) ++
  (if f_source fl
   then match i_src i with Some (c :: r) => [chars "source: " ++ c :: r] | _ => [] end
   else []).

(** options.cxx:963-1014: a value. A variant that was never assigned is a bool, false (options.hxx:197). *)
Definition format_value (fl : flags) (i : info V) (full_name : str) : str :=
  (if f_inline fl && negb (match full_name with [] => true | _ => false end) then full_name else name_of full_name) ++
  (if f_key fl then []
   else let value := match i_val i with Some v => tostr v | None => chars "false" end in
        chars " = " ++ (match value with [] => [""""; """"]%char | _ => value end)) ++
  (match comments fl i full_name with [] => [] | cs => "009"%char :: "009"%char :: chars "# " ++ fmt_join cs end).

(** options.cxx:952-1041 format *)
Fixpoint format (fl : flags) (o : opt V) : str :=
  match o with
  | Node i f cs =>
    if negb (i_sect i) then format_value fl i f
    else
      (if negb (f_inline fl) && negb (match f with [] => true | _ => false end) && existsb (fun nc => negb (i_sect (inf (snd nc)))) cs
       then newline :: "["%char :: f ++ ["]"%char; newline] else []) ++
      (fix values (l : list (str * opt V)) : str :=
         match l with
         | [] => []
         | (n, c) :: r => if negb (i_sect (inf c)) then format fl c ++ newline :: values r else values r
         end) cs ++
      (fix sections (l : list (str * opt V)) : str :=
         match l with
         | [] => []
         | (n, c) :: r => if i_sect (inf c) then format fl c ++ sections r else sections r
         end) cs
  end.

(** options_ini.cxx:150-165 write: fout << fmt::format({:uds}, *options) *)
Definition write (o : opt V) : res str := bind (parse_format (chars "uds") no_flags) (fun fl => Ok (format fl o)).
End WithV.
