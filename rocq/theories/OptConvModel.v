(** Model of the conversions of option values: Options::as<std::string>, as<int>, as<BoutReal>, as<bool> (src/sys/options.cxx
    301-468) and of the text of a value (variantToString, include/bout/sys/variant.hxx:145-157, toString, utils.hxx:535-567).

    Simplifications: double is exact real arithmetic; only the alternatives bool, int, BoutReal and std::string of the variant;
    the text of a BoutReal (std::stringstream: six significant digits) is a parameter [rtext]; the parser for expressions is
    that of ExprModel with FieldFactory's names as parameters; its cache of parsed expressions is not modelled; marking the
    option as used is in OptionsModel. *)
From Coq Require Import Reals ZArith Ascii String List Bool.
From Verif Require Import Base StringsModel OptionsModel IniModel ExprModel ExprEvalModel.
Import ListNotations.
Notation str := StringsModel.str.

(** options.hxx:197-199 ValueType *)
Inductive oval := OB (b : bool) | OI (n : Z) | OR (r : R) | OS (s : str).
(** the values which the readers of IniModel store *)
Definition of_value (v : value) : oval := match v with VS s => OS s | VB b => OB b end.

(** operator<< for an int: decimal digits, the most significant first; [fuel] > number of digits *)
Fixpoint digits_of (fuel : nat) (n : Z) : str :=
  match fuel with
  | O => []
  | S fuel => (if (n <? 10)%Z then [] else digits_of fuel (n / 10)) ++ [ascii_of_nat (48 + Z.to_nat (n mod 10))]
  end.
Definition int_text (n : Z) : str :=
  (if (n <? 0)%Z then ["-"%char] else []) ++ digits_of (S (Z.to_nat (Z.log2 (Z.abs n)))) (Z.abs n).

(** the range of int *)
Definition int_min : Z := (- 2 ^ 31)%Z.
Definition int_max : Z := (2 ^ 31 - 1)%Z.
(** utils.hxx:462-464 ROUND; converting a double outside of the range of int is undefined *)
Definition round_int (r : R) : res Z :=
  let n := ROUND r in if ((int_min <=? n) && (n <=? int_max))%Z then Ok n else UB.

Section WithParser.
Variable rtext : R -> str.
Variable L : lang.
Variable power : R -> R -> R.
Variable named : str -> list (ctx -> res R) -> ctx -> res R.
Variable resolved : str -> ctx -> res R.

(** variantToString *)
Definition oval_text (v : oval) : str :=
  match v with OB b => if b then chars "true" else chars "false" | OI n => int_text n | OR r => rtext r | OS s => s end.
(** options.cxx:301-318 as<std::string> *)
Definition as_string (v : oval) : res str := Ok (oval_text v).
(** options.cxx:322-340 parseExpression: the value of the expression at t, x, y, z = 0 *)
Definition parseExpression (s : str) : res R :=
  do e <- parseString L (8 * List.length s + 7) s; generate power named resolved e ctx0.
(** options.cxx:343-390 as<int> *)
Definition as_int (v : oval) : res Z :=
  match v with
  | OI n => Ok n
  | _ =>
      do rval <- (match v with OR r => Ok r | OS s => parseExpression s | _ => Throw end);
      do result <- round_int rval;
      if Rlt_dec (/ 1000) (Rabs (rval - IZR result)) then Throw else Ok result
  end.
(** options.cxx:392-424 as<BoutReal> *)
Definition as_real (v : oval) : res R :=
  match v with OI n => Ok (IZR n) | OR r => Ok r | OS s => parseExpression s | OB _ => Throw end.
(** options.cxx:426-468 as<bool> *)
Definition as_bool (v : oval) : res bool :=
  match v with
  | OB b => Ok b
  | OS s =>
      let strvalue := lowercase s in
      if str_eqb strvalue (chars "y") || str_eqb strvalue (chars "yes") || str_eqb strvalue (chars "t") || str_eqb strvalue (chars "true") || str_eqb strvalue (chars "1")
      then Ok true
      else if str_eqb strvalue (chars "n") || str_eqb strvalue (chars "no") || str_eqb strvalue (chars "f") || str_eqb strvalue (chars "false") || str_eqb strvalue (chars "0")
      then Ok false
      else Throw
  | _ => Throw
  end.
End WithParser.
