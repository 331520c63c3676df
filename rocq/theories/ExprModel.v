(* The expression parser and evaluator of /repo/src/sys/expressionparser.cxx.

   Simplifications, for the whole file:
   - A character is a byte; isspace/isdigit are those of the C locale. LastChar together with the
     unread part of the string stream is the list of bytes not yet consumed (LastChar is its
     head, EOF when it is empty; the byte 255 compares equal to EOF where the code compares).
   - A number is an exact decimal (mantissa and power of ten) instead of the nearest double, and
     std::stod's out_of_range is not modelled.
   - ParseException and the std exceptions thrown by stod and map::at are all [Throw].
   - Generators registered by name are opaque: the table says which names are registered and which
     argument counts their clone accepts, and evaluation takes their meaning as a parameter. So is
     the virtual function resolve.
   - Recursion has fuel; [UB] is running out of it. *)
Require Import ZArith List Bool Ascii String.
Require Import Verif.Base.
Import ListNotations.
Local Open Scope Z_scope.

Notation str := (list ascii).
Definition ch (s : string) : str := list_ascii_of_string s.
Definition code (c : ascii) : Z := Z.of_N (N_of_ascii c).

(* <cctype>, C locale *)
Definition isspace (c : ascii) : bool := ((9 <=? code c) && (code c <=? 13)) || (code c =? 32).
Definition isdigit (c : ascii) : bool := (48 <=? code c) && (code c <=? 57).
(* LastChar == EOF for a byte that was read *)
Definition is_eof (c : ascii) : bool := code c =? 255.

Record dec := mkDec { mant : Z; ten : Z }.

(* curtok with curval and curident: 0, -1, -2, -3, and the character tokens. *)
Inductive tok :=
| TEnd
| TNum (d : dec)
| TId (s : str)
| TParam (s : str)
| TCh (c : ascii).

Local Open Scope char_scope.
(* expressionparser.hxx:161 reserved_chars, to which addBinaryOp adds (expressionparser.cxx:227-231). *)
Definition base_reserved : str := ["+";"-";"*";"/";"^";"[";"]";"(";")";"{";"}";",";"="].
Definition mem (c : ascii) (l : str) : bool := existsb (Ascii.eqb c) l.

(* The binary operators: symbol to precedence (bin_op), and the registered generators with the
   argument counts clone accepts. *)
Record lang := mkLang {
  prec : ascii -> option Z;
  gens : str -> option (nat -> bool);
  resolves : str -> res bool }.

(* expressionparser.cxx:208-214 *)
Definition std_prec (c : ascii) : option Z :=
  if Ascii.eqb c "+" then Some 10%Z else if Ascii.eqb c "-" then Some 10%Z
  else if Ascii.eqb c "*" then Some 20%Z else if Ascii.eqb c "/" then Some 20%Z
  else if Ascii.eqb c "^" then Some 30%Z else None.

Definition reserved (L : lang) (c : ascii) : bool :=
  mem c base_reserved || match prec L c with Some _ => true | None => false end.

(* ---------- numbers ---------- *)
Fixpoint span (p : ascii -> bool) (s : str) : str * str :=
  match s with
  | c :: s' => if p c then let (a, b) := span p s' in (c :: a, b) else ([], s)
  | [] => ([], [])
  end.
Definition digits_val (s : str) : Z := fold_left (fun a c => a * 10 + (code c - 48))%Z s 0%Z.

(* std::stod on the text collected by the lexer: the longest valid prefix. *)
Definition stod (s : str) : option dec :=
  let (ip, r) := span isdigit s in
  let (fp, r2) := match r with "." :: r' => span isdigit r' | _ => ([], r) end in
  match ip ++ fp with
  | [] => None
  | ds =>
      let e := match r2 with
               | "e" :: "+" :: r3 => digits_val (fst (span isdigit r3))
               | "e" :: "-" :: r3 => (- digits_val (fst (span isdigit r3)))%Z
               | "e" :: r3 => digits_val (fst (span isdigit r3))
               | _ => 0%Z
               end in
      Some (mkDec (digits_val ds) (e - Z.of_nat (List.length fp)))
  end.

(* expressionparser.cxx:586-620, the loop collecting NumStr. *)
Fixpoint num_loop (gotdecimal gotexponent : bool) (s : str) : res (str * str) :=
  match s with
  | [] => Ok ([], [])
  | c :: s' =>
      if Ascii.eqb c "." then
        if gotdecimal || gotexponent then Throw
        else do r <- num_loop true gotexponent s'; Ok (c :: fst r, snd r)
      else if Ascii.eqb c "E" || Ascii.eqb c "e" then
        if gotexponent then Throw
        else match s' with
             | c2 :: s'' =>
                 if Ascii.eqb c2 "+" || Ascii.eqb c2 "-" || isdigit c2
                 then do r <- num_loop gotdecimal true s''; Ok ("e" :: c2 :: fst r, snd r)
                 else Throw
             | [] => Throw
             end
      else if isdigit c then do r <- num_loop gotdecimal gotexponent s'; Ok (c :: fst r, snd r)
      else Ok ([], s)
  end.

(* expressionparser.cxx:648-659 and 692-703: the do loop that takes characters up to [close];
   s starts after the opening character. The first character is taken whatever it is. *)
Fixpoint quoted (close : ascii) (forbid : ascii -> bool) (s : str) : res (str * str) :=
  match s with
  | [] => Throw
  | c :: s' =>
      match s' with
      | [] => Throw
      | c2 :: s'' =>
          if is_eof c2 then Throw else if forbid c2 then Throw
          else if Ascii.eqb c2 close then Ok ([c], s'')
          else do r <- quoted close forbid s'; Ok (c :: fst r, snd r)
      end
  end.

(* expressionparser.cxx:664-666, the condition of the identifier loop on the new LastChar. *)
Definition ident_more (L : lang) (s : str) : bool :=
  match s with
  | [] => false
  | c :: _ => (negb (is_eof c) && negb (isspace c) && negb (reserved L c))
              || Ascii.eqb c "\" || Ascii.eqb c "`"
  end.

(* expressionparser.cxx:634-666, the identifier do loop. *)
Fixpoint ident_loop (L : lang) (fuel : nat) (s : str) : res (str * str) :=
  match fuel with
  | O => UB
  | S n =>
      match s with
      | [] => UB (* unreachable: the loop is entered with a character *)
      | c :: s' =>
          do piece <- (if Ascii.eqb c "\" then
                         match s' with
                         | [] => Throw
                         | c2 :: s'' => if is_eof c2 then Throw else Ok ([c2], s'')
                         end
                       else if Ascii.eqb c "`" then quoted "`" (fun _ => false) s'
                       else Ok ([c], s'));
          if ident_more L (snd piece)
          then do r <- ident_loop L n (snd piece); Ok (fst piece ++ fst r, snd r)
          else Ok piece
      end
  end.

Fixpoint skip_ws (s : str) : str :=
  match s with c :: s' => if isspace c then skip_ws s' else s | [] => [] end.

Definition is_num (t : tok) : bool := match t with TNum _ => true | _ => false end.

(* LexInfo::nextToken, expressionparser.cxx:575-712; [prev] is curtok on entry. *)
Definition nextToken (L : lang) (prev : tok) (s : str) : res (tok * str) :=
  match skip_ws s with
  | [] => Ok (TEnd, [])
  | c :: s' =>
      if isdigit c || Ascii.eqb c "." then
        do r <- num_loop false false (c :: s');
        match stod (fst r) with Some d => Ok (TNum d, snd r) | None => Throw end
      else if Ascii.eqb c "`" || negb (reserved L c) then
        if is_num prev then Ok (TCh "*", c :: s')
        else do r <- ident_loop L (S (List.length s')) (c :: s'); Ok (TId (fst r), snd r)
      else if Ascii.eqb c "(" && is_num prev then Ok (TCh "*", c :: s')
      else if Ascii.eqb c "{" then
        if is_num prev then Ok (TCh "*", c :: s')
        else do r <- quoted "}" (fun x => Ascii.eqb x "{") s'; Ok (TParam (fst r), snd r)
      else Ok (TCh c, s')
  end.

(* ---------- trees ---------- *)
(* FieldValue, FieldParam, FieldBinary, a registered generator cloned with arguments, a resolved
   name, FieldContext and FieldSum. *)
Inductive expr :=
| EVal (d : dec)
| EParam (s : str)
| EBin (op : ascii) (l r : expr)
| ECall (name : str) (args : list expr)
| ERes (name : str)
| ECtx (vars : list (str * expr)) (body : expr)
| ESum (sym : str) (count body : expr).

Definition zero := EVal (mkDec 0 0).

(* ---------- parser ---------- *)
(* The parser uses the lexer through its current token and nextToken; it is written over any such
   source of tokens, and used with the lexer below. *)
Section Parser.
Variable L : lang.
Variables (St : Type) (cur : St -> tok) (next : St -> res St).

Definition is_ch (t : tok) (c : ascii) : bool := match t with TCh d => Ascii.eqb d c | _ => false end.
(* expressionparser.cxx:502-503, 526-527 *)
Definition is_end (t : tok) : bool :=
  match t with TEnd => true | TCh c => Ascii.eqb c ")" || Ascii.eqb c "," || Ascii.eqb c "]" | _ => false end.
(* bin_op.find(lex.curtok) *)
Definition op_of (t : tok) : option (ascii * Z) :=
  match t with
  | TCh c => match prec L c with Some p => Some (c, p) | None => None end
  | _ => None
  end.

Definition expect (c : ascii) (st : St) : res St := if is_ch (cur st) c then next st else Throw.

Fixpoint pPrimary (fuel : nat) (st : St) : res (expr * St) :=        (* 465-495 *)
  match fuel with
  | O => UB
  | S n =>
      match cur st with
      | TNum d =>
          (* the token is eaten before curval is read *)
          do st' <- next st; Ok (EVal (match cur st' with TNum d' => d' | _ => d end), st')
      | TId name => pIdent n name st
      | TParam s => do st' <- next st; Ok (EParam s, st')
      | TCh c =>
          if Ascii.eqb c "-" then Ok (zero, st)
          else if Ascii.eqb c "(" then pParen n st
          else if Ascii.eqb c "[" then pContext n st
          else Throw
      | TEnd => Throw
      end
  end
with pIdent (fuel : nat) (name : str) (st : St) : res (expr * St) :=  (* 307-396 *)
  match fuel with
  | O => UB
  | S n =>
      do st1 <- next st;
      if list_eq_dec ascii_dec name (ch "sum") then
        do st2 <- expect "(" st1;
        match cur st2 with
        | TId sym | TParam sym =>
            do st3 <- next st2;
            do st4 <- expect "," st3;
            do c <- pExpr n st4;
            do st5 <- expect "," (snd c);
            do e <- pExpr n st5;
            do st6 <- expect ")" (snd e);
            Ok (ESum sym (fst c) (fst e), st6)
        | _ => Throw
        end
      else if is_ch (cur st1) "(" then
        match gens L name with
        | None => Throw
        | Some arity =>
            do st2 <- next st1;
            if is_ch (cur st2) ")" then
              do st3 <- next st2; if arity O then Ok (ECall name [], st3) else Throw
            else
              do a <- pArgs n st2;
              if arity (List.length (fst a)) then Ok (ECall name (fst a), snd a) else Throw
        end
      else
        match gens L name with
        | None => do b <- resolves L name; if b then Ok (ERes name, st1) else Throw
        | Some arity => if arity O then Ok (ECall name [], st1) else Throw
        end
  end
with pArgs (fuel : nat) (st : St) : res (list expr * St) :=           (* 364-380 *)
  match fuel with
  | O => UB
  | S n =>
      do e <- pExpr n st;
      if is_ch (cur (snd e)) ")" then do st' <- next (snd e); Ok ([fst e], st')
      else if is_ch (cur (snd e)) "," then
        do st' <- next (snd e);
        do r <- pArgs n st';
        Ok (fst e :: fst r, snd r)
      else Throw
  end
with pParen (fuel : nat) (st : St) : res (expr * St) :=               (* 398-410 *)
  match fuel with
  | O => UB
  | S n =>
      do st1 <- next st;
      do e <- pExpr n st1;
      if is_ch (cur (snd e)) ")" || is_ch (cur (snd e)) "]"
      then do st2 <- next (snd e); Ok (fst e, st2) else Throw
  end
with pContext (fuel : nat) (st : St) : res (expr * St) :=             (* 413-463 *)
  match fuel with
  | O => UB
  | S n =>
      do st1 <- next st;
      do v <- pVars n st1;
      do st2 <- next (snd v);
      if is_ch (cur st2) "(" then
        do e <- pParen n st2; Ok (ECtx (fst v) (fst e), snd e)
      else Throw
  end
with pVars (fuel : nat) (st : St) : res (list (str * expr) * St) :=   (* 418-449 *)
  match fuel with
  | O => UB
  | S n =>
      if is_ch (cur st) "]" then Ok ([], st)
      else match cur st with
           | TId symbol =>
               do st1 <- next st;
               do st2 <- expect "=" st1;
               do e <- pExpr n st2;
               do st3 <- (if is_ch (cur (snd e)) "," then next (snd e) else Ok (snd e));
               do r <- pVars n st3;
               Ok ((symbol, fst e) :: fst r, snd r)
           | _ => Throw
           end
  end
with pBin (fuel : nat) (eprec : Z) (lhs : expr) (st : St) : res (expr * St) := (* 497-555 *)
  match fuel with
  | O => UB
  | S n =>
      if is_end (cur st) then Ok (lhs, st)
      else match op_of (cur st) with
           | None => Throw
           | Some (op, tprec) =>
               if (tprec <? eprec)%Z then Ok (lhs, st)
               else
                 do st1 <- next st;
                 do rhs <- pPrimary n st1;
                 if is_end (cur (snd rhs)) then Ok (EBin op lhs (fst rhs), snd rhs)
                 else match op_of (cur (snd rhs)) with
                      | None => Throw
                      | Some (_, nprec) =>
                          do rhs' <- (if (tprec <? nprec)%Z then pBin n (tprec + 1) (fst rhs) (snd rhs)
                                      else Ok rhs);
                          pBin n eprec (EBin op lhs (fst rhs')) (snd rhs')
                      end
           end
  end
with pExpr (fuel : nat) (st : St) : res (expr * St) :=                (* 557-560 *)
  match fuel with
  | O => UB
  | S n => do l <- pPrimary n st; pBin n 0 (fst l) (snd l)
  end.
End Parser.

(* The lexer as a source of tokens: curtok, and the unread characters. *)
Definition lcur (s : tok * str) : tok := fst s.
Definition lnext (L : lang) (s : tok * str) : res (tok * str) := nextToken L (fst s) (snd s).

(* parseString, expressionparser.cxx:233-246, with the LexInfo constructor 565-573 (curtok = 0). *)
Definition parseString (L : lang) (fuel : nat) (input : str) : res expr :=
  do st <- nextToken L TEnd input;
  do e <- pExpr L (tok * str) lcur (lnext L) fuel st;
  match lcur (snd e) with TEnd => Ok (fst e) | _ => Throw end.
