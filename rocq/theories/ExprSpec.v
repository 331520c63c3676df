(* What the theorems about expressions say: how token sequences are written as text, the grammar,
   and (for the exact statement of what the parser accepts) the grammar with its oddities. *)
Require Import ZArith List Bool Ascii String.
Require Import Verif.ExprModel.
Import ListNotations.
Local Open Scope Z_scope.
Local Open Scope char_scope.

(* ---------- text ---------- *)
Definition digits (s : str) : Prop := forall c, In c s -> isdigit c = true.
Definition spaces (s : str) : Prop := forall c, In c s -> isspace c = true.
Fixpoint dvalue (acc : Z) (s : str) : Z :=
  match s with [] => acc | c :: s' => dvalue (10 * acc + (code c - 48)) s' end.

(* An exponent and its value. *)
Inductive exponent : str -> Z -> Prop :=
| ex_none : exponent [] 0
| ex_plain e ds : e = "e" \/ e = "E" -> ds <> [] -> digits ds -> exponent (e :: ds) (dvalue 0 ds)
| ex_plus e ds : e = "e" \/ e = "E" -> ds <> [] -> digits ds -> exponent (e :: "+" :: ds) (dvalue 0 ds)
| ex_minus e ds : e = "e" \/ e = "E" -> ds <> [] -> digits ds -> exponent (e :: "-" :: ds) (- dvalue 0 ds).

(* 12, 1.5, .5, 1.e3, 2E-4: the digits as an integer, times ten to the exponent less the number
   of decimals. *)
Inductive number : str -> dec -> Prop :=
| nb_int ip x e : ip <> [] -> digits ip -> exponent x e -> number (ip ++ x) (mkDec (dvalue 0 ip) e)
| nb_dec ip fp x e : ip ++ fp <> [] -> digits ip -> digits fp -> exponent x e ->
    number (ip ++ "." :: fp ++ x) (mkDec (dvalue 0 (ip ++ fp)) (e - Z.of_nat (List.length fp))).

(* Characters that need no escaping in a name. *)
Definition plain (L : lang) (c : ascii) : Prop :=
  isspace c = false /\ reserved L c = false /\ is_eof c = false /\ c <> "\" /\ c <> "`".

(* Names: plain characters, \c for any character c, and `...` *)
Inductive name_text (L : lang) : str -> str -> Prop :=
| nt_nil : name_text L [] []
| nt_plain c s x : plain L c -> name_text L s x -> name_text L (c :: s) (c :: x)
| nt_escape c s x : is_eof c = false -> name_text L s x -> name_text L (c :: s) ("\" :: c :: x)
| nt_quote q s x : q <> [] -> (forall c, In c q -> c <> "`" /\ is_eof c = false) ->
    name_text L s x -> name_text L (q ++ s) ("`" :: q ++ "`" :: x).

(* How one token is written. *)
Inductive written (L : lang) : tok -> str -> Prop :=
| wr_num x d : number x d -> written L (TNum d) x
| wr_name c s x : name_text L s (c :: x) -> isdigit c = false -> c <> "." -> written L (TId s) (c :: x)
| wr_param s : s <> [] -> (forall c, In c s -> c <> "{" /\ c <> "}" /\ is_eof c = false) ->
    written L (TParam s) ("{" :: s ++ ["}"])
| wr_char c : reserved L c = true -> isspace c = false -> isdigit c = false -> c <> "." -> c <> "`" -> c <> "{" ->
    written L (TCh c) [c].

(* A number must not run into a digit, '.' or 'e', nor a name into another name. *)
Definition separate (L : lang) (t : tok) (rest : str) : Prop :=
  match t, rest with
  | TNum _, c :: _ => isdigit c = false /\ c <> "." /\ c <> "e" /\ c <> "E"
  | TId _, c :: _ => (isspace c = true \/ reserved L c = true \/ is_eof c = true) /\ c <> "\" /\ c <> "`"
  | _, _ => True
  end.

(* The tokens a '*' may be left out before, after a number. *)
Definition factor_start (t : tok) : bool :=
  match t with TId _ | TParam _ => true | TCh c => Ascii.eqb c "(" | _ => false end.

(* [spelled L prev ts s]: s is a way of writing the tokens ts after the token prev, with white
   space anywhere between tokens, and with '*' left out after numbers. *)
Inductive spelled (L : lang) : tok -> list tok -> str -> Prop :=
| sp_end prev w : spaces w -> spelled L prev [] w
| sp_token prev t ts w x rest :
    spaces w -> written L t x -> separate L t rest ->
    (is_num prev = true -> factor_start t = false) ->
    spelled L t ts rest -> spelled L prev (t :: ts) (w ++ x ++ rest)
| sp_times d t ts s :
    factor_start t = true -> spelled L (TCh "*") (t :: ts) s -> spelled L (TNum d) (TCh "*" :: t :: ts) s.

(* ---------- grammar ---------- *)
Definition sumname : str := ch "sum".

(* [D L p e ts]: the tokens ts are the expression e, with every operator outside brackets binding
   at least as tightly as p. Operators associate to the left; a minus sign may stand before a
   whole operand of '-'. *)
Inductive D (L : lang) : Z -> expr -> list tok -> Prop :=
| D_num p d : D L p (EVal d) [TNum d]
| D_param p s : D L p (EParam s) [TParam s]
| D_name p name ar : name <> sumname -> gens L name = Some ar -> ar O = true -> D L p (ECall name []) [TId name]
| D_resolved p name : name <> sumname -> gens L name = None -> resolves L name = Base.Ok true ->
    D L p (ERes name) [TId name]
| D_call0 p name ar : name <> sumname -> gens L name = Some ar -> ar O = true ->
    D L p (ECall name []) [TId name; TCh "("; TCh ")"]
| D_call p name ar args ts : name <> sumname -> gens L name = Some ar -> ar (List.length args) = true ->
    Dargs L args ts -> D L p (ECall name args) (TId name :: TCh "(" :: ts ++ [TCh ")"])
| D_sum p sym c e tc te : D L 0 c tc -> D L 0 e te ->
    D L p (ESum sym c e) (TId sumname :: TCh "(" :: TId sym :: TCh "," :: tc ++ TCh "," :: te ++ [TCh ")"])
| D_context p vs e tv te : Dvars L vs tv -> D L 0 e te ->
    D L p (ECtx vs e) (TCh "[" :: tv ++ TCh "]" :: TCh "(" :: te ++ [TCh ")"])
| D_brackets p e ts : D L 0 e ts -> D L p e (TCh "(" :: ts ++ [TCh ")"])
| D_binary p q op l r tl tr : prec L op = Some q -> p <= q -> D L q l tl -> D L (q + 1) r tr ->
    D L p (EBin op l r) (tl ++ TCh op :: tr)
| D_minus p q e ts : prec L "-" = Some q -> p <= q -> D L (q + 1) e ts ->
    D L p (EBin "-" zero e) (TCh "-" :: ts)
with Dargs (L : lang) : list expr -> list tok -> Prop :=
| Da_one e ts : D L 0 e ts -> Dargs L [e] ts
| Da_more e es ts ts' : D L 0 e ts -> Dargs L es ts' -> Dargs L (e :: es) (ts ++ TCh "," :: ts')
with Dvars (L : lang) : list (str * expr) -> list tok -> Prop :=
| Dv_none : Dvars L [] []
| Dv_one s e ts : D L 0 e ts -> Dvars L [(s, e)] (TId s :: TCh "=" :: ts)
| Dv_more s e vs ts ts' : D L 0 e ts -> Dvars L vs ts' ->
    Dvars L ((s, e) :: vs) (TId s :: TCh "=" :: ts ++ TCh "," :: ts').

(* Operators are not brackets, commas, '=' or '\', and have non-negative precedence. *)
Definition wf_lang (L : lang) : Prop :=
  forall c p, prec L c = Some p -> 0 <= p /\ ~ In c ["("; ")"; "["; "]"; "{"; "}"; ","; "="; "\"].

(* The language the parser really accepts: as D, but with the token after the expression, and two
   oddities: a closing bracket may be ']' instead of ')', and before any '-' where an operand is
   due, an operand 0 is read from nothing. *)
Inductive G (L : lang) : Z -> expr -> list tok -> tok -> Prop :=
| G_num p d nxt : G L p (EVal d) [TNum d] nxt
| G_zero p : G L p zero [] (TCh "-")
| G_param p s nxt : G L p (EParam s) [TParam s] nxt
| G_name p name ar nxt : name <> sumname -> gens L name = Some ar -> ar O = true -> nxt <> TCh "(" ->
    G L p (ECall name []) [TId name] nxt
| G_resolved p name nxt : name <> sumname -> gens L name = None -> resolves L name = Base.Ok true -> nxt <> TCh "(" ->
    G L p (ERes name) [TId name] nxt
| G_call0 p name ar nxt : name <> sumname -> gens L name = Some ar -> ar O = true ->
    G L p (ECall name []) [TId name; TCh "("; TCh ")"] nxt
| G_call p name ar args ts nxt : name <> sumname -> gens L name = Some ar -> ar (List.length args) = true ->
    Gargs L args ts -> G L p (ECall name args) (TId name :: TCh "(" :: ts ++ [TCh ")"]) nxt
| G_sum p t sym c e tc te nxt : t = TId sym \/ t = TParam sym -> G L 0 c tc (TCh ",") -> G L 0 e te (TCh ")") ->
    G L p (ESum sym c e) (TId sumname :: TCh "(" :: t :: TCh "," :: tc ++ TCh "," :: te ++ [TCh ")"]) nxt
| G_context p vs e tv te c nxt : Gvars L vs tv -> c = ")" \/ c = "]" -> G L 0 e te (TCh c) ->
    G L p (ECtx vs e) (TCh "[" :: tv ++ TCh "]" :: TCh "(" :: te ++ [TCh c]) nxt
| G_brackets p e ts c nxt : c = ")" \/ c = "]" -> G L 0 e ts (TCh c) -> G L p e (TCh "(" :: ts ++ [TCh c]) nxt
| G_binary p q op l r tl tr nxt : prec L op = Some q -> p <= q ->
    G L q l tl (TCh op) -> G L (q + 1) r tr nxt -> G L p (EBin op l r) (tl ++ TCh op :: tr) nxt
with Gargs (L : lang) : list expr -> list tok -> Prop :=
| Ga_one e ts : G L 0 e ts (TCh ")") -> Gargs L [e] ts
| Ga_more e es ts ts' : G L 0 e ts (TCh ",") -> Gargs L es ts' -> Gargs L (e :: es) (ts ++ TCh "," :: ts')
with Gvars (L : lang) : list (str * expr) -> list tok -> Prop :=
| Gv_none : Gvars L [] []
| Gv_one s e ts : G L 0 e ts (TCh "]") -> Gvars L [(s, e)] (TId s :: TCh "=" :: ts)
| Gv_more s e vs ts ts' : G L 0 e ts (TCh ",") -> Gvars L vs ts' ->
    Gvars L ((s, e) :: vs) (TId s :: TCh "=" :: ts ++ TCh "," :: ts').

(* Printing with brackets only where precedence or associativity needs them. *)
Fixpoint show (L : lang) (p : Z) (e : expr) : list tok :=
  match e with
  | EVal d => [TNum d]
  | EParam s => [TParam s]
  | EBin op l r =>
      match prec L op with
      | Some q => if (p <=? q)%Z then show L q l ++ TCh op :: show L (q + 1) r
                  else TCh "(" :: (show L q l ++ TCh op :: show L (q + 1) r) ++ [TCh ")"]
      | None => []
      end
  | ECall name [] => [TId name]
  | _ => []
  end.
(* The trees it prints. *)
Fixpoint arith (L : lang) (e : expr) : Prop :=
  match e with
  | EVal _ | EParam _ => True
  | EBin op l r => prec L op <> None /\ arith L l /\ arith L r
  | ECall name [] => name <> sumname /\ exists ar, gens L name = Some ar /\ ar O = true
  | _ => False
  end.

(* ---------- what the lexer delivers ---------- *)
(* The tokens read from s one after the other up to the end of input. *)
Inductive lexes (L : lang) : tok -> str -> list tok -> Prop :=
| lx_end prev s r : nextToken L prev s = Base.Ok (TEnd, r) -> lexes L prev s []
| lx_tok prev s t r ts : nextToken L prev s = Base.Ok (t, r) -> t <> TEnd -> lexes L t r ts -> lexes L prev s (t :: ts).
(* The lexer throws at some token of s. *)
Inductive lex_throws (L : lang) : tok -> str -> Prop :=
| lt_now prev s : nextToken L prev s = Base.Throw -> lex_throws L prev s
| lt_later prev s t r : nextToken L prev s = Base.Ok (t, r) -> t <> TEnd -> lex_throws L t r -> lex_throws L prev s.

(* The parser that comes with the operators + - * / ^ only. *)
Definition std_lang (g : str -> option (nat -> bool)) (r : str -> Base.res bool) : lang := mkLang std_prec g r.

(* FieldGenerator::str at the level of tokens: every binary operation in brackets
   (expressionparser.hxx:240-243), {name}, [a=e,b=e,](e) with a comma after the last definition and
   sum(sym,count,expr) (expressionparser.cxx:93, 120-127, 163-165), name(args). *)
Fixpoint strtoks (e : expr) : list tok :=
  let fix args (l : list expr) : list tok :=
    match l with [] => [] | [a] => strtoks a | a :: l' => strtoks a ++ TCh "," :: args l' end in
  let fix vars (l : list (str * expr)) : list tok :=
    match l with [] => [] | (s, a) :: l' => TId s :: TCh "=" :: strtoks a ++ TCh "," :: vars l' end in
  match e with
  | EVal d => [TNum d]
  | EParam s => [TParam s]
  | EBin op l r => TCh "(" :: (strtoks l ++ TCh op :: strtoks r) ++ [TCh ")"]
  | ECall name [] => [TId name]
  | ECall name l => TId name :: TCh "(" :: args l ++ [TCh ")"]
  | ERes name => [TId name]
  | ECtx vs b => TCh "[" :: vars vs ++ TCh "]" :: TCh "(" :: strtoks b ++ [TCh ")"]
  | ESum s c b => TId sumname :: TCh "(" :: TId s :: TCh "," :: strtoks c ++ TCh "," :: strtoks b ++ [TCh ")"]
  end.
(* Trees over the operators and names the parser knows. *)
Inductive known (L : lang) : expr -> Prop :=
| kn_val d : known L (EVal d)
| kn_param s : known L (EParam s)
| kn_bin op l r : prec L op <> None -> known L l -> known L r -> known L (EBin op l r)
| kn_call name args ar : name <> sumname -> gens L name = Some ar -> ar (List.length args) = true ->
    (forall a, In a args -> known L a) -> known L (ECall name args)
| kn_res name : name <> sumname -> gens L name = None -> resolves L name = Base.Ok true -> known L (ERes name)
| kn_ctx vs b : (forall s a, In (s, a) vs -> known L a) -> known L b -> known L (ECtx vs b)
| kn_sum s c b : known L c -> known L b -> known L (ESum s c b).

(* The textbook grammar of arithmetic with + - * / ^, all associating to the left, written without
   precedence numbers. *)
Inductive Sum (L : lang) : expr -> list tok -> Prop :=
| Su_add l r tl tr : Sum L l tl -> Prod L r tr -> Sum L (EBin "+" l r) (tl ++ TCh "+" :: tr)
| Su_sub l r tl tr : Sum L l tl -> Prod L r tr -> Sum L (EBin "-" l r) (tl ++ TCh "-" :: tr)
| Su_neg e ts : Prod L e ts -> Sum L (EBin "-" zero e) (TCh "-" :: ts)
| Su_prod e ts : Prod L e ts -> Sum L e ts
with Prod (L : lang) : expr -> list tok -> Prop :=
| Pr_mul l r tl tr : Prod L l tl -> Pow L r tr -> Prod L (EBin "*" l r) (tl ++ TCh "*" :: tr)
| Pr_div l r tl tr : Prod L l tl -> Pow L r tr -> Prod L (EBin "/" l r) (tl ++ TCh "/" :: tr)
| Pr_pow e ts : Pow L e ts -> Prod L e ts
with Pow (L : lang) : expr -> list tok -> Prop :=
| Po_pow l r tl tr : Pow L l tl -> Atom L r tr -> Pow L (EBin "^" l r) (tl ++ TCh "^" :: tr)
| Po_atom e ts : Atom L e ts -> Pow L e ts
with Atom (L : lang) : expr -> list tok -> Prop :=
| At_num d : Atom L (EVal d) [TNum d]
| At_param s : Atom L (EParam s) [TParam s]
| At_name name ar : name <> sumname -> gens L name = Some ar -> ar O = true -> Atom L (ECall name []) [TId name]
| At_call name ar a ts : name <> sumname -> gens L name = Some ar -> ar 1%nat = true -> Sum L a ts ->
    Atom L (ECall name [a]) (TId name :: TCh "(" :: ts ++ [TCh ")"])
| At_brackets e ts : Sum L e ts -> Atom L e (TCh "(" :: ts ++ [TCh ")"]).
