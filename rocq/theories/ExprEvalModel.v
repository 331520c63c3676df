(* Evaluating expression trees: FieldGenerator::generate in /repo/src/sys/expressionparser.cxx and
   Context in /repo/include/bout/sys/generator_context.hxx.

   Simplifications: double is exact real arithmetic; pow is a parameter; a C int is unbounded; the
   maps of a Context are functions; the exceptions of map::at and BoutException are [Throw]; what a
   generator registered by name and a resolved name compute, given their arguments, is a parameter. *)
Require Import Reals ZArith List Ascii String.
Require Import Verif.Base Verif.ExprModel.
Import ListNotations.
Local Open Scope R_scope.

(* Context::parameters, generator_context.hxx:76-78 *)
Notation ctx := (str -> option R).
(* Context::set, generator_context.hxx:51-54 *)
Definition cset (c : ctx) (name : str) (v : R) : ctx :=
  fun n => if list_eq_dec ascii_dec n name then Some v else c n.
(* Context::get, generator_context.hxx:65 *)
Definition cget (c : ctx) (name : str) : res R := match c name with Some v => Ok v | None => Throw end.
(* Context(), generator_context.hxx:77-78 *)
Definition ctx0 : ctx := cset (cset (cset (cset (fun _ => None) (ch "x"%string) 0) (ch "y"%string) 0) (ch "z"%string) 0) (ch "t"%string) 0.

(* std::stod's value *)
Definition dec_R (d : dec) : R := IZR (mant d) * powerRZ 10 (ten d).

(* static_cast<int> and ROUND, include/bout/utils.hxx:464-466 *)
Definition toint (x : R) : Z := if Rle_dec 0 x then Int_part x else (- Int_part (- x))%Z.
Definition ROUND (x : R) : Z := if Rlt_dec 0 x then toint (x + / 2) else toint (x - / 2).

Section Eval.
Variable power : R -> R -> R.
Variable meaning : str -> list (ctx -> res R) -> ctx -> res R.
Variable resolved : str -> ctx -> res R.

(* FieldBinary::generate, expressionparser.cxx:187-204 *)
Definition binop (op : ascii) (l r : R) : res R :=
  if Ascii.eqb op "+"%char then Ok (l + r) else if Ascii.eqb op "-"%char then Ok (l - r)
  else if Ascii.eqb op "*"%char then Ok (l * r) else if Ascii.eqb op "/"%char then Ok (l / r)
  else if Ascii.eqb op "^"%char then Ok (power l r) else Throw.

(* The loop of FieldSum::generate, expressionparser.cxx:153-160: n iterations left, counter i,
   the context that is written in every iteration. *)
Fixpoint sum_loop (body : ctx -> res R) (sym : str) (n : nat) (i : Z) (new_context : ctx) (result : R) : res R :=
  match n with
  | O => Ok result
  | S n' =>
      let new_context := cset new_context sym (IZR i) in
      do v <- body new_context;
      sum_loop body sym n' (i + 1) new_context (result + v)
  end.

(* FieldContext::generate, expressionparser.cxx:107-118: the loop over the variables. *)
Fixpoint set_vars (vs : list (str * (ctx -> res R))) (c new_context : ctx) : res ctx :=
  match vs with
  | [] => Ok new_context
  | (name, f) :: vs' => do v <- f c; set_vars vs' c (cset new_context name v)
  end.

(* generate: FieldValue (expressionparser.hxx:258), FieldParam (expressionparser.cxx:90-92),
   FieldBinary, FieldContext, FieldSum (expressionparser.cxx:139-161). *)
Fixpoint generate (e : expr) : ctx -> res R :=
  match e with
  | EVal d => fun _ => Ok (dec_R d)
  | EParam name => fun c => cget c name
  | EBin op l r => fun c => do x <- generate l c; do y <- generate r c; binop op x y
  | ECall name args => meaning name (map generate args)
  | ERes name => resolved name
  | ECtx vs body => fun c =>
      do c' <- set_vars (map (fun v => (fst v, generate (snd v))) vs) c c; generate body c'
  | ESum sym count body => fun c =>
      do cv <- generate count c;
      let n := ROUND cv in
      if Rlt_dec (/ 10000) (Rabs (cv - IZR n)) then Throw
      else if (n <? 0)%Z then Throw
      else sum_loop (generate body) sym (Z.to_nat n) 0 c 0
  end.
End Eval.
