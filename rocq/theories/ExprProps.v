(* C17, C18, C19: expressions in input files. *)
Require Import Reals ZArith List Bool Ascii String Lia Lra.
Require Import Verif.Base Verif.ExprModel Verif.ExprSpec Verif.ExprProofs Verif.ExprProofs3 Verif.ExprProofs4 Verif.ExprProofs5.
Require Import Verif.ExprEvalModel Verif.ExprEvalSpec Verif.ExprEvalProofs.
Import ListNotations.
Local Open Scope Z_scope.
Local Open Scope char_scope.

(* ---------- C17 ---------- *)
(** Every text that spells an expression of the grammar is parsed to that expression, however the
    operators and their precedences are extended. *)
Theorem C17_parse : forall L ts s e, wf_lang L -> (forall nm, resolves L nm <> UB) ->
  spelled L TEnd ts s -> D L 0 e ts ->
  forall fuel, (8 * List.length s + 7 <= fuel)%nat -> parseString L fuel s = Ok e.
Proof.
  intros L ts s e WF R Hs HD fuel Hf. destruct (parse_complete L WF ts s e Hs HD) as [n Hn].
  now apply (parse_fixed L n fuel s e).
Qed.
Print Assumptions C17_parse.

(** The grammar gives every token sequence at most one meaning. *)
Theorem C17_unambiguous : forall L ts e e', wf_lang L -> D L 0 e ts -> D L 0 e' ts -> e = e'.
Proof.
  intros L ts e e' WF H H'. apply (unambiguous L e e' ts TEnd WF eq_refl); apply (proj1 (D_in_G L WF)); auto; now left.
Qed.
Print Assumptions C17_unambiguous.

(** A tree over operators, numbers and names, printed with brackets only where precedence and left
    associativity need them, is read back as that tree. *)
Theorem C17_minimal_brackets : forall L e s, wf_lang L -> (forall nm, resolves L nm <> UB) -> arith L e ->
  spelled L TEnd (show L 0 e) s ->
  forall fuel, (8 * List.length s + 7 <= fuel)%nat -> parseString L fuel s = Ok e.
Proof. intros L e s WF R A Hs. apply (C17_parse L (show L 0 e)); auto. now apply show_D. Qed.
Print Assumptions C17_minimal_brackets.

(** The form a tree is printed in by str() is read back as that tree: also calls, sums and
    definitions. *)
Theorem C17_str : forall L e s, wf_lang L -> (forall nm, resolves L nm <> UB) -> known L e ->
  spelled L TEnd (strtoks e) s ->
  forall fuel, (8 * List.length s + 7 <= fuel)%nat -> parseString L fuel s = Ok e.
Proof. intros L e s WF R K Hs. apply (C17_parse L (strtoks e)); auto. now apply (strtoks_D L WF (esize e)). Qed.
Print Assumptions C17_str.

(** Parsing ends on every input: it returns a tree or throws. *)
Theorem C17_terminates : forall L s, (forall nm, resolves L nm <> UB) ->
  (exists e, forall fuel, (8 * List.length s + 7 <= fuel)%nat -> parseString L fuel s = Ok e) \/
  (forall fuel, (8 * List.length s + 7 <= fuel)%nat -> parseString L fuel s = Throw).
Proof.
  intros L s R. pose proof (parse_terminates L (enough s) s R (le_n _)) as T.
  destruct (parseString L (enough s) s) as [e| |] eqn:E; [left; exists e|right|contradiction]; intros fuel Hf;
  apply (parse_up L (enough s) fuel s _ Hf E); discriminate.
Qed.
Print Assumptions C17_terminates.

(** Exactly what is accepted: the grammar, plus ']' for a closing bracket, plus an operand 0 read
    from nothing before any '-'. *)
Theorem C17_exact : forall L s e, wf_lang L ->
  (exists fuel, parseString L fuel s = Ok e) <-> exists ts, lexes L TEnd s ts /\ G L 0 e ts TEnd.
Proof. intros L s e WF. now apply parse_exact. Qed.
Print Assumptions C17_exact.

(** With the operators every parser starts with, that is the textbook grammar: sums of products of
    powers, all associating to the left. *)
Scheme Sum_m := Minimality for Sum Sort Prop with Prod_m := Minimality for Prod Sort Prop
  with Pow_m := Minimality for Pow Sort Prop with Atom_m := Minimality for Atom Sort Prop.
Combined Scheme textbook_ind from Sum_m, Prod_m, Pow_m, Atom_m.
Lemma textbook_D g r : let L := std_lang g r in
  (forall e ts, Sum L e ts -> D L 0 e ts) /\ (forall e ts, Sum L e ts -> D L 10 e ts) /\ (forall e ts, Prod L e ts -> D L 20 e ts /\ D L 11 e ts /\ D L 10 e ts /\ D L 0 e ts) /\
  (forall e ts, Atom L e ts -> forall p, D L p e ts).
Proof.
  intro L.
  assert (P10 : prec L "+" = Some 10 /\ prec L "-" = Some 10) by (split; reflexivity).
  assert (P20 : prec L "*" = Some 20 /\ prec L "/" = Some 20) by (split; reflexivity).
  assert (P30 : prec L "^" = Some 30) by reflexivity.
  assert (A : (forall e ts, Sum L e ts -> forall p, p <= 10 -> D L p e ts) /\ (forall e ts, Prod L e ts -> forall p, p <= 20 -> D L p e ts) /\
    (forall e ts, Pow L e ts -> forall p, p <= 30 -> D L p e ts) /\ (forall e ts, Atom L e ts -> forall p, D L p e ts)).
  { apply textbook_ind; intros.
    - apply (D_binary L p 10); try easy; [apply H0; lia|apply H2; lia].
    - apply (D_binary L p 10); try easy; [apply H0; lia|apply H2; lia].
    - apply (D_minus L p 10); try easy. apply H0; lia.
    - apply H0; lia.
    - apply (D_binary L p 20); try easy; [apply H0; lia|apply H2; lia].
    - apply (D_binary L p 20); try easy; [apply H0; lia|apply H2; lia].
    - apply H0; lia.
    - apply (D_binary L p 30); try easy. apply H0; lia.
    - apply H0.
    - constructor.
    - constructor.
    - econstructor; eauto.
    - eapply D_call; eauto. constructor. apply H3; lia.
    - apply D_brackets. apply H0; lia. }
  destruct A as [A [B [C E]]].
  split; [intros; apply A; trivial; lia|]. split; [intros; apply A; trivial; lia|].
  split; [intros; repeat split; apply B; trivial; lia|exact E].
Qed.
Theorem C17_standard_operators : forall g r e ts s, (forall nm, r nm <> UB) ->
  Sum (std_lang g r) e ts -> spelled (std_lang g r) TEnd ts s ->
  forall fuel, (8 * List.length s + 7 <= fuel)%nat -> parseString (std_lang g r) fuel s = Ok e.
Proof.
  intros g r e ts s R H Hs. apply (C17_parse _ ts); auto; [apply std_wf|]. now apply (proj1 (textbook_D g r)).
Qed.
Print Assumptions C17_standard_operators.
(* 1-2*3^x^2 *)
Example C17_case_textbook : forall g r ar, g (ch "x") = Some ar -> ar O = true -> let L := std_lang g r in
  let n k := EVal (mkDec k 0) in let tn k := TNum (mkDec k 0) in
  Sum L (EBin "-" (n 1) (EBin "*" (n 2) (EBin "^" (EBin "^" (n 3) (ECall (ch "x") [])) (n 2))))
    [tn 1; TCh "-"; tn 2; TCh "*"; tn 3; TCh "^"; TId (ch "x"); TCh "^"; tn 2].
Proof.
  intros g r ar G A L n tn.
  assert (N : forall k, Atom L (n k) [tn k]) by (intro; constructor).
  assert (X : Atom L (ECall (ch "x") []) [TId (ch "x")]) by (apply (At_name L (ch "x") ar); easy).
  apply (Su_sub L (n 1) _ [tn 1]); [now do 3 constructor|].
  apply (Pr_mul L (n 2) _ [tn 2]); [now do 2 constructor|].
  apply (Po_pow L _ (n 2) [tn 3; TCh "^"; TId (ch "x")] [tn 2]); [|apply N].
  apply (Po_pow L (n 3) _ [tn 3]); [now constructor|exact X].
Qed.

(* x y z t, sin with one argument, atan with one or two; the option n resolves. *)
Definition demo : lang := std_lang
  (fun s => if list_eq_dec ascii_dec s (ch "x") then Some (fun _ => true)
            else if list_eq_dec ascii_dec s (ch "sin") then Some (Nat.eqb 1)
            else if list_eq_dec ascii_dec s (ch "atan") then Some (fun n => Nat.eqb n 1 || Nat.eqb n 2) else None)
  (fun s => Ok (if list_eq_dec ascii_dec s (ch "n") then true else false)).
Lemma demo_ok : wf_lang demo /\ forall nm, resolves demo nm <> UB.
Proof. split; [apply std_wf|discriminate]. Qed.
Definition num (k : Z) := EVal (mkDec k 0).
Example C17_case :
  parseString demo 200 (ch "1 - 2 - 3*4^2^1") =
    Ok (EBin "-" (EBin "-" (num 1) (num 2)) (EBin "*" (num 3) (EBin "^" (EBin "^" (num 4) (num 2)) (num 1)))) /\
  parseString demo 200 (ch "atan(x, 2sin(x))+[a=1,b=n](sum(i,3,{i}*{a}))") =
    Ok (EBin "+" (ECall (ch "atan") [ECall (ch "x") []; EBin "*" (num 2) (ECall (ch "sin") [ECall (ch "x") []])])
       (ECtx [(ch "a", num 1); (ch "b", ERes (ch "n"))] (ESum (ch "i") (num 3) (EBin "*" (EParam (ch "i")) (EParam (ch "a")))))) /\
  parseString demo 200 (ch "1 + (2 * 3") = Throw /\ parseString demo 200 (ch "sin(x, x)") = Throw.
Proof. repeat split; vm_compute; reflexivity. Qed.
(* 1-(x-2)*3 : the hypotheses of the theorems on a concrete text *)
Example C17_case_minimal : let e := EBin "-" (num 1) (EBin "*" (EBin "-" (ECall (ch "x") []) (num 2)) (num 3)) in
  arith demo e /\ show demo 0 e = [TNum (mkDec 1 0); TCh "-"; TCh "("; TId (ch "x"); TCh "-"; TNum (mkDec 2 0); TCh ")"; TCh "*"; TNum (mkDec 3 0)] /\
  spelled demo TEnd (show demo 0 e) (ch "1-(x-2)*3").
Proof.
  cbv zeta. split; [|split].
  - cbn [arith num]. assert (forall c, In c ["-"; "*"] -> prec demo c <> None) by (intros c [<- |[<- |[]]]; discriminate).
    repeat split; try (apply H; cbn; tauto); try discriminate. eexists. split; reflexivity.
  - vm_compute. reflexivity.
  - assert (E : show demo 0 (EBin "-" (num 1) (EBin "*" (EBin "-" (ECall (ch "x") []) (num 2)) (num 3))) =
      [TNum (mkDec 1 0); TCh "-"; TCh "("; TId (ch "x"); TCh "-"; TNum (mkDec 2 0); TCh ")"; TCh "*"; TNum (mkDec 3 0)]) by (vm_compute; reflexivity).
    rewrite E.
    assert (N : forall c, isdigit c = true -> number [c] (mkDec (dvalue 0 [c]) 0)).
    { intros c H. apply (nb_int [c] [] 0); [discriminate|intros x [<- |[]]; exact H|constructor]. }
    assert (CH : forall c, In c ["-"; "("; ")"; "*"] -> written demo (TCh c) [c]).
    { intros c [<- |[<- |[<- |[<- |[]]]]]; constructor; try reflexivity; discriminate. }
    assert (SP : spaces []) by (intros c []).
    apply (sp_token demo TEnd _ _ [] ["1"] _ SP); [constructor; now apply N|repeat split; discriminate|discriminate|].
    apply (sp_token demo _ _ _ [] ["-"] _ SP); [apply CH; cbn; tauto|exact I|reflexivity|].
    apply (sp_token demo _ _ _ [] ["("] _ SP); [apply CH; cbn; tauto|exact I|discriminate|].
    apply (sp_token demo _ _ _ [] ["x"] _ SP); [|split; [right; left; reflexivity|split; discriminate]|discriminate|].
    { apply wr_name; [|reflexivity|discriminate]. constructor; [|constructor]. repeat split; discriminate. }
    apply (sp_token demo _ _ _ [] ["-"] _ SP); [apply CH; cbn; tauto|exact I|discriminate|].
    apply (sp_token demo _ _ _ [] ["2"] _ SP); [constructor; now apply N|repeat split; discriminate|discriminate|].
    apply (sp_token demo _ _ _ [] [")"] _ SP); [apply CH; cbn; tauto|exact I|reflexivity|].
    apply (sp_token demo _ _ _ [] ["*"] _ SP); [apply CH; cbn; tauto|exact I|discriminate|].
    apply (sp_token demo _ _ _ [] ["3"] _ SP); [constructor; now apply N|exact I|discriminate|].
    now apply sp_end.
Qed.

(* ---------- C18 ---------- *)
(** Every input string is either split into tokens, in one way, or makes the lexer throw. *)
Theorem C18_deterministic : forall L s,
  ((exists ts, lexes L TEnd s ts) \/ lex_throws L TEnd s) /\
  (forall ts ts', lexes L TEnd s ts -> lexes L TEnd s ts' -> ts = ts') /\
  (forall ts, lexes L TEnd s ts -> ~ lex_throws L TEnd s).
Proof.
  intros L s. split; [|split].
  - apply (lex_total L (2 * List.length s + 3)). left. split; [reflexivity|lia].
  - intros ts ts' H H'. now apply (lex_det L TEnd s ts).
  - intros ts H. now apply (lex_excl L TEnd s ts).
Qed.
Print Assumptions C18_deterministic.

(** A spelled token sequence is split into exactly those tokens: numbers have their decimal value,
    names lose their escapes, '*' left out after a number is put back. *)
Theorem C18_lexes : forall L ts s, wf_lang L -> spelled L TEnd ts s -> lexes L TEnd s ts.
Proof. intros L ts s WF H. now apply spelled_lexes. Qed.
Print Assumptions C18_lexes.

(** A number followed at once, or after spaces, by a name, '(' or '{' is a multiplication. *)
Theorem C18_implicit_times : forall L x d t ts s e q, wf_lang L -> (forall nm, resolves L nm <> UB) -> prec L "*" = Some q ->
  number x d -> separate L (TNum d) s -> factor_start t = true -> spelled L (TCh "*") (t :: ts) s -> D L (q + 1) e (t :: ts) ->
  forall fuel, (8 * List.length (x ++ s) + 7 <= fuel)%nat -> parseString L fuel (x ++ s) = Ok (EBin "*" (EVal d) e).
Proof.
  intros L x d t ts s e q WF R Hq Hx Hs Ht Hsp HD fuel Hf.
  apply (C17_parse L ([TNum d] ++ TCh "*" :: t :: ts)); auto.
  - cbn [app]. apply (sp_token L TEnd (TNum d) _ [] x s); [intros c []|now constructor|exact Hs|discriminate|]. now apply sp_times.
  - apply (D_binary L 0 q "*" (EVal d) e [TNum d] (t :: ts)); auto. now destruct (WF _ _ Hq). constructor.
Qed.
Print Assumptions C18_implicit_times.

(** A minus sign before a term at the start of the input negates that term. *)
Theorem C18_leading_minus : forall L ts s e q, wf_lang L -> (forall nm, resolves L nm <> UB) -> prec L "-" = Some q ->
  spelled L (TCh "-") ts s -> D L (q + 1) e ts ->
  forall fuel, (8 * List.length s + 15 <= fuel)%nat -> parseString L fuel ("-" :: s) = Ok (EBin "-" zero e).
Proof.
  intros L ts s e q WF R Hq Hs HD fuel Hf. apply (C17_parse L (TCh "-" :: ts)); auto; [| |cbn [List.length]; lia].
  - apply (sp_token L TEnd (TCh "-") ts [] ["-"] s); [intros c []| |exact I|discriminate|exact Hs].
    constructor; try reflexivity; discriminate.
  - apply (D_minus L 0 q); auto. now destruct (WF _ _ Hq).
Qed.
Print Assumptions C18_leading_minus.

(** A minus sign right after another operator does not negate: with the operators as shipped, 2*-3
    is read as (2*0)-3, 2^-1 as (2^0)-1 and 1--1 as (1-0)-1. *)
Theorem C18_minus_after_operator_refuted : forall g r fuel, (200 <= fuel)%nat ->
  parseString (std_lang g r) fuel (ch "2*-3") = Ok (EBin "-" (EBin "*" (num 2) zero) (num 3)) /\
  parseString (std_lang g r) fuel (ch "2^-1") = Ok (EBin "-" (EBin "^" (num 2) zero) (num 1)) /\
  parseString (std_lang g r) fuel (ch "1--1") = Ok (EBin "-" (EBin "-" (num 1) zero) (num 1)).
Proof.
  intros g r fuel Hf. repeat split; (eapply parse_up; [exact Hf| |discriminate]); vm_compute; reflexivity.
Qed.
Print Assumptions C18_minus_after_operator_refuted.
Example C18_case :
  lexes demo TEnd (ch " 1.5e-2x\+`a b`(.5{n n})") [TNum (mkDec 15 (-3)); TCh "*"; TId (ch "x+a b"); TCh "("; TNum (mkDec 5 (-1)); TCh "*"; TParam (ch "n n"); TCh ")"] /\
  lex_throws demo TEnd (ch "1 + 2.3.4") /\
  parseString demo 200 (ch "-2x+1") = Ok (EBin "+" (EBin "-" zero (EBin "*" (num 2) (ECall (ch "x") []))) (num 1)).
Proof.
  split; [|split; [|vm_compute; reflexivity]].
  - repeat (eapply lx_tok; [vm_compute; reflexivity|discriminate|]). eapply lx_end. vm_compute. reflexivity.
  - repeat (eapply lt_later; [vm_compute; reflexivity|discriminate|]). apply lt_now. vm_compute. reflexivity.
Qed.

(* ---------- C19 ---------- *)
Section C19.
Local Open Scope R_scope.
(** sum(i, n, e) is e with i = 0, added to e with i = 1, ..., up to i = n - 1, the rest of the
    context being the caller's; n is allowed to miss an integer by up to 1e-4. *)
Theorem C19_sum : forall power meaning resolved sym count body c v n f,
  generate power meaning resolved count c = Ok v -> Rabs (v - INR n) <= / 10000 ->
  (forall i c', (i < n)%nat -> with_value c sym (INR i) c' -> generate power meaning resolved body c' = Ok (f i)) ->
  generate power meaning resolved (ESum sym count body) c = Ok (total f n).
Proof. exact gen_sum. Qed.
Print Assumptions C19_sum.
(** A count that is not a non-negative integer throws. *)
Theorem C19_sum_throws : forall power meaning resolved sym count body c v,
  generate power meaning resolved count c = Ok v -> (forall n, / 10000 < Rabs (v - INR n)) ->
  generate power meaning resolved (ESum sym count body) c = Throw.
Proof. exact gen_sum_not_count. Qed.
Print Assumptions C19_sum_throws.

(** [a=e1,b=e2](e): the definitions are evaluated where the whole is, then e in that context with
    the names given those values, the last definition of a name counting. *)
Theorem C19_context : forall power meaning resolved vs xs body c c',
  Forall2 (fun v x => fst x = fst v /\ generate power meaning resolved (snd v) c = Ok (snd x)) vs xs ->
  (forall m, c' m = match defined xs m with Some v => Some v | None => c m end) ->
  generate power meaning resolved (ECtx vs body) c = generate power meaning resolved body c'.
Proof. exact gen_ctx. Qed.
Print Assumptions C19_context.
Theorem C19_context_only : forall power meaning resolved vs body c r,
  generate power meaning resolved (ECtx vs body) c = Ok r ->
  exists xs c', Forall2 (fun v x => fst x = fst v /\ generate power meaning resolved (snd v) c = Ok (snd x)) vs xs /\
    (forall m, c' m = match defined xs m with Some v => Some v | None => c m end) /\
    generate power meaning resolved body c' = Ok r.
Proof.
  intros power meaning resolved vs body c r H. apply gen_ctx_inv in H as (xs & F & E). exists xs, (over xs c). repeat split; auto.
Qed.
Print Assumptions C19_context_only.

(** The value depends only on the names the expression uses; names it defines for its parts do not
    count. *)
Theorem C19_scope : forall power meaning resolved reads rreads e c c',
  local_meaning reads meaning -> local_resolved rreads resolved ->
  (forall m, uses reads rreads e m -> c m = c' m) ->
  generate power meaning resolved e c = generate power meaning resolved e c'.
Proof. intros power meaning resolved reads rreads e c c' HM HR. now apply gen_uses. Qed.
Print Assumptions C19_scope.

(** Defining a name is replacing it: [a=d](e) is e with {a} replaced by d, where nothing inside e
    changes a name d uses, and no generator or resolved name inside e reads a. *)
Theorem C19_replace : forall power meaning resolved reads rreads a d e c v,
  local_meaning reads meaning -> local_resolved rreads resolved ->
  generate power meaning resolved d c = Ok v ->
  (forall m, binds e m -> ~ uses reads rreads d m) -> visible reads rreads a e ->
  generate power meaning resolved (ECtx [(a, d)] e) c = generate power meaning resolved (replace a d e) c.
Proof.
  intros power meaning resolved reads rreads a d e c v HM HR Hd Hb Hv.
  rewrite (gen_replace power meaning resolved reads rreads HM HR a d v e c Hd c); auto.
  apply (gen_ctx power meaning resolved [(a, d)] [(a, v)]).
  - constructor; [split; [reflexivity|exact Hd]|constructor].
  - intros m. rewrite cset_eq. cbn [defined]. now destruct (same_name m a).
Qed.
Print Assumptions C19_replace.
(** Resolved names see the definitions around them (dynamic scope): replacing does not hold for
    them. *)
Theorem C19_resolved_names_see_definitions : forall power meaning resolved a d name c v,
  generate power meaning resolved d c = Ok v -> forall c', with_value c a v c' ->
  generate power meaning resolved (ECtx [(a, d)] (ERes name)) c = resolved name c' /\
  generate power meaning resolved (replace a d (ERes name)) c = resolved name c.
Proof.
  intros power meaning resolved a d name c v Hd c' Hc. split; [|reflexivity].
  rewrite (gen_ctx power meaning resolved [(a, d)] [(a, v)] (ERes name) c c'); [reflexivity| |].
  - constructor; [split; [reflexivity|exact Hd]|constructor].
  - intros m. rewrite (with_cset _ _ _ _ Hc), cset_eq. cbn [defined]. now destruct (same_name m a).
Qed.
Print Assumptions C19_resolved_names_see_definitions.

(* a generator x that reads the context and its arguments where it stands *)
Definition demo_meaning (name : str) (fs : list (ctx -> res R)) (c : ctx) : res R :=
  match fs with [] => cget c name | f :: _ => f c end.
Lemma demo_local : local_meaning (fun name m => m = name) demo_meaning /\ local_resolved (fun _ _ => False) (fun _ _ => Ok 7).
Proof.
  split; [|intros name c c' _; reflexivity]. intros name fs gs c c' H1 H2. destruct fs, gs; try discriminate; cbn.
  - unfold cget. now rewrite (H2 name eq_refl).
  - cbn in H1. congruence.
Qed.
(* sum(i, 3, [k={i}*{i}]({k}+x)) with x = 10 is 0 + 1 + 4 + 30 *)
Example C19_case : forall power,
  generate power demo_meaning (fun _ _ => Ok 7)
    (ESum (ch "i") (num 3) (ECtx [(ch "k", EBin "*" (EParam (ch "i")) (EParam (ch "i")))] (EBin "+" (EParam (ch "k")) (ECall (ch "x") []))))
    (cset ctx0 (ch "x") 10) = Ok 35.
Proof.
  intros power. rewrite (C19_sum power _ _ _ _ _ _ 3 3 (fun i => INR i * INR i + 10)).
  - f_equal. cbn. ring.
  - cbn [num generate]. f_equal. unfold dec_R. cbn. ring.
  - replace (3 - INR 3) with 0 by (cbn; ring). rewrite Rabs_R0. lra.
  - intros i c' Hi [A B].
    rewrite (C19_context power _ _ _ [(ch "k", INR i * INR i)] _ c' (cset c' (ch "k") (INR i * INR i))).
    + cbn [generate map]. unfold demo_meaning, cget. rewrite cset_same. rewrite cset_other by discriminate. rewrite B by discriminate.
      rewrite cset_same. reflexivity.
    + constructor; [split; [reflexivity|]|constructor]. cbn [snd generate]. unfold cget. rewrite A. reflexivity.
    + intros m. rewrite cset_eq. cbn [defined]. now destruct (same_name m (ch "k")).
Qed.
End C19.
