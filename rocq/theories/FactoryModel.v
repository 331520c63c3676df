(* Variables of expressions: FieldFactory::findOption, resolve and parse, /repo/src/field/field_factory.cxx:288-465, with
   max_recursion_depth = 0 (the default).

   Simplifications, for the whole file:
   - The Options tree is a tree of sections and values; a value carries its text and whether isSet() holds (it was not set by
     a default). An Options* is the list of names from the node up to the root, innermost first; parent_instance is the tail.
     full_name is the names joined with colons (options.cxx:122-129).
   - parseString first builds the tree of generators with unresolved names, then the names are resolved from left to right. (The
     code does both at once; the two differ only in which names have been resolved when the text has a syntax error.) The
     syntax, [parse_text], is a parameter: ExprModel.parseString is one instance.
   - BoutException and ParseException are [Throw]. A call returns the new state also when it throws. [UB] is out of fuel. *)
Require Import ZArith List Bool Ascii String.
Require Import Verif.Base Verif.ExprModel.
Import ListNotations.

Definition colon : ascii := ":"%char.
Definition hash : ascii := "#"%char.
Definition str_eqb (a b : str) : bool := if list_eq_dec ascii_dec a b then true else false.

Inductive tree := Sec (kids : list (str * tree)) | Val (text : str) (isset : bool).
Notation path := (list str).

Fixpoint child (n : str) (l : list (str * tree)) : option tree :=
  match l with [] => None | (m, t) :: r => if str_eqb n m then Some t else child n r end.

(* The node an Options* points to. *)
Fixpoint node (root : tree) (p : path) : option tree :=
  match p with
  | [] => Some root
  | n :: up => match node root up with Some (Sec l) => child n l | _ => None end
  end.

(* options.hxx:668-678 isSet(key), then get(key, val, "") of the text. *)
Definition set_text (root : tree) (p : path) (n : str) : option str :=
  match node root p with
  | Some (Sec l) => match child n l with Some (Val t true) => Some t | _ => None end
  | _ => None
  end.

(* options.cxx:136-166, const operator[]; the recursion is on a shorter name. *)
Fixpoint split_colon (s : str) : option (str * str) :=
  match s with
  | [] => None
  | c :: r => if Ascii.eqb c colon then Some ([], r)
              else match split_colon r with Some (a, b) => Some (c :: a, b) | None => None end
  end.
Fixpoint getSection (root : tree) (fuel : nat) (p : path) (s : str) : res path :=
  match fuel with
  | O => UB
  | S k =>
      match node root p with
      | Some (Sec l) =>
          match s with
          | [] => Ok p
          | _ => match split_colon s with
                 | Some (a, b) => do q <- getSection root k p a; getSection root k q b
                 | None => match child s l with Some _ => Ok (s :: p) | None => Throw end
                 end
          end
      | _ => Throw
      end
  end.

(* name.find(':', from) and name.substr(from, len) *)
Fixpoint find_from (s : str) (i : nat) : option nat :=
  match s with [] => None | c :: r => if Ascii.eqb c colon then Some i else find_from r (S i) end.
Definition find_colon (name : str) (from : nat) : option nat := find_from (skipn from name) from.
Definition substr (s : str) (from len : nat) : str := firstn len (skipn from s).

(* field_factory.cxx:297-303, the search through the parents. *)
Fixpoint search_up (root : tree) (p : path) (name : str) : res (path * str) :=
  match set_text root p name with
  | Some t => Ok (p, t)
  | None => match p with [] => Throw | _ :: up => search_up root up name end
  end.

(* field_factory.cxx:309-320, the loop over the sections; the third argument of substr is [pos], as in the code. *)
Fixpoint sections (root : tree) (fuel : nat) (name : str) (result : path) (lastpos : nat) (pos : option nat) : res (path * nat) :=
  match pos with
  | None => Ok (result, lastpos)
  | Some q =>
      match fuel with
      | O => UB
      | S k =>
          let sectionname := substr name lastpos q in
          do result' <- (if (0 <? Z.of_nat (List.length sectionname))%Z
                         then getSection root (S (List.length sectionname)) result sectionname else Ok result);
          sections root k name result' (q + 1) (find_colon name (q + 1))
      end
  end.

(* field_factory.cxx:288-334 *)
Definition findOption (root : tree) (opt : path) (name : str) : res (path * str) :=
  match find_colon name 0 with
  | None => search_up root opt name
  | pos =>
      do r <- sections root (S (List.length name)) name [] 0 pos;
      let varname := skipn (snd r) name in
      match set_text root (fst r) varname with Some t => Ok (fst r, t) | None => Throw end
  end.

(* Options::str(), options.hxx:701 *)
Fixpoint full (p : path) : str :=
  match p with
  | [] => []
  | n :: up => match full up with [] => n | f => f ++ colon :: n end
  end.

(* field_factory.cxx:340-351 *)
Definition key_of (opt : path) (name : str) : str :=
  match find_colon name 0 with
  | Some _ => name
  | None => match full opt with [] => name | f => f ++ colon :: name end
  end.
(* field_factory.cxx:434-438 *)
Definition text_key (opt : option path) (input : str) : str :=
  match opt with None => hash :: input | Some p => full p ++ hash :: input end.

(* The mutable members: cache, lookup (last pushed first) and options. *)
Record fstate := mkF { cache : list (str * expr); lookup : list str; options : path }.
Fixpoint assoc (k : str) (l : list (str * expr)) : option expr :=
  match l with [] => None | (m, e) :: r => if str_eqb k m then Some e else assoc k r end.
Definition add_cache (k : str) (e : expr) (s : fstate) : fstate := mkF ((k, e) :: cache s) (lookup s) (options s).
Definition with_lookup (l : list str) (s : fstate) : fstate := mkF (cache s) l (options s).
Definition with_options (p : path) (s : fstate) : fstate := mkF (cache s) (lookup s) p.

Notation M A := (fstate -> fstate * res A).

(* The names of a parsed text replaced by what they resolve to, left to right (expressionparser.cxx:384-391 for a name). *)
Section Walk.
Variable rsv : str -> M expr.
Definition ret {A} (a : A) : M A := fun s => (s, Ok a).
Definition mbind {A B} (m : M A) (f : A -> M B) : M B :=
  fun s => match m s with (s', Ok a) => f a s' | (s', Throw) => (s', Throw) | (s', UB) => (s', UB) end.
Fixpoint walk (e : expr) : M expr :=
  match e with
  | ERes n => rsv n
  | EVal _ | EParam _ => ret e
  | EBin o l r => mbind (walk l) (fun l' => mbind (walk r) (fun r' => ret (EBin o l' r')))
  | ECall f args =>
      mbind ((fix go (a : list expr) : M (list expr) :=
                match a with
                | [] => ret []
                | x :: a' => mbind (walk x) (fun x' => mbind (go a') (fun r => ret (x' :: r)))
                end) args) (fun a' => ret (ECall f a'))
  | ECtx vars body =>
      mbind ((fix go (a : list (str * expr)) : M (list (str * expr)) :=
                match a with
                | [] => ret []
                | (n, x) :: a' => mbind (walk x) (fun x' => mbind (go a') (fun r => ret ((n, x') :: r)))
                end) vars) (fun v' => mbind (walk body) (fun b' => ret (ECtx v' b')))
  | ESum s c b => mbind (walk c) (fun c' => mbind (walk b) (fun b' => ret (ESum s c' b')))
  end.
End Walk.

Section Factory.
Variable parse_text : str -> res expr.
Variable root : tree.

(* field_factory.cxx:431-459; on an exception options stays changed. *)
Definition parse_with (rsv : str -> M expr) (input : str) (opt : option path) : M expr := fun s =>
  let key := text_key opt input in
  match assoc key (cache s) with
  | Some e => (s, Ok e)
  | None =>
      let old := options s in
      let s1 := match opt with Some p => with_options p s | None => s end in
      match parse_text input with
      | Ok e0 =>
          match walk rsv e0 s1 with
          | (s2, Ok e) => (with_options old (add_cache key e s2), Ok e)
          | r => r
          end
      | Throw => (s1, Throw)
      | UB => (s1, UB)
      end
  end.

(* field_factory.cxx:336-412, lines 339-408 for max_recursion_depth = 0; on an exception the key stays in lookup. *)
Fixpoint resolve (fuel : nat) (name : str) : M expr := fun s =>
  match fuel with
  | O => (s, UB)
  | S n =>
      let key := key_of (options s) name in
      match assoc key (cache s) with
      | Some e => (s, Ok e)
      | None =>
          if existsb (str_eqb key) (lookup s) then (s, Throw)
          else match findOption root (options s) name with
               | Ok (section, value) =>
                   match parse_with (resolve n) value (Some section) (with_lookup (key :: lookup s) s) with
                   | (s2, Ok e) => (with_lookup (tl (lookup s2)) (add_cache key e s2), Ok e)
                   | r => r
                   end
               | Throw => (s, Throw)
               | UB => (s, UB)
               end
      end
  end.

Definition parse (fuel : nat) (input : str) (opt : option path) : M expr := parse_with (resolve fuel) input opt.
End Factory.

(* A new factory, field_factory.cxx:89-91. *)
Definition new_factory (opt : path) : fstate := mkF [] [] opt.
