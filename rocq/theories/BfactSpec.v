(** What a boundary setting means: a condition with arguments, possibly inside modifiers, written with any blanks. *)
From Coq Require Import Ascii String List ZArith Bool.
From Verif Require Import StringsModel StringsSpec IniSpec BfactModel.
Import ListNotations.
Open Scope Z_scope.

Inductive sarg := Pos (s : str) | Key (k v : str).
Inductive setting :=
| Cond (name : str) (args : option (list sarg))                 (* dirichlet, dirichlet(1 + x), robin(1, 2, 3), mine(1, w=2) *)
| Modified (name : str) (inner : setting) (args : list str).    (* relax(dirichlet(1), 10) *)

(** Brackets of all kinds are counted; a text is closed if they balance (none closes before it opens) and no comma is outside of them. *)
Fixpoint nesting (d : Z) (t : str) : option Z :=
  match t with
  | [] => Some d
  | c :: r => if existsb (Ascii.eqb c) ["("; "["; "<"]%char then nesting (d + 1) r
              else if existsb (Ascii.eqb c) [")"; "]"; ">"]%char then if d =? 0 then None else nesting (d - 1) r
              else if Ascii.eqb c "," && (d =? 0) then None else nesting d r
  end.
Definition closed (t : str) : Prop := nesting 0 t = Some 0.
Definition word (n : str) : Prop := n <> [] /\ bare ws_trim n /\ Forall (fun c => ~ In c ["("; ")"; "["; "]"; "<"; ">"; ","; "="]%char) n.
Definition blank (b : str) : Prop := Forall (fun c => In c ws_trim) b.

(** [t] is the argument [a], with blanks anywhere around its parts. *)
Inductive spells_arg : sarg -> str -> Prop :=
| spa_pos s t : bare ws_trim s -> closed s -> ~ In "="%char s -> pad ws_trim s t -> spells_arg (Pos s) t
| spa_key k v t1 t2 : bare ws_trim k -> bare ws_trim v -> closed (k ++ v) -> ~ In "="%char k -> pad ws_trim k t1 -> pad ws_trim v t2 ->
    spells_arg (Key k v) (t1 ++ "="%char :: t2).
Inductive spells : setting -> str -> Prop :=
| sp_bare n t : word n -> n <> chars "null" -> n <> chars "none" -> pad ws_trim n t -> spells (Cond n None) t
| sp_args n args t texts b : word n -> pad ws_trim n t -> args <> [] -> Forall2 spells_arg args texts -> blank b ->
    spells (Cond n (Some args)) (t ++ "("%char :: join ","%char texts ++ ")"%char :: b)
| sp_mod n inner args t ti texts b : word n -> pad ws_trim n t -> spells inner ti -> Forall2 (fun s => spells_arg (Pos s)) args texts -> blank b ->
    spells (Modified n inner args) (t ++ "("%char :: join ","%char (ti :: texts) ++ ")"%char :: b).

Definition positional (args : list sarg) : list str := flat_map (fun a => match a with Pos s => [s] | Key _ _ => [] end) args.
Definition keyword (args : list sarg) : list (str * str) := flat_map (fun a => match a with Pos _ => [] | Key k v => [(k, v)] end) args.
(** The value a list of keywords gives to [k]: the last one. *)
Definition given (k : str) (l : list (str * str)) (v : option str) : Prop :=
  match v with
  | Some v => exists l1 l2, l = l1 ++ (k, v) :: l2 /\ forall v', ~ In (k, v') l2
  | None => forall v', ~ In (k, v') l
  end.
(** The object for a setting: names in lower case. *)
Inductive means (par : bool) : setting -> bop -> Prop :=
| me_bare n : means par (Cond n None) (BOp par (lowercase n) [] [])
| me_args n args kws : NoDup (map fst kws) -> (forall k v, In (k, v) kws <-> given k (keyword args) (Some v)) ->
    means par (Cond n (Some args)) (BOp par (lowercase n) (positional args) kws)
| me_mod n inner args op : means par inner op -> means par (Modified n inner args) (BMod (lowercase n) op args).

Definition keywords_of (s : setting) : list (str * str) := match s with Cond _ (Some args) => keyword args | _ => [] end.
(** The names are registered: those of the modifiers as modifiers, the one of the condition as a condition that takes the
    keywords it is given. *)
Fixpoint registered (F : factory) (s : setting) : Prop :=
  match s with
  | Cond n a => In (lowercase n) (opmap F) /\ ~ In (lowercase n) (modmap F) /\ (keywords_of s = [] \/ takes_kw F (lowercase n) = true)
  | Modified n i _ => In (lowercase n) (modmap F) /\ registered F i
  end.
(** No keywords inside of a modifier. *)
Fixpoint no_keywords (s : setting) : Prop := match s with Cond _ _ => keywords_of s = [] | Modified _ i _ => no_keywords i end.
Definition no_nested_keywords (s : setting) : Prop := match s with Cond _ _ => True | Modified _ i _ => no_keywords i end.
Fixpoint condition (s : setting) : str := match s with Cond n _ => n | Modified _ i _ => condition i end.
Fixpoint modifiers (s : setting) : list str := match s with Cond _ _ => [] | Modified n i _ => n :: modifiers i end.

(** The settings consulted for a region, the most specific first. *)
Definition consulted (var : str) (r : bregion) : list (str * str) :=
  let all := if br_par r then bndry_ (chars "par_all") else bndry_ (chars "all") in
  [(var, bndry_ (br_label r)); (var, bndry_ (side (br_loc r))); (var, all);
   (chars "all", bndry_ (br_label r)); (chars "all", bndry_ (side (br_loc r))); (chars "all", all)].
Definition default_condition (r : bregion) : str := if br_par r then chars "parallel_dirichlet" else chars "dirichlet".
(** The text that counts for a region. *)
Definition chosen (S : settings) (var : str) (r : bregion) (t : str) : Prop :=
  (exists l1 s k l2, consulted var r = l1 ++ (s, k) :: l2 /\ S s k = Some t /\ forall s' k', In (s', k') l1 -> S s' k' = None) \/
  ((forall s k, In (s, k) (consulted var r) -> S s k = None) /\ t = default_condition r).
(** A name of the setting is not registered; what is around it is. *)
Fixpoint unknown (F : factory) (s : setting) : Prop :=
  match s with
  | Cond n None => ~ In (lowercase n) (opmap F)
  | Cond n (Some _) => ~ In (lowercase n) (opmap F) /\ ~ In (lowercase n) (modmap F)
  | Modified n i _ => (~ In (lowercase n) (opmap F) /\ ~ In (lowercase n) (modmap F)) \/ (In (lowercase n) (modmap F) /\ unknown F i)
  end.
