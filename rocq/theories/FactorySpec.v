(** Specification of the variables of expressions: which definition a name refers to, and what a text means. *)
Require Import List Bool Ascii.
Require Import Verif.Base Verif.ExprModel Verif.FactoryModel.
Import ListNotations.

(** The nearest enclosing section, from [p] outwards, in which the user set [n]; [t] is the text given there. *)
Inductive Nearest (root : tree) (n : str) : path -> path -> str -> Prop :=
| Here : forall p t, set_text root p n = Some t -> Nearest root n p p t
| Outer : forall m p p' t, set_text root (m :: p) n = None -> Nearest root n p p' t -> Nearest root n (m :: p) p' t.

Definition no_char (c : ascii) (s : str) : Prop := ~ In c s.

(** A plain name is looked up in the enclosing sections, [:v] is the variable v of the root, [s:v] is the variable v of the top
    level section s. *)
Inductive Refers (root : tree) (p : path) : str -> path -> str -> Prop :=
| plain : forall n p' t, no_char colon n -> Nearest root n p p' t -> Refers root p n p' t
| at_root : forall v t, no_char colon v -> set_text root [] v = Some t -> Refers root p (colon :: v) [] t
| at_top : forall s v t, s <> [] -> no_char colon s -> no_char colon v -> set_text root [s] v = Some t ->
    Refers root p (s ++ colon :: v) [s] t.

(** The same, except that [s:v] may also be found in the root when the section s does not set v. *)
Inductive Refers_loose (root : tree) (p : path) : str -> path -> str -> Prop :=
| loose : forall n p' t, Refers root p n p' t -> Refers_loose root p n p' t
| fallback : forall s v t, s <> [] -> no_char colon s -> no_char colon v -> set_text root [s] v = None ->
    set_text root [] v = Some t -> Refers_loose root p (s ++ colon :: v) [] t.

(** [Replaced R e e']: e' is e with every name n replaced by an expression related to n by R. *)
Inductive Replaced (R : str -> expr -> Prop) : expr -> expr -> Prop :=
| r_name : forall n e, R n e -> Replaced R (ERes n) e
| r_val : forall d, Replaced R (EVal d) (EVal d)
| r_param : forall s, Replaced R (EParam s) (EParam s)
| r_bin : forall o l r l' r', Replaced R l l' -> Replaced R r r' -> Replaced R (EBin o l r) (EBin o l' r')
| r_call : forall f a a', ReplacedL R a a' -> Replaced R (ECall f a) (ECall f a')
| r_ctx : forall v v' b b', map fst v = map fst v' -> ReplacedL R (map snd v) (map snd v') -> Replaced R b b' ->
    Replaced R (ECtx v b) (ECtx v' b')
| r_sum : forall s c c' b b', Replaced R c c' -> Replaced R b b' -> Replaced R (ESum s c b) (ESum s c' b')
with ReplacedL (R : str -> expr -> Prop) : list expr -> list expr -> Prop :=
| r_nil : ReplacedL R [] []
| r_cons : forall x x' l l', Replaced R x x' -> ReplacedL R l l' -> ReplacedL R (x :: l) (x' :: l').

(** The expression a text in section p stands for once every name has been replaced by its definition, read in the section
    that defines it, with at most [k] nested definitions. *)
Section Means.
Variable parse_text : str -> res expr.
Variable refers : path -> str -> path -> str -> Prop.
Fixpoint MeansN (k : nat) (p : path) (text : str) (e : expr) : Prop :=
  match k with
  | O => False
  | S k' => exists e0, parse_text text = Ok e0 /\
              Replaced (fun n en => exists p' t, refers p n p' t /\ MeansN k' p' t en) e0 e
  end.
Definition Means (p : path) (text : str) (e : expr) : Prop := exists k, MeansN k p text e.
End Means.

(** The names occurring in an expression. *)
Fixpoint names (e : expr) : list str :=
  match e with
  | ERes n => [n]
  | EVal _ | EParam _ => []
  | EBin _ l r => names l ++ names r
  | ECall _ a => flat_map names a
  | ECtx v b => flat_map (fun x => names (snd x)) v ++ names b
  | ESum _ c b => names c ++ names b
  end.

(** A definition uses another one. *)
Definition uses (parse_text : str -> res expr) (root : tree) (a b : path * str) : Prop :=
  exists e n, parse_text (snd a) = Ok e /\ In n (names e) /\ Refers_loose root (fst a) n (fst b) (snd b).
Inductive uses_plus (parse_text : str -> res expr) (root : tree) : path * str -> path * str -> Prop :=
| u_one : forall a b, uses parse_text root a b -> uses_plus parse_text root a b
| u_more : forall a b c, uses parse_text root a b -> uses_plus parse_text root b c -> uses_plus parse_text root a c.
Inductive uses_star (parse_text : str -> res expr) (root : tree) : path * str -> path * str -> Prop :=
| s_zero : forall a, uses_star parse_text root a a
| s_step : forall a b c, uses parse_text root a b -> uses_star parse_text root b c -> uses_star parse_text root a c.

(** Ordinary names: no hash character and at most one colon; section names are not empty and contain
    neither character. *)
Definition plain_section (s : str) : Prop := s <> [] /\ no_char colon s /\ no_char hash s.
Definition plain_name (n : str) : Prop :=
  no_char hash n /\ (no_char colon n \/ exists s v, n = s ++ colon :: v /\ no_char colon s /\ no_char colon v).
Inductive plain_tree : tree -> Prop :=
| pt_val : forall t b, plain_tree (Val t b)
| pt_sec : forall l, (forall n t, In (n, t) l -> plain_section n /\ plain_tree t) -> plain_tree (Sec l).
Definition plain_text (parse_text : str -> res expr) (text : str) : Prop :=
  forall e n, parse_text text = Ok e -> In n (names e) -> plain_name n.
