(** Model of the Options tree: include/bout/options.hxx and src/sys/options.cxx.
    The type V of stored values and its equality test (variantEqualTo) are parameters of every definition.
    A member function acting on *this is a function from the node to the new node and an outcome, so that the state
    left behind by an exception is visible. References returned by operator[] are modelled by applying a function to
    the addressed node in place. *)
From Coq Require Import Ascii String List Arith Bool.
From Verif Require Import Base StringsModel.
Import ListNotations.

Section WithV.
Context {V : Type} (veqb : V -> V -> bool).

(** options.hxx:784-795 (value, is_section, value_used) and the attributes "source", "time_dimension" (present or not) and
    "conditionally used". Other attributes ("type", "doc", ...) are not modelled; parent pointers are not needed. *)
Record info := MkInfo {
  i_val : option V; i_src : option str; i_tdim : bool; i_cond : bool; i_used : bool; i_sect : bool }.
Definition info0 : info := MkInfo None None false false false true.
(** options.hxx:791-794; children is a std::map: an association list sorted by name, without repetition. *)
Inductive opt := Node (i : info) (full : str) (cs : list (str * opt)).
Definition inf (o : opt) := match o with Node i _ _ => i end.
Definition full (o : opt) := match o with Node _ f _ => f end.
Definition kids (o : opt) := match o with Node _ _ cs => cs end.
Definition set_inf (i : info) (o : opt) := match o with Node _ f cs => Node i f cs end.
(** A new Options(): an empty section. *)
Definition root0 : opt := Node info0 [] [].

Definition DEFAULT_SOURCE : str := chars "default".    (* options.cxx:15 *)
Definition colon : ascii := ":"%char.

Fixpoint str_eqb (a b : str) : bool :=
  match a, b with [], [] => true | x :: a', y :: b' => Ascii.eqb x y && str_eqb a' b' | _, _ => false end.
(** std::string's operator<, on unsigned characters. *)
Fixpoint str_ltb (a b : str) : bool :=
  match a, b with
  | _, [] => false
  | [], _ :: _ => true
  | x :: a', y :: b' => (nat_of_ascii x <? nat_of_ascii y) || (Ascii.eqb x y && str_ltb a' b')
  end.

(** std::map find / emplace / modification of an element. *)
Fixpoint find_child (n : str) (cs : list (str * opt)) : option opt :=
  match cs with [] => None | (m, c) :: r => if str_eqb n m then Some c else find_child n r end.
Fixpoint replace_child (n : str) (c : opt) (cs : list (str * opt)) : list (str * opt) :=
  match cs with [] => [] | (m, d) :: r => if str_eqb n m then (m, c) :: r else (m, d) :: replace_child n c r end.
Fixpoint insert_child (n : str) (c : opt) (cs : list (str * opt)) : list (str * opt) :=
  match cs with [] => [(n, c)] | (m, d) :: r => if str_ltb n m then (n, c) :: (m, d) :: r else (m, d) :: insert_child n c r end.

(** options.cxx:122-129: the full name of a new child. *)
Definition child_full (f n : str) : str := match f with [] => n | _ => f ++ colon :: n end.

(** options.cxx:116-131: the part of operator[] for a simple name, followed by [k] on the child. *)
Definition on_child {A} (n : str) (k : opt -> opt * res A) (o : opt) : opt * res A :=
  match o with
  | Node i f cs =>
    match find_child n cs with
    | Some c => let (c', r) := k c in (Node i f (replace_child n c' cs), r)
    | None => let (c', r) := k (Node info0 (child_full f n) []) in (Node i f (insert_child n c' cs), r)
    end
  end.
(** options.cxx:95-132 operator[](name), followed by [k] on the result. The recursion is on a strictly shorter name;
    [fuel] > length of the name. *)
Fixpoint op_index {A} (fuel : nat) (name : str) (k : opt -> opt * res A) (o : opt) : opt * res A :=
  match fuel with
  | O => (o, UB)
  | S fuel =>
    if negb (i_sect (inf o)) then (o, Throw)
    else match name with
    | [] => k o
    | _ => match find_first (Ascii.eqb colon) name 0 with
           | Some pos => op_index fuel (firstn pos name) (op_index fuel (skipn (pos + 1) name) k) o
           | None => on_child name k o
           end
    end
  end.
Definition index {A} (name : str) (k : opt -> opt * res A) (o : opt) : opt * res A := op_index (S (List.length name)) name k o.

(** options.hxx:797-809 _set_no_check. *)
Definition set_no_check (v : V) (src : str) (o : opt) : opt * res unit :=
  match kids o with
  | _ :: _ => (o, Throw)
  | [] => (set_inf (MkInfo (Some v) (Some src) (i_tdim (inf o)) (i_cond (inf o)) false false) o, Ok tt)
  end.
(** options.cxx:236-248 isSet; attributes.at throws when there is no "source". *)
Definition isSet (o : opt) : res bool :=
  if i_sect (inf o) then Ok false
  else match i_src (inf o) with None => Throw | Some s => Ok (negb (str_eqb s DEFAULT_SOURCE)) end.
Definition val_is (o : opt) (v : V) : bool := match i_val (inf o) with Some w => veqb w v | None => false end.
Definition src_is (o : opt) (s : str) : bool := match i_src (inf o) with Some t => str_eqb t s | None => false end.
(** options.hxx:811-836 _set. *)
Definition set_checked (v : V) (src : str) (force : bool) (o : opt) : opt * res unit :=
  match isSet o with
  | Throw => (o, Throw)
  | UB => (o, UB)
  | Ok b =>
    if b && negb (i_tdim (inf o)) then
      if negb (val_is o v) then
        if force || negb (src_is o src) then set_no_check v src o else (o, Throw)
      else set_no_check v src o
    else set_no_check v src o
  end.
(** options.hxx:845-866 assign, for bool, int, BoutReal, std::string (and streamable types, via their text). *)
Definition assign (v : V) (src : str) (o : opt) : opt * res unit := set_checked v src false o.
Definition with_sect (b : bool) (o : opt) : opt :=
  let i := inf o in set_inf (MkInfo (i_val i) (i_src i) (i_tdim i) (i_cond i) (i_used i) b) o.
Definition with_used (b : bool) (o : opt) : opt :=
  let i := inf o in set_inf (MkInfo (i_val i) (i_src i) (i_tdim i) (i_cond i) b (i_sect i)) o.
Definition with_tdim (b : bool) (o : opt) : opt :=
  let i := inf o in set_inf (MkInfo (i_val i) (i_src i) b (i_cond i) (i_used i) (i_sect i)) o.
(** options.hxx:392-396 force. *)
Definition force (v : V) (src : str) (o : opt) : opt * res unit := assign v src (with_sect true o).
(** options.hxx:403-410 assignRepeat. *)
Definition assignRepeat (v : V) (save_repeat : bool) (src : str) (o : opt) : opt * res unit :=
  match force v src o with
  | (o', Ok _) => (if save_repeat then with_tdim true o' else o', Ok tt)
  | r => r
  end.
(** options.hxx:449-498 and options.cxx:301-468 as<T>: [conv] is the conversion of the stored value to T, represented again
    as a V; [None] is a conversion that throws. (Evaluating an expression that reads other options is not modelled.) *)
Definition as_ (conv : V -> option V) (o : opt) : opt * res V :=
  if i_sect (inf o) then (o, Throw)
  else match i_val (inf o) with
       | None => (o, UB)
       | Some v => match conv v with None => (o, Throw) | Some x => (with_used true o, Ok x) end
       end.
(** options.hxx:505-531 withDefault(def), non-const. *)
Definition withDefault (conv : V -> option V) (def : V) (o : opt) : opt * res V :=
  if i_sect (inf o) then
    match assign def DEFAULT_SOURCE o with
    | (o', Ok _) => (with_used true o', Ok def)
    | (o', Throw) => (o', Throw)
    | (o', UB) => (o', UB)
    end
  else match as_ conv o with
       | (o', Ok x) =>
         match i_src (inf o') with
         | None => (o', Throw)
         | Some s => if str_eqb s DEFAULT_SOURCE && negb (veqb x def) then (o', Throw) else (o', Ok x)
         end
       | r => r
       end.
(** options.hxx:592-606 overrideDefault. *)
Definition overrideDefault (conv : V -> option V) (def : V) (o : opt) : opt * res V :=
  if i_sect (inf o) then
    match assign def (chars "user_default") o with
    | (o', Ok _) => (with_sect false o', Ok def)
    | (o', Throw) => (o', Throw)
    | (o', UB) => (o', UB)
    end
  else as_ conv o.
(** options.cxx:869-874 setConditionallyUsed. *)
Fixpoint set_cond (o : opt) : opt :=
  match o with
  | Node i f cs =>
    Node (MkInfo (i_val i) (i_src i) (i_tdim i) true (i_used i) (i_sect i)) f
         ((fix go (l : list (str * opt)) := match l with [] => [] | (n, c) :: r => (n, set_cond c) :: go r end) cs)
  end.

(** options.cxx:787-803: counted as used because of its source or of the attribute. *)
Definition excused (excl : list str) (i : info) : bool :=
  (match i_src i with None => false | Some s => existsb (str_eqb s) excl end) || i_cond i.
(** options.cxx:786-853 getUnused. *)
Fixpoint getUnused (excl : list str) (o : opt) : opt :=
  match o with
  | Node i f cs =>
    if negb (i_sect i) then
      let u := i_used i || excused excl i in
      Node (MkInfo (i_val i) (i_src i) (i_tdim i) (i_cond i) u u) f cs
    else
      let cs' := (fix go (l : list (str * opt)) :=
        match l with
        | [] => []
        | (n, c) :: r =>
          if negb (i_sect (inf c)) && (i_used (inf c) || excused excl (inf c)) then go r
          else if i_sect (inf c) then
            let c' := getUnused excl c in
            match kids c' with [] => go r | _ => (n, c') :: go r end
          else (n, c) :: go r
        end) cs in
      Node i (match cs' with [] => [] | _ => f end) cs'
  end.
(** options.hxx:719-720: the default argument. *)
Definition default_excl : list str := [chars "Output"; chars "user_default"].
(** options.cxx:1061-1110 checkForUnusedOptions(options, ...): throws or returns. *)
Definition checkForUnusedOptions (o : opt) : res unit :=
  match kids (getUnused default_excl o) with [] => Ok tt | _ => Throw end.

(** options.cxx:888-909 getFlattenedKeys. *)
Fixpoint getFlattenedKeys (o : opt) : list str :=
  match o with
  | Node i f cs =>
    (if negb (i_sect i) && negb (match f with [] => true | _ => false end) then [f] else []) ++
    (fix go (l : list (str * opt)) :=
       match l with
       | [] => []
       | (n, c) :: r =>
         (if negb (i_sect (inf c)) then [full c] else []) ++
         (if i_sect (inf c) then getFlattenedKeys c else []) ++ go r
       end) cs
  end.

(** Calls made by a program on the root object: options[name].method(...). *)
Inductive oop :=
| OAssign (name : str) (v : V) (src : str)
| OForce (name : str) (v : V) (src : str)
| ORepeat (name : str) (v : V) (save : bool) (src : str)
| OGet (name : str) (conv : V -> option V)
| OWithDefault (name : str) (conv : V -> option V) (def : V)
| OOverride (name : str) (conv : V -> option V) (def : V)
| OCond (name : str).
Definition ignore {A} (r : opt * res A) : opt * res unit :=
  (fst r, match snd r with Ok _ => Ok tt | Throw => Throw | UB => UB end).
Definition ostep (op : oop) (o : opt) : opt :=
  match op with
  | OAssign n v s => fst (index n (assign v s) o)
  | OForce n v s => fst (index n (force v s) o)
  | ORepeat n v b s => fst (index n (assignRepeat v b s) o)
  | OGet n c => fst (index n (as_ c) o)
  | OWithDefault n c d => fst (index n (withDefault c d) o)
  | OOverride n c d => fst (index n (overrideDefault c d) o)
  | OCond n => fst (index n (fun c => (set_cond c, Ok tt)) o)
  end.
Definition orun (ops : list oop) (o : opt) : opt := fold_left (fun o op => ostep op o) ops o.
End WithV.
Arguments opt : clear implicits.
Arguments info : clear implicits.
Arguments oop : clear implicits.
