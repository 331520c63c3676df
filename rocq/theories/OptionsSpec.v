(** Specification vocabulary for the Options tree. *)
From Coq Require Import Ascii String List Arith Bool.
From Verif Require Import Base StringsModel StringsSpec OptionsModel.
Import ListNotations.

Section WithV.
Context {V : Type}.
(** A path: non-empty names without ':'; written name1:name2:... *)
Definition path := list str.
Definition good_path (p : path) : Prop := Forall (fun n => n <> [] /\ ~ In colon n) p.
Definition path_name (p : path) : str := join colon p.

(** The node at a path, and what is recorded there; a node never mentioned is an empty section with no attributes. *)
Fixpoint node_at (p : path) (o : opt V) : option (opt V) :=
  match p with
  | [] => Some o
  | n :: r => match find_child n (kids o) with Some c => node_at r c | None => None end
  end.
Definition info_at (p : path) (o : opt V) : info V := match node_at p o with Some c => inf c | None => info0 end.
(** Value and source at a path, if there is a value there. *)
Definition entry (i : info V) : option (option V * option str) := if i_sect i then None else Some (i_val i, i_src i).
Definition entry_at (p : path) (o : opt V) := entry (info_at p o).
Definition proper_prefix (q p : path) : Prop := exists r, r <> [] /\ p = q ++ r.
(** No value stands in the way of reaching p. *)
Definition reachable_path (p : path) (o : opt V) : Prop := forall q, proper_prefix q p -> i_sect (info_at q o) = true.
Definition has_children (p : path) (o : opt V) : Prop := exists c, node_at p o = Some c /\ kids c <> [].

(** What is recorded by a successful assignment of v from src: earlier attributes are kept, and it counts as not yet read. *)
Definition written (v : V) (s : str) (i : info V) : info V := MkInfo (Some v) (Some s) (i_tdim i) (i_cond i) false false.
(** A value set earlier by the same (non-default) source, that differs and is not marked as time-dependent. *)
Definition conflict (v : V) (s : str) (i : info V) : Prop :=
  i_sect i = false /\ i_tdim i = false /\ i_src i = Some s /\ s <> DEFAULT_SOURCE /\ i_val i <> Some v.

(** Reading the record as a type, given the conversion; reading marks it as used. *)
Definition read_as (conv : V -> option V) (i : info V) : res V :=
  match entry i with Some (Some v, _) => match conv v with Some x => Ok x | None => Throw end | _ => Throw end.
Definition mark_used (i : info V) : info V := MkInfo (i_val i) (i_src i) (i_tdim i) (i_cond i) true (i_sect i).

(** A well-formed tree: no name twice in a section, values have no children, a value has a value and a source. *)
Inductive wf : opt V -> Prop :=
| wf_node : forall i f cs,
    NoDup (map fst cs) ->
    (forall n c, In (n, c) cs -> wf c) ->
    (i_sect i = false -> cs = [] /\ (exists v, i_val i = Some v) /\ (exists s, i_src i = Some s)) ->
    wf (Node i f cs).
(** An unused leaf. *)
Definition unused_leaf (excl : list str) (i : info V) : Prop :=
  i_sect i = false /\ i_used i = false /\ i_cond i = false /\ (forall s, i_src i = Some s -> ~ In s excl).
End WithV.
