(** Model of src/sys/range.cxx and include/bout/sys/range.hxx: chains of integer ranges.
    A RangeIterator and the objects reached through [n] are a non-empty list of nodes, the object itself first.
    Sharing of tail nodes between several RangeIterators (copy constructor copies the [n] pointer, lines 37-47) is not
    modelled: the list is what one object can reach. Uninitialised [ind] of the default constructor is not modelled. *)
From Coq Require Import List ZArith Lia Bool.
From Verif Require Import Base.
Import ListNotations.
Open Scope Z_scope.

(** range.hxx:73-79: the fields [is], [ie], [delete_next] of one node. *)
Record rnode := mkN { is_ : Z; ie_ : Z; del : bool }.

(** range.hxx:75-77 and range.cxx:3-16: iteration state. [cur] is the suffix of the chain starting at the current node
    ([[]] is the null pointer), [ind] and [curend] the two integers. *)
Record riter := mkI { cur : list rnode; rind : Z; curend : Z }.

(** range.cxx:6-15 (constructor), 55-68 (first): start at this node, or at the next one when this is a null range. *)
Definition set_cur (c : list rnode) (old : Z * Z) : riter :=
  match c with
  | [] => mkI [] (fst old) (snd old)
  | nd :: _ => mkI c (is_ nd) (ie_ nd)
  end.
Definition rfirst (chain : list rnode) : riter :=
  match chain with
  | [] => mkI [] 0 0
  | nd :: rest => if ie_ nd <? is_ nd then set_cur rest (is_ nd, ie_ nd) else set_cur chain (0, 0)
  end.
(** range.cxx:86 isDone. *)
Definition isDone (s : riter) : bool := match cur s with [] => true | _ => false end.
(** range.cxx:70-84 next. *)
Definition rnext (s : riter) : riter :=
  match cur s with
  | [] => s
  | nd :: rest =>
    let i := rind s + 1 in
    if curend s <? i then set_cur rest (i, curend s) else mkI (cur s) i (curend s)
  end.
(** The loop [for (it.first(); !it.isDone(); it++) visit( *it )]: the sequence of values of [*it];
    [None] when [fuel] iterations were not enough. *)
Fixpoint visit (fuel : nat) (s : riter) : option (list Z) :=
  if isDone s then Some []
  else match fuel with
       | O => None
       | S f => match visit f (rnext s) with Some l => Some (rind s :: l) | None => None end
       end.

(** range.cxx:88-96 and 98-106: intersects, for one node and for the whole chain. *)
Definition intersects1 (nd other : rnode) : bool := (is_ other <=? ie_ nd) && (is_ nd <=? ie_ other).
Definition intersects_ind (chain : list rnode) (k : Z) : bool :=
  existsb (fun nd => (is_ nd <=? k) && (k <=? ie_ nd)) chain.
Definition intersects (chain : list rnode) (other : rnode) : bool := existsb (fun nd => intersects1 nd other) chain.

(** range.cxx:122-131 [+=]: a copy of [r] (sharing r's tail) is appended to the end, and the last node owns it. *)
Fixpoint set_last_del (l : list rnode) : list rnode :=
  match l with
  | [] => []
  | [nd] => [mkN (is_ nd) (ie_ nd) true]
  | nd :: l' => nd :: set_last_del l'
  end.
Definition range_plus (chain r : list rnode) : list rnode :=
  set_last_del chain ++ match r with [] => [] | nd :: t => mkN (is_ nd) (ie_ nd) false :: t end.

(** State of operator-= : the nodes before [it], the node [it], the nodes after it. The object itself ([this]) is the
    first node overall. *)
Record zip := mkZ { before : list rnode; at_ : rnode; after : list rnode }.

(** [is = 1; ie = 0] on [this] (range.cxx:145-146). *)
Definition null_this (z : zip) : zip :=
  match before z with
  | [] => mkZ [] (mkN 1 0 (del (at_ z))) (after z)
  | h :: b => mkZ (mkN 1 0 (del h) :: b) (at_ z) (after z)
  end.
Definition this_is (z : zip) : rnode := match before z with [] => at_ z | h :: _ => h end.

(** range.cxx:140-159: one pass of the inner loop body. *)
Definition sub_one (z : zip) (r : rnode) : zip :=
  let it := at_ z in
  if intersects1 it r then
    if (is_ r <=? is_ it) && (ie_ it <=? ie_ r) then null_this z
    else if (is_ it <? is_ r) && (ie_ it <=? ie_ r) then mkZ (before z) (mkN (is_ it) (is_ r - 1) (del it)) (after z)
    else if (is_ r <=? is_ it) && (ie_ r <? ie_ it) then mkZ (before z) (mkN (ie_ r + 1) (ie_ it) (del it)) (after z)
    else mkZ (before z) (mkN (is_ it) (is_ r - 1) true) (mkN (ie_ r + 1) (ie_ it) false :: after z)
  else z.

(** range.cxx:136-176: the outer loop. [delete tmp] destroys tmp's own tail when tmp owns it (lines 49-53), which leaves
    [it->n] dangling: [UB]. Fuel exhaustion is [UB] as well. *)
Fixpoint sub_loop (fuel : nat) (r : list rnode) (z : zip) : res (list rnode) :=
  match fuel with
  | O => UB
  | S f =>
    let z := fold_left sub_one r z in
    match (ie_ (this_is z) <? is_ (this_is z)), after z with
    | true, tmp :: rest =>
      if del tmp && negb (match rest with [] => true | _ => false end) then UB
      else sub_loop f r (mkZ (before z) (mkN (is_ tmp) (ie_ tmp) (del (at_ z))) rest)
    | _, [] => Ok (before z ++ [at_ z])
    | _, nd :: rest => sub_loop f r (mkZ (before z ++ [at_ z]) nd rest)
    end
  end.
Definition range_minus (fuel : nat) (chain r : list rnode) : res (list rnode) :=
  match chain with
  | [] => UB
  | nd :: rest => sub_loop fuel r (mkZ [] nd rest)
  end.
