(** Model of the value semantics of Field3D: src/field/field3d.cxx 50-340 and 807-821, include/bout/field3d.hxx 175-290, the
    update and binary operators of src/field/generated_fieldops.cxx, on top of the reference counted arrays of
    include/bout/array.hxx (ArrayModel.v has the arrays themselves and their recycling; here a block that is no longer
    referenced is simply forgotten, and a new block has arbitrary contents).
    Simplifications: all fields are on one mesh at one location, so the compatibility assertions hold and every allocated
    field has nx*ny*nz elements; checkData is modelled only for unallocated data (the test for non-finite values is not);
    ddt(ddt(f)) and parallel slices of parallel slices are not modelled; Field2D and FieldPerp operands are given by their
    values (they cannot share storage with a Field3D); one thread. *)
From Coq Require Import List ZArith Lia Bool Arith.
From Verif Require Import Base.
Import ListNotations.

(** Objects of type Field3D: variables, the object ddt(f) owned by a variable (field3d.hxx 506 deriv), and the elements of the
    vectors yup_fields and ydown_fields of these (field3d.hxx 503). *)
Inductive root := Var (n : nat) | Ddt (n : nat).
Inductive pos := Main | Up (k : nat) | Down (k : nat).
Definition slot : Type := root * pos.
Definition root_eqb (a b : root) : bool :=
  match a, b with Var n, Var m => n =? m | Ddt n, Ddt m => n =? m | _, _ => false end.
Definition pos_eqb (a b : pos) : bool :=
  match a, b with Main, Main => true | Up n, Up m => n =? m | Down n, Down m => n =? m | _, _ => false end.
Definition slot_eqb (a b : slot) : bool := root_eqb (fst a) (fst b) && pos_eqb (snd a) (snd b).
Definition owner (r : root) : nat := match r with Var n => n | Ddt n => n end.

Inductive bop := Add | Sub | Mul | Div.

Section Fval.
  Variable V : Type.
  Variable ar : bop -> V -> V -> V.          (* the arithmetic of BoutReal, any rounding *)
  Variable one : V.                          (* the literal 1.0 *)
  Variables nx ny nz : nat.                  (* LocalNx, LocalNy, LocalNz *)
  Variables order3 order2 orderp : list nat. (* the order in which RGN_ALL visits a Field3D, Field2D, FieldPerp *)
  Definition n : nat := nx * ny * nz.

  (** [slots] maps each live Field3D object to its data pointer ([None]: data.empty()), [heap] the blocks to their contents. *)
  Record st := mkSt { slots : list (slot * option nat); heap : nat -> option (list V); next : nat }.
  Definition init : st := mkSt [] (fun _ => None) 0.

  Definition lookup (l : list (slot * option nat)) (x : slot) : option (option nat) :=
    match find (fun e => slot_eqb (fst e) x) l with Some e => Some (snd e) | None => None end.
  Definition assign (l : list (slot * option nat)) (x : slot) (d : option nat) : list (slot * option nat) :=
    map (fun e => if slot_eqb (fst e) x then (fst e, d) else e) l.
  Definition upd (h : nat -> option (list V)) (b : nat) (d : list V) : nat -> option (list V) :=
    fun c => if c =? b then Some d else h c.

  (** shared_ptr use_count, and Array::unique (array.hxx 260). *)
  Definition points (b : nat) (e : slot * option nat) : bool := match snd e with Some c => c =? b | None => false end.
  Definition use_count (s : st) (b : nat) : nat := length (filter (points b) (slots s)).
  Definition unique (s : st) (x : slot) : bool :=
    match lookup (slots s) x with Some (Some b) => use_count s b =? 1 | _ => false end.

  Definition is_slice (q : pos) : bool := match q with Main => false | _ => true end.
  (** [x] is an element of yup_fields or ydown_fields of [p]. *)
  Definition slice_of (p x : slot) : bool :=
    negb (is_slice (snd p)) && root_eqb (fst x) (fst p) && is_slice (snd x).

  (** field3d.hxx 248-260. Both vectors always have the same length. *)
  Definition has_slices (s : st) (p : slot) : bool := existsb (fun e => slice_of p (fst e)) (slots s).
  (** field3d.cxx 151-160 clearParallelSlices: the elements of both vectors are destroyed. *)
  Definition clear_slices (s : st) (p : slot) : st :=
    mkSt (filter (fun e => negb (slice_of p (fst e))) (slots s)) (heap s) (next s).
  (** field3d.cxx 136-149 splitParallelSlices: ystart empty fields each way. *)
  Definition split_slices (s : st) (p : slot) (ystart : nat) : st :=
    if has_slices s p then s
    else mkSt (slots s ++ map (fun k => ((fst p, Up k), None)) (seq 0 ystart)
                       ++ map (fun k => ((fst p, Down k), None)) (seq 0 ystart)) (heap s) (next s).
  (** Copies, for the object [p], of the slices of [q] (copying a vector of Field3D copies each data pointer). *)
  Definition slice_copies (s : st) (p q : slot) : list (slot * option nat) :=
    map (fun e => ((fst p, snd (fst e)), snd e)) (filter (fun e => slice_of q (fst e)) (slots s)).

  Definition new_block (s : st) (d : list V) : nat * st :=
    (next s, mkSt (slots s) (upd (heap s) (next s) d) (S (next s))).
  Definition junk := nat -> V.

  (** field3d.cxx 107-126 allocate, with array.hxx 267-283 ensureUnique. *)
  Definition allocate (s : st) (p : slot) (j : junk) : res st :=
    match lookup (slots s) p with
    | None => UB
    | Some None => let (b, s1) := new_block s (map j (seq 0 n)) in
                   Ok (mkSt (assign (slots s1) p (Some b)) (heap s1) (next s1))
    | Some (Some b) =>
      if use_count s b =? 1 then Ok s
      else match heap s b with
           | None => UB
           | Some d => let (c, s1) := new_block s d in Ok (mkSt (assign (slots s1) p (Some c)) (heap s1) (next s1))
           end
    end.

  (** A loop writing to the elements of block [b]: each pair is an element index and the index of the operand used; [g]
      computes the new value from the current memory, the two indices and the old value. *)
  Fixpoint loop (h : nat -> option (list V)) (b : nat) (g : (nat -> option (list V)) -> nat -> nat -> V -> option V)
                (l : list (nat * nat)) : res (nat -> option (list V)) :=
    match l with
    | [] => Ok h
    | (i, k) :: l' =>
      match h b with
      | None => UB
      | Some d =>
        match nth_error d i with
        | None => UB
        | Some x => do y <- ofopt (g h i k x); do d' <- ofopt (vec_set d i y); loop (upd h b d') b g l'
        end
      end
    end.
  (** Run such a loop on the data of object [p] (UB if it has none). *)
  Definition loop_on (s : st) (p : slot) g (l : list (nat * nat)) : res st :=
    match lookup (slots s) p with
    | Some (Some b) => do h <- loop (heap s) b g l; Ok (mkSt (slots s) h (next s))
    | _ => UB
    end.

  (** The index pairs of the loops: BOUT_FOR over a Field3D region; over a Field2D region with an inner loop in z
      (ind2Dto3D(i, iz) = i*LocalNz + iz); over a FieldPerp region at y index jy. *)
  Definition pairs3 : list (nat * nat) := map (fun i => (i, i)) order3.
  Definition pairs2 : list (nat * nat) := flat_map (fun i => map (fun z => (i * nz + z, i)) (seq 0 nz)) order2.
  Definition pairsp (jy : nat) : list (nat * nat) := map (fun i => ((i / nz * ny + jy) * nz + i mod nz, i)) orderp.

  (** The right hand side of an update or binary operator. *)
  Inductive rhs := RField (q : slot) | RReal (x : V) | R2D (d : list V).
  (** Dividing by a Field2D or a BoutReal multiplies by the reciprocal (generated_fieldops.cxx 217-236, 487-520). *)
  Definition recip_op (o : bop) (a b : V) : V := match o with Div => ar Mul a (ar Div one b) | _ => ar o a b end.
  (** Reading element [k] of object [q]; an object that no longer exists or has no data cannot be read. *)
  Definition read (sl : list (slot * option nat)) (h : nat -> option (list V)) (q : slot) (k : nat) : option V :=
    match lookup sl q with
    | Some (Some b) => match h b with Some d => nth_error d k | None => None end
    | _ => None
    end.
  Definition operand (sl : list (slot * option nat)) (o : bop) (r : rhs) (h : nat -> option (list V)) (k : nat) (a : V)
    : option V :=
    match r with
    | RField q => match read sl h q k with Some b => Some (ar o a b) | None => None end
    | RReal x => Some (recip_op o a x)
    | R2D d => match nth_error d k with Some b => Some (recip_op o a b) | None => None end
    end.
  Definition pairs_of (r : rhs) : list (nat * nat) := match r with R2D _ => pairs2 | _ => pairs3 end.

  (** checkData (field3d.cxx 760-763): throws on unallocated data; UB when the object has been destroyed. *)
  Definition check (s : st) (q : slot) : res unit :=
    match lookup (slots s) q with Some (Some _) => Ok tt | Some None => Throw | None => UB end.
  Definition check_rhs (s : st) (r : rhs) : res unit := match r with RField q => check s q | _ => Ok tt end.

  (** generated_fieldops.cxx, operator o(lhs, rhs) (e.g. 10-23, 168-187, 450-462): an allocated result, filled by a loop.
      Gives the block of the result. The loop over a Field2D region writes the elements of each z row. *)
  Definition binary (s : st) (o : bop) (p : slot) (r : rhs) (j : junk) : res (nat * st) :=
    let (b, s1) := new_block s (map j (seq 0 n)) in
    do u1 <- check s1 p; do u2 <- check_rhs s1 r;
    do h <- loop (heap s1) b (fun h i k _ => match read (slots s1) h p i with
                                             | Some a => operand (slots s1) o r h k a
                                             | None => None
                                             end) (pairs_of r);
    Ok (b, mkSt (slots s1) h (next s1)).

  (** generated_fieldops.cxx, Field3D::operator o= (26-45, 191-214, 465-485 and the others): in place if the data is not shared,
      otherwise through the binary operator and the move assignment of field3d.cxx 264-283. *)
  Definition update (s : st) (p : slot) (o : bop) (r : rhs) (j : junk) : res st :=
    if unique s p then
      let s1 := clear_slices s p in
      do u1 <- check s1 p; do u2 <- check_rhs s1 r;
      loop_on s1 p (fun h _ k a => operand (slots s1) o r h k a) (pairs_of r)
    else
      do bs <- binary s o p r j;
      let s1 := clear_slices (snd bs) p in
      Ok (mkSt (assign (slots s1) p (Some (fst bs))) (heap s1) (next s1)).

  (** field3d.cxx 242-262, copy assignment. The slices of the target are replaced before the data pointer of the source is
      read: a source that is one of these slices is gone by then. *)
  Definition copy_assign (s : st) (p q : slot) : res st :=
    if slot_eqb p q then Ok s
    else
      let s1 := clear_slices s p in
      match lookup (slots s1) p, lookup (slots s1) q with
      | Some _, Some d => Ok (mkSt (assign (slots s1 ++ slice_copies s1 p q) p d) (heap s1) (next s1))
      | _, _ => UB
      end.
  (** field3d.cxx 264-283, move assignment (of another object). *)
  Definition move_assign (s : st) (p q : slot) : res st :=
    let s1 := clear_slices s p in
    match lookup (slots s1) p, lookup (slots s1) q with
    | Some _, Some d =>
      let moved := slice_copies s1 p q in
      let s2 := clear_slices s1 q in
      Ok (mkSt (assign (assign (slots s2) q None ++ moved) p d) (heap s2) (next s2))
    | _, _ => UB
    end.

  (** field3d.cxx 328-341, 284-308, 310-326: assignment of a BoutReal, a Field2D, a FieldPerp at y index [jy]. *)
  Definition fill (s : st) (p : slot) (j : junk) (g : nat -> option V) (l : list (nat * nat)) : res st :=
    do s1 <- allocate (clear_slices s p) p j; loop_on s1 p (fun _ _ k _ => g k) l.

  (** field3d.cxx 807-821 swap: both objects with their slices and their time derivatives. *)
  Definition swap_root (v w : nat) (r : root) : root :=
    let f m := if m =? v then w else if m =? w then v else m in
    match r with Var m => Var (f m) | Ddt m => Ddt (f m) end.
  Definition swap (s : st) (v w : nat) : st :=
    mkSt (map (fun e => ((swap_root v w (fst (fst e)), snd (fst e)), snd e)) (slots s)) (heap s) (next s).

  Inductive op :=
  | NewEmpty (v : nat)                         (* Field3D v; (field3d.cxx 50-61) *)
  | NewCopy (v : nat) (q : slot)               (* Field3D v(q); (63-75) *)
  | NewMove (v w : nat)                        (* Field3D v(std::move(w)); (field3d.hxx 180) *)
  | NewBinary (v : nat) (o : bop) (p : slot) (r : rhs) (j : junk)   (* Field3D v = p o r; *)
  | CopyAssign (p q : slot)                    (* p = q; *)
  | MoveAssign (p q : slot)                    (* p = std::move(q); *)
  | SetReal (p : slot) (x : V) (j : junk)      (* p = x; *)
  | Set2D (p : slot) (d : list V) (j : junk)   (* p = d; a Field2D *)
  | SetPerp (p : slot) (jy : nat) (d : list V) (j : junk)           (* p = d; a FieldPerp *)
  | Update (p : slot) (o : bop) (r : rhs) (j : junk)                (* p o= r; *)
  | Allocate (p : slot) (j : junk)             (* p.allocate(); *)
  | Write (p : slot) (i : nat) (x : V)         (* p[i] = x; (field3d.hxx 327) *)
  | Split (p : slot) (ystart : nat)            (* p.splitParallelSlices(); *)
  | ClearSl (p : slot)                         (* p.clearParallelSlices(); *)
  | TimeDeriv (v : nat) (j : junk)             (* ddt(v) (field3d.cxx 128-133) *)
  | Swap (v w : nat)
  | Destroy (v : nat).                         (* ~Field3D() *)

  Definition add (s : st) (l : list (slot * option nat)) : st := mkSt (l ++ slots s) (heap s) (next s).

  Definition step (s : st) (a : op) : res st :=
    match a with
    | NewEmpty v => Ok (add s [((Var v, Main), None)])
    | NewCopy v q =>
      match lookup (slots s) q with
      | Some d => Ok (add s (((Var v, Main), d) :: slice_copies s (Var v, Main) q))
      | None => UB
      end
    | NewMove v w => Ok (swap (add s [((Var v, Main), None)]) v w)
    | NewBinary v o p r j => do bs <- binary s o p r j; Ok (add (snd bs) [((Var v, Main), Some (fst bs))])
    | CopyAssign p q => copy_assign s p q
    | MoveAssign p q => move_assign s p q
    | SetReal p x j => fill s p j (fun _ => Some x) pairs3
    | Set2D p d j => fill s p j (fun k => nth_error d k) pairs2
    | SetPerp p jy d j => fill s p j (fun k => nth_error d k) (pairsp jy)
    | Update p o r j => update s p o r j
    | Allocate p j => allocate s p j
    | Write p i x => loop_on s p (fun _ _ _ _ => Some x) [(i, i)]
    | Split p ystart => Ok (split_slices s p ystart)
    | ClearSl p => Ok (clear_slices s p)
    | TimeDeriv v j =>
      match lookup (slots s) (Ddt v, Main) with
      | Some _ => Ok s
      | None => let (b, s1) := new_block s (map j (seq 0 n)) in Ok (add s1 [((Ddt v, Main), Some b)])
      end
    | Swap v w => Ok (swap s v w)
    | Destroy v => Ok (mkSt (filter (fun e => negb (owner (fst (fst e)) =? v)) (slots s)) (heap s) (next s))
    end.

  Fixpoint run (s : st) (l : list op) : res st := match l with [] => Ok s | a :: l' => do s1 <- step s a; run s1 l' end.

  (** What a program can see of a Field3D object. *)
  Inductive view := Absent | Empty | Data (d : list V) | Dangling.
  Definition observe (s : st) (x : slot) : view :=
    match lookup (slots s) x with
    | None => Absent
    | Some None => Empty
    | Some (Some b) => match heap s b with Some d => Data d | None => Dangling end
    end.
End Fval.
