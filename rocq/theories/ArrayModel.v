(** Model of include/bout/array.hxx: reference-counted blocks with a store of released blocks, for one thread
    (one arena entry). Array objects are named by numbers; an object is out of scope ([None] in [lookup]), empty
    ([Some None]) or points to a block ([Some (Some b)]). Allocation failure is not modelled. *)
From Coq Require Import List ZArith Lia Bool Arith.
From Verif Require Import Base.
Import ListNotations.

Section Arr.
  Variable V : Type.
  (** Contents of a block fresh from [new T[len]] are indeterminate: every allocation is given an arbitrary [junk]. *)
  Definition junk := nat -> V.

  (** array.hxx:60-133 ArrayData: [heap b] is the block's data, [None] once deleted or not yet allocated.
      array.hxx:331-346: [vars] holds the [ptr] of each Array in scope; [store] is the map from size to the vector of
      released blocks, flattened to one list, most recently released first. [use_store] is the static of 222-230. *)
  Record st := mkSt { vars : list (nat * option nat); heap : nat -> option (list V); next : nat;
                      store : list nat; use_store : bool }.
  Definition init : st := mkSt [] (fun _ => None) 0 [] true.

  Fixpoint lookup (l : list (nat * option nat)) (v : nat) : option (option nat) :=
    match l with [] => None | (w, p) :: l' => if w =? v then Some p else lookup l' v end.
  Fixpoint assign (l : list (nat * option nat)) (v : nat) (p : option nat) : list (nat * option nat) :=
    match l with [] => [] | (w, q) :: l' => if w =? v then (w, p) :: l' else (w, q) :: assign l' v p end.
  Fixpoint remove (l : list (nat * option nat)) (v : nat) : list (nat * option nat) :=
    match l with [] => [] | (w, q) :: l' => if w =? v then l' else (w, q) :: remove l' v end.
  Definition upd_heap (h : nat -> option (list V)) (b : nat) (x : option (list V)) : nat -> option (list V) :=
    fun c => if c =? b then x else h c.
  Definition set_vars (s : st) l := mkSt l (heap s) (next s) (store s) (use_store s).

  (** shared_ptr::use_count: Arrays pointing to the block plus entries of the store. *)
  Definition points (b : nat) (e : nat * option nat) : bool :=
    match snd e with Some c => c =? b | None => false end.
  Definition use_count (s : st) (b : nat) : nat :=
    length (filter (points b) (vars s)) + length (filter (fun c => c =? b) (store s)).

  Definition block_size (s : st) (b : nat) : option nat := option_map (@length V) (heap s b).

  (** array.hxx:403-424 get(len): the most recently stored block of that size, or a new one. *)
  Fixpoint take_stored (h : nat -> option (list V)) (l : list nat) (len : nat) : option (nat * list nat) :=
    match l with
    | [] => None
    | b :: l' =>
      if match h b with Some d => length d =? len | None => false end then Some (b, l')
      else match take_stored h l' len with Some (c, r) => Some (c, b :: r) | None => None end
    end.
  Definition get (s : st) (len : nat) (j : junk) : nat * st :=
    match take_stored (heap s) (store s) len with
    | Some (b, r) => (b, mkSt (vars s) (heap s) (next s) r (use_store s))
    | None => (next s, mkSt (vars s) (upd_heap (heap s) (next s) (Some (map j (seq 0 len)))) (S (next s)) (store s) (use_store s))
    end.

  (** array.hxx:438-454 release, for a pointer to [b] that is no longer counted in [s] ([d.use_count() == 1] before the
      call iff no other reference is left): store the block, or delete it, or just drop the reference. *)
  Definition drop_ref (s : st) (b : nat) : st :=
    if use_count s b =? 0 then
      if use_store s then mkSt (vars s) (heap s) (next s) (b :: store s) (use_store s)
      else mkSt (vars s) (upd_heap (heap s) b None) (next s) (store s) (use_store s)
    else s.
  Definition release (s : st) (v : nat) : st :=
    match lookup (vars s) v with
    | Some (Some b) => drop_ref (set_vars s (assign (vars s) v None)) b
    | _ => s
    end.

  (** array.hxx:260 unique. *)
  Definition unique (s : st) (v : nat) : bool :=
    match lookup (vars s) v with Some (Some b) => use_count s b =? 1 | _ => false end.

  Inductive op :=
  | ONewEmpty (v : nat)                     (* array.hxx:177 *)
  | ONew (v len : nat) (j : junk)           (* 182 *)
  | OCopy (v w : nat)                       (* 192: Array v(w) *)
  | OMoveNew (v w : nat)                    (* 208: Array v(std::move(w)) *)
  | OAssign (v w : nat)                     (* 200-203 with a copied argument *)
  | OMoveAssign (v w : nat)                 (* 200-203 with a moved argument *)
  | OSwap (v w : nat)                       (* 326-329 *)
  | ORealloc (v len : nat) (j : junk)       (* 215-218 *)
  | OClear (v : nat)                        (* 236 *)
  | ODestroy (v : nat)                      (* 187 *)
  | OEnsureUnique (v : nat) (j : junk)      (* 267-283 *)
  | OWrite (v i : nat) (x : V)              (* 310-313: v[i] = x *)
  | OCleanup                                (* 243-249 *)
  | OUseStoreFalse.                         (* 222-230 *)

  Definition step (s : st) (o : op) : res st :=
    match o with
    | ONewEmpty v => Ok (set_vars s ((v, None) :: vars s))
    | ONew v len j => let (b, s1) := get s len j in Ok (set_vars s1 ((v, Some b) :: vars s1))
    | OCopy v w =>
      match lookup (vars s) w with Some p => Ok (set_vars s ((v, p) :: vars s)) | None => UB end
    | OMoveNew v w =>
      match lookup (vars s) w with
      | Some p => Ok (set_vars s ((v, p) :: assign (vars s) w None))
      | None => UB
      end
    | OAssign v w =>
      match lookup (vars s) v, lookup (vars s) w with
      | Some old, Some p =>
        (* the parameter holds a copy of [p]; swap; the destructor of the parameter releases [old] *)
        let s1 := set_vars s (assign (vars s) v p) in
        Ok (match old with Some b => drop_ref s1 b | None => s1 end)
      | _, _ => UB
      end
    | OMoveAssign v w =>
      match lookup (vars s) w with
      | Some p =>
        let s0 := set_vars s (assign (vars s) w None) in
        match lookup (vars s0) v with
        | Some old =>
          let s1 := set_vars s0 (assign (vars s0) v p) in
          Ok (match old with Some b => drop_ref s1 b | None => s1 end)
        | None => UB
        end
      | None => UB
      end
    | OSwap v w =>
      match lookup (vars s) v, lookup (vars s) w with
      | Some p, Some q => Ok (set_vars s (assign (assign (vars s) v q) w p))
      | _, _ => UB
      end
    | ORealloc v len j =>
      match lookup (vars s) v with
      | Some _ =>
        let s1 := release s v in
        let (b, s2) := get s1 len j in Ok (set_vars s2 (assign (vars s2) v (Some b)))
      | None => UB
      end
    | OClear v => match lookup (vars s) v with Some _ => Ok (release s v) | None => UB end
    | ODestroy v =>
      match lookup (vars s) v with
      | Some _ => let s1 := release s v in Ok (set_vars s1 (remove (vars s1) v))
      | None => UB
      end
    | OEnsureUnique v j =>
      match lookup (vars s) v with
      | None => UB
      | Some None => Ok s
      | Some (Some b) =>
        if use_count s b =? 1 then Ok s
        else
          match heap s b with
          | None => UB
          | Some d =>
            let (p, s1) := get s (length d) j in
            match heap s1 b, heap s1 p with
            | Some src, Some dst =>
              if negb (length dst =? length src) then Throw (* ASSERT1 in ArrayData::operator= *)
              else
                let s2 := mkSt (vars s1) (upd_heap (heap s1) p (Some src)) (next s1) (store s1) (use_store s1) in
                let s3 := release s2 v in
                Ok (set_vars s3 (assign (vars s3) v (Some p)))
            | _, _ => UB
            end
          end
      end
    | OWrite v i x =>
      match lookup (vars s) v with
      | Some (Some b) =>
        match heap s b with
        | Some d => do d' <- ofopt (vec_set d i x);
                    Ok (mkSt (vars s) (upd_heap (heap s) b (Some d')) (next s) (store s) (use_store s))
        | None => UB
        end
      | _ => UB
      end
    | OCleanup =>
      (* every stored block loses its only reference and is deleted; afterwards the store stays disabled *)
      Ok (mkSt (vars s) (fun b => if existsb (Nat.eqb b) (store s) then None else heap s b) (next s) [] false)
    | OUseStoreFalse => Ok (mkSt (vars s) (heap s) (next s) (store s) false)
    end.

  Fixpoint run (s : st) (os : list op) : res st :=
    match os with [] => Ok s | o :: os' => do s' <- step s o; run s' os' end.

  (** What a program can observe of Array [v]: out of scope, empty, or its elements ([UB] if the block is gone). *)
  Inductive view := NoVar | Empty | Data (d : list V) | Dangling.
  Definition observe (s : st) (v : nat) : view :=
    match lookup (vars s) v with
    | None => NoVar
    | Some None => Empty
    | Some (Some b) => match heap s b with Some d => Data d | None => Dangling end
    end.
End Arr.
