(** What a user expects of OptionsNetCDF, written without the functions of
    the model (only its data types are used). *)
From Coq Require Import List Arith ZArith Reals String Bool Lia.
From Verif Require Import NcModel.
Import ListNotations.
Local Open Scope nat_scope.
Open Scope string_scope.

(** An entry of a write: the place of a value in the tree (section path,
    innermost section first, and name), the value, its attributes and the
    time dimension given to the call of write. *)
Record entry := {
  e_key : key;
  e_val : val;
  e_atts : list (string * att);
  e_time : string }.

(** The values of a tree, in the order of the tree. *)
Fixpoint entries (o : opt) (p : path) (t : string) : list entry :=
  match o with
  | OVal _ _ => []
  | OSec c =>
      flat_map (fun nc =>
        match snd nc with
        | OVal v a => [{| e_key := (p, fst nc); e_val := v; e_atts := a; e_time := t |}]
        | OSec _ => entries (snd nc) (fst nc :: p) t
        end) c
  end.

(** Types that are written at all. *)
Definition supported (v : val) : bool := match v with VOther => false | _ => true end.

(** The attribute time_dimension of a value (the first entry of that name;
    attributes are a map). *)
Definition time_attr (e : entry) : option att :=
  match find (fun na => String.eqb (fst na) "time_dimension") (e_atts e) with
  | Some (_, a) => Some a
  | None => None
  end.

(** The values that make up the records of variable [k]: those written with
    the time dimension that the call asked for. *)
Definition is_record (k : key) (e : entry) : bool :=
  (if key_dec (e_key e) k then true else false) && supported (e_val e) &&
  match time_attr e with
  | Some (AStr s) => String.eqb s (e_time e)
  | _ => false
  end.

Definition is_plain (k : key) (e : entry) : bool :=
  (if key_dec (e_key e) k then true else false) && supported (e_val e) &&
  match time_attr e with None => true | _ => false end.

Definition records (k : key) (l : list entry) : list val :=
  map e_val (filter (is_record k) l).
Definition plains (k : key) (l : list entry) : list val :=
  map e_val (filter (is_plain k) l).

(** Arrays: shape and elements (x slowest, z fastest in memory). *)
Definition shape (v : val) : list nat :=
  match v with
  | VField2D nx ny _ => [nx; ny]
  | VField3D nx ny nz _ => [nx; ny; nz]
  | VFieldPerp nx nz _ => [nx; nz]
  | _ => []
  end.

Definition in_shape (idx sh : list nat) : Prop := Forall2 lt idx sh.

(** The element of a value at an index inside its shape, as stored. *)
Definition element (v : val) (idx : list nat) : cell :=
  match v, idx with
  | VBool b, _ => CInt (if b then 1 else 0)%Z
  | VInt z, _ => CInt z
  | VReal r, _ => CReal r
  | VStr s, _ => CStr s
  | VField2D nx ny d, [i; j] => CReal (nth (i * ny + j) d 0%R)
  | VField3D nx ny nz d, [i; j; k] => CReal (nth ((i * ny + j) * nz + k) d 0%R)
  | VFieldPerp nx nz d, [i; k] => CReal (nth (i * nz + k) d 0%R)
  | _, _ => CJunk
  end.

(** A record of a bool is not what was asked for (see C90_bool_record). *)
Definition record_element (v : val) (idx : list nat) : cell :=
  match v with
  | VBool _ => CJunk
  | _ => element v idx
  end.

(** The file holds what the entries say. *)
Definition holds (f : ncfile) (l : list entry) : Prop :=
  forall k,
    (records k l = [] -> plains k l = [] -> get k (f_vars f) = None) /\
    (records k l <> [] -> exists v, get k (f_vars f) = Some v /\
       forall i idx,
         (forall x, nth_error (records k l) i = Some x -> in_shape idx (shape x) ->
            v_cells v (i :: idx) = Some (record_element x idx)) /\
         (nth_error (records k l) i = None -> v_cells v (i :: idx) = None)) /\
    (forall l' x, plains k l = (l' ++ [x])%list -> exists v, get k (f_vars f) = Some v /\
       forall idx, in_shape idx (shape x) -> v_cells v idx = Some (element x idx)).

(** Conditions on what is written. *)
Definition val_ok (v : val) : Prop :=
  match v with
  | VField2D nx ny d => 0 < nx /\ 0 < ny /\ List.length d = nx * ny
  | VField3D nx ny nz d => 0 < nx /\ 0 < ny /\ 0 < nz /\ List.length d = nx * ny * nz
  | VFieldPerp nx nz d => 0 < nx /\ 0 < nz /\ List.length d = nx * nz
  | _ => True
  end.

Definition entry_ok (e : entry) : Prop :=
  val_ok (e_val e) /\
  NoDup (map fst (e_atts e)) /\   (* attributes are a map *)
  ~ In "current_time_index" (map fst (e_atts e)) /\
  ~ In (e_time e) ["x"; "y"; "z"].

(** The writes that the file on disk goes back to: those since a write that
    was the first one of an object in mode replace. *)
Fixpoint log_from (m : filemode) (opened : bool) (acc : list (opt * string * bool))
  (l : list op) (bs : list bool) : list (opt * string * bool) :=
  match l, bs with
  | New m' :: r, _ :: bs' => log_from m' false acc r bs'
  | Write o t :: r, b :: bs' =>
      let acc' := match opened, m with
                  | false, replace => []
                  | _, _ => acc end in
      log_from m true (acc' ++ [(o, t, b)])%list r bs'
  | _, _ => acc
  end.

Definition log (l : list op) (bs : list bool) := log_from replace false [] l bs.

(** At the start there is no file; the first thing that happens should be
    [New], but an object in mode replace is there anyway. *)
Definition start : world := {| w_disk := None; w_mode := replace; w_open := false |}.

Definition op_ok (x : op) : Prop :=
  match x with
  | New _ => True
  | Write o t => Forall entry_ok (entries o [] t)
  end.

(** A write that throws has written the entries before some place in the
    tree, and nothing of the others. *)
Definition done_by (w : opt * string * bool) (d : list entry) : Prop :=
  match w with
  | (o, t, ok) => exists rest, entries o [] t = (d ++ rest)%list /\ (ok = true -> rest = [])
  end.

(** Histories that keep to a plan: sizes of the grid, and for every variable
    its type, its shape and its time dimension. *)
Record schema := {
  s_nx : nat; s_ny : nat; s_nz : nat;
  s_type : key -> nctype;
  s_shape : key -> list nat;
  s_time : key -> option string }.

Definition grid_sizes (S : schema) (v : val) : Prop :=
  match v with
  | VField2D nx ny _ => nx = s_nx S /\ ny = s_ny S
  | VField3D nx ny nz _ => nx = s_nx S /\ ny = s_ny S /\ nz = s_nz S
  | VFieldPerp nx nz _ => nx = s_nx S /\ nz = s_nz S
  | _ => True
  end.

Definition stored_type (v : val) : nctype :=
  match v with
  | VBool _ | VInt _ => TInt
  | VStr _ => TString
  | _ => TDouble
  end.

Definition keeps_to (S : schema) (e : entry) : Prop :=
  supported (e_val e) = true ->
  grid_sizes S (e_val e) /\ stored_type (e_val e) = s_type S (e_key e) /\
  shape (e_val e) = s_shape S (e_key e) /\
  time_attr e = match s_time S (e_key e) with Some t => Some (AStr t) | None => None end.

(** The sections of a tree. *)
Fixpoint sections (o : opt) (p : path) : list path :=
  match o with
  | OVal _ _ => []
  | OSec c =>
      flat_map (fun nc =>
        match snd nc with
        | OVal _ _ => []
        | OSec _ => (fst nc :: p) :: sections (snd nc) (fst nc :: p)
        end) c
  end.

(** The writes of a history. *)
Definition writes (l : list op) : list (opt * string) :=
  flat_map (fun x => match x with Write o t => [(o, t)] | New _ => [] end) l.

(** What is a section in one write is a value in none. *)
Definition no_clash (l : list op) : Prop := forall o t o' t' p n,
  In (o, t) (writes l) -> In (o', t') (writes l) ->
  In (n :: p) (sections o []) ->
  forall e, In e (entries o' [] t') -> e_key e <> (p, n).

Definition planned (S : schema) (l : list op) : Prop :=
  (forall o t, In (o, t) (writes l) -> Forall (keeps_to S) (entries o [] t)) /\ no_clash l.

(** Every write to a time dimension writes all variables of that dimension,
    each once. *)
Definition complete (ws : list (opt * string)) : Prop :=
  (forall o t, In (o, t) ws -> NoDup (map e_key (entries o [] t))) /\
  (forall o o' t k, In (o, t) ws -> In (o', t) ws ->
     (exists e, In e (entries o [] t) /\ is_record k e = true) ->
     (exists e, In e (entries o' [] t) /\ is_record k e = true)).

(* ------------------------------------------------------------------ *)
(** * Reading *)

(** Everything that the calls in the log were asked to write. *)
Definition written (l : list op) (bs : list bool) : list entry :=
  flat_map (fun w => entries (fst (fst w)) [] (snd (fst w))) (log l bs).

(** The numbers of a value, in the order of memory. *)
Definition data (v : val) : list cell :=
  match v with
  | VBool b => [CInt (if b then 1 else 0)%Z]
  | VInt z => [CInt z]
  | VReal r => [CReal r]
  | VStr s => [CStr s]
  | VField2D _ _ d | VField3D _ _ _ d | VFieldPerp _ _ d => map CReal d
  | VOther => []
  end.

(** What a reader should find for a value without time dimension. *)
Definition readback (v : val) : rval :=
  match v with
  | VBool b => RInt (Some (CInt (if b then 1 else 0)%Z))
  | VInt z => RInt (Some (CInt z))
  | VReal r => RDouble (Some (CReal r))
  | VStr s => RStr (Some (CStr s))
  | VField2D nx ny _ => RMatrix nx ny (map Some (data v))
  | VField3D nx ny nz _ => RTensor nx ny nz (map Some (data v))
  | VFieldPerp nx nz _ => RMatrix nx nz (map Some (data v))
  | VOther => RNone
  end.

(** What a reader does find for a series [x :: vs] along a dimension of [n]
    steps: reals and two-dimensional fields, with fill values for the steps
    without record; other series are not read. *)
Definition series (n : nat) (x : val) (vs : list val) : rval :=
  let cells := (flat_map (fun v => map Some (data v)) (x :: vs))%list in
  match x with
  | VReal _ => RArray n (cells ++ repeat None (n - S (List.length vs)))
  | VField2D a b _ | VFieldPerp a b _ =>
      RTensor n a b (cells ++ repeat None ((n - S (List.length vs)) * (a * b)))
  | VStr _ => RThrow
  | _ => RNone
  end.

(** Attributes come back as they are, except that booleans become integers. *)
Definition att_readback (a : att) : att :=
  match a with ABool b => AInt (if b then 1 else 0)%Z | _ => a end.
