(** OptionsNetCDF: writing an Options tree to a NetCDF file, time dimensions,
    verifyTimesteps, and reading back.

    Source: src/sys/options/options_netcdf.cxx (all of it) and
    include/bout/options_netcdf.hxx.

    The NetCDF library (netcdf-c and netcdf-cxx4) is not part of the
    repository: its behaviour, as used by this file, is written down here as
    functions on [ncfile] and is a trusted assumption.  In particular: a
    variable is an array with a cell for every tuple of indices, cells never
    written hold the fill value ([None]); the current size of an unlimited
    dimension is the largest size of any variable along it; a write outside a
    fixed dimension is an error; an error is an exception; two objects of a
    group (variables, subgroups) cannot share a name; a group sees the
    dimensions of its parents and the nearest one of a name is found.
    Names are assumed to be legal NetCDF names.  *)
From Coq Require Import List Arith ZArith Reals String Bool Lia.
Import ListNotations.
Local Open Scope nat_scope.

(* ------------------------------------------------------------------ *)
(** * Values *)

(** Options::ValueType, options.hxx:190-199.  Fields are their sizes and
    their data in memory order (z fastest: include/field3d.hxx, operator()).
    [VOther] stands for Array, Matrix and Tensor. *)
Inductive val :=
| VBool (b : bool)
| VInt (z : Z)
| VReal (r : R)
| VStr (s : string)
| VField2D (nx ny : nat) (d : list R)
| VField3D (nx ny nz : nat) (d : list R)
| VFieldPerp (nx nz : nat) (d : list R)
| VOther.

(** Options::AttributeType, options.hxx:202. *)
Inductive att :=
| ABool (b : bool)
| AInt (z : Z)
| AReal (r : R)
| AStr (s : string).

(** An Options object is a value or a section, options.hxx:760-762, 793.
    children is a std::map: the list is in the order of the keys.  Children
    of a value are never visited by writeGroup. *)
Inductive opt :=
| OVal (v : val) (a : list (string * att))
| OSec (c : list (string * opt)).

(* ------------------------------------------------------------------ *)
(** * The file *)

Inductive nctype := TInt | TDouble | TString.

Definition nctype_eqb (a b : nctype) : bool :=
  match a, b with
  | TInt, TInt | TDouble, TDouble | TString, TString => true
  | _, _ => false
  end.

(** Content of a cell of a variable; [CJunk] is memory that the program had
    no business reading. *)
Inductive cell :=
| CInt (z : Z)
| CReal (r : R)
| CStr (s : string)
| CJunk.

Inductive ncatt :=
| NInt (z : Z)
| NReal (r : R)
| NStr (s : string).

(** A group: the names from the innermost outwards; [nil] is the root. *)
Definition path := list string.
Definition key := (path * string)%type.

Definition key_dec (a b : key) : {a = b} + {a <> b}.
Proof. decide equality; [apply string_dec | apply (list_eq_dec string_dec)]. Defined.

Fixpoint get {A} (k : key) (l : list (key * A)) : option A :=
  match l with
  | [] => None
  | (k', a) :: r => if key_dec k k' then Some a else get k r
  end.

Fixpoint put {A} (k : key) (a : A) (l : list (key * A)) : list (key * A) :=
  match l with
  | [] => [(k, a)]
  | (k', b) :: r => if key_dec k k' then (k, a) :: r else (k', b) :: put k a r
  end.

Record ncdim := { d_unlim : bool; d_size : nat }.

Record ncvar := {
  v_type : nctype;
  v_dims : list key;
  v_atts : list (string * ncatt);
  v_cells : list nat -> option cell }.

Record ncfile := {
  f_groups : list path;
  f_dims : list (key * ncdim);
  f_vars : list (key * ncvar) }.

Definition empty_file : ncfile := {| f_groups := []; f_dims := []; f_vars := [] |}.

Definition set_dims f d := {| f_groups := f_groups f; f_dims := d; f_vars := f_vars f |}.
Definition set_vars f v := {| f_groups := f_groups f; f_dims := f_dims f; f_vars := v |}.
Definition set_groups f g := {| f_groups := g; f_dims := f_dims f; f_vars := f_vars f |}.

(** Code that may throw: what it leaves in the file stays there. *)
Definition M (A : Type) := ncfile -> ncfile * option A.
Definition ret {A} (a : A) : M A := fun f => (f, Some a).
Definition throw {A} : M A := fun f => (f, None).
Definition bind {A B} (m : M A) (k : A -> M B) : M B := fun f =>
  match m f with
  | (f', Some a) => k a f'
  | (f', None) => (f', None)
  end.
Notation "'do' x <- m ; k" := (bind m (fun x => k)) (at level 200, x name, m at level 100, k at level 200).

(** Attributes of a variable (NcVar::putAtt, getAtts): a map. *)
Fixpoint get_att (n : string) (l : list (string * ncatt)) : option ncatt :=
  match l with
  | [] => None
  | (m, a) :: r => if string_dec n m then Some a else get_att n r
  end.

Fixpoint put_att (n : string) (a : ncatt) (l : list (string * ncatt)) :=
  match l with
  | [] => [(n, a)]
  | (m, b) :: r => if string_dec n m then (n, a) :: r else (m, b) :: put_att n a r
  end.

(** NcGroup::getDim(name, ParentsAndCurrent): the nearest one. *)
Fixpoint get_dim (ds : list (key * ncdim)) (p : path) (n : string) : option (key * ncdim) :=
  match get (p, n) ds with
  | Some d => Some ((p, n), d)
  | None => match p with
            | [] => None
            | _ :: q => get_dim ds q n
            end
  end.

(** NcGroup::addDim(name, size): size 0 is NC_UNLIMITED. *)
Definition addDim (p : path) (n : string) (size : nat) : M key := fun f =>
  (set_dims f (put (p, n) {| d_unlim := Nat.eqb size 0; d_size := size |} (f_dims f)),
   Some (p, n)).

(** The dimension of a variable; a dimension id without dimension does not
    occur (default: a fixed dimension of size 0). *)
Definition dim_of (f : ncfile) (k : key) : ncdim :=
  match get k (f_dims f) with
  | Some d => d
  | None => {| d_unlim := false; d_size := 0 |}
  end.

(** Row-major position of an index tuple in an array. *)
Fixpoint prod (l : list nat) : nat :=
  match l with [] => 1 | n :: r => n * prod r end.

Fixpoint ravel (counts idx : list nat) : nat :=
  match counts, idx with
  | c :: cs, i :: is => i * prod cs + ravel cs is
  | _, _ => 0
  end.

Fixpoint in_box (start count idx : list nat) : bool :=
  match start, count, idx with
  | [], [], [] => true
  | s :: ss, c :: cs, i :: is =>
      ((s <=? i) && (i <? s + c)) && in_box ss cs is
  | _, _, _ => false
  end.

Fixpoint sub_idx (idx start : list nat) : list nat :=
  match idx, start with
  | i :: is, s :: ss => (i - s) :: sub_idx is ss
  | _, _ => []
  end.

(** nc_put_vara: [data] is the memory behind the pointer; reading past its
    end gives junk. *)
Definition put_slab (cells : list nat -> option cell) (start count : list nat)
  (data : list cell) : list nat -> option cell := fun idx =>
  if in_box start count idx
  then Some (nth (ravel count (sub_idx idx start)) data CJunk)
  else cells idx.

(** The bounds check of nc_put_vara, and the growth of unlimited
    dimensions. *)
Fixpoint fits (f : ncfile) (ds : list key) (start count : list nat) : bool :=
  match ds, start, count with
  | [], [], [] => true
  | d :: ds', s :: ss, c :: cs =>
      (d_unlim (dim_of f d) || (s + c <=? d_size (dim_of f d))) && fits f ds' ss cs
  | _, _, _ => false
  end.

Fixpoint grow (dims : list (key * ncdim)) (ds : list key) (start count : list nat)
  : list (key * ncdim) :=
  match ds, start, count with
  | d :: ds', s :: ss, c :: cs =>
      let dims' :=
        match get d dims with
        | Some x => if d_unlim x
                    then put d {| d_unlim := true; d_size := Nat.max (d_size x) (s + c) |} dims
                    else dims
        | None => dims
        end in
      grow dims' ds' ss cs
  | _, _, _ => dims
  end.

(** NcVar::putVar(start, count, data) on the variable [k]. *)
Definition nc_put (k : key) (start count : list nat) (data : list cell) : M unit := fun f =>
  match get k (f_vars f) with
  | None => (f, None)
  | Some v =>
      if fits f (v_dims v) start count
      then (set_vars (set_dims f (grow (f_dims f) (v_dims v) start count))
              (put k {| v_type := v_type v; v_dims := v_dims v; v_atts := v_atts v;
                        v_cells := put_slab (v_cells v) start count data |} (f_vars f)),
            Some tt)
      else (f, None)
  end.

(** NcVar::putAtt. *)
Definition nc_put_att (k : key) (n : string) (a : ncatt) : M unit := fun f =>
  match get k (f_vars f) with
  | None => (f, None)
  | Some v =>
      (set_vars f (put k {| v_type := v_type v; v_dims := v_dims v;
                            v_atts := put_att n a (v_atts v);
                            v_cells := v_cells v |} (f_vars f)),
       Some tt)
  end.

(** NcGroup::addVar: the name must be free among the subgroups. *)
Definition addVar (k : key) (t : nctype) (dims : list key) : M unit := fun f =>
  if in_dec (list_eq_dec string_dec) (snd k :: fst k) (f_groups f) then (f, None)
  else (set_vars f (put k {| v_type := t; v_dims := dims; v_atts := [];
                             v_cells := fun _ => None |} (f_vars f)), Some tt).

(** NcGroup::addGroup / getGroup, options_netcdf.cxx:558-566: the group is
    made if it does not exist; its name must be free among the variables. *)
Definition open_group (p : path) (n : string) : M unit := fun f =>
  if in_dec (list_eq_dec string_dec) (n :: p) (f_groups f) then (f, Some tt)
  else match get (p, n) (f_vars f) with
       | Some _ => (f, None)
       | None => (set_groups f (f_groups f ++ [n :: p]), Some tt)
       end.

(* ------------------------------------------------------------------ *)
(** * Writing *)

Open Scope string_scope.

(** options_netcdf.cxx:19 *)
Definition current_time_index_name : string := "current_time_index".

(** NcTypeVisitor, options_netcdf.cxx:174-221; [None]: the null type. *)
Definition NcTypeVisitor (v : val) : option nctype :=
  match v with
  | VBool _ => Some TInt
  | VInt _ => Some TInt
  | VReal _ => Some TDouble
  | VStr _ => Some TString
  | VField2D _ _ _ => Some TDouble
  | VField3D _ _ _ _ => Some TDouble
  | VFieldPerp _ _ _ => Some TDouble
  | VOther => None
  end.

(** findDimension, options_netcdf.cxx:236-261.  [None]: the null NcDim. *)
Definition findDimension (p : path) (n : string) (size : nat) : M (option key) := fun f =>
  match get_dim (f_dims f) p n with
  | None => (do k <- addDim p n size; ret (Some k)) f
  | Some (k, d) =>
      if Nat.eqb (d_size d) size then (f, Some (Some k))
      else match get (p, n) (f_dims f) with
           | Some _ => (f, Some None)
           | None => (do k' <- addDim p n size; ret (Some k')) f
           end
  end.

(** One findDimension + ASSERT0 of the NcDimVisitor specialisations. *)
Definition needDimension (p : path) (n : string) (size : nat) : M key :=
  do k <- findDimension p n size;
  match k with Some k => ret k | None => throw end.

(** NcDimVisitor, options_netcdf.cxx:224-234, 263-298. *)
Definition NcDimVisitor (p : path) (v : val) : M (list key) :=
  match v with
  | VField2D nx ny _ =>
      do xdim <- needDimension p "x" nx;
      do ydim <- needDimension p "y" ny;
      ret [xdim; ydim]
  | VField3D nx ny nz _ =>
      do xdim <- needDimension p "x" nx;
      do ydim <- needDimension p "y" ny;
      do zdim <- needDimension p "z" nz;
      ret [xdim; ydim; zdim]
  | VFieldPerp nx nz _ =>
      do xdim <- needDimension p "x" nx;
      do zdim <- needDimension p "z" nz;
      ret [xdim; zdim]
  | _ => ret []
  end.

(** NcPutVarVisitor, options_netcdf.cxx:301-346: the memory written for a
    variable without time dimension. *)
Definition put_data (v : val) : list cell :=
  match v with
  | VBool b => [CInt (if b then 1 else 0)%Z]
  | VInt z => [CInt z]
  | VReal r => [CReal r]
  | VStr s => [CStr s]
  | VField2D _ _ d => map CReal d
  | VField3D _ _ _ d => map CReal d
  | VFieldPerp _ _ d => map CReal d
  | VOther => []
  end.

(** NcPutVarCountVisitor, options_netcdf.cxx:349-385: the memory written for
    one record.  There is no specialisation for bool: the address of the
    bool goes to putVar(start, const void* ), which reads an int there. *)
Definition put_record_data (v : val) : list cell :=
  match v with
  | VBool _ => [CJunk]
  | _ => put_data v
  end.

(** The values written by the generic NcPutVarCountVisitor::operator() pass
    only the start index (one element), the fields also the counts. *)
Definition is_field (v : val) : bool :=
  match v with
  | VField2D _ _ _ | VField3D _ _ _ _ | VFieldPerp _ _ _ => true
  | _ => false
  end.

(** NcPutAttVisitor, options_netcdf.cxx:388-423 *)
Definition NcPutAttVisitor (a : att) : ncatt :=
  match a with
  | ABool b => NInt (if b then 1 else 0)%Z
  | AInt z => NInt z
  | AReal r => NReal r
  | AStr s => NStr s
  end.

Fixpoint lookup_att (n : string) (l : list (string * att)) : option att :=
  match l with
  | [] => None
  | (m, a) :: r => if string_dec n m then Some a else lookup_att n r
  end.

(** The loop over the attributes, options_netcdf.cxx:545-550. *)
Fixpoint put_atts (k : key) (l : list (string * att)) : M unit :=
  match l with
  | [] => ret tt
  | (n, a) :: r => do _ <- nc_put_att k n (NcPutAttVisitor a); put_atts k r
  end.

(** getCurrentTimeIndex, options_netcdf.cxx:25-41.  A stored index that is not
    an integer (NetCDF would convert a real one) is taken as an error, and a
    negative one too. *)
Definition getCurrentTimeIndex (v : ncvar) : option nat :=
  match get_att current_time_index_name (v_atts v) with
  | None => Some 0
  | Some (NInt z) => if (z <? 0)%Z then None else Some (Z.to_nat z)
  | Some _ => None
  end.

(** The comparison of dimensions, options_netcdf.cxx:491-501: [true] if none
    of the throws is reached. *)
Fixpoint dims_compatible (f : ncfile) (var_dims dims : list key) : bool :=
  match var_dims, dims with
  | a :: r, b :: s =>
      (if key_dec a b then true
       else Bool.eqb (d_unlim (dim_of f a)) (d_unlim (dim_of f b))
            && Nat.eqb (d_size (dim_of f a)) (d_size (dim_of f b)))
      && dims_compatible f r s
  | _, _ => true
  end.

(** The time dimension part, options_netcdf.cxx:446-466: [None]: skip this
    value; [Some None]: no time dimension. *)
Definition time_dim_of (p : path) (a : list (string * att)) (time_dimension : string)
  : M (option (option key)) :=
  match lookup_att "time_dimension" a with
  | None => ret (Some None)
  | Some (AStr time_name) =>
      if string_dec time_name time_dimension then
        fun f => match get_dim (f_dims f) p time_name with
                 | Some (k, _) => (f, Some (Some (Some k)))
                 | None => (do k <- addDim p time_name 0; ret (Some (Some k))) f
                 end
      else ret None
  | Some _ => throw
  end.

(** Find or create the variable, options_netcdf.cxx:468-511; returns the
    dimensions of the variable. *)
Definition find_or_create (k : key) (t : nctype) (dims : list key) (timed : bool)
  : M (list key) := fun f =>
  match get k (f_vars f) with
  | None =>
      (do _ <- addVar k t dims;
       do _ <- (if timed then nc_put_att k current_time_index_name (NInt 0) else ret tt);
       ret dims) f
  | Some v =>
      if negb (nctype_eqb (v_type v) t) then (f, None)
      else if negb (Nat.eqb (List.length (v_dims v)) (List.length dims)) then (f, None)
      else if negb (dims_compatible f (v_dims v) dims) then (f, None)
      else (f, Some (v_dims v))
  end.

(** Put the data, options_netcdf.cxx:513-543. *)
Definition put_value (k : key) (dims : list key) (timed : bool) (v : val) : M unit := fun f =>
  let sizes := map (fun d => d_size (dim_of f d)) dims in
  if timed then
    match get k (f_vars f) with
    | None => (f, None)
    | Some var =>
        match getCurrentTimeIndex var with
        | None => (f, None)
        | Some i =>
            let start := match map (fun _ => 0) dims with
                         | [] => []
                         | _ :: r => i :: r end in
            let count := match sizes with
                         | [] => []
                         | _ :: r => 1 :: r end in
            (do _ <- nc_put k start
                       (if is_field v then count else map (fun _ => 1) start)
                       (put_record_data v);
             nc_put_att k current_time_index_name (NInt (Z.of_nat i + 1))) f
        end
    end
  else nc_put k (map (fun _ => 0) dims) sizes (put_data v) f.

(** The body of the loop of writeGroup for a value, options_netcdf.cxx:432-555.
    An exception is rethrown as BoutException. *)
Definition write_value (p : path) (n : string) (v : val) (a : list (string * att))
  (time_dimension : string) : M unit :=
  match NcTypeVisitor v with
  | None => ret tt
  | Some nctype =>
      do spatial_dims <- NcDimVisitor p v;
      do td <- time_dim_of p a time_dimension;
      match td with
      | None => ret tt
      | Some t =>
          let timed := match t with Some _ => true | None => false end in
          let dims := match t with
                      | Some d => d :: spatial_dims
                      | None => spatial_dims end in
          do vdims <- find_or_create (p, n) nctype dims timed;
          do _ <- put_value (p, n) vdims timed v;
          put_atts (p, n) a
      end
  end.

(** writeGroup, options_netcdf.cxx:425-573 *)
Fixpoint writeGroup (o : opt) (p : path) (time_dimension : string) {struct o} : M unit :=
  match o with
  | OVal _ _ => ret tt
  | OSec c =>
      (fix loop (l : list (string * opt)) : M unit :=
         match l with
         | [] => ret tt
         | (n, child) :: r =>
             do _ <- match child with
                     | OVal v a => write_value p n v a time_dimension
                     | OSec _ =>
                         do _ <- open_group p n;
                         writeGroup child (n :: p) time_dimension
                     end;
             loop r
         end) c
  end.

(* ------------------------------------------------------------------ *)
(** * OptionsNetCDF objects *)

Inductive filemode := replace | append.

(** What is on disk, and the current OptionsNetCDF object (one at a time).
    data_file->sync() at the end of every write puts the data on disk
    (options_netcdf.cxx:703), so the object can disappear at any time. *)
Record world := {
  w_disk : option ncfile;
  w_mode : filemode;
  w_open : bool }.

Inductive op :=
| New (m : filemode)           (* a new object, or a restarted program *)
| Write (o : opt) (time_dim : string).

(** Constructor and OptionsNetCDF::write, options_netcdf.cxx:648-649, 676-704;
    the result says whether the call returned ([true]) or threw. *)
Definition step (w : world) (x : op) : world * bool :=
  match x with
  | New m => ({| w_disk := w_disk w; w_mode := m; w_open := false |}, true)
  | Write o t =>
      let f := if w_open w then
                 match w_disk w with Some f => f | None => empty_file end
               else match w_mode w, w_disk w with
                    | append, Some f => f
                    | append, None => empty_file
                    | replace, _ => empty_file
                    end in
      match writeGroup o [] t f with
      | (f', r) => ({| w_disk := Some f'; w_mode := w_mode w; w_open := true |},
                    match r with Some _ => true | None => false end)
      end
  end.

Fixpoint run (w : world) (l : list op) : world * list bool :=
  match l with
  | [] => (w, [])
  | x :: r =>
      match step w x with
      | (w', b) => match run w' r with (w'', bs) => (w'', b :: bs) end
      end
  end.

(* ------------------------------------------------------------------ *)
(** * verifyTimesteps *)

Section Verify.
(** std::map<NcDim, ...> treats two dimensions as the same key when neither is
    less than the other; netcdf-cxx4 decides. *)
Variable same : key -> key -> bool.

(** getVars() is a multimap ordered by name. *)
Fixpoint insert_name {A} (x : string * A) (l : list (string * A)) : list (string * A) :=
  match l with
  | [] => [x]
  | y :: r => if String.leb (fst x) (fst y) then x :: l else y :: insert_name x r
  end.
Fixpoint sort_names {A} (l : list (string * A)) : list (string * A) :=
  match l with [] => [] | x :: r => insert_name x (sort_names r) end.

Definition getVars (f : ncfile) (p : path) : list (string * ncvar) :=
  sort_names
    (map (fun kv => (snd (fst kv), snd kv))
       (filter (fun kv => if list_eq_dec string_dec (fst (fst kv)) p then true else false)
          (f_vars f))).

(** TimeDimensionError, options_netcdf.cxx:576-581, as (name, dimension,
    expected, actual). *)
Definition timeerror := (string * key * nat * nat)%type.

(** The loop over the variables of a group, options_netcdf.cxx:594-627.  A
    time_dimension attribute that is no string or names no dimension is an
    error in the library ([None]); a time index that cannot be read, too. *)
Fixpoint verify_vars (f : ncfile) (p : path) (l : list (string * ncvar))
  (seen : list key) : option (list timeerror) :=
  match l with
  | [] => Some []
  | (n, v) :: r =>
      match get_att "time_dimension" (v_atts v) with
      | None => verify_vars f p r seen
      | Some (NStr time_name) =>
          match get_dim (f_dims f) p time_name with
          | None => None
          | Some (k, d) =>
              if existsb (same k) seen then
                match getCurrentTimeIndex v, verify_vars f p r seen with
                | Some current_time, Some e =>
                    if Nat.eqb current_time (d_size d) then Some e
                    else Some ((n, k, d_size d, current_time) :: e)
                | _, _ => None
                end
              else verify_vars f p r (k :: seen)
          end
      | Some _ => None
      end
  end.

(** verifyTimesteps over the root group and all groups,
    options_netcdf.cxx:583-641, and OptionsNetCDF::verifyTimesteps,
    options_netcdf.cxx:655-673.  The order in which groups are visited
    changes only the order of the messages; [f_groups] holds every group. *)
Fixpoint verify_groups (f : ncfile) (l : list path) : option (list timeerror) :=
  match l with
  | [] => Some []
  | p :: r =>
      match verify_vars f p (getVars f p) [], verify_groups f r with
      | Some a, Some b => Some (a ++ b)%list
      | _, _ => None
      end
  end.

Definition verifyTimesteps (f : ncfile) : option (list timeerror) :=
  verify_groups f ([] :: f_groups f).
End Verify.

(* ------------------------------------------------------------------ *)
(** * Reading *)

(** What readGroup stores in the tree for a variable; [RNone]: nothing (an
    unsupported type), [RThrow]: the library refuses (text of a variable of
    type NC_STRING).  Arrays are lists of cells in row-major order; [None] is
    the fill value. *)
Inductive rval :=
| RDouble (r : option cell)
| RInt (z : option cell)
| RStr (s : option cell)
| RArray (n : nat) (l : list (option cell))
| RMatrix (n m : nat) (l : list (option cell))
| RTensor (n m k : nat) (l : list (option cell))
| RNone
| RThrow.

(** All index tuples of an array, row-major. *)
Fixpoint all_idx (sizes : list nat) : list (list nat) :=
  match sizes with
  | [] => [[]]
  | n :: r => flat_map (fun i => map (cons i) (all_idx r)) (seq 0 n)
  end.

Definition read_cells (v : ncvar) (sizes : list nat) : list (option cell) :=
  map (v_cells v) (all_idx sizes).

(** The switch in readGroup, options_netcdf.cxx:71-123. *)
Definition read_value (f : ncfile) (v : ncvar) : rval :=
  let sizes := map (fun d => d_size (dim_of f d)) (v_dims v) in
  match sizes with
  | [] => match v_type v with
          | TDouble => RDouble (v_cells v [])
          | TInt => RInt (v_cells v [])
          | TString => RStr (v_cells v [])
          end
  | [n] => match v_type v with
           | TDouble => RArray n (read_cells v sizes)
           | TString => RThrow
           | TInt => RNone
           end
  | [n; m] => match v_type v with
              | TDouble => RMatrix n m (read_cells v sizes)
              | _ => RNone
              end
  | [n; m; k] => match v_type v with
                 | TDouble => RTensor n m k (read_cells v sizes)
                 | _ => RNone
                 end
  | _ => RNone
  end.

(** The attributes, options_netcdf.cxx:124-146: source first, then those of
    the file. *)
Fixpoint read_atts (l : list (string * ncatt)) : list (string * att) :=
  match l with
  | [] => []
  | (n, a) :: r =>
      (n, match a with NInt z => AInt z | NReal x => AReal x | NStr s => AStr s end)
      :: read_atts r
  end.

Definition read_attributes (filename : string) (v : ncvar) : list (string * att) :=
  (read_atts (v_atts v) ++ [("source", AStr filename)])%list.

(** The variable [k] as found in the tree returned by read(). *)
Definition read_var (filename : string) (f : ncfile) (k : key)
  : option (rval * list (string * att)) :=
  match get k (f_vars f) with
  | None => None
  | Some v => Some (read_value f v, read_attributes filename v)
  end.
